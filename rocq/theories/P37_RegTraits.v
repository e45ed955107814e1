(** Tokens have the documented methods (C113); the marker traits stand for the kinds of tokens they name (C114).  Claims of
    the documentation: /repo/src/reg/mod.rs lines 78-190, 271-298; /repo/src/reg/marker.rs. *)
Require Import NArith List Bool Lia.
From Verif Require Import RegTraits RegTraitsSpec RegTraitsProofs.
Import ListNotations.

(** ** C113 *)

(** The documented sets of traits are accepted exactly if the field does not do what its register cannot. *)
Theorem C113_accepted : forall atomics size one f r, accepted atomics (common size one f r) = true <-> sensible f r.
Proof.
  intros atomics size one f r. unfold accepted, facts, common, sensible, given. simpl d_size.
  destruct (size <=? 32)%N; destruct atomics, one, f, r; vm_compute; intuition congruence.
Qed.
Print Assumptions C113_accepted.

(** With a documented set of traits, the methods that can be called on a register or on its field are exactly those of
    the tables, for tokens of every tag. *)
Theorem C113_methods_partial : forall atomics size one f r t k m,
  sensible f r -> atomics = false \/ (size <= 32)%N -> k = KReg r \/ k = KField one f r -> suits k m ->
  callable atomics (facts t (common size one f r)) m = true <-> documented t k m.
Proof.
  intros atomics size one f r t k m Hs Ha Hk Hm. rewrite documented_iff.
  assert (E : callable atomics (facts t (common size one f r)) m = doc_b t k m).
  { unfold facts, common. simpl d_size. destruct (N.leb_spec size 32) as [Hle | Hgt].
    - clear Ha. destruct Hs as [H1 H2]. destruct f, r; try (now specialize (H1 eq_refl)); try (now specialize (H2 eq_refl)); clear H1 H2;
        destruct Hk as [-> | ->]; destruct m; try discriminate Hm; destruct atomics, one, t; vm_compute; reflexivity.
    - destruct Ha as [-> | Ha]; [| exfalso; apply (N.lt_irrefl size); eapply N.le_lt_trans; eassumption].
      destruct Hs as [H1 H2]. destruct f, r; try (now specialize (H1 eq_refl)); try (now specialize (H2 eq_refl)); clear H1 H2;
        destruct Hk as [-> | ->]; destruct m; try discriminate Hm; destruct one, t; vm_compute; reflexivity. }
  now rewrite E.
Qed.
Print Assumptions C113_methods_partial.

(** With the feature "atomics", a read-write register of 64 or 128 bits lacks the documented atomic methods. *)
Theorem C113_wide_refuted :
  ~ (forall atomics size one f r t k m, a_size size ->
       sensible f r -> k = KReg r \/ k = KField one f r -> suits k m ->
       callable atomics (facts t (common size one f r)) m = true <-> documented t k m).
Proof.
  intros H. specialize (H true 64%N true Rw Rw Srt (KReg Rw) modify).
  assert (D : documented Srt (KReg Rw) modify) by (apply documented_iff; vm_compute; reflexivity).
  apply H in D; [vm_compute in D; discriminate D | unfold a_size; simpl; tauto | now split | now left | reflexivity].
Qed.
Print Assumptions C113_wide_refuted.

(** The modes of a declaration. *)
Definition modes (d : decl) (f r : mode) : Prop := reads f = d_rr d /\ writes f = d_ww d /\ reads r = d_r d /\ writes r = d_w d.

(** With other sets of traits, a documented method can be missing, or two traits have it, so that a call is refused. *)
Theorem C113_sets_refuted :
  (exists d, accepted true d = true /\ modes d Wo Wo /\ d_size d = 32%N /\
     documented Urt (KField (d_one d) Wo Wo) f_set_bit /\ filter (holds true (facts Urt d)) (providers f_set_bit) = []) /\
  (exists d, accepted true d = true /\ modes d Wo Rw /\ d_size d = 32%N /\
     documented Srt (KField (d_one d) Wo Rw) f_set_bit /\
     filter (holds true (facts Srt d)) (providers f_set_bit) = [WoWoOf true; WRwOf true]).
Proof.
  split.
  - exists (Decl 32 false true false true true false true false false). rewrite documented_iff. vm_compute. intuition.
  - exists (Decl 32 true true false true true false true false true). rewrite documented_iff. vm_compute. intuition.
Qed.
Print Assumptions C113_sets_refuted.

(** ** C114 *)

(** The marker of a kind of token. *)
Definition marker (t : tag) (k : kind) : tr := match k with KReg m => MReg t m | KField one f r => MField t one f r end.
Definition sound (k : kind) : Prop := match k with KReg _ => True | KField _ f r => sensible f r end.

(** With a documented set of traits, a register and its field have the marker of their kind and tag, and no other. *)
Theorem C114_exact_partial : forall atomics size one f r t t' k,
  sensible f r -> atomics = false \/ (size <= 32)%N -> sound k ->
  holds atomics (facts t (common size one f r)) (marker t' k) = true <->
  t' = t /\ (k = KReg r \/ k = KField one f r).
Proof.
  intros atomics size one f r t t' k Hs Ha Hk. rewrite <- same_iff.
  assert (E : holds atomics (facts t (common size one f r)) (marker t' k) = same_b t' t k one f r); [| now rewrite E].
  unfold facts, common. simpl d_size.
  destruct (N.leb_spec size 32) as [Hle | Hgt];
    [clear Ha | destruct Ha as [-> | Ha]; [| exfalso; apply (N.lt_irrefl size); eapply N.le_lt_trans; eassumption]];
    destruct Hs as [H1 H2]; destruct f, r; try (now specialize (H1 eq_refl)); try (now specialize (H2 eq_refl)); clear H1 H2;
    (destruct k as [m | one' f' r'];
      [clear Hk; destruct m
      | destruct Hk as [H1 H2]; destruct f', r'; try (now specialize (H1 eq_refl)); try (now specialize (H2 eq_refl));
        clear H1 H2; destruct one']);
    try destruct atomics; destruct one, t, t'; vm_compute; reflexivity.
Qed.
Print Assumptions C114_exact_partial.

(** Generic code that is bound by a marker can call exactly the documented methods of the kind: all but [modify] and
    [modify_reg] of a synchronized read-write register in the build with atomics. *)
Theorem C114_generic_partial : forall atomics t k m,
  sound k -> suits k m -> ~ (atomics = true /\ t = Srt /\ k = KReg Rw /\ (m = modify \/ m = modify_reg)) ->
  callable atomics (generic t (marker t k)) m = true <-> documented t k m.
Proof.
  intros atomics t k m Hk Hm Hx. rewrite documented_iff.
  assert (E : callable atomics (generic t (marker t k)) m = doc_b t k m).
  { destruct k as [rm | one f r].
    - destruct m; try discriminate Hm; destruct atomics, t, rm; try (vm_compute; reflexivity); exfalso; apply Hx; tauto.
    - clear Hx. destruct Hk as [H1 H2]. destruct f, r; try (now specialize (H1 eq_refl)); try (now specialize (H2 eq_refl)); clear H1 H2;
        destruct m; try discriminate Hm; destruct atomics, t, one; vm_compute; reflexivity. }
  now rewrite E.
Qed.
Print Assumptions C114_generic_partial.

(** It cannot call these two, though every register with the marker of the copyable tag gives them, and though a register of 32
    bits has them. *)
Theorem C114_generic_refuted :
  documented Srt (KReg Rw) modify /\
  callable true (generic Srt (MReg Srt Rw)) modify = false /\
  callable true (generic Crt (MReg Crt Rw)) modify = true /\
  callable false (generic Srt (MReg Srt Rw)) modify = true /\
  callable true (facts Srt (common 32 true Rw Rw)) modify = true.
Proof. rewrite documented_iff. vm_compute. repeat split. Qed.
Print Assumptions C114_generic_refuted.

(** With atomics, a read-write register of 64 bits has the marker while its token is synchronized, and loses it when the token
    is made copyable; its field has neither. *)
Theorem C114_exact_refuted :
  let d := common 64 true Rw Rw in
  accepted true d = true /\
  holds true (facts Srt d) (MReg Srt Rw) = true /\ holds true (facts Crt d) (MReg Crt Rw) = false /\
  holds true (facts Srt d) (MField Srt true Rw Rw) = false.
Proof. vm_compute. repeat split. Qed.
Print Assumptions C114_exact_refuted.

(** ** Cases *)

(** The register [STK CTRL] of the documentation with its field [ENABLE]. *)
Example C113_case_ctrl :
  let d := common 32 true Rw Rw in
  accepted true d = true /\
  filter (callable true (facts Urt d))
    [load; store; modify; f_load_val; f_store; f_read; f_read_bit; f_set; f_write; f_set_bit; f_read_bits; f_write_bits; f_modify]
  = [load; store; modify; f_load_val; f_read; f_read_bit; f_set; f_write] /\
  filter (callable true (facts Srt d)) [load; store; modify; f_store; f_set; f_set_bit; f_write_bits; f_modify]
  = [load; store; modify; f_set; f_set_bit; f_modify].
Proof. vm_compute. repeat split. Qed.
(** A read-only field of 3 bits in a read-write register; a write-only field in a read-only register is refused. *)
Example C113_case_ro :
  filter (callable false (facts Crt (common 16 false Ro Rw))) [load; modify; f_load_val; f_read; f_read_bits; f_write; f_write_bits; f_modify]
  = [load; modify; f_load_val; f_read; f_read_bits] /\
  accepted false (common 16 false Wo Ro) = false.
Proof. vm_compute. repeat split. Qed.
Example C114_case :
  holds true (facts Srt (common 8 true Wo Rw)) (MField Srt true Wo Rw) = true /\
  holds true (facts Srt (common 8 true Wo Rw)) (MField Srt true Rw Rw) = false /\
  filter (callable true (generic Srt (MField Srt true Wo Rw))) [f_read; f_set; f_set_bit; f_modify; f_store] = [f_set; f_set_bit; f_modify].
Proof. vm_compute. repeat split. Qed.
