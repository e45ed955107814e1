(** Mutual exclusion, the data, and the list of waiters of the mutex: what holds in all
    executions. *)
Require Import NArith List Bool Arith Lia.
From Verif Require Import AtomicSpec AtomicsProofs Treiber TreiberProofs DrainSpec Drain DrainProofs MutexSpec Mutex.
Import ListNotations.
Open Scope N_scope.

(** The context owns the lock. *)
Definition holds (p : pos) : bool :=
  match p with
  | CTake _ _ _ _ | CTakeR _ _ _ _ => true
  | CRel _ (UWake _) => false
  | CRel _ _ => true
  | CRet _ RGuard => true
  | _ => false
  end.

Record excl (s : mst) : Prop := {
  e_le : (gd s <= 1)%nat;
  e_gd : gd s = 1%nat -> lk s = true /\ forall t, holds (ctx s t) = false;
  e_h : forall t, holds (ctx s t) = true -> lk s = true /\ gd s = O /\ forall t', holds (ctx s t') = true -> t' = t;
  e_lk : lk s = true -> gd s = 1%nat \/ exists t, holds (ctx s t) = true
}.

Ltac upd_case t' t :=
  destruct (Nat.eq_dec t' t) as [->|?];
  repeat match goal with H : context [upd _ _ _ _] |- _ => revert H end;
  rewrite ?upd_same; rewrite ?upd_other by assumption; intros.

(** The five ways in which a step affects the lock. *)
Inductive move (s s' : mst) (t : nat) : Prop :=
| MSame : lk s' = lk s -> gd s' = gd s -> holds (ctx s' t) = holds (ctx s t) -> move s s' t
| MAcq : lk s = false -> lk s' = true -> gd s' = gd s -> holds (ctx s' t) = true -> move s s' t
| MRel : lk s' = false -> gd s' = gd s -> holds (ctx s t) = true -> holds (ctx s' t) = false -> move s s' t
| MRet : lk s' = lk s -> gd s' = S (gd s) -> holds (ctx s t) = true -> holds (ctx s' t) = false -> move s s' t
| MDrop n : lk s' = lk s -> gd s = S n -> gd s' = n -> holds (ctx s' t) = true -> move s s' t.

Lemma excl_move s s' t : excl s -> (forall t', t' <> t -> ctx s' t' = ctx s t') -> move s s' t -> excl s'.
Proof.
  intros [E1 E2 E3 E4] Ho M.
  assert (Ho' : forall t', t' <> t -> holds (ctx s' t') = holds (ctx s t')) by (intros; now rewrite Ho).
  destruct M as [M1 M2 M3|M1 M2 M3 M4|M1 M2 M3 M4|M1 M2 M3 M4|n M1 M2 M3 M4].
  - assert (Ha : forall t', holds (ctx s' t') = holds (ctx s t')).
    { intros t'. destruct (Nat.eq_dec t' t) as [->|]; auto. }
    constructor; rewrite ?M1, ?M2; auto.
    + intros G. destruct (E2 G) as (? & H). split; auto. intros; now rewrite Ha.
    + intros t'. rewrite Ha. intros H. destruct (E3 _ H) as (? & ? & H2). repeat split; auto.
      intros t2. rewrite Ha. auto.
    + intros H. destruct (E4 H) as [?|(t' & ?)]; [now left|right]. exists t'. now rewrite Ha.
  - assert (Hn : forall t', holds (ctx s t') = false).
    { intros t'. destruct (holds (ctx s t')) eqn:H; auto. destruct (E3 _ H). congruence. }
    assert (Hg : gd s = O).
    { destruct (gd s) as [|[|n]] eqn:G; auto; [destruct (E2 eq_refl); congruence|lia]. }
    assert (Hu : forall t', holds (ctx s' t') = true -> t' = t).
    { intros t' H. destruct (Nat.eq_dec t' t) as [|Hne]; auto. rewrite Ho', Hn in H by auto. easy. }
    constructor; rewrite ?M2, ?M3, ?Hg; auto; try lia.
    + intros t' H. rewrite (Hu _ H). repeat split; auto.
    + intros _. right. now exists t.
  - destruct (E3 _ M3) as (K1 & K2 & K3).
    assert (Hn : forall t', holds (ctx s' t') = false).
    { intros t'. destruct (Nat.eq_dec t' t) as [->|Hne]; auto. rewrite Ho' by auto.
      destruct (holds (ctx s t')) eqn:H; auto. now apply K3 in H. }
    constructor; rewrite ?M1, ?M2, ?K2; auto; try lia; try easy.
    intros t'. now rewrite Hn.
  - destruct (E3 _ M3) as (K1 & K2 & K3).
    assert (Hn : forall t', holds (ctx s' t') = false).
    { intros t'. destruct (Nat.eq_dec t' t) as [->|Hne]; auto. rewrite Ho' by auto.
      destruct (holds (ctx s t')) eqn:H; auto. now apply K3 in H. }
    constructor; rewrite ?M1, ?M2, ?K2; auto; try lia; try easy.
    intros t'. now rewrite Hn.
  - assert (n = O) as -> by lia. destruct (E2 M2) as (K1 & K2).
    assert (Hu : forall t', holds (ctx s' t') = true -> t' = t).
    { intros t' H. destruct (Nat.eq_dec t' t) as [|Hne]; auto. rewrite Ho', K2 in H by auto. easy. }
    constructor; rewrite ?M1, ?M3; auto; try lia.
    + intros t' H. rewrite (Hu _ H). auto.
    + intros _. right. now exists t.
Qed.

Section Proofs.
Variable atomics : bool.

Lemma ctx_other s a t' : (match a with Call t _ | Step t _ _ => t' <> t | _ => True end) ->
  ctx (mstep atomics s a) t' = ctx s t'.
Proof.
  destruct a as [t o|t spur x| |v]; simpl; intros Hne.
  - unfold mcall. destruct (ctx s t); auto. destruct o as [|f w|f|]; simpl; rewrite ?upd_other by auto; auto.
    + destruct (fu s f) as [[] p|]; simpl; rewrite ?upd_other by auto; auto.
    + destruct (fu s f) as [[] p|]; simpl; rewrite ?upd_other by auto; auto.
    + destruct (gd s); simpl; rewrite ?upd_other by auto; auto.
  - unfold cstep. destruct (ctx s t) as [| |f w|f w|f w|f w y|f w|f w y g|f w y g|f|f y g|f|o u|o r]; auto.
    + destruct (lk s); simpl; now rewrite upd_other.
    + destruct (lk s); simpl; [now rewrite upd_other|]. unfold locked.
      destruct (fu s f) as [b [[y g]|]|]; simpl; now rewrite upd_other.
    + destruct (waiter s f) as [[y g]|]; simpl; now rewrite upd_other.
    + destruct (mem_N x _ && _); auto. destruct atomics; simpl; now rewrite upd_other.
    + destruct atomics; simpl; [|now rewrite upd_other].
      destruct (dth _ t); simpl; rewrite ?upd_other by auto; auto.
    + destruct (lk s); simpl; [now rewrite upd_other|]. unfold locked, waiter.
      destruct (fu s f) as [b [[y g]|]|] eqn:E; simpl; rewrite ?E; simpl; now rewrite upd_other.
    + simpl. now rewrite upd_other.
    + unfold read_wk. simpl. destruct (wk s y); simpl; now rewrite upd_other.
    + destruct (waiter s f) as [[y g]|]; simpl; now rewrite upd_other.
    + unfold read_wk. simpl. destruct (wk s y); simpl; now rewrite upd_other.
    + destruct (lk s); simpl; now rewrite upd_other.
    + destruct u as [| |y|y| |c|c n|c n|w|w]; simpl; rewrite ?upd_other by auto; auto.
      * destruct (dpo (dr s)); simpl; rewrite ?upd_other by auto; auto.
        -- destruct (c =? 0); simpl; rewrite ?upd_other by auto; auto.
        -- destruct (negb atomics && (p =? 0)); simpl; auto.
        -- destruct (negb spur && _); simpl; auto. destruct (_ =? _); simpl; auto.
        -- destruct (_ =? _); simpl; auto.
      * unfold read_wk. simpl. destruct (tk s y); simpl; rewrite ?upd_other by auto; auto.
        destruct (wk s y); simpl; now rewrite upd_other.
      * destruct (c =? 0); simpl; now rewrite upd_other.
      * destruct (tk s c); simpl; now rewrite upd_other.
      * unfold read_wk. simpl. destruct (wk s c); simpl; now rewrite upd_other.
    + destruct o, r; simpl; try (destruct (fu s f) as [b p|]); simpl; now rewrite upd_other.
  - destruct (gd s); reflexivity.
  - destruct (gd s); reflexivity.
Qed.

Ltac here := simpl; rewrite ?upd_same; try reflexivity; auto.
Ltac same H := apply MSame; here; rewrite ?H; here.

Lemma move_ok s a t : (match a with Call t' _ | Step t' _ _ => t' = t | _ => True end) -> move s (mstep atomics s a) t.
Proof.
  destruct a as [t0 o|t0 spur x| |v]; simpl; intros E; try subst t0.
  - unfold mcall. destruct (ctx s t) eqn:C; try (now apply MSame). destruct o as [|f w|f|].
    + same C.
    + destruct (fu s f) as [[] p|]; same C.
    + destruct (fu s f) as [[] p|]; same C.
    + destruct (gd s) as [|n] eqn:G; [same C|]. apply (MDrop _ _ _ n); here.
  - unfold cstep. destruct (ctx s t) as [| |f w|f w|f w|f w y|f w|f w y g|f w y g|f|f y g|f|o u|o r] eqn:C; try (now apply MSame).
    + destruct (lk s) eqn:L; [same C|]. apply MAcq; here.
    + destruct (lk s) eqn:L; [same C|]. unfold locked.
      destruct (fu s f) as [b [[y g]|]|]; apply MAcq; here.
    + destruct (waiter s f) as [[y g]|]; [destruct (tk s y)|]; same C.
    + destruct (mem_N x _ && _); [|now apply MSame]. destruct atomics; same C.
    + destruct atomics; [|same C]. destruct (dth _ t); same C.
    + destruct (lk s) eqn:L; [same C|]. unfold locked, waiter.
      destruct (fu s f) as [b [[y g]|]|] eqn:E; simpl; rewrite ?E; simpl; apply MAcq; here.
    + destruct (tk s y); same C.
    + unfold read_wk. simpl. destruct (wk s y); same C.
    + destruct (waiter s f) as [[y g]|]; [destruct (tk s y)|]; same C.
    + unfold read_wk. simpl. destruct (wk s y); same C.
    + destruct (lk s) eqn:L; [same C|]. apply MAcq; here.
    + destruct u as [| |y|y| |c|c n|c n|w|w]; simpl.
      * same C.
      * destruct (dpo (dr s)) eqn:D; unfold list_step; simpl; rewrite ?D; simpl; try (same C; fail).
        -- destruct (c =? 0); simpl; same C.
        -- destruct (negb atomics && (p =? 0)); same C.
        -- destruct (negb spur && _); simpl; [same C|]. destruct (_ =? _); simpl; same C.
        -- destruct (_ =? _); simpl; same C.
      * unfold read_wk. simpl. destruct (tk s y); [same C|]. destruct (wk s y); same C.
      * same C.
      * same C.
      * destruct (c =? 0); same C.
      * destruct (tk s c); same C.
      * unfold read_wk. simpl. destruct (wk s c); same C.
      * apply MRel; here; [now rewrite C|]. now destruct w.
      * same C.
    + destruct r; [|apply MRet; here; rewrite ?C; auto; destruct o as [|f w|f|]; here;
        destruct (fu s f) as [b p|]; here| |];
      (apply MSame; here; rewrite ?C; here; destruct o as [|f w|f|]; here; try (destruct (fu s f) as [b p|]; here)).
  - destruct (gd s) eqn:G; apply MSame; auto.
  - destruct (gd s) eqn:G; apply MSame; auto.
Qed.

Lemma excl_step s a : excl s -> excl (mstep atomics s a).
Proof.
  intros E. destruct a as [t o|t spur x| |v].
  - apply (excl_move s _ t); auto; [|now apply move_ok]. intros t' H. now apply ctx_other.
  - apply (excl_move s _ t); auto; [|now apply move_ok]. intros t' H. now apply ctx_other.
  - apply (excl_move s _ O); auto; [|now apply move_ok]. intros t' H. now apply ctx_other.
  - apply (excl_move s _ O); auto; [|now apply move_ok]. intros t' H. now apply ctx_other.
Qed.

(** The history tells the number of guards and the data. *)
Definition told (v0 : N) (s : mst) : Prop :=
  guards (log s) = gd s /\ data v0 (log s) = Dat (dt s) (gd s) false.

Lemma guards_app l e : guards (l ++ [e]) = gstep (guards l) e.
Proof. unfold guards. now rewrite fold_left_app. Qed.
Lemma data_app v l e : data v (l ++ [e]) = dstep (data v l) e.
Proof. unfold data. now rewrite fold_left_app. Qed.

Lemma told_same v0 s s' : told v0 s -> log s' = log s -> gd s' = gd s -> dt s' = dt s -> told v0 s'.
Proof. unfold told. intros (T1 & T2) -> -> ->. auto. Qed.
Lemma told_emit v0 s s' e : told v0 s -> log s' = log s ++ [e] -> gd s' = gstep (gd s) e -> dt s' = dt s ->
  (match e with EGet _ | ESet _ => False | _ => True end) -> told v0 s'.
Proof.
  unfold told. intros (T1 & T2) -> G -> He. rewrite guards_app, data_app, T1, T2, G. split; auto.
  destruct e; easy.
Qed.

Ltac tsame := eapply told_same; [eassumption|simpl; reflexivity..].
Ltac temit := eapply told_emit; [eassumption|simpl; reflexivity|simpl; try reflexivity; auto|simpl; reflexivity|exact I].

Lemma told_step v0 s a : excl s -> told v0 s -> told v0 (mstep atomics s a).
Proof.
  intros X T. destruct a as [t o|t spur x| |v]; simpl.
  - unfold mcall. destruct (ctx s t) eqn:C; auto. destruct o as [|f w|f|].
    + temit.
    + destruct (fu s f) as [[] p|]; auto. temit.
    + destruct (fu s f) as [[] p|]; auto. temit.
    + destruct (gd s) as [|n] eqn:G; auto. temit. now rewrite G.
  - unfold cstep. destruct (ctx s t) as [| |f w|f w|f w|f w y|f w|f w y g|f w y g|f|f y g|f|o u|o r] eqn:C; [exact T|..].
    + destruct (lk s); tsame.
    + destruct (lk s); [temit|]. unfold locked. destruct (fu s f) as [b [[y g]|]|]; tsame.
    + destruct (waiter s f) as [[y g]|]; tsame.
    + destruct (mem_N x _ && _); auto. destruct atomics; tsame.
    + destruct atomics; [|tsame]. destruct (dth _ t); tsame.
    + destruct (lk s); [temit|]. unfold locked, waiter.
      destruct (fu s f) as [b [[y g]|]|] eqn:E; simpl; rewrite ?E; tsame.
    + tsame.
    + unfold read_wk. simpl. destruct (wk s y); temit.
    + destruct (waiter s f) as [[y g]|]; tsame.
    + unfold read_wk. simpl. destruct (wk s y); temit.
    + destruct (lk s); temit.
    + destruct u as [| |y|y| |c|c n|c n|w|w]; simpl; [tsame|..].
      * destruct (dpo (dr s)) eqn:D; unfold list_step; simpl; rewrite ?D; simpl; try (tsame; fail).
        -- destruct (c =? 0); simpl; tsame.
        -- destruct (negb atomics && (p =? 0)); tsame.
        -- destruct (negb spur && _); simpl; [tsame|]. destruct (_ =? _); simpl; tsame.
        -- destruct (_ =? _); simpl; tsame.
      * unfold read_wk. simpl. destruct (tk s y); [tsame|]. destruct (wk s y); temit.
      * tsame.
      * tsame.
      * destruct (c =? 0); tsame.
      * destruct (tk s c); [tsame|temit].
      * unfold read_wk. simpl. destruct (wk s c); tsame.
      * temit.
      * temit.
    + destruct r, o as [|f w|f|]; simpl; try (destruct (fu s f) as [b p|]); temit.
  - destruct (gd s) as [|n] eqn:G; auto. destruct X as [X _ _ _]. assert (n = O) as -> by lia.
    destruct T as (T1 & T2). split; simpl; rewrite ?guards_app, ?data_app, ?T1, ?T2, ?G; auto.
    simpl. now rewrite N.eqb_refl.
  - destruct (gd s) as [|n] eqn:G; auto. destruct X as [X _ _ _]. assert (n = O) as -> by lia.
    destruct T as (T1 & T2). split; simpl; rewrite ?guards_app, ?data_app, ?T1, ?T2, ?G; auto.
Qed.
End Proofs.
