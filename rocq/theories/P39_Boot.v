(** Properties of debug streams over restarts of the board (C116, C117, C118). *)
Require Import NArith List Bool Arith Lia.
From Verif Require Import Stream StreamSpec StreamProofs P05_Stream BootSpec Boot BootProofs.
Import ListNotations.
Open Scope N_scope.

(** A board: the sequence, its streams, memory when power is switched on. *)
Definition sizes_ok (ds : list dstream) : Prop := forall k d, nth_error ds k = Some d -> 0 < d_size d < 2 ^ 32.
Definition power (ds : list dstream) (boot : list N) (mask0 : N) (ms : nat -> N -> N) : Prop :=
  sizes_ok ds /\ boot <> [] /\ mask0 < 2 ^ 32 /\ untouched boot ds ms.

(** The full statement of C116: at every start the runtime is the one a probe asked for since the last start,
    if any, and otherwise an empty buffer of the declared size. *)
Definition C116_statement (boot : list N) (ds : list dstream) : Prop :=
  forall mask0 ms l k d, power ds boot mask0 ms ->
  let (b, h) := brun boot ds (power_on mask0 ms) l in
  polite (size_of ds) h -> nth_error ds k = Some d -> forall m, b_str b k = Off m ->
  exists x, b_str (fst (bstep boot ds b (AInit k))) k = On x /\
    struct_of (smem x) = begins (d_size d) (asked k h).

(** Whatever is printed, and wherever the board is reset (in the middle of a transaction as well), if the sequence
    does not begin with the number of a stream.  Missing: other sequences (the constant is not in the repository). *)
Theorem C116_starts_partial : forall boot ds, stream_count <= hd 0 boot -> C116_statement boot ds.
Proof.
  intros boot ds H mask0 ms l k d (Z & B & M & U).
  assert (Z' : forall k d, nth_error ds k = Some d -> d_size d < 2 ^ 32) by (intros j e De; now apply (Z j e)).
  pose proof (brun_inv1 boot ds mask0 B H Z' M l _ _ (inv1_on boot ds mask0 M ms U)) as I.
  destruct (brun boot ds (power_on mask0 ms) l) as [b h]. cbn in I. intros _ D m S. cbn [bstep]. rewrite D, S.
  destruct (init_spec boot ds mask0 B H Z' M b h k d m I D S) as (A & _). cbn [fst b_str]. rewrite upd_same. eauto.
Qed.
Print Assumptions C116_starts_partial.

(** Two streams; a probe asks for 40 bytes of the second one, starting at 7, with streams 1 and 3 enabled. *)
Definition ds2 : list dstream := [Ds 64 true; Ds 96 false].
Definition seq5 : list N := [66; 77; 88; 99; 11].
Definition say (k : nat) (f : frame) : list act := map (ARun k) (attempt f).
Definition hear (k n : nat) : list act := repeat (ARun k LR) n.
(** For the cases below. *)
Fixpoint all_polite (size : nat -> N) (h : list bevent) : Prop :=
  match h with [] => True | EBoot k rt _ :: r => suits (size k) rt /\ all_polite size r | _ :: r => all_polite size r end.
Lemma politeb_ok size h : all_polite size h -> polite size h.
Proof.
  intros A k rt v. induction h as [|e h IH]; [easy|]. intros [->|Hi]; [apply A|].
  apply IH; [|exact Hi]. destruct e; try exact A. apply A.
Qed.
Definition twice : list act :=
  [AInit 0; AInit 1] ++ say 0 hello ++ [ARun 1 (LWrite hello); ARun 1 LW; ARun 1 LW; ARun 1 LW; ARun 1 LW; AReset]
  ++ [ABoot 1 (Rt 40 7 7) 10].
Example C116_case :
  power ds2 seq5 255 (fun _ x => x mod 7) /\ stream_count <= hd 0 seq5 /\
  let r := brun seq5 ds2 (power_on 255 (fun _ x => x mod 7)) twice in
  polite (size_of ds2) (snd r) /\ asked 0 (snd r) = None /\ asked 1 (snd r) = Some (Rt 40 7 7, 10) /\
  match b_str (fst (bstep seq5 ds2 (fst r) (AInit 1))) 1 with
  | On x => struct_of (smem x) = Rt 40 7 7 /\ sbuf (smem x) 1 = 77 | _ => False end /\
  match b_str (fst (bstep seq5 ds2 (fst r) (AInit 0))) 0 with
  | On x => struct_of (smem x) = Rt 64 0 0 /\ sbuf (smem x) 2 = 104 | _ => False end.
Proof.
  split; [|split; [vm_compute; congruence|]].
  - split; [|split; [discriminate|split; [reflexivity|]]].
    + intros [|[|[|k]]] d [= <-]; cbn; lia.
    + intros k d _. vm_compute. discriminate.
  - intros r. split; [|vm_compute; repeat split].
    apply politeb_ok. vm_compute. repeat split; congruence.
Qed.

(** With a sequence that begins with the number of a stream, printed text is taken for a request of a probe at the next start,
    and the stream then writes beyond its buffer. *)
Definition low : list N := [3; 20; 77].
Definition text : frame := (3, [77] ++ words (Rt 4096 2000 2000) ++ le4 2 ++ [0; 0; 0]).
Definition forged : list act := [AInit 0] ++ say 0 text ++ [AReset].
Theorem C116_forged_refuted : exists boot ds mask0 ms l,
  power ds boot mask0 ms /\ flen text = 20 /\ map d_size ds = [64] /\
  let r := brun boot ds (power_on mask0 ms) l in
  asked 0 (snd r) = None /\
  match b_str (fst (bstep boot ds (fst r) (AInit 0))) 0 with
  | On x => struct_of (smem x) = Rt 4096 2000 2000 | _ => False end /\
  b_mask (fst (bstep boot ds (fst r) (AInit 0))) = 2 /\
  match b_str (fst (brun boot ds (fst r) (AInit 0 :: say 0 hello))) 0 with
  | On y => map (sbuf (smem y)) [2000; 2001; 2002] = [7; 5; 104] | _ => False end.
Proof.
  exists low, [Ds 64 true], 0, (fun _ _ => 0), forged.
  split; [|split; [reflexivity|split; [reflexivity|]]].
  - split; [|split; [discriminate|split; [reflexivity|]]].
    + intros [|[|k]] d [= <-]; cbn; lia.
    + intros k d _. vm_compute. discriminate.
  - vm_compute. repeat split.
Qed.
Print Assumptions C116_forged_refuted.
Theorem C116_statement_refuted : exists boot ds, ~ C116_statement boot ds.
Proof.
  exists low, [Ds 64 true].
  assert (P : power [Ds 64 true] low 0 (fun _ _ => 0)).
  { split; [|split; [discriminate|split; [reflexivity|]]].
    - intros [|[|k]] d [= <-]; cbn; lia.
    - intros k d _. vm_compute. discriminate. }
  assert (T : match b_str (fst (brun low [Ds 64 true] (power_on 0 (fun _ _ => 0)) forged)) 0 with
              | Off _ => True | On _ => False end) by (vm_compute; exact I).
  assert (F : match b_str (fst (bstep low [Ds 64 true]
                (fst (brun low [Ds 64 true] (power_on 0 (fun _ _ => 0)) forged)) (AInit 0))) 0 with
              | On x => struct_of (smem x) = Rt 4096 2000 2000 | _ => False end) by (vm_compute; reflexivity).
  assert (A : asked 0 (snd (brun low [Ds 64 true] (power_on 0 (fun _ _ => 0)) forged)) = None) by (vm_compute; reflexivity).
  assert (G : polite (size_of [Ds 64 true]) (snd (brun low [Ds 64 true] (power_on 0 (fun _ _ => 0)) forged))).
  { apply politeb_ok. vm_compute. exact I. }
  intros C. specialize (C 0 (fun _ _ => 0) forged 0%nat (Ds 64 true) P).
  destruct (brun low [Ds 64 true] (power_on 0 (fun _ _ => 0)) forged) as [b h]. cbn [fst snd] in *.
  destruct (b_str b 0) as [m|x] eqn:S; [|contradiction].
  destruct (C G eq_refl m eq_refl) as (x & X1 & X2).
  rewrite X1, X2, A in F. discriminate F.
Qed.
Print Assumptions C116_statement_refuted.

(** * Sessions *)

(** After every start, for every stream of the board at once: the frames read are a prefix of the frames written
    since that start, every transaction has one outcome, nothing is written outside of the declared buffer, and
    the reader, left alone, obtains exactly the rest. *)
Lemma hear_only n : forall x, snd (srun x (repeat LR n)) = map SRead (got (snd (srun x (repeat LR n)))).
Proof.
  induction n as [|n IH]; intros x; [easy|]. cbn [repeat srun sstep].
  assert (R : snd (rstep x) = map SRead (got (snd (rstep x)))).
  { unfold rstep. destruct (srp x); try easy. destruct (_ <? _); easy. }
  destruct (rstep x) as [x1 e1]. specialize (IH x1). destruct (srun x1 (repeat LR n)) as [x2 e2]. cbn in *.
  rewrite got_app, map_app, <- R, <- IH. easy.
Qed.
Lemma hear_run boot ds k n : forall b x, b_str b k = On x ->
  snd (brun boot ds b (hear k n)) = map (EStr k) (snd (srun x (repeat LR n))).
Proof.
  induction n as [|n IH]; intros b x S; [easy|]. unfold hear in *. cbn [repeat brun bstep srun]. rewrite S.
  destruct (sstep x LR) as [x1 e1]. specialize (IH (Board (b_mask b) (upd (b_str b) k (On x1))) x1 (upd_same _ _ _)).
  destruct (brun boot ds _ _) as [b2 e2]. destruct (srun x1 (repeat LR n)) as [x2 e3]. cbn in *.
  now rewrite IH, map_app.
Qed.
Theorem C117_sessions : forall boot ds mask0 ms l, power ds boot mask0 ms -> stream_count <= hd 0 boot ->
  let (b, h) := brun boot ds (power_on mask0 ms) l in
  polite (size_of ds) h -> forall k d tr, nth_error ds k = Some d -> session k h = Some tr ->
  exists x, b_str b k = On x /\ soob (smem x) = false /\ ssize (smem x) <= d_size d /\
    (exists cur, (length cur <= 1)%nat /\ starts tr = outcomes tr ++ cur) /\
    exists pend n, wrote tr = got tr ++ pend /\
      session k (h ++ snd (brun boot ds b (hear k n))) = Some (tr ++ map SRead pend).
Proof.
  intros boot ds mask0 ms l (Z & B & M & U) H.
  assert (Z' : forall k d, nth_error ds k = Some d -> d_size d < 2 ^ 32) by (intros j e De; now apply (Z j e)).
  pose proof (brun_inv2 boot ds mask0 B H Z' M l _ _ (inv1_on boot ds mask0 M ms U) (inv2_on ds mask0 ms)) as J.
  destruct (brun boot ds (power_on mask0 ms) l) as [b h]. cbn in J. intros P k d tr D S.
  specialize (J P k d D ltac:(now apply (Z k d))). unfold ok2 in J. destruct (b_str b k) as [m|x] eqn:E; [congruence|].
  destruct J as (tr' & pend & J1 & J2 & J3 & J4 & J5). assert (tr' = tr) as -> by congruence.
  exists x. split; [easy|]. split; [apply (si_oob _ _ J2)|]. split; [easy|]. split.
  - exists (current x). split; [|exact J4]. unfold current. destruct (swp x) as [| | | | | | |[]]; simpl; lia.
  - destruct (rd_drain x pend J2) as (n & _ & _ & _ & _ & G). exists pend, n. split; [exact J3|].
    rewrite session_app, (hear_run boot ds k n b x E), session_str, Nat.eqb_refl, S, hear_only, G. easy.
Qed.
Print Assumptions C117_sessions.

(** The board of [C116_case] after its second start: what was printed before does not appear again. *)
Example C117_case :
  let r := brun seq5 ds2 (power_on 255 (fun _ x => x mod 7))
    ([AInit 0; AInit 1] ++ say 0 hello ++ say 1 hello ++ [AReset; ABoot 1 (Rt 40 7 7) 10; AInit 1; AInit 0]
     ++ say 1 fr2 ++ say 0 fr2 ++ hear 1 4 ++ say 1 hello) in
  polite (size_of ds2) (snd r) /\
  session 0 (snd r) = Some [SStart fr2; SWrote fr2] /\
  session 1 (snd r) = Some [SStart fr2; SWrote fr2; SStart hello; SWrote hello] /\
  session 1 (snd r ++ snd (brun seq5 ds2 (fst r) (hear 1 12))) =
    Some [SStart fr2; SWrote fr2; SStart hello; SWrote hello; SRead fr2; SRead hello].
Proof.
  intros r. split; [|vm_compute; repeat split].
  apply politeb_ok. vm_compute. repeat split; congruence.
Qed.

(** * Enabled streams *)

(** The full statement of C118: [is_enabled] is what the probe said last; and false after a restart until it says
    something. *)
Definition C118_statement (boot : list N) (ds : list dstream) : Prop :=
  forall mask0 ms l, power ds boot mask0 ms ->
  let h := snd (brun boot ds (power_on mask0 ms) l) in
  polite (size_of ds) h -> answers (primary ds) mask0 h /\
  forall a s b c, h = a ++ EAsk s b :: c -> fresh (rev a) = true -> (forall k, asked k a = None) -> b = false.

(** The first part, and the second one for what follows the initialisation of a primary stream.  Missing: what
    is asked before. *)
Theorem C118_enabled_partial : forall boot ds mask0 ms l, power ds boot mask0 ms -> stream_count <= hd 0 boot ->
  let h := snd (brun boot ds (power_on mask0 ms) l) in
  polite (size_of ds) h -> answers (primary ds) mask0 h /\
  forall a k d s b c, h = a ++ EInit k :: d ++ EAsk s b :: c -> primary ds k = true -> asked k a = None ->
    (forall v, ~ In (EMask v) d) -> (forall j rt v, ~ In (EBoot j rt v) (a ++ d)) -> b = false.
Proof.
  intros boot ds mask0 ms l (Z & B & M & U) H h P.
  assert (Z' : forall k d, nth_error ds k = Some d -> d_size d < 2 ^ 32) by (intros j e De; now apply (Z j e)).
  assert (A : answers (primary ds) mask0 h).
  { apply (brun_answers boot ds mask0 B H Z' M l _ [] (inv1_on boot ds mask0 M ms U)).
    intros a s b c E. now destruct a. }
  split; [exact A|]. intros a k d s b c E Pk K N1 N2.
  specialize (A (a ++ EInit k :: d) s b c). rewrite <- app_assoc in A. cbn in A. rewrite (A E). clear E A b.
  replace (enabled (primary ds) mask0 (rev (a ++ EInit k :: d))) with 0; [apply N.bits_0|].
  induction d as [|e d IH] using rev_ind.
  - rewrite rev_app_distr. cbn [rev app enabled]. now rewrite Pk, rev_involutive, K.
  - replace (a ++ EInit k :: d ++ [e]) with ((a ++ EInit k :: d) ++ [e]) by (now rewrite <- app_assoc).
    rewrite rev_app_distr.
    assert (IH' : 0 = enabled (primary ds) mask0 (rev (a ++ EInit k :: d))).
    { apply IH; [intros v Hv; apply (N1 v)|intros j rt v Hv; apply (N2 j rt v)]; rewrite ?in_app_iff in *; tauto. }
    destruct e; cbn [rev app enabled]; auto.
    + destruct (primary ds k0); [|exact IH']. rewrite rev_involutive.
      destruct (asked k0 (a ++ EInit k :: d)) as [[rt v]|] eqn:Q; [|easy]. exfalso. apply asked_in in Q.
      apply (N2 k0 rt v). rewrite !in_app_iff in *. cbn in Q. destruct Q as [Q|[Q|Q]]; [tauto|discriminate|tauto].
    + exfalso. apply (N1 v). apply in_app_iff. right. now left.
Qed.
Print Assumptions C118_enabled_partial.

Example C118_case :
  let h := snd (brun seq5 ds2 (power_on 255 (fun _ x => x mod 7))
    [AInit 0; AAsk 1; AMask 2; AAsk 1; AAsk 2; AReset; ABoot 0 (Rt 64 0 0) 4; AInit 1; AAsk 2; AInit 0; AAsk 1; AAsk 2]) in
  h = [EInit 0; EAsk 1 false; EMask 2; EAsk 1 true; EAsk 2 false; EReset; EBoot 0 (Rt 64 0 0) 4; EInit 1; EAsk 2 false;
       EInit 0; EAsk 1 false; EAsk 2 true] /\
  primary ds2 0 = true /\ primary ds2 1 = false.
Proof. vm_compute. repeat split. Qed.

(** A core whose stream is not the primary one still sees the old mask when it is initialised first after a restart
    without a probe; so [print!] goes on to fill a buffer that nobody reads. *)
Theorem C118_restart_refuted : exists boot ds mask0 ms l a s c,
  power ds boot mask0 ms /\ stream_count <= hd 0 boot /\
  snd (brun boot ds (power_on mask0 ms) l) = a ++ EAsk s true :: c /\ fresh (rev a) = true /\
  (forall j rt v, ~ In (EBoot j rt v) a) /\ In (EInit 1) a.
Proof.
  exists seq5, ds2, 0, (fun _ _ => 0), [AInit 0; AInit 1; AMask 2; AReset; AInit 1; AAsk 1],
    [EInit 0; EInit 1; EMask 2; EReset; EInit 1], 1, [].
  split.
  - split; [|split; [discriminate|split; [reflexivity|]]].
    + intros [|[|[|k]]] d [= <-]; cbn; lia.
    + intros k d _. vm_compute. discriminate.
  - split; [vm_compute; congruence|]. split; [vm_compute; reflexivity|]. split; [reflexivity|].
    split; [|cbn; tauto]. intros j rt v Hi. cbn in Hi. repeat destruct Hi as [Hi|Hi]; easy.
Qed.
Print Assumptions C118_restart_refuted.
Theorem C118_statement_refuted : exists boot ds, stream_count <= hd 0 boot /\ ~ C118_statement boot ds.
Proof.
  exists seq5, ds2. split; [vm_compute; congruence|]. intros C.
  destruct (C 0 (fun _ _ => 0) [AInit 0; AInit 1; AMask 2; AReset; AInit 1; AAsk 1]) as [_ C2]; clear C.
  - split; [|split; [discriminate|split; [reflexivity|]]].
    + intros [|[|[|k]]] d [= <-]; cbn; lia.
    + intros k d _. vm_compute. discriminate.
  - apply politeb_ok. vm_compute. exact I.
  - assert (F : true = false); [|discriminate].
    apply (C2 [EInit 0; EInit 1; EMask 2; EReset; EInit 1] 1 true []).
    + vm_compute. reflexivity.
    + reflexivity.
    + intros k. unfold asked. cbn. destruct k as [|[|k]]; reflexivity.
Qed.
Print Assumptions C118_statement_refuted.
