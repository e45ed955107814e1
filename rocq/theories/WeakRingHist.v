(** Histories of a ring channel whose sender sends as many values as there are slots at
    most, and whose receiver is not dropped. *)
Require Import NArith List Bool Arith Lia.
From Verif Require Import Spsc Ring RingSpec RingWord RingMain Weak WeakProofs WeakSlots WeakSC WeakHist.
Import ListNotations.
Open Scope N_scope.

Definition sendev (e : rev_) : bool := match e with EInv o => spend o | _ => false end.
Definition sends (l : list rev_) : nat := length (filter sendev l).
Definition drops (e : rev_) : bool := match e with EInv DropRx => true | _ => false end.

(** The sending call that may still add a value; the receiving call that has taken one. *)
Definition t1 (t : tph) : N := match t with TSend _ _ | TLook _ _ | TOver _ | TOverLook _ None => 1 | _ => 0 end.
Definition tfine (t : tph) : Prop :=
  match t with TOverFull _ | TOverLook _ (Some _) | TRet (ROver (Some _)) _ | TRet (RNot _ (Some _)) _ => False | _ => True end.
Definition r1 (r : rph) : N := match r with RRet (RVal _) => 1 | _ => 0 end.
Definition rfine (r : rph) : Prop := match r with RDropping | RDrop _ _ => False | _ => True end.

Record few (cap : N) (q : ring) (n : N) : Prop := mkfew {
  w_racy : q_racy q = false;
  w_len : len (q_pend q) + t1 (q_tx q) + r1 (q_rx q) <= n;
  w_tx : tfine (q_tx q);
  w_rx : rfine (q_rx q)
}.
Lemma len_app a b : len (a ++ b) = len a + len b.
Proof. unfold len. rewrite app_length. lia. Qed.
Lemma len_cons x a : len (x :: a) = 1 + len a.
Proof. unfold len. cbn [length]. lia. Qed.
Lemma len_nil : len [] = 0.
Proof. reflexivity. Qed.

Ltac li := cbn [set_pend with_tx with_rx q_pend q_err q_closed q_txend q_rxend q_tx q_rx q_bad q_racy] in *; lia.
Ltac kp Keep := apply Keep; cbn [q_pend q_err q_closed q_txend q_rxend q_tx q_rx q_bad q_racy set_pend with_tx with_rx t1 r1].
Lemma few_step cap q n e : few cap q n -> drops e = false ->
  let m := if sendev e then n + 1 else n in m <= cap -> few cap (qstep cap q e) m.
Proof.
  intros [A B C D] Dr m Hm. destruct q as [p er cl te re t r bad rc]. cbn [q_pend q_err q_closed q_txend q_rxend q_tx q_rx q_bad q_racy] in *. subst rc.
  assert (Hn : n <= m) by (unfold m; destruct (sendev e); lia).
  assert (Keep : forall p' er' cl' te' re' t' r' bad', len p' + t1 t' + r1 r' <= m -> tfine t' -> rfine r' ->
    few cap (Ring p' er' cl' te' re' t' r' bad' false) m) by (intros; constructor; auto).
  unfold qstep. destruct e as [o|o rr|s w|s w|s w|s|s].
  - cbn [sendev] in *. destruct (rside o) eqn:So.
    + destruct t; cbn [t1] in B; cbn [q_tx]; try (kp Keep; auto; li). kp Keep; auto.
      * unfold m. destruct o; try discriminate; cbn [tbegin t1 spend]; li.
      * destruct o; try discriminate; exact I.
    + destruct r; cbn [r1] in B; cbn [q_rx]; try (kp Keep; auto; li). kp Keep; auto.
      * destruct o; try discriminate; cbn [rbegin r1]; li.
      * destruct o; try discriminate; exact I.
  - destruct (rside o) eqn:So.
    + destruct t as [| | | | | | | | | | |r0 d]; cbn [t1] in B; cbn [q_tx]; try (kp Keep; auto; li).
      * destruct (rres_eqb _ _); kp Keep; auto; try li; try exact I.
      * destruct d; [|kp Keep; auto; li]. cbv iota. destruct (rres_eqb _ _); kp Keep; auto; try li; exact I.
    + destruct r as [| | | | | |l0 e0|r0]; cbn [r1] in B; cbn [q_rx]; try (kp Keep; auto; li); try contradiction.
      * destruct (rres_eqb _ _); kp Keep; auto; try li; try exact I.
      * destruct (rres_eqb _ _); kp Keep; auto; try li; try exact I.
  - kp Keep; auto; li.
  - kp Keep; auto; li.
  - destruct s.
    + destruct t as [| | | | | | | | | | |r0 d]; cbn [t1] in B; cbn [q_tx]; try (kp Keep; auto; li).
      destruct d as [|x d]; [kp Keep; auto; li|]. destruct (x =? w); kp Keep; auto; li.
    + destruct r as [| | | | | |l0 e0|r0]; cbn [r1] in B; cbn [q_rx]; try (kp Keep; auto; li); try contradiction.
  - cbn [sendev] in *. destruct s.
    + unfold tsync. cbn [q_pend q_err q_closed q_txend q_rxend q_tx q_rx q_bad q_racy].
      destruct t as [| | | | |v o|v| |k| | |]; cbn [t1] in B; cbn [q_tx]; try contradiction; try (kp Keep; auto; li).
      * destruct cl, sink; kp Keep; try exact I; auto; rewrite ?len_app, ?len_cons, ?len_nil; li.
      * destruct o; [contradiction|]. destruct cl; kp Keep; try exact I; auto; rewrite ?len_app, ?len_cons, ?len_nil; li.
      * kp Keep; try li; auto. destruct cl; exact I.
      * unfold poll_at. cbn [q_closed]. destruct cl; [|destruct (is_ready _ _ _)]; kp Keep; auto; try li; destruct k; exact I.
    + unfold rsync, recv. cbn [q_pend q_err q_closed q_txend q_rxend q_tx q_rx q_bad q_racy].
      destruct r as [| |poll| | | |l0 e0|r0]; cbn [r1] in B; cbn [q_rx]; try contradiction; try (kp Keep; auto; li).
      * destruct p as [|v p]; [destruct er|]; kp Keep; rewrite ?len_cons, ?len_nil in *; auto; try li; try exact I.
        -- destruct (te || cl); [|destruct poll]; cbn [r1]; li.
        -- destruct (te || cl); [|destruct poll]; exact I.
      * destruct p as [|v p]; [destruct er|]; kp Keep; rewrite ?len_cons, ?len_nil in *; auto; try li; try exact I.
        -- destruct (te || cl); cbn [r1]; li.
        -- destruct (te || cl); exact I.
  - cbn [sendev] in *. destruct s.
    + unfold tacc. cbn [q_pend q_err q_closed q_txend q_rxend q_tx q_rx q_bad q_racy].
      assert (Look : forall t0 bad0, t1 t = 1 -> racy cap (Ring p er cl te re t0 r bad0 false) = false).
      { intros t0 bad0 E. unfold racy. cbn [q_rx q_pend]. destruct r as [| | | | | |[|] ?|[]]; auto; try contradiction. cbn [r1] in B.
        apply N.leb_gt. li. }
      destruct t as [|sk v|?|v|?|v o|v|k|k| | |]; cbn [t1] in B; cbn [q_tx]; try contradiction; try (kp Keep; auto; li).
      * destruct (N.eqb_spec (len p) cap); [unfold m in Hm; li|]. unfold look. cbn [q_pend q_err q_closed q_txend q_rxend q_tx q_rx q_bad q_racy].
        rewrite Look by reflexivity. kp Keep; auto; cbn [t1]; li || exact I.
      * destruct (N.eqb_spec (len p) cap); [unfold m in Hm; li|]. destruct cl; [kp Keep; auto; cbn [t1]; li || exact I|].
        unfold look. cbn [q_pend q_err q_closed q_txend q_rxend q_tx q_rx q_bad q_racy].
        rewrite Look by reflexivity. kp Keep; auto; cbn [t1]; li || exact I.
      * unfold poll_at. cbn [q_closed]. destruct cl; [|destruct (is_ready _ _ _)]; kp Keep; auto; try li; destruct k; exact I.
    + unfold RingSpec.racc. cbn [q_rx]. destruct r; cbn [r1] in B; cbn [q_rx]; try contradiction; kp Keep; auto; li || exact I.
Qed.

Lemma queue_app cap l e : queue cap (l ++ [e]) = qstep cap (queue cap l) e.
Proof. unfold queue. now rewrite fold_left_app. Qed.
Lemma sends_app l e : sends (l ++ [e]) = (sends l + if sendev e then 1 else 0)%nat.
Proof. unfold sends. rewrite filter_app, app_length. cbn. now destruct (sendev e). Qed.
Lemma few_run cap l : existsb drops l = false -> N.of_nat (sends l) <= cap -> few cap (queue cap l) (N.of_nat (sends l)).
Proof.
  induction l as [|e l IH] using rev_ind; intros D L; [constructor; [reflexivity|vm_compute; discriminate|exact I|exact I]|].
  rewrite existsb_app in D. apply orb_false_iff in D as (D1 & D2). cbn in D2. rewrite orb_false_r in D2.
  rewrite sends_app in *. rewrite queue_app.
  replace (N.of_nat (sends l + (if sendev e then 1 else 0))) with (if sendev e then N.of_nat (sends l) + 1 else N.of_nat (sends l)) in *
    by (destruct (sendev e); lia).
  apply few_step; auto. apply IH; auto. destruct (sendev e); lia.
Qed.

Lemma bad_step cap q e : q_bad q = true -> q_bad (qstep cap q e) = true.
Proof.
  intros B. unfold qstep, tacc, tsync, racc, rsync, recv, poll_at, look, with_tx, with_rx, fail, set_pend.
  repeat match goal with |- q_bad (match ?x with _ => _ end) = true => destruct x end; cbn; auto.
Qed.
Definition back (e : rev_) : list N :=
  match e with ERet (SendOver _) (ROver (Some o)) | ERet (SendOver _) (RNot _ (Some o)) => [o] | _ => [] end.
Lemma back_step cap q e : tfine (q_tx q) -> q_bad (qstep cap q e) = false -> back e = [].
Proof.
  intros T B. destruct e as [|o r| | | | |]; try reflexivity. destruct o; try reflexivity. unfold qstep in B. cbn [rside] in B.
  assert (K : forall r', rres_eqb r r' = true -> tfine (TRet r' []) -> back (ERet (SendOver v) r) = []).
  { intros r' E F. destruct r as [| | | | |[]|? []| | | | | | | | |]; try reflexivity; destruct r' as [| | | | |[]|? []| | | | | | | | |]; try discriminate; try contradiction.
    cbn in E. now rewrite andb_false_r in E. }
  destruct (q_tx q) as [| | | | | | | | | | |r0 [|]]; try discriminate.
  - destruct (rres_eqb r RPending) eqn:E; [|discriminate]. now apply (K RPending).
  - destruct (rres_eqb r r0) eqn:E; [|discriminate]. now apply (K r0).
Qed.
Lemma few_over cap l : existsb drops l = false -> N.of_nat (sends l) <= cap -> q_bad (queue cap l) = false -> overwritten l = [].
Proof.
  induction l as [|e l IH] using rev_ind; intros D L B; auto.
  pose proof D as D'. rewrite existsb_app in D. apply orb_false_iff in D as (D1 & D2). rewrite queue_app in B.
  assert (L' : N.of_nat (sends l) <= cap) by (rewrite sends_app in L; lia).
  unfold overwritten. rewrite flat_map_app. fold (overwritten l). rewrite IH; auto.
  - cbn. rewrite app_nil_r. apply (back_step cap (queue cap l) e); auto. exact (w_tx _ _ _ (few_run cap l D1 L')).
  - destruct (q_bad (queue cap l)) eqn:E; auto. rewrite (bad_step _ _ _ E) in B. discriminate.
Qed.
Lemma shuffle_nil a b : shuffle a [] b -> a = b.
Proof.
  intros H. remember [] as n eqn:E. induction H; auto.
  - now rewrite IHshuffle.
  - destruct b; discriminate.
Qed.

(** The calls of an execution are those of its schedule. *)
Lemma wcalls_app {O R} (a b : list (wev O R)) : Weak.calls (a ++ b) = Weak.calls a ++ Weak.calls b.
Proof. apply flat_map_app. Qed.
Lemma wput_log {O R} (x : wsys O R) s h c t e : wlog (wput x s h c t e) = wlog x ++ e.
Proof. now destruct s. Qed.
Lemma step_calls bits cap x a : exists e : list rev_, Weak.calls (wlog (wstep rside rconsuming (rcode bits cap) x a)) = Weak.calls (wlog x) ++ e /\
  (e = [] \/ (exists o, a = WCall o /\ e = [EInv o]) \/ exists e0, e = [e0] /\ sendev e0 = false /\ drops e0 = false).
Proof.
  destruct a as [o|s spur back].
  - cbn [wstep]. destruct (wt (wthr_of x (rside o))); [|exists []; rewrite app_nil_r; auto..].
    exists [EInv o]. rewrite wput_log, wcalls_app. split; [reflexivity|]. right. left. eauto.
  - cbn [wstep]. destruct (wt (wthr_of x s)) as [|o p|]; [exists []; rewrite app_nil_r; auto| |exists []; rewrite app_nil_r; auto].
    unfold wpstep. cbv zeta.
    destruct p as [r|r kk|r c [old|] f kk|c w kk|c kk|c kk|w kk|w kk|w kk|kk].
    3: destruct (_ || _).
    all: rewrite wput_log, wcalls_app; (eexists; split; [reflexivity|]); cbn;
      first [left; reflexivity | right; right; eexists; split; [reflexivity|split; reflexivity]].
Qed.
Lemma run_calls bits cap l : ~ In (WCall DropRx) l ->
  let c := Weak.calls (wlog (wrun rside rconsuming (rcode bits cap) l)) in
  existsb drops c = false /\ (sends c <= length (filter (spends spend) l))%nat.
Proof.
  induction l as [|a l IH] using rev_ind; intros D; [split; auto|].
  destruct IH as (A & B); [intros I; apply D, in_or_app; auto|]. unfold wrun in *. rewrite fold_left_app. cbn [fold_left].
  set (x := fold_left _ l _) in *. destruct (step_calls bits cap x a) as (e & E & H). cbv zeta. rewrite E. rewrite filter_app, app_length, existsb_app, A.
  cbn [filter]. destruct H as [->|[(o & -> & ->)|(e0 & -> & H1 & H2)]].
  - rewrite app_nil_r. split; auto. lia.
  - rewrite sends_app. cbn [existsb drops sendev spends orb]. split.
    + destruct o; auto. exfalso. apply D, in_or_app. right. now left.
    + destruct (spend o); cbn [length]; lia.
  - rewrite sends_app, H1. cbn [existsb]. rewrite H2. split; auto. lia.
Qed.
