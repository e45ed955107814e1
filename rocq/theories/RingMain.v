(** The invariants of the ring channel put together. *)
Require Import NArith List Bool Lia.
Require Import Verif.Spsc Verif.SpscWp Verif.Ring Verif.RingWord Verif.RingSpec Verif.RingQueue
  Verif.RingRxWaker Verif.RingTxWaker Verif.RingLife Verif.RingHist.
Import ListNotations.
Open Scope N_scope.

(** A machine word and a capacity accepted by the constructor, except [MAX_CAPACITY]
    itself. *)
Definition fits (bits cap : N) : Prop := 6 <= bits /\ N.even bits = true /\ 1 < cap /\ cap < MAX_CAPACITY bits.

Lemma even_LB bits : 6 <= bits -> N.even bits = true -> COUNT_BITS bits = LB bits.
Proof.
  intros H E. apply N.even_spec in E as [k ->].
  unfold LB, COUNT_BITS, PARAM_BITS. rewrite N.shiftr_div_pow2. change (2 ^ 1) with 2.
  replace (2 * k - 6) with ((k - 3) * 2) by lia. rewrite N.div_mul by discriminate. lia.
Qed.

Lemma one_event {O R} side_of consuming code at_ (x : sys O R) a :
  slog (step side_of consuming code at_ x a) = slog x \/
  exists e, slog (step side_of consuming code at_ x a) = slog x ++ [e].
Proof.
  destruct a as [o|s spur]; cbn [step].
  - destruct (thr_of x (side_of o)); auto. right. exists (EInv o). now destruct (side_of o).
  - destruct (thr_of x s) as [|o p|]; auto.
    assert (forall m e t, pstep consuming at_ s o p (smem x) spur = (m, e, t) -> e = [] \/ exists e', e = [e']) as K.
    { intros m e t E. destruct p; cbn in E; try (destruct (take (smem x) c)); try (destruct (peek (smem x) c));
        try (destruct at_; [destruct old; [destruct (_ || _)|]|]); injection E as <- <- <-; eauto. }
    destruct (pstep consuming at_ s o p (smem x) spur) as [[m e] t]. destruct (K _ _ _ eq_refl) as [->|[e' ->]].
    + left. destruct s; cbn; now rewrite app_nil_r.
    + right. exists e'. now destruct s.
Qed.

Section Main.
  Variables bits cap : N.
  Hypothesis F : fits bits cap.
  Variable at_ : bool.
  Notation run_ := (rrun bits cap at_).

  Lemma inv1 sched : let x := run_ sched in q_racy (queue cap (slog x)) = false ->
    exists g h, J bits cap (smem x) (queue cap (slog x)) g h /\
      thr_ok TX rconsuming (qstep cap) ok1 safe1 (J bits cap) tidle (stx x) g /\
      thr_ok RX rconsuming (qstep cap) ok1 safe1 (Jr bits cap) ridle (srx x) h.
  Proof.
    destruct F as (F1 & F2 & F3 & F4). intros x Q.
    apply (sys_queue bits cap F1 F3 F4 (even_LB _ F1 F2) at_ sched). unfold ok1. fold (queue cap (slog (run_ sched))). subst x. now rewrite Q.
  Qed.
  Lemma inv2 sched : let x := run_ sched in
    exists g h, J2 bits cap (smem x) (receiver_wakeups (slog x)) g h /\
      thr_ok TX rconsuming kstep ok2 safe2 (J2 bits cap) tidle2 (stx x) g /\
      thr_ok RX rconsuming kstep ok2 safe2 (J2r bits cap) ridle2 (srx x) h.
  Proof.
    destruct F as (F1 & F2 & F3 & F4). now apply (sys_rxwaker bits cap F1 F3 F4 (even_LB _ F1 F2) at_ sched).
  Qed.
  Lemma inv3 sched : let x := run_ sched in s_stale (sender_wakeups (slog x)) = false ->
    exists g h, J3 bits cap (smem x) (sender_wakeups (slog x)) g h /\
      thr_ok TX rconsuming sstep ok3 safe3 (J3 bits cap) tidle3 (stx x) g /\
      thr_ok RX rconsuming sstep ok3 safe3 (J3r bits cap) ridle3 (srx x) h.
  Proof.
    destruct F as (F1 & F2 & F3 & F4). intros x Q.
    apply (sys_txwaker bits cap F1 F3 F4 (even_LB _ F1 F2) at_ sched). unfold ok3. fold (sender_wakeups (slog (run_ sched))). subst x. now rewrite Q.
  Qed.
  Lemma inv4 sched : let x := run_ sched in ends_overlap (slog x) = false ->
    exists g h, J4 (smem x) (fold_left xstep (slog x) over0) g h /\
      thr_ok TX rconsuming xstep ok4 safe4 J4 idle4 (stx x) g /\
      thr_ok RX rconsuming xstep ok4 safe4 J4r idle4 (srx x) h.
  Proof.
    destruct F as (F1 & F2 & F3 & F4). intros x Q.
    apply (sys_life bits cap F1 at_ sched). unfold ok4. unfold ends_overlap in Q. subst x. now rewrite Q.
  Qed.

  (** *** The queue. *)
  Lemma queue_ok sched : let q := queue cap (slog (run_ sched)) in q_racy q = false ->
    q_bad q = false /\ len (q_pend q) <= cap.
  Proof.
    intros q Q. destruct (inv1 sched Q) as (g & h & (v & c & _ & _ & []) & _). split; [assumption|].
    fold q in b_len. rewrite len_app in b_len. lia.
  Qed.

  Lemma pre_not_racy sched : let l := slog (run_ sched) in u_pre (calls l) = false -> q_racy (queue cap l) = false.
  Proof.
    induction sched as [|a s IH] using rev_ind; cbn zeta in *; [reflexivity|].
    pose proof (run_hist bits cap at_ s) as H. cbn zeta in H.
    pose proof (queue_ok s) as K. cbn zeta in K. unfold rrun in *.
    rewrite run_app. cbn [run].
    set (x := run rside rconsuming (rcode bits cap) at_ sys0 s) in *.
    destruct (one_event rside rconsuming (rcode bits cap) at_ x a) as [->|[e ->]]; auto.
    intros U. assert (u_pre (calls (slog x)) = false) as U'.
    { destruct (u_pre (calls (slog x))) eqn:E; [|reflexivity]. rewrite calls_snoc in U.
      now rewrite (u_pre_sticky _ e E) in U. }
    destruct (K (IH U')) as (K1 & _).
    exact (racy_step _ _ _ _ _ H K1 (IH U') U).
  Qed.

  (** *** Memory. *)
  Definition orderly (l : list rev_) : Prop :=
    q_racy (queue cap l) = false /\ s_stale (sender_wakeups l) = false /\ ends_overlap l = false.
  Lemma orderly_pre l e : orderly (l ++ e) -> orderly l.
  Proof.
    assert (forall A (st : A -> rev_ -> A) ok, (forall b e, ok (st b e) = true -> ok b = true) ->
      forall b0 : A, ok (fold_left st (l ++ e) b0) = true -> ok (fold_left st l b0) = true) as K.
    { intros A st ok S b0. rewrite fold_left_app. apply sticky_fold, S. }
    intros (A & B & C). unfold queue, sender_wakeups, ends_overlap in *. split; [|split].
    - apply negb_true_iff. apply (K _ (qstep cap) ok1 (ok1_sticky cap)). unfold ok1. now rewrite A.
    - apply negb_true_iff. apply (K _ sstep ok3 ok3_sticky). unfold ok3. now rewrite B.
    - apply negb_true_iff. apply (K _ xstep ok4 ok4_sticky). unfold ok4. now rewrite C.
  Qed.

  Lemma orderly_fine sched : let x := run_ sched in orderly (slog x) ->
    forall s o p c, thr_of x s = Run o p -> access p = Some c -> fine (smem x) c.
  Proof.
    intros x (A & B & C) s o p c E1 E2. pose proof F as (F1 & F2 & F3 & F4).
    assert (safe1 (smem x) c) as S1.
    { eapply (sys_ok_safe rconsuming ring0 (qstep cap) ok1 safe1); [apply (sys_queue bits cap F1 F3 F4 (even_LB _ F1 F2) at_ sched)| |exact E1|exact E2].
      unfold ok1. fold (queue cap (slog x)). now rewrite A. }
    assert (safe2 (smem x) c) as S2.
    { eapply (sys_ok_safe rconsuming rwake0 kstep ok2 safe2); [apply (sys_rxwaker bits cap F1 F3 F4 (even_LB _ F1 F2) at_ sched)|reflexivity|exact E1|exact E2]. }
    assert (safe3 (smem x) c) as S3.
    { eapply (sys_ok_safe rconsuming swake0 sstep ok3 safe3); [apply (sys_txwaker bits cap F1 F3 F4 (even_LB _ F1 F2) at_ sched)| |exact E1|exact E2].
      unfold ok3. fold (sender_wakeups (slog x)). now rewrite B. }
    assert (safe4 (smem x) c) as S4.
    { eapply (sys_ok_safe rconsuming over0 xstep ok4 safe4); [apply (sys_life bits cap F1 at_ sched)| |exact E1|exact E2].
      unfold ok4. unfold ends_overlap in C. now rewrite C. }
    split; [exact S4|]. destruct c as [|[]|[]|[]|]; cbn in *; auto.
  Qed.

  Lemma memory_ok sched : let x := run_ sched in orderly (slog x) -> uaf (smem x) = false /\ bad (smem x) = false.
  Proof. apply (fine_run rside rconsuming (rcode bits cap) at_ orderly orderly_pre orderly_fine). Qed.

  Lemma freed_once sched : let x := run_ sched in ends_overlap (slog x) = false ->
    (freed (smem x) = true -> stx x <> Idle /\ srx x <> Idle) /\
    (stx x = Gone -> srx x = Gone -> freed (smem x) = true).
  Proof.
    intros x C. destruct (inv4 sched C) as (g & h & [] & Ht & Hr). fold x in l_freed, Ht, Hr. split.
    - rewrite l_freed. intros E. apply orb_true_iff in E. split; intros E1; rewrite E1 in *; cbn in *.
      + destruct Ht as (T1 & T2 & T3). destruct E as [E|E]; [destruct (l_st (l_fs E)) as (? & _)|destruct (l_sr (l_fs' E)) as (_ & ? & _)]; congruence.
      + destruct Hr as (T1 & T2 & T3). destruct E as [E|E]; [destruct (l_st (l_fs E)) as (_ & ? & _)|destruct (l_sr (l_fs' E)) as (? & _)]; congruence.
    - intros E1 E2. rewrite E1 in Ht. rewrite E2 in Hr. destruct Ht as (T1 & T2 & T3), Hr as (R1 & R2 & R3).
      rewrite l_freed, <- T3, <- R3. apply orb_true_iff. auto.
  Qed.

  Lemma rx_waker_gone sched : let x := run_ sched in stx x = Gone -> srx x = Gone -> cells (smem x) CRxW = None.
  Proof.
    intros x E1 E2. destruct (inv2 sched) as (g & h & (v & _ & _ & []) & Ht & Hr). fold x in k_cell, Ht, Hr.
    rewrite E1 in Ht. rewrite E2 in Hr. cbn in Ht, Hr. red in Ht. subst g. destruct Hr as (_ & _ & Hr).
    rewrite k_cell. cbn. destruct (krw h); try contradiction; reflexivity.
  Qed.

  Lemma tx_waker_gone sched : let x := run_ sched in s_stale (sender_wakeups (slog x)) = false ->
    stx x = Gone -> srx x = Gone -> cells (smem x) CTxW = None.
  Proof.
    intros x E E1 E2. destruct (inv3 sched E) as (g & h & (v & _ & _ & []) & Ht & Hr). fold x in s_cell, Ht, Hr.
    rewrite E1 in Ht. rewrite E2 in Hr. cbn in Ht, Hr. destruct Ht as (_ & _ & _ & _ & Ht), Hr as (R1 & _ & _ & R2 & _).
    rewrite s_cell. cbn. rewrite (s_rh R2), R1. destruct (stw g); try contradiction; reflexivity.
  Qed.

  Lemma buffer_gone sched : let x := run_ sched in q_racy (queue cap (slog x)) = false ->
    stx x = Gone -> srx x = Gone -> cells (smem x) CErr = None /\ forall i, i < cap -> cells (smem x) (CBuf i) = None.
  Proof.
    intros x E E1 E2. destruct (inv1 sched E) as (g & h & (v & c & _ & _ & []) & Ht & Hr). fold x in e_cell, b_buf, Ht, Hr, a_gone.
    rewrite E1 in Ht. rewrite E2 in Hr. cbn in Ht, Hr. destruct Ht as (_ & _ & T1 & T2 & _), Hr as (_ & R1 & R2 & _ & R3).
    destruct (a_gone R3) as (_ & P1 & P2). rewrite T2, P2, R2 in e_cell. split; [exact e_cell|].
    rewrite R1, P1, T1 in b_buf. cbn in b_buf.
    intros i Hi. apply (buf_empty cap) with (c' := i) in b_buf; auto; try (destruct F as (_ & _ & ? & _); lia).
    specialize (b_buf 0). cbn in b_buf. rewrite ix_0 in b_buf; auto; destruct F as (_ & _ & ? & _); try lia. apply b_buf. lia.
  Qed.

  (** *** Wakeups. *)
  Lemma same_len m q g h v : J bits cap m q g h -> st m = encv bits v -> vok bits cap v ->
    vlen v = len (q_pend q) /\ vc v = q_closed q.
  Proof.
    intros (v' & c & E & Hv & []) E' Hv'. destruct F as (F1 & F2 & F3 & F4). pose proof (even_LB _ F1 F2) as F5.
    rewrite <- a_len, <- a_cls, <- (wlen bits cap F1 F3 F4 F5 v Hv'), <- (wlen bits cap F1 F3 F4 F5 v' Hv), <- (has_CLOSED bits v), <- (has_CLOSED bits v').
    rewrite <- E, <- E'. auto.
  Qed.

  Definition calm (t : thr rop rres) : Prop := match t with Run _ _ => False | _ => True end.

  Lemma rx_woken sched : let x := run_ sched in let k := receiver_wakeups (slog x) in
    k_pend k = true -> calm (stx x) ->
    (stx x = Gone -> k_woken k = true) /\
    (q_racy (queue cap (slog x)) = false -> q_pend (queue cap (slog x)) <> [] -> k_woken k = true).
  Proof.
    intros x k Kp Ct. destruct (inv2 sched) as (g & h & (v & Ev & Hv & []) & Ht & Hr). fold x k in Ev, k_pnd, k_wt, Ht, Hr.
    assert (ksp g = SpNo /\ ktk g = TkNo /\ kwk g = None /\ (stx x = Gone -> kth g = true)) as (S1 & S2 & S3 & S4).
    { destruct (stx x) as [| |]; cbn in Ht; try contradiction; red in Ht; subst g; cbn; repeat split; auto; discriminate. }
    destruct (k_wt (k_pw (eq_trans (eq_sym k_pnd) Kp))) as (_ & _ & W1 & W2). split.
    - intros E. destruct (W1 (S4 E)) as [?|[?|?]]; congruence.
    - intros R E. destruct (inv1 sched R) as (g1 & h1 & J1 & _). destruct (same_len _ _ _ _ v J1 Ev Hv) as (L & _).
      destruct W2 as [?|?]; [|congruence|assumption]. rewrite L. destruct (q_pend _); [now contradiction E|].
      rewrite len_cons. lia.
  Qed.

  Lemma tx_woken sched : let x := run_ sched in let b := sender_wakeups (slog x) in let q := queue cap (slog x) in
    s_stale b = false -> forall k, s_pend b = Some k -> calm (srx x) ->
    (s_closed b = true \/ srx x = Gone -> s_woken b = true) /\
    (q_racy q = false -> q_closed q = true \/ is_ready cap q k = true -> s_woken b = true).
  Proof.
    intros x b q St k Sp Cr. destruct (inv3 sched St) as (g & h & (v & Ev & Hv & []) & Ht & Hr). fold x b in Ev, s_pnd, s_wt, s_clr, Ht, Hr.
    assert (stk h = TkNo /\ swk_ h = None /\ ssw h = SwNo /\ (srx x = Gone -> srh h = true)) as (S1 & S2 & S3 & S4).
    { destruct (srx x) as [| |]; cbn in Hr; try contradiction; destruct Hr as (? & ? & ? & ? & _); repeat split; auto; discriminate. }
    assert (swt g = Some k) as W by (rewrite s_pw; congruence).
    destruct (s_wt k W) as (_ & _ & W1). rewrite S1, S2, S3 in W1. split.
    - intros E. assert (scl h = true) as Ec by (destruct E as [E|E]; [apply s_clr'; congruence|auto]).
      rewrite Ec in W1. destruct W1 as [?|[?|?]]; congruence.
    - intros R E. destruct (inv1 sched R) as (g1 & h1 & J1 & _). destruct (same_len _ _ _ _ v J1 Ev Hv) as (L & C). fold x q in L, C.
      destruct (scl h) eqn:Ec.
      + destruct W1 as [?|[?|?]]; congruence.
      + destruct W1 as [?|[?|M]]; [assumption|congruence|]. exfalso. destruct E as [E|E]; [congruence|].
        destruct k; cbn in M, E; try discriminate.
        * destruct M as (_ & _ & M). apply N.ltb_lt in E. lia.
        * destruct M as (_ & _ & M). destruct (q_pend q) as [|n p] eqn:Eq; [rewrite len_nil in L; congruence|discriminate].
  Qed.
End Main.
