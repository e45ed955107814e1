(** Properties of the oneshot channel (C29-C33). *)
Require Import NArith List Bool Lia.
Require Import Verif.Spsc Verif.SpscProofs Verif.Oneshot Verif.OneshotSpec.
Require Import Verif.OneshotProofs Verif.OneshotMain.
Import ListNotations.
Open Scope N_scope.

Ltac start_ :=
  intros at_ sched x; subst x;
  pose proof (oneshot_ok at_ sched) as HOK;
  set (x := orun at_ sched) in *; clearbody x;
  destruct HOK as ([tw_ tp_ ts_ tv_ tt_ to_ tn_ tnl_ tz_ tpw_ td_ tc_ tnew_] &
                   [rw_ rcl_ rh_ rd_ rs_ rt_ rk_ rf_ rp_ rnl_ rcz_ rnd_ rpw_ rcd_ rc_ rnew_ rtm_ rcb_] & HJ & HT & HR);
  rewrite ostep_fold in HJ; cbn [obs0 ov ok oc ox] in HJ;
  fold (values (slog x)) in HJ; fold (receiver_wakeups (slog x)) in HJ; fold (sender_wakeups (slog x)) in HJ;
  destruct HJ; cbn in *.

Lemma values_ok : forall at_ sched,
  let x := orun at_ sched in
  let b := values (slog x) in
  (length (v_got b) <= 1)%nat /\
  incl (v_got b ++ v_back b ++ v_dead b) (v_sent b) /\
  (length (v_got b ++ v_back b ++ v_dead b) <= length (v_sent b))%nat /\
  (v_ok b = true -> v_back b = []) /\
  v_miss b = false /\ v_after b = false /\
  (stx x = Gone -> srx x = Gone -> v_sent b = v_got b ++ v_back b ++ v_dead b) /\
  (stx x = Gone -> v_back b = [] -> v_sent b <> [] -> v_ok b = true).
Proof.
  start_.
  assert (TT : tt_ = None \/ exists v, tt_ = Some v /\ tv_ = Some v /\ tda (mkT tw_ tp_ ts_ tv_ tt_ to_ tn_ tnl_ tz_ tpw_ td_ tc_ tnew_) = DNo).
  { destruct tt_; [right|left; reflexivity]. destruct j_d1 as (E & _ & E2). eauto. }
  rewrite j_v1, j_v2, j_v3, j_v4, j_v5.
  assert (G1 : (length (match rd_ with RdGot v => [v] | _ => [] end) <= 1)%nat) by (destruct rd_; simpl; lia).
  assert (G2 : match tp_ with
         | TWr v | TTail _ _ (DTake v | DHold v | DBack v) _ => tv_ = Some v /\ tt_ = None
         | _ => True end) by exact j_d5.
  repeat match goal with |- _ /\ _ => split end; auto.
  - destruct tp_ as [| |? ? [] ?]; cbn in *; destruct rd_; cbn; destruct TT as [->|(v' & -> & -> & ?)];
      intros z Hz; cbn in *; intuition (subst; try congruence; auto);
      repeat match goal with H : Some _ = Some _ |- _ => injection H as -> end; cbn; auto.
    all: destruct j_d5 as [-> _]; cbn; auto.
  - destruct tp_ as [| |? ? [] ?]; cbn in *; destruct rd_; cbn; destruct TT as [->|(v' & -> & -> & ?)];
      cbn; try lia; try congruence; try (destruct j_d5; congruence); destruct j_d5 as [-> _]; cbn; auto; lia.
  - intros E. specialize (j_d6 E). destruct tp_ as [| |? ? [] ?]; cbn in *; auto. destruct j_d5; congruence.
  - intros Et Er. rewrite Et in HT. rewrite Er in HR. cbn in HT, HR. unfold tidle, ridle in *. cbn in *. fwd. subst.
    match goal with H : _ \/ _ |- _ => destruct H as [(E1 & -> & _)|[v E1]] end; rewrite E1.
    + destruct tv_; cbn; [|destruct rd_; try congruence; reflexivity].
      specialize (j_d4 ltac:(discriminate)). destruct rd_; cbn in *; try congruence; contradiction.
    + destruct tp_ as [| |? ? [] ?]; cbn in E1; try discriminate. injection E1 as ->. destruct j_d5 as [-> ->].
      destruct rd_; cbn; try congruence.
  - intros Et Eb Es. rewrite Et in HT. cbn in HT. unfold tidle in HT. cbn in *. fwd.
    match goal with H : _ \/ _ |- _ => destruct H as [(E1 & -> & ->)|[v E1]] end; rewrite E1 in *; [|discriminate].
    destruct tv_; [reflexivity|now destruct Es].
Qed.

(** For every interleaving of the two halves' accesses, in both builds, as long as no
    memory is used after being freed (C32):
    - at most one value is received, and only one that was sent;
    - a value returned by send is never received or destroyed, and at any time the
      sent value is in at most one place;
    - a value is received by every call that starts after send has succeeded with
      nothing received yet, and none is received after is_terminated returned true;
    - once both halves are gone, the sent value has been received, returned or
      destroyed. *)
Theorem C29_at_most_once : forall at_ sched,
  let x := orun at_ sched in
  let b := values (slog x) in
  uaf (smem x) = false ->
  (length (v_got b) <= 1)%nat /\
  incl (v_got b ++ v_back b ++ v_dead b) (v_sent b) /\
  (length (v_got b ++ v_back b ++ v_dead b) <= length (v_sent b))%nat /\
  (v_ok b = true -> v_back b = []) /\
  v_miss b = false /\ v_after b = false /\
  (stx x = Gone -> srx x = Gone -> v_sent b = v_got b ++ v_back b ++ v_dead b) /\
  (stx x = Gone -> v_back b = [] -> v_sent b <> [] -> v_ok b = true).
Proof. intros at_ sched x b _. exact (values_ok at_ sched). Qed.
Print Assumptions C29_at_most_once.

(** Runs of one call from start to end. *)
Definition go (s : side) (n : nat) : list (act oop) := repeat (Step s false) n.
Definition whole (o : oop) : list (act oop) := Call o :: go (oside o) 8.

(** The value is sent while the receiver is between its first look at the state word
    and the registration of its waker; the receiver obtains it.  In the other case
    [close] is called between the write of the value and the claim; the value is
    returned. *)
Example C29_case :
  (let b := values (slog (orun true
     (Call (Poll 7) :: go RX 3 ++ whole (Send 5) ++ go RX 8 ++ whole DropRx))) in
   v_sent b = [5] /\ v_got b = [5] /\ v_ok b = true) /\
  (let x := orun true (Call (Send 5) :: go TX 2 ++ whole Close ++ go TX 8 ++ whole TryRecv ++ whole DropRx) in
   let b := values (slog x) in
   v_sent b = [5] /\ v_got b = [] /\ v_back b = [5] /\ stx x = Gone /\ srx x = Gone /\ uaf (smem x) = false) /\
  v_dead (values (slog (orun false (whole (Send 5) ++ whole DropRx)))) = [5].
Proof. vm_compute. repeat split. Qed.

(** For every interleaving, in both builds, as long as no memory is used after being
    freed (C32): if the last poll returned Pending and the sender has completed send
    or its destructor, the registered waker (that of the first Pending poll) has been
    woken since that poll started; a poll or try_recv started after the sender completed
    or after close returned does not report Pending or None; Canceled is reported only
    if the sender's destructor or close has been called, or a value was received before. *)
Theorem C30_receiver_woken : forall at_ sched,
  let x := orun at_ sched in
  let b := receiver_wakeups (slog x) in
  uaf (smem x) = false ->
  (k_pend b = true -> k_done b = true -> k_woken b = true) /\
  k_badp b = false /\ k_spur b = false.
Proof.
  start_. intros _. split; [|auto].
  intros E1 E2. rewrite j_k1 in E2. destruct (j_k2 E2) as (F1 & F2 & F3 & F4).
  destruct (j_k6 (j_k5 E1)) as [_ F5]. destruct rw_; try contradiction.
  rewrite F1, F2, F3 in F5. intuition discriminate.
Qed.
Print Assumptions C30_receiver_woken.

(** The sender is dropped while the receiver is registering. *)
Example C30_case :
  let x := orun true (Call (Poll 7) :: go RX 4 ++ Call DropTx :: go TX 2 ++ go RX 2 ++ go TX 8) in
  let b := receiver_wakeups (slog x) in
  k_pend b = true /\ k_done b = true /\ k_woken b = true /\ uaf (smem x) = false /\
  visible (slog x) = [EInv (Poll 7); EInv DropTx; ERet (Poll 7) RPending; EWake TX 7; ERet DropTx RUnit].
Proof. vm_compute. repeat split. Qed.

(** For every interleaving, in both builds, as long as no memory is used after being
    freed (C32): if the last poll_canceled returned Pending and close or the
    receiver's destructor has completed, the sender's registered waker has been woken
    since; poll_canceled, is_canceled and send started after that report
    cancellation (send by returning the value), and none of them does before close
    or the receiver's destructor has been called. *)
Theorem C31_cancellation : forall at_ sched,
  let x := orun at_ sched in
  let b := sender_wakeups (slog x) in
  uaf (smem x) = false ->
  (c_pend b = true -> c_closed b = true -> c_woken b = true) /\
  c_bad b = false /\ c_spur b = false.
Proof.
  start_. intros _. split; [|auto].
  intros E1 E2. rewrite j_c1 in E2. destruct (j_c2 E2) as (F1 & F2 & F3).
  destruct (j_c6 (j_c5 E1)) as [_ F5]. destruct tw_; try contradiction.
  rewrite F1, F2, F3 in F5. intuition discriminate.
Qed.
Print Assumptions C31_cancellation.

Example C31_case :
  let x := orun true (whole (PollCanceled 3) ++ Call (Send 5) :: go TX 1 ++ whole Close ++ go TX 8) in
  let b := sender_wakeups (slog x) in
  let b1 := sender_wakeups (slog (orun true (whole (PollCanceled 3) ++ whole Close))) in
  c_pend b1 = true /\ c_closed b1 = true /\ c_woken b1 = true /\ uaf (smem x) = false /\
  visible (slog x) = [EInv (PollCanceled 3); ERet (PollCanceled 3) RPending; EInv (Send 5); EInv Close;
            EWake RX 3; ERet Close RUnit; ERet (Send 5) (RErr 5)].
Proof. vm_compute. repeat split. Qed.

(** The claim as stated is false: a call that consumes one half first announces the end
    of its half and only then accesses the cells, so the other half's end can free the
    block in between. *)
Theorem C32_no_use_after_free_refuted : exists at_ sched, uaf (smem (orun at_ sched)) = true.
Proof.
  exists true, (whole (Poll 7) ++ Call DropTx :: go TX 2 ++ whole DropRx ++ go TX 8).
  vm_compute. reflexivity.
Qed.
Print Assumptions C32_no_use_after_free_refuted.

(** The full statement would have [uaf = false] unconditionally; it is proved for
    executions in which the two consuming calls do not overlap.  For all executions:
    the block is freed at most once, no uninitialised cell is read, no initialised one
    is overwritten; and once both halves are gone the block has been freed and every
    stored value and waker has been moved out. *)
Theorem C32_freed_once_partial : forall at_ sched,
  let x := orun at_ sched in
  bad (smem x) = false /\
  (ends_overlap (slog x) = false -> uaf (smem x) = false) /\
  (freed (smem x) = true -> stx x <> Idle /\ srx x <> Idle) /\
  (stx x = Gone -> srx x = Gone -> freed (smem x) = true /\
     cells (smem x) CTxW = None /\ cells (smem x) CRxW = None /\ cells (smem x) (CBuf 0) = None).
Proof.
  start_. split; [auto|]. split; [|split].
  - intros E. destruct (uaf (smem x)); [|reflexivity]. specialize (j_x7 eq_refl). unfold ends_overlap in E. congruence.
  - rewrite j_fr. intros E. split; intros E1.
    + rewrite E1 in HT. cbn in HT. unfold tidle in HT. cbn in HT. fwd. subst. cbn in *. fwd.
      destruct E as [E|E]; [discriminate|]. fwd. discriminate.
    + rewrite E1 in HR. cbn in HR. unfold ridle in HR. cbn in HR. fwd. subst. cbn in *.
      fwd. destruct E as [E|E]; [|discriminate]. fwd. discriminate.
  - intros E1 E2. rewrite E1 in HT. rewrite E2 in HR. cbn in HT, HR. unfold tidle, ridle in *. cbn in *. fwd. subst. fwd.
    destruct tp_ as [| |t1 k1 d1 f1]; try discriminate. cbn in *. subst.
    rewrite j_tx, j_rx, j_da, j_fr. fwd. subst. split; [|split; [|split]].
    + destruct j_s4 as [->| ->]; auto. now rewrite orb_true_r.
    + destruct tw_; try contradiction; reflexivity.
    + destruct rw_; try contradiction; reflexivity.
    + unfold dcell. cbn. match goal with H : _ \/ _ |- _ => destruct H as [(-> & -> & _)|[v ->]] end.
      * destruct tv_; [|reflexivity]. specialize (j_d4 ltac:(discriminate)). destruct rd_; try contradiction; try reflexivity; congruence.
      * destruct j_d5 as [_ ->]. reflexivity.
Qed.
Print Assumptions C32_freed_once_partial.

(** Both halves registered a waker, the sender sends, the receiver closes and is
    dropped without looking. *)
Example C32_case :
  let x := orun true (whole (Poll 7) ++ whole (PollCanceled 3) ++ whole (Send 5) ++ whole DropRx) in
  ends_overlap (slog x) = false /\ stx x = Gone /\ srx x = Gone /\ freed (smem x) = true /\
  uaf (smem x) = false /\ v_dead (values (slog x)) = [5].
Proof. vm_compute. repeat split. Qed.

(** The most recent waker a poll of the receiver returned Pending with. *)
Definition last_pending (l : list oev) : option N :=
  fold_left (fun a e => match e with ERet (Poll w) RPending => Some w | _ => a end) l None.
Definition woken (w : N) (l : list oev) : bool :=
  existsb (fun e => match e with EWake _ w' => w =? w' | _ => false end) l.

(** The claim as stated is false: once a waker is registered, later polls ignore the
    waker they are given. *)
Theorem C33_latest_waker_refuted : exists at_ sched w,
  let x := orun at_ sched in
  uaf (smem x) = false /\ last_pending (slog x) = Some w /\
  k_pend (receiver_wakeups (slog x)) = true /\ k_done (receiver_wakeups (slog x)) = true /\
  stx x = Gone /\ woken w (slog x) = false.
Proof.
  exists true, (whole (Poll 1) ++ whole (Poll 2) ++ whole (Send 5)), 2.
  vm_compute. repeat split.
Qed.
Print Assumptions C33_latest_waker_refuted.
