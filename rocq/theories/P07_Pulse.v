(** Properties of the pulse channel (C33-C36, C65, C66). *)
Require Import NArith List Bool Lia.
Require Import Verif.Spsc Verif.SpscProofs Verif.Pulse Verif.PulseSpec.
Require Import Verif.PulseProofs Verif.PulseMain.
Import ListNotations.
Open Scope N_scope.

Ltac start_ :=
  intros bits at_ sched Hbits x; subst x;
  pose proof (pulse_ok bits Hbits at_ sched) as HOK;
  set (x := prun bits at_ sched) in *; clearbody x;
  destruct HOK as ([tw_ tp_ ts_ tv_ tt_ to_ tn_ tnl_ tz_ tpw_ td_ tc_ tnew_ ttx_ tsp_] &
                   [rw_ rcl_ rh_ rd_ rs_ rt_ rk_ rf_ rp_ rnl_ rcz_ rnd_ rpw_ rcd_ rc_ rtm_ rcb_ rrx_ rtn_] & HJ & HT & HR);
  rewrite ostep_fold in HJ; cbn [obs0 on ov ok oc ox] in HJ;
  fold (pulse_counter (CAPACITY bits) (slog x)) in HJ; fold (errors (slog x)) in HJ;
  fold (receiver_wakeups (slog x)) in HJ; fold (sender_wakeups (slog x)) in HJ;
  destruct HJ; cbn in *.

(** For every word width, every interleaving and both builds, as long as no memory is
    used after being freed (C66): all calls that send or receive pulses behave like
    operations on one atomic counter of at most [CAPACITY - 1] pulses, each taking
    effect at one moment during the call (see [nstep]).  A receiving call takes
    everything there is, and reports pulses if and only if there are some; a send adds
    exactly its pulses unless they do not fit, and then adds nothing and reports Full;
    a saturating send adds what fits; Canceled is reported only if close or the
    receiver's destructor has been called. *)
Theorem C34_atomic_counter : forall bits at_ sched, 5 < bits ->
  let x := prun bits at_ sched in
  uaf (smem x) = false ->
  n_bad (pulse_counter (CAPACITY bits) (slog x)) = false /\
  n_pend (pulse_counter (CAPACITY bits) (slog x)) < CAPACITY bits.
Proof. start_. auto. Qed.
Print Assumptions C34_atomic_counter.

(** Totals over a history. *)
Definition accepted (l : list pev) : N :=
  fold_left (fun a e => match e with ERet (Send n) ROk => a + n | _ => a end) l 0.
Definition canceled (l : list pev) : N :=
  fold_left (fun a e => match e with ERet (Send n) RClosed => a + n | _ => a end) l 0.
Definition received (l : list pev) : N :=
  fold_left (fun a e => match e with
                        | ERet TryNext (RVal n) | ERet (PollNext _) (RVal n) => a + n
                        | _ => a end) l 0.
(** The pulses of the send in progress. *)
Definition sending (l : list pev) : N :=
  fold_left (fun a e => match e with EInv (Send n) => n | ERet (Send _) _ => 0 | _ => a end) l 0.
Definition saturates (l : list pev) : bool :=
  existsb (fun e => match e with EInv (SatSend _) | ERet (SatSend _) _ => true | _ => false end) l.
Definition closing (l : list pev) : bool :=
  existsb (fun e => match e with EInv Close | EInv DropRx => true | _ => false end) l.

Definition added (t : txs) : N := match t with TxDone false n => n | _ => 0 end.
Definition ofsend (t : txs) (n : N) : bool :=
  match t with TxNo => true | TxInv s m => negb s && (m =? n) | TxDone _ m => m =? n end.

Lemma totals cap l : saturates l = false -> n_bad (pulse_counter cap l) = false ->
  let c := pulse_counter cap l in
  accepted l + canceled l + added (n_tx c) = received l + n_taken c + n_pend c /\
  ofsend (n_tx c) (sending l) = true /\
  (if n_rx c then True else n_taken c = 0) /\
  n_begun c = closing l /\ (if closing l then True else canceled l = 0).
Proof.
  induction l as [|e l IH] using rev_ind; intros Hs Hb; [cbn; auto|].
  unfold pulse_counter, accepted, canceled, received, sending, closing, saturates in *.
  rewrite !fold_left_app in *. rewrite !existsb_app in *. cbn [fold_left existsb] in *.
  rewrite orb_false_r in Hs. apply orb_false_iff in Hs as [Hs He]. rewrite !orb_false_r in *.
  specialize (IH Hs). clear Hs.
  destruct (fold_left (nstep cap) l counter0) as [pend tx rx taken begun bad] eqn:Ec. clear Ec.
  repeat match goal with
  | |- context [fold_left ?f ?l ?x] => let v := fresh "v" in set (v := fold_left f l x) in *; clearbody v
  | |- context [existsb ?f ?l] => let v := fresh "b" in set (v := existsb f l) in *; clearbody v
  end.
  assert (bad = false) as ->.
  { destruct bad; [|reflexivity]. exfalso. clear - Hb.
    destruct e as [[]|[] []| | | |[]|]; cbn in Hb; try discriminate;
    repeat match type of Hb with context [match ?x with _ => _ end] => destruct x; cbn in Hb end; discriminate. }
  specialize (IH eq_refl). destruct IH as (E1 & E2 & E3 & E4 & E5).
  cbn [n_bad n_pend n_tx n_taken n_begun n_rx] in *. subst begun.
  destruct e as [[]|[] []| | | |[]|]; try discriminate He; destruct rx, tx as [|[] ?|[] ?]; cbn -[N.leb N.eqb N.ltb] in Hb, E2 |- *; try discriminate;
  repeat match type of Hb with negb _ = false => apply negb_false_iff in Hb | (_ && _)%bool = true => apply andb_true_iff in Hb as [Hb ?] end;
  cbn in E1; try (case N.ltb_spec; intros); cbn;
  repeat match goal with H : (_ =? _) = true |- _ => apply N.eqb_eq in H | H : ?b = true |- _ => is_var b; subst b end;
  rewrite ?N.eqb_refl, ?orb_false_r, ?orb_true_r;
  try (subst; repeat split; auto; try lia; rewrite ?N.eqb_refl; auto; fail).
Qed.

Definition go (s : side) (n : nat) : list (act pop) := repeat (Step s false) n.
Definition whole (o : pop) : list (act pop) := Call o :: go (pside o) 9.

(** A 7-bit word: at most three pulses.  A send completes between the receiver's two
    accesses, another one does not fit, a saturating one adds what fits. *)
Example C34_case :
  let x := prun 7 true (Call (PollNext 1) :: go RX 3 ++ whole (Send 2) ++ go RX 9 ++ whole (Send 2) ++
                      whole (Send 2) ++ whole (SatSend 5) ++ whole TryNext) in
  visible (slog x) =
    [EInv (PollNext 1); EInv (Send 2); ERet (Send 2) ROk; ERet (PollNext 1) (RVal 2);
     EInv (Send 2); EWake TX 1; ERet (Send 2) ROk; EInv (Send 2); ERet (Send 2) RFull;
     EInv (SatSend 5); EWake TX 1; ERet (SatSend 5) ROk; EInv TryNext; ERet TryNext (RVal 3)] /\
  uaf (smem x) = false.
Proof. vm_compute. repeat split. Qed.

Lemma conservation : forall bits at_ sched, 5 < bits ->
  let x := prun bits at_ sched in
  let l := slog x in
  let pend := n_pend (pulse_counter (CAPACITY bits) l) in
  saturates l = false ->
  received l <= accepted l + canceled l + sending l /\
  (closing l = false -> canceled l = 0) /\
  (stx x = Idle \/ stx x = Gone -> srx x = Idle \/ srx x = Gone -> accepted l + canceled l = received l + pend).
Proof.
  start_. intros Hs. destruct (totals _ _ Hs j_n5) as (E1 & E2 & E3 & E4 & E5).
  split; [|split].
  - unfold ofsend, added in *. destruct (n_tx (pulse_counter (CAPACITY bits) (slog x))) as [|s n|[] n].
    + lia.
    + lia.
    + lia.
    + apply N.eqb_eq in E2. lia.
  - intros E. rewrite E in E5. exact E5.
  - intros Et Er.
    assert (Ht : ttx_ = TxNo).
    { destruct Et as [Et|Et]; rewrite Et in HT; cbn in HT; unfold tidle in HT; cbn in HT; fwd; auto. }
    assert (Hr : rtn_ = 0).
    { destruct Er as [Er|Er]; rewrite Er in HR; cbn in HR; unfold ridle in HR; cbn in HR; fwd; auto. }
    rewrite j_n2, j_n4 in E1. rewrite Ht, Hr in E1. change (added TxNo) with 0 in E1. lia.
Qed.

(** The totals: without saturating sends, at any time the pulses received are at most
    those reported as accepted or cancelled plus those of the send in progress; none are
    reported as cancelled before close or the receiver's destructor has been called; and
    when no call is in progress on either side, accepted and cancelled pulses together
    are exactly the received ones plus the pending ones.  The pending ones are exactly
    what a receiving call started now would return ([C34_atomic_counter]). *)
Theorem C34_conservation : forall bits at_ sched, 5 < bits ->
  let x := prun bits at_ sched in
  let l := slog x in
  let pend := n_pend (pulse_counter (CAPACITY bits) l) in
  uaf (smem x) = false -> saturates l = false ->
  received l <= accepted l + canceled l + sending l /\
  (closing l = false -> canceled l = 0) /\
  (stx x = Idle \/ stx x = Gone -> srx x = Idle \/ srx x = Gone -> accepted l + canceled l = received l + pend).
Proof. intros bits at_ sched H x l pend _. exact (conservation bits at_ sched H). Qed.
Print Assumptions C34_conservation.

Example C34_conservation_case :
  let x := prun 32 true (whole (Send 7) ++ Call TryNext :: go RX 1 ++ whole (Send 4) ++ go RX 9 ++ whole (Send 1)) in
  let l := slog x in
  saturates l = false /\ closing l = false /\ accepted l = 12 /\ received l = 11 /\
  n_pend (pulse_counter (CAPACITY 32) l) = 1 /\ stx x = Idle /\ srx x = Idle /\ uaf (smem x) = false.
Proof. vm_compute. repeat split. Qed.

(** The claim as stated is false: send adds the pulses before it looks whether the
    receiver is closed, so the receiver of a closed channel observes pulses of a send
    that reported cancellation. *)
Theorem C35_closed_send_refuted : exists bits at_ sched n, 5 < bits /\
  let x := prun bits at_ sched in
  uaf (smem x) = false /\
  visible (slog x) = [EInv Close; ERet Close RUnit; EInv (Send n); ERet (Send n) RClosed;
                      EInv TryNext; ERet TryNext (RVal n)].
Proof. exists 32, true, (whole Close ++ whole (Send 3) ++ whole TryNext), 3. vm_compute. repeat split. Qed.
Print Assumptions C35_closed_send_refuted.

(** A closed stream that reported its end can also go on. *)
Theorem C35_stream_resumes_refuted : exists bits at_ sched n, 5 < bits /\
  let x := prun bits at_ sched in
  uaf (smem x) = false /\
  visible (slog x) = [EInv Close; ERet Close RUnit; EInv (PollNext 1); ERet (PollNext 1) REnd;
                      EInv (Send n); ERet (Send n) RClosed; EInv (PollNext 1); ERet (PollNext 1) (RVal n)].
Proof. exists 32, true, (whole Close ++ whole (PollNext 1) ++ whole (Send 3) ++ whole (PollNext 1)), 3. vm_compute. repeat split. Qed.
Print Assumptions C35_stream_resumes_refuted.

(** What is missing from the full statement is that cancelled pulses are not received.
    What holds: a send reporting cancellation was preceded by a call of close or the
    receiver's destructor, one that starts after such a call has returned never reports
    success, and received pulses never exceed all pulses of sends that did not report
    Full. *)
Theorem C35_closed_send_partial : forall bits at_ sched, 5 < bits ->
  let x := prun bits at_ sched in
  let l := slog x in
  uaf (smem x) = false ->
  c_bad (sender_wakeups l) = false /\ c_spur (sender_wakeups l) = false /\
  (saturates l = false -> received l <= accepted l + canceled l + sending l).
Proof.
  intros bits at_ sched Hb x l Hu. split; [|split].
  - revert Hu. subst l. revert x. revert bits at_ sched Hb. start_. auto.
  - revert Hu. subst l. revert x. revert bits at_ sched Hb. start_. auto.
  - intros Hs. now apply (C34_conservation bits at_ sched Hb).
Qed.
Print Assumptions C35_closed_send_partial.

(** Accepted and cancelled pulses arrive together. *)
Example C35_case :
  let x := prun 32 true (whole (Send 2) ++ whole Close ++ whole (Send 3) ++ whole TryNext) in
  let l := slog x in
  saturates l = false /\ accepted l = 2 /\ canceled l = 3 /\ received l = 5 /\ closing l = true /\
  c_closed (sender_wakeups l) = true /\ uaf (smem x) = false.
Proof. vm_compute. repeat split. Qed.

(** For every word width, interleaving and both builds, as long as no memory is used
    after being freed (C66).  If the last poll_next returned Pending, then
    - if send_err or the sender's destructor has completed, a waker passed to poll_next
      was woken since that poll started;
    - likewise if there are pulses and no send is in progress.
    A receiving call that starts after the sender has completed or after close has
    returned does not report Pending or Empty, and the
    end is reported only after send_err, the sender's destructor or close was called.
    The final error is received at most once, only if it was sent, after all pulses: no
    pulses or error are received once the error was received or the end reported on a
    channel that is not closed.  A call that starts after send_err succeeded returns
    pulses or the error.  Once both halves are gone the error was received, returned or
    destroyed. *)
Theorem C36_receiver_woken : forall bits at_ sched, 5 < bits ->
  let x := prun bits at_ sched in
  let k := receiver_wakeups (slog x) in
  let c := pulse_counter (CAPACITY bits) (slog x) in
  let v := errors (slog x) in
  uaf (smem x) = false ->
  (k_pend k = true -> k_done k = true -> k_woken k = true) /\
  (k_pend k = true -> 0 < n_pend c -> stx x = Idle -> k_woken k = true) /\
  k_badp k = false /\ k_spur k = false /\
  (length (v_got v) <= 1)%nat /\
  incl (v_got v ++ v_back v ++ v_dead v) (v_sent v) /\
  (length (v_got v ++ v_back v ++ v_dead v) <= length (v_sent v))%nat /\
  v_miss v = false /\ v_after v = false /\
  (v_got v <> [] -> n_pend c = 0) /\
  (stx x = Gone -> srx x = Gone -> v_sent v = v_got v ++ v_back v ++ v_dead v).
Proof.
  start_. intros _.
  assert (TT : tt_ = None \/ exists v, tt_ = Some v /\ tv_ = Some v /\ tda (mkT tw_ tp_ ts_ tv_ tt_ to_ tn_ tnl_ tz_ tpw_ td_ tc_ tnew_ ttx_ tsp_) = DNo).
  { destruct tt_; [right|left; reflexivity]. destruct j_d1 as (E & _ & E2). eauto. }
  rewrite j_v1, j_v2, j_v3, j_v4.
  assert (G1 : (length (match rd_ with RdGot v => [v] | _ => [] end) <= 1)%nat) by (destruct rd_; simpl; lia).
  repeat match goal with |- _ /\ _ => split end; auto.
  - intros E1 E2. rewrite j_k1 in E2. destruct (j_k2 E2) as (F1 & F2 & F3 & F4).
    destruct (j_k6 (j_k5 E1)) as [_ F5]. destruct rw_; try contradiction.
    rewrite F1, F2, F3 in F5. intuition discriminate.
  - intros E1 E2 E3. rewrite E3 in HT. cbn in HT. unfold tidle in HT. cbn in HT. destruct HT as (_ & _ & _ & _ & Hsp & _).
    destruct (j_k6 (j_k5 E1)) as [_ F5]. destruct rw_; try contradiction. rewrite Hsp in F5. cbn in F5.
    destruct F5 as [_ [F|[F|F]]]; [lia|discriminate|exact F].
  - destruct tp_ as [| |? ? [] ?]; cbn in *; destruct rd_; cbn; destruct TT as [->|(v' & -> & -> & ?)];
      intros z Hz; cbn in *; intuition (subst; try congruence; auto);
      repeat match goal with H : Some _ = Some _ |- _ => injection H as -> end; cbn; auto.
    all: destruct j_d5 as [-> _]; cbn; auto.
  - destruct tp_ as [| |? ? [] ?]; cbn in *; destruct rd_; cbn; destruct TT as [->|(v' & -> & -> & ?)];
      cbn; try lia; try congruence; try (destruct j_d5; congruence); destruct j_d5 as [-> _]; cbn; auto; lia.
  - intros E. destruct rd_; try (now destruct E). exact j_n7.
  - intros Et Er. rewrite Et in HT. rewrite Er in HR. cbn in HT, HR. unfold tidle, ridle in *. cbn in *. fwd. subst.
    match goal with H : _ \/ _ |- _ => destruct H as [(E1 & -> & _)|[v E1]] end; rewrite E1.
    + destruct tv_; cbn; [|destruct rd_; try congruence; reflexivity].
      specialize (j_d4 ltac:(discriminate)). destruct rd_; cbn in *; try congruence; contradiction.
    + destruct tp_ as [| |? ? [] ?]; cbn in E1; try discriminate. injection E1 as ->. destruct j_d5 as [-> ->].
      destruct rd_; cbn; try congruence.
Qed.
Print Assumptions C36_receiver_woken.

(** The sender sends and ends with an error while the receiver is registering; pulses
    come first, then the error, then the end. *)
Example C36_case :
  let x := prun 32 true (Call (PollNext 7) :: go RX 4 ++ whole (Send 2) ++ go RX 9 ++ whole (SendErr 9) ++
                       whole (PollNext 7) ++ whole (PollNext 7) ++ whole (PollNext 7)) in
  visible (slog x) =
    [EInv (PollNext 7); EInv (Send 2); EWake TX 7; ERet (Send 2) ROk; ERet (PollNext 7) RPending;
     EInv (SendErr 9); EWake TX 7; ERet (SendErr 9) ROk; EInv (PollNext 7); ERet (PollNext 7) (RVal 2);
     EInv (PollNext 7); ERet (PollNext 7) (RError 9);
     EInv (PollNext 7); ERet (PollNext 7) REnd] /\
  uaf (smem x) = false /\
  (let y := prun 32 true (whole (PollNext 7) ++ whole (Send 2)) in
   let k := receiver_wakeups (slog y) in
   k_pend k = true /\ k_woken k = true /\ n_pend (pulse_counter (CAPACITY 32) (slog y)) = 2 /\ stx y = Idle) /\
  (let y := prun 32 true (whole (PollNext 7) ++ whole DropTx) in
   let k := receiver_wakeups (slog y) in
   k_pend k = true /\ k_done k = true /\ k_woken k = true).
Proof. vm_compute. repeat split. Qed.

(** The end is final: once the error was received, or the end was reported on a channel
    that was not closed, no pulses are left, none are being sent or received, all that
    were accepted or cancelled have been received, and once the sender is gone its error
    was received or returned. *)
Theorem C36_end_is_final : forall bits at_ sched, 5 < bits ->
  let x := prun bits at_ sched in
  let l := slog x in
  let c := pulse_counter (CAPACITY bits) l in
  let v := errors l in
  uaf (smem x) = false -> v_end v = true ->
  n_pend c = 0 /\ n_tx c = TxNo /\ n_taken c = 0 /\
  (saturates l = false -> received l = accepted l + canceled l) /\
  (stx x = Gone -> v_sent v = v_got v ++ v_back v).
Proof.
  intros bits at_ sched Hb x l c v. subst l c v. revert x. revert bits at_ sched Hb. start_. intros _ He.
  destruct (j_v10 (j_v9 He)) as (E1 & E2 & E3 & E4). pose proof (j_n8 E1) as E5.
  split; [exact E2|]. split; [congruence|]. split; [congruence|]. split.
  - intros Hs. destruct (totals _ _ Hs j_n5) as (F1 & _). rewrite j_n2, j_n4, E2, E3, E5 in F1. cbn in F1. lia.
  - intros Et. rewrite Et in HT. cbn in HT. unfold tidle in HT. cbn in HT. rewrite j_v1, j_v2, j_v3. fwd. subst.
    match goal with H : _ \/ _ |- _ => destruct H as [(F & -> & _)|[v F]] end; rewrite F.
    + destruct tv_; [destruct rd_; try contradiction; injection j_d3 as ->; reflexivity|destruct rd_; try reflexivity; now destruct j_d2].
    + destruct tp_ as [| |? ? [] ?]; cbn in F; try discriminate. injection F as ->. destruct j_d5 as [-> ->].
      destruct rd_; try reflexivity; now destruct j_d2.
Qed.
Print Assumptions C36_end_is_final.
Example C36_end_case :
  let x := prun 32 true (whole (Send 2) ++ whole (SendErr 9) ++ whole TryNext ++ whole TryNext) in
  uaf (smem x) = false /\ v_end (errors (slog x)) = true /\ saturates (slog x) = false /\ stx x = Gone /\ received (slog x) = 2.
Proof. vm_compute. repeat split. Qed.

(** The most recent waker a poll of the receiver returned Pending with. *)
Definition last_pending (l : list pev) : option N :=
  fold_left (fun a e => match e with ERet (PollNext w) RPending => Some w | _ => a end) l None.
Definition woken (w : N) (l : list pev) : bool :=
  existsb (fun e => match e with EWake _ w' => w =? w' | _ => false end) l.

(** The claim of C33 is false of the pulse channel, too. *)
Theorem C33_pulse_latest_waker_refuted : exists bits at_ sched w, 5 < bits /\
  let x := prun bits at_ sched in
  uaf (smem x) = false /\ last_pending (slog x) = Some w /\
  k_pend (receiver_wakeups (slog x)) = true /\ stx x = Gone /\ woken w (slog x) = false.
Proof.
  exists 32, true, (whole (PollNext 1) ++ whole (PollNext 2) ++ whole (Send 5) ++ whole DropTx), 2.
  vm_compute. repeat split.
Qed.
Print Assumptions C33_pulse_latest_waker_refuted.

(** For every word width, interleaving and both builds, as long as no memory is used
    after being freed (C66): if the last poll_canceled returned Pending and close or the
    receiver's destructor has completed, the sender's registered waker has been woken
    since; poll_canceled, is_canceled, send and send_err started after that report
    cancellation (send may report Full instead), and none of them does before close or
    the receiver's destructor has been called. *)
Theorem C65_cancellation : forall bits at_ sched, 5 < bits ->
  let x := prun bits at_ sched in
  let b := sender_wakeups (slog x) in
  uaf (smem x) = false ->
  (c_pend b = true -> c_closed b = true -> c_woken b = true) /\
  c_bad b = false /\ c_spur b = false.
Proof.
  start_. intros _. split; [|auto].
  intros E1 E2. rewrite j_c1 in E2. destruct (j_c2 E2) as (F1 & F2 & F3).
  destruct (j_c6 (j_c5 E1)) as [_ F5]. destruct tw_; try contradiction.
  rewrite F1, F2, F3 in F5. intuition discriminate.
Qed.
Print Assumptions C65_cancellation.

Example C65_case :
  let x := prun 32 true (whole (PollCanceled 3) ++ Call (SendErr 5) :: go TX 1 ++ whole Close ++ go TX 9) in
  let b1 := sender_wakeups (slog (prun 32 true (whole (PollCanceled 3) ++ whole Close))) in
  c_pend b1 = true /\ c_closed b1 = true /\ c_woken b1 = true /\ uaf (smem x) = false /\
  visible (slog x) = [EInv (PollCanceled 3); ERet (PollCanceled 3) RPending; EInv (SendErr 5); EInv Close;
            EWake RX 3; ERet Close RUnit; ERet (SendErr 5) (RBack 5)].
Proof. vm_compute. repeat split. Qed.

(** As for the oneshot channel (C32), the claim as stated is false. *)
Theorem C66_no_use_after_free_refuted : exists bits at_ sched, 5 < bits /\ uaf (smem (prun bits at_ sched)) = true.
Proof.
  exists 32, true, (whole (PollNext 7) ++ Call DropTx :: go TX 2 ++ whole DropRx ++ go TX 9).
  vm_compute. split; reflexivity.
Qed.
Print Assumptions C66_no_use_after_free_refuted.

(** The full statement would have [uaf = false] unconditionally; it is proved for
    executions in which the two consuming calls do not overlap.  For all executions:
    the block is freed at most once, no uninitialised cell is read, no initialised one
    is overwritten; and once both halves are gone the block has been freed and every
    stored error and waker has been moved out. *)
Theorem C66_freed_once_partial : forall bits at_ sched, 5 < bits ->
  let x := prun bits at_ sched in
  bad (smem x) = false /\
  (ends_overlap (slog x) = false -> uaf (smem x) = false) /\
  (freed (smem x) = true -> stx x <> Idle /\ srx x <> Idle) /\
  (stx x = Gone -> srx x = Gone -> freed (smem x) = true /\
     cells (smem x) CTxW = None /\ cells (smem x) CRxW = None /\ cells (smem x) CErr = None).
Proof.
  start_. split; [auto|]. split; [|split].
  - intros E. destruct (uaf (smem x)); [|reflexivity]. specialize (j_x7 eq_refl). unfold ends_overlap in E. congruence.
  - rewrite j_fr. intros E. split; intros E1.
    + rewrite E1 in HT. cbn in HT. unfold tidle in HT. cbn in HT. fwd. subst. cbn in *. fwd.
      destruct E as [E|E]; [discriminate|]. fwd. discriminate.
    + rewrite E1 in HR. cbn in HR. unfold ridle in HR. cbn in HR. fwd. subst. cbn in *.
      fwd. destruct E as [E|E]; [|discriminate]. fwd. discriminate.
  - intros E1 E2. rewrite E1 in HT. rewrite E2 in HR. cbn in HT, HR. unfold tidle, ridle in *. cbn in *. fwd. subst. fwd.
    destruct tp_ as [| |t1 k1 d1 f1]; try discriminate. cbn in *. subst.
    rewrite j_tx, j_rx, j_da, j_fr. fwd. subst. split; [|split; [|split]].
    + destruct j_s4 as [->| ->]; auto. now rewrite orb_true_r.
    + destruct tw_; try contradiction; reflexivity.
    + destruct rw_; try contradiction; reflexivity.
    + unfold dcell. cbn. match goal with H : _ \/ _ |- _ => destruct H as [(-> & -> & _)|[v ->]] end.
      * destruct tv_; [|reflexivity]. specialize (j_d4 ltac:(discriminate)). destruct rd_; try contradiction; try reflexivity; congruence.
      * destruct j_d5 as [_ ->]. reflexivity.
Qed.
Print Assumptions C66_freed_once_partial.

Example C66_case :
  let x := prun 32 true (whole (PollNext 7) ++ whole (PollCanceled 3) ++ whole (SendErr 5) ++ whole DropRx) in
  ends_overlap (slog x) = false /\ stx x = Gone /\ srx x = Gone /\ freed (smem x) = true /\
  uaf (smem x) = false /\ v_dead (errors (slog x)) = [5].
Proof. vm_compute. repeat split. Qed.
