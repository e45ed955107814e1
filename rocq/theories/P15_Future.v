(** Properties of fiber futures (C51, C52, C76). *)
Require Import PeanoNat NArith List Bool Lia.
Require Import Verif.Spsc Verif.Oneshot Verif.OneshotSpec Verif.Fiber Verif.FiberSpec Verif.FiberProofs Verif.FutureProofs.
Require Verif.P06_Oneshot.
Import ListNotations.
Open Scope N_scope.

Notation foact := (fact oop unit N).
Notation driven l := (driving oclose l).

(** C51.  For every behaviour of the fiber and every interleaving of runs of its thread
    with accesses of polls, closes and the destructor of the future, in both builds, as
    long as no memory is used after being freed (C76):
    - the fiber is resumed exactly once per run and completes in the run after its last
      yield; it is not resumed in a run that starts after close or the destructor has
      returned, nor after it has completed; it is removed only when it has completed or
      the future was closed or dropped (see [dstep]);
    - polls return Ready at most once, with the value the fiber completed with;
    - a poll that starts after the fiber has completed and was removed returns Ready, if
      the future was not closed and no poll has returned Ready before;
    - if the last poll returned Pending and the fiber was then removed, the waker
      registered first has been woken. *)
Theorem C51_future_resolves : forall at_ sched,
  let s := future_run at_ sched in
  uaf (smem (fch s)) = false ->
  d_bad (driven (flog s)) = false /\
  (length (completed (flog s)) <= 1)%nat /\
  (ready (polled (flog s)) = [] \/ ready (polled (flog s)) = completed (flog s)) /\
  u_miss (resolving (flog s)) = false /\
  (d_ended (driven (flog s)) = true ->
   k_pend (receiver_wakeups (channel (flog s))) = true -> k_woken (receiver_wakeups (channel (flog s))) = true).
Proof.
  intros at_ sched. cbv zeta. intros U. destruct (future_ok at_ sched U) as (E & (sc & K1 & K2) & [H1 H2 H3 H4 H5 H6 H7 H8 H9 H10 H11 H12 H13] & _).
  set (s := future_run at_ sched) in *. rewrite E in *. rewrite K1 in *.
  destruct (P06_Oneshot.C29_at_most_once at_ sc K2) as (A1 & A2 & _ & _ & A5 & _).
  split; [exact H1|]. split; [exact H4|]. split; [|split].
  - rewrite H10. destruct (v_got (values (slog (orun at_ sc)))) as [|v [|]] eqn:Eg; [auto| |cbn in A1; lia]. right.
    assert (In v (v_sent (values (slog (orun at_ sc))))) as Hin by (apply A2; left; reflexivity).
    destruct H5 as [H5|H5]; rewrite H5 in Hin; [contradiction|].
    destruct (completed (flog s)) as [|c [|]]; [contradiction| |cbn in H4; lia]. destruct Hin as [->|[]]. reflexivity.
  - destruct (u_miss (resolving (flog s))); auto. rewrite H13 in A5; auto.
  - intros Hd Hp. destruct (P06_Oneshot.C30_receiver_woken at_ sc K2) as (B1 & _). auto.
Qed.
Print Assumptions C51_future_resolves.

(** Helpers for concrete schedules. *)
Definition turn1 (n m : nat) (o : list foact) : list foact :=
  ARun :: AGo :: repeat (ATx false) n ++ AGo :: o ++ AGo :: repeat (ATx false) m ++ [AGo].
Definition rx (o : oop) (n : nat) : list foact := ARx o :: repeat (ARxStep false) n.

(** The fiber yields, the future is polled, the fiber completes, the future is polled. *)
Example C51_case :
  let s := future_run true (turn1 2 0 [AOut (Yielded tt)] ++ rx (Poll 7) 10 ++ turn1 2 8 [AOut (Complete 5)] ++ rx (Poll 7) 10) in
  uaf (smem (fch s)) = false /\ fgen s = Ended /\ d_runs (driven (flog s)) = 2%nat /\ completed (flog s) = [5] /\
  polled (flog s) = [FPending; FReady 5] /\ u_due (resolving (firstn 28 (flog s))) = true /\
  k_pend (receiver_wakeups (channel (firstn 27 (flog s)))) = true /\
  k_woken (receiver_wakeups (channel (firstn 27 (flog s)))) = true.
Proof. vm_compute. repeat split. Qed.

(** Runs end: from every reachable state, the actions of the generator and one answer of
    the fiber bring the run to its end; and a run that starts after close or the
    destructor has returned ends with the removal of the fiber, which is not resumed. *)
Lemma future_tidy : tidy oside oconsuming false future_body.
Proof.
  cbn. split; [reflexivity|]. split; [reflexivity|]. intros r.
  assert (tidy (R := ores) oside oconsuming false (GResume (fun o : out unit N => match o with Yielded _ => GYield | Complete v => GCall (Send v) (fun _ => GEnd) end))) as A.
  { cbn. split; [reflexivity|]. intros []; cbn; auto. }
  destruct r as [| | |[]| | | | |]; try exact A. cbn. auto.
Qed.
Lemma future_app at_ a b : future_run at_ (a ++ b) = frun oside oconsuming ocode at_ future_api future_body (future_run at_ a) b.
Proof. apply frun_app. Qed.

(** Runs end: from every reachable state, the remaining actions of the generator and one
    answer of the fiber bring the run to its end. *)
Theorem C51_run_ends : forall at_ sched o,
  exists l, (forall a, In a l -> own o None a) /\
    let s := future_run at_ (sched ++ l) in fgen s = Susp \/ fgen s = Ended.
Proof.
  intros at_ sched o. destruct (run_ends oside oconsuming ocode at_ future_api future_body future_tidy (future_run at_ sched) o None) as (l & H1 & H2).
  { apply live_run, future_tidy. }
  exists l. split; [exact H1|]. cbv zeta. now rewrite future_app.
Qed.
Print Assumptions C51_run_ends.

(** A run that starts after close or the destructor has returned ends with the removal of
    the fiber, which is not resumed. *)
Theorem C51_closed_future_removes_fiber : forall at_ sched o,
  let s := future_run at_ sched in
  fgen s = Susp -> d_closed (driven (flog s)) = true ->
  exists l, (forall a, In a l -> own o None a) /\
    let s' := future_run at_ (sched ++ ARun :: l) in
    uaf (smem (fch s')) = false -> fgen s' = Ended /\ d_res (driven (flog s')) = false.
Proof.
  intros at_ sched o. cbv zeta. intros Eg Ec.
  set (s1 := future_run at_ (sched ++ [ARun])).
  destruct (run_ends oside oconsuming ocode at_ future_api future_body future_tidy s1 o None) as (l & H1 & H2).
  { apply live_run, future_tidy. }
  exists l. split; [exact H1|]. replace (sched ++ ARun :: l) with ((sched ++ [ARun]) ++ l) by now rewrite <- app_assoc.
  intros U. assert (d_late (driven (flog (future_run at_ ((sched ++ [ARun]) ++ l)))) = true) as L.
  { rewrite future_app. rewrite (late_kept oside oconsuming ocode at_ future_api oclose future_body _ _ _ _ H1). unfold s1. rewrite future_app. cbn [frun fstep]. rewrite Eg. cbn [tell flog].
    rewrite driving_snoc. now destruct (driven (flog (future_run at_ sched))). }
  destruct (future_ok at_ _ U) as (_ & _ & [B _ _ _ _ _ _ _ _ _ _ _ _] & _ & S1).
  split; [|now apply (late_res oclose)].
  rewrite future_app in S1, L |- *. fold s1 in S1, L |- *. destruct H2 as [H2|H2]; auto. specialize (S1 H2). congruence.
Qed.
Print Assumptions C51_closed_future_removes_fiber.

Example C51_closed_case :
  let s := future_run true (turn1 2 0 [AOut (Yielded tt)] ++ rx Close 10) in
  fgen s = Susp /\ d_closed (driven (flog s)) = true /\ d_ys (driven (flog s)) = 1%nat /\
  let s' := future_run true (turn1 2 0 [AOut (Yielded tt)] ++ rx Close 10 ++ ARun :: AGo :: repeat (ATx false) 2 ++ AGo :: repeat (ATx false) 8 ++ [AGo]) in
  uaf (smem (fch s')) = false /\ fgen s' = Ended /\ d_runs (driven (flog s')) = 2%nat.
Proof. vm_compute. repeat split. Qed.

(** C52.  Polling a future that was closed takes the unreachable branch, and so does
    polling it again after it has returned Ready. *)
Theorem C52_poll_defined_refuted : exists at_ sched,
  let s := future_run at_ sched in
  uaf (smem (fch s)) = false /\ In FUnreachable (polled (flog s)) /\
  ready (polled (flog s)) = [] /\ completed (flog s) = [].
Proof.
  exists true, (rx Close 8 ++ rx (Poll 1) 8). vm_compute. repeat split. now left.
Qed.
Print Assumptions C52_poll_defined_refuted.

Theorem C52_poll_after_ready_refuted : exists at_ sched,
  let s := future_run at_ sched in
  uaf (smem (fch s)) = false /\ d_begun (driven (flog s)) = false /\ polled (flog s) = [FReady 5; FUnreachable].
Proof.
  exists true, (turn1 2 8 [AOut (Complete 5)] ++ rx (Poll 1) 8 ++ rx (Poll 1) 8). vm_compute. repeat split.
Qed.
Print Assumptions C52_poll_after_ready_refuted.

(** The full statement would be that no poll takes the unreachable branch.  Proved: one
    does only if close or the destructor of the future has been called before it
    returned, or an earlier poll has returned Ready.  In particular the removal of the
    fiber alone does not lead there. *)
Theorem C52_poll_defined_partial : forall at_ sched,
  let s := future_run at_ sched in
  uaf (smem (fch s)) = false -> u_unr (resolving (flog s)) = false.
Proof. intros at_ sched. cbv zeta. intros U. destruct (future_ok at_ _ U) as (_ & _ & H & _). apply H. Qed.
Print Assumptions C52_poll_defined_partial.

(** Without the excuse the flag would be raised. *)
Example C52_case :
  let s := future_run true (turn1 2 8 [AOut (Complete 5)] ++ rx (Poll 1) 8) in
  uaf (smem (fch s)) = false /\ polled (flog s) = [FReady 5] /\
  u_unr (resolving (flog s ++ [FCh (ERet (Poll 1) RCanceled)])) = false /\
  u_unr (resolving [FCh (ERet (Poll 1) RCanceled)]) = true.
Proof. vm_compute. repeat split. Qed.

(** C76.  Dropping the future while the thread of the fiber is sending the result, the
    future having been polled before: the sender uses the block after it was freed.
    Here the fiber completes; [Sender::send] has stored the value and set its bits but
    not yet taken the waker when the destructor of the future runs. *)
Theorem C76_drop_while_completing_refuted : exists at_ sched,
  let s := future_run at_ sched in
  uaf (smem (fch s)) = true /\ completed (flog s) = [5] /\ d_begun (driven (flog s)) = true.
Proof.
  exists true, (rx (Poll 7) 10 ++ [ARun; AGo; ATx false; ATx false; AGo; AOut (Complete 5); AGo; ATx false; ATx false; ATx false] ++
    rx DropRx 10 ++ repeat (ATx false) 10).
  vm_compute. repeat split.
Qed.
Print Assumptions C76_drop_while_completing_refuted.

(** The full statement would have [uaf = false] unconditionally.  Proved: it holds when
    the destructor of the future does not overlap with the sending of the result or the
    destruction of the sender.  For all executions: the block is freed at most once,
    nothing uninitialised is read; and once the future is gone and the fiber removed the
    block has been freed, and the result, if any, was received or destroyed. *)
Lemma future_channel at_ sched : exists sc, fch (future_run at_ sched) = orun at_ sc.
Proof.
  unfold future_run. assert (forall l s, (exists sc, fch s = orun at_ sc) -> exists sc, fch (frun oside oconsuming ocode at_ future_api future_body s l) = orun at_ sc) as K.
  { induction l as [|a l IH]; intros s H; cbn [frun]; auto. apply IH. now apply fstep_run. }
  apply K. exists []. reflexivity.
Qed.
Lemma future_channel_log at_ sched : channel (flog (future_run at_ sched)) = slog (fch (future_run at_ sched)).
Proof.
  unfold future_run. assert (forall l s, channel (flog s) = slog (fch s) -> let s' := frun oside oconsuming ocode at_ future_api future_body s l in channel (flog s') = slog (fch s')) as K.
  { induction l as [|a l IH]; intros s H; cbn [frun]; auto. apply IH. now apply fstep_log. }
  apply K. reflexivity.
Qed.
Theorem C76_future_memory_partial : forall at_ sched,
  let s := future_run at_ sched in
  bad (smem (fch s)) = false /\
  (ends_overlap (channel (flog s)) = false -> uaf (smem (fch s)) = false) /\
  (stx (fch s) = Gone -> srx (fch s) = Gone -> freed (smem (fch s)) = true /\
     cells (smem (fch s)) CTxW = None /\ cells (smem (fch s)) CRxW = None /\ cells (smem (fch s)) (CBuf 0) = None).
Proof.
  intros at_ sched. cbv zeta. rewrite future_channel_log. destruct (future_channel at_ sched) as [sc ->].
  destruct (P06_Oneshot.C32_freed_once_partial at_ sc) as (A & B & _ & D). auto.
Qed.
Print Assumptions C76_future_memory_partial.
Example C76_case :
  let s := future_run true (rx (Poll 7) 10 ++ turn1 2 8 [AOut (Complete 5)] ++ rx DropRx 10) in
  ends_overlap (channel (flog s)) = false /\ stx (fch s) = Gone /\ srx (fch s) = Gone /\
  In (FCh (EDropV RX 5)) (flog s) /\ freed (smem (fch s)) = true.
Proof. vm_compute. repeat split. now repeat first [left; reflexivity|right]. Qed.
