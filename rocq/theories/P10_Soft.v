(** Properties of the soft-thread scheduler (C43-C46, C70-C72). *)
Require Import NArith List Bool Lia Arith.
From Verif Require Import SoftSpec Soft SoftProofs SoftInv SoftInv2 SoftCredit SoftRun.
Import ListNotations.
Open Scope N_scope.

(** An execution of a new pool; [count]: the number of threads, [atomics]: whether the
    hardware has atomic operations. *)
Definition soft (count : N) (atomics : bool) (l : list sact) : sst := srun count atomics sinit l.
(** Its history. *)
Definition hist (count : N) (atomics : bool) (l : list sact) : list sev := slog (soft count atomics l).
(** No function of the scheduler is in progress, and no thread. *)
Definition idle (s : sst) : Prop := forall f, In f (stk s) -> f = FIrq.

Definition go (n : nat) : list sact := repeat (Go false) n.
Definition wake (i : N) : list sact := Do (SetPending i) :: go 14.
Definition ret : list sact := Do Return :: go 14.

(** Three threads: 0 with priority 0, 1 with priority 1, 2 with priority 2.  Thread 0 is
    started, woken thread 1 preempts it, an interrupt wakes 2 and 0; all return. *)
Definition nested : list sact :=
  [Irq; Do (SetPriority 1 1); Do (SetPriority 2 2)] ++ wake 0 ++ wake 1 ++ Irq :: wake 2 ++ Do (IsPending 2) :: go 2 ++
  ret ++ [Do Return] ++ ret ++ ret.
Example nested_case : forall b : bool,
  (hist 3 b nested, stk (soft 3 b nested)) =
  ([EPrio 1 1; EPrio 2 2; EWake 0; EPend 0 0; EMark 0 0; ESel 0; ETake 0 0; EResume 0 0; EWake 1; EPend 1 1; EMark 1 1;
    ESel 1; ETake 1 1; EResume 1 1; EWake 2; EPend 2 2; EMark 2 2; ESel 2; ETake 2 2; EResume 2 2; EIs 2 2 false;
    EDone 2; EBack; EWoken 2; EDone 1; EBack; EWoken 1; EDone 0; EBack; EWoken 0], [FIrq]).
Proof. intros []; vm_compute; reflexivity. Qed.

(** ** C43: preemption *)

(** A running thread raises its own priority and wakes itself: it is started again, above
    itself. *)
Definition raised : list sact := Irq :: wake 0 ++ Do (SetPriority 0 5) :: wake 0.
Theorem C43_preempts_lower_refuted : forall b : bool, exists l a e i p j q,
  hist 1 b l = a ++ EResume i p :: e /\ In (j, q) (running a) /\ prio i a <= prio j a.
Proof.
  intros b. exists raised, (removelast (hist 1 b raised)), [], 0, 5, 0, 0.
  destruct b; vm_compute; repeat split; auto; discriminate.
Qed.
Print Assumptions C43_preempts_lower_refuted.

(** More than 32 threads, no priority is changed after the threads were woken: thread 1 of
    priority 20 is started in place of thread 33 of priority 0; thread 0 of priority 5
    preempts it. *)
Definition mixed : list sact :=
  [Irq; Do (SetPriority 1 20); Do (SetPriority 2 1); Do (SetPriority 0 5); Do (WillPreempt 2)] ++ go 4 ++
  [Do (WillPreempt 33)] ++ go 4 ++ [Do Preempt] ++ go 20 ++ [Do Return] ++ go 60 ++ wake 0.
Theorem C43_preempts_lower_many_refuted : forall b : bool, exists l a e i p j q,
  hist 40 b l = a ++ EResume i p :: e /\ In (j, q) (running a) /\ prio i a <= prio j a /\
  forallb (fun k => negb (m_bad (moved k a))) (map N.of_nat (seq 0 40)) = true.
Proof.
  intros b. exists mixed, (removelast (hist 40 b mixed)), [], 0, 5, 1, 0.
  destruct b; vm_compute; repeat split; auto; discriminate.
Qed.
Print Assumptions C43_preempts_lower_many_refuted.

(** In terms of the priorities that the threads were chosen with.  Missing: more than 32
    threads. *)
Theorem C43_level_partial count atomics l a i p e : 1 <= count <= 32 ->
  hist count atomics l = a ++ EResume i p :: e ->
  (forall j q, In (j, q) (running a) -> q < p) /\ (exists r, levels a = p :: r) /\ forall q, In q (tl (levels a)) -> q < p.
Proof.
  intros small. revert a i p e.
  enough (A : always (fun a e => match e with EResume i p =>
    (forall j q, In (j, q) (running a) -> q < p) /\ (exists r, levels a = p :: r) /\ forall q, In q (tl (levels a)) -> q < p
    | _ => True end) (hist count atomics l)).
  { intros a i p e E. exact (A _ _ _ E). }
  apply run_always; auto. intros s s' e I H E. destruct e; auto.
  destruct (at_resume count s s' i p I H E) as (ptr & prev & b & w & r & K & K1 & K2 & K3).
  destruct (i_L _ _ I) as (L1 & L2). rewrite L1, L2, K. simpl. split; [|split].
  - intros j q J. apply bodies_in in J as (pri & -> & _ & J). apply K3 in J. lia.
  - exists (lvls r). f_equal. lia.
  - intros q J. apply lvls_in in J as (m & -> & J). apply K3 in J. lia.
Qed.
Print Assumptions C43_level_partial.

(** In terms of the priorities of the threads.  Missing: more than 32 threads, and
    histories in which the priority of a woken or running thread is changed. *)
Theorem C43_preempts_lower_partial count atomics l a i p e : 1 <= count <= 32 ->
  hist count atomics l = a ++ EResume i p :: e ->
  (forall j, m_bad (moved j a) = false) ->
  forall j q, In (j, q) (running a) -> prio j a < prio i a.
Proof.
  intros small. revert a i p e.
  enough (A : always (fun a e => match e with EResume i p =>
    (forall j, m_bad (moved j a) = false) -> forall j q, In (j, q) (running a) -> prio j a < prio i a
    | _ => True end) (hist count atomics l)).
  { intros a i p e E. exact (A _ _ _ E). }
  apply run_always; auto. intros s s' e I H E. destruct e; auto. intros M j q J.
  destruct (at_resume count s s' i p I H E) as (ptr & prev & b & w & r & K & K1 & K2 & K3).
  destruct (i_L _ _ I) as (_ & L2). rewrite L2, K in J. simpl in J. apply bodies_in in J as (pri & -> & J1 & J2).
  apply K3 in J2. rewrite (t_pr _ _ (i_T _ _ I i)), (t_pr _ _ (i_T _ _ I j)).
  assert (X : pr s i + 1 = p + 1) by (apply (t_use _ _ (i_T _ _ I i) (M i)); rewrite K; simpl; auto).
  assert (Y : pr s j + 1 = pri) by (apply (t_use _ _ (i_T _ _ I j) (M j)); rewrite K; simpl; auto). lia.
Qed.
Print Assumptions C43_preempts_lower_partial.

Example C43_case : forall b : bool, let a := firstn 19 (hist 3 b nested) in
  hist 3 b nested = a ++ EResume 2 2 :: skipn 20 (hist 3 b nested) /\
  running a = [(1, 1); (0, 0)] /\ forallb (fun k => negb (m_bad (moved k a))) [0; 1; 2] = true.
Proof. intros []; vm_compute; auto. Qed.

(** ** C70: a running thread is not started again *)
Theorem C70_no_reentrance_refuted : forall b : bool, exists l a e i p q,
  hist 1 b l = a ++ EResume i p :: e /\ In (i, q) (running a).
Proof. intros b. exists raised, (removelast (hist 1 b raised)), [], 0, 5, 0. destruct b; vm_compute; auto. Qed.
Print Assumptions C70_no_reentrance_refuted.

(** Missing: more than 32 threads, and histories in which the priority of that thread was
    changed while it was woken or running. *)
Theorem C70_no_reentrance_partial count atomics l a i p e : 1 <= count <= 32 ->
  hist count atomics l = a ++ EResume i p :: e ->
  m_bad (moved i a) = false -> forall q, ~ In (i, q) (running a).
Proof.
  intros small. revert a i p e.
  enough (A : always (fun a e => match e with EResume i p =>
    m_bad (moved i a) = false -> forall q, ~ In (i, q) (running a) | _ => True end) (hist count atomics l)).
  { intros a i p e E. exact (A _ _ _ E). }
  apply run_always; auto. intros s s' e I H E. destruct e; auto. intros M q J.
  destruct (at_resume count s s' i p I H E) as (ptr & prev & b & w & r & K & K1 & K2 & K3).
  destruct (i_L _ _ I) as (_ & L2). rewrite L2, K in J. simpl in J. apply bodies_in in J as (pri & -> & J1 & J2).
  apply K3 in J2.
  assert (X : pr s i + 1 = p + 1) by (apply (t_use _ _ (i_T _ _ I i) M); rewrite K; simpl; auto).
  assert (Y : pr s i + 1 = pri) by (apply (t_use _ _ (i_T _ _ I i) M); rewrite K; simpl; auto). lia.
Qed.
Print Assumptions C70_no_reentrance_partial.

(** A thread wakes itself and is started again after it has returned, when another thread
    of its priority makes the scheduler look at it. *)
Definition twice : list sact := Irq :: wake 0 ++ wake 0 ++ ret ++ wake 1 ++ ret ++ ret.
Example C70_case : forall b : bool,
  map (fun e => match e with EResume i _ => Some (i, true) | EDone i => Some (i, false) | _ => None end)
      (filter (fun e => match e with EResume _ _ | EDone _ => true | _ => false end) (hist 2 b twice))
  = [Some (0, true); Some (0, false); Some (0, true); Some (0, false); Some (1, true); Some (1, false)] /\
  m_bad (moved 0 (hist 2 b twice)) = false.
Proof. intros []; vm_compute; auto. Qed.

(** ** C44: the highest priority first *)

(** A thread wakes itself: the scheduler goes back to what it has preempted although that
    thread is pending. *)
Definition yield : list sact := Irq :: wake 0 ++ wake 0 ++ ret.
Theorem C44_highest_first_refuted : forall b : bool, exists l a e i p,
  hist 1 b l = a ++ EBack :: e /\ waits i p a = WTold /\ tl (levels a) = [].
Proof. intros b. exists yield, (firstn 11 (hist 1 b yield)), [EWoken 0], 0, 0. destruct b; vm_compute; auto. Qed.
Print Assumptions C44_highest_first_refuted.

(** When preempt starts to run threads, nothing of a higher priority waits.  Missing: more
    than 32 threads. *)
Theorem C44_start_highest_partial count atomics l a p e : 1 <= count <= 32 ->
  hist count atomics l = a ++ ESel p :: e ->
  forall i q, p < q -> waits i q a <> WTold.
Proof.
  intros small. revert a p e.
  enough (A : always (fun a e => match e with ESel p => forall i q, p < q -> waits i q a <> WTold | _ => True end)
    (hist count atomics l)).
  { intros a p e E. exact (A _ _ _ E). }
  apply run_always; auto. intros s s' e I H E. destruct e; auto. intros i q Q T.
  destruct (at_sel count s s' p I H E) as (K1 & K2 & K3). destruct (told_above count s i q I T) as (X & Y); [lia|].
  rewrite K3 in Y by lia. discriminate.
Qed.
Print Assumptions C44_start_highest_partial.

(** When it goes on with another priority.  Missing: more than 32 threads, and priorities
    the scheduler was told about while their threads were being run, or by will_preempt
    without a call of preempt. *)
Theorem C44_next_highest_partial count atomics l a p e : 1 <= count <= 32 ->
  hist count atomics l = a ++ ENext p :: e ->
  (exists c r, levels a = c :: r /\ p < c /\ forall i q, p < q < c -> waits i q a <> WTold) /\
  forall i q, p < q -> sure q a -> waits i q a <> WTold.
Proof.
  intros small. revert a p e.
  enough (A : always (fun a e => match e with ENext p =>
    (exists c r, levels a = c :: r /\ p < c /\ forall i q, p < q < c -> waits i q a <> WTold) /\
    forall i q, p < q -> sure q a -> waits i q a <> WTold | _ => True end)
    (hist count atomics l)).
  { intros a p e E. exact (A _ _ _ E). }
  apply run_always; auto. intros s s' e I H E. destruct e; auto.
  destruct (at_next count s s' p I H E) as (ptr & pri & prev & q & r & K & Kq & K1 & K2 & K3 & K4). split.
  - exists (pri - 1), (lvls r). destruct (i_L _ _ I) as (-> & _). rewrite K. simpl. split; auto. split; [lia|].
    intros i x X T. destruct (told_row count s _ _ _ _ _ i x I K Kq T) as (T1 & T2); [lia|].
    rewrite K4 in T2 by lia. discriminate.
  - intros i x X Su T. destruct (told_row count s _ _ _ _ _ i x I K Kq T) as (T1 & T2); [lia|].
    pose proof (row_sure count s _ _ _ _ _ x I K T1 T2 Su). rewrite K4 in T2 by lia. discriminate.
Qed.
Print Assumptions C44_next_highest_partial.

(** When it goes back. *)
Theorem C44_back_partial count atomics l a e : 1 <= count <= 32 ->
  hist count atomics l = a ++ EBack :: e ->
  exists c r, levels a = c :: r /\
    (forall i q, (forall x, In x r -> x < q) -> q < c -> waits i q a <> WTold) /\
    (forall i q, (forall x, In x r -> x < q) -> sure q a -> waits i q a <> WTold).
Proof.
  intros small. revert a e.
  enough (A : always (fun a e => match e with EBack =>
    exists c r, levels a = c :: r /\
    (forall i q, (forall x, In x r -> x < q) -> q < c -> waits i q a <> WTold) /\
    (forall i q, (forall x, In x r -> x < q) -> sure q a -> waits i q a <> WTold) | _ => True end)
    (hist count atomics l)).
  { intros a e E. exact (A _ _ _ E). }
  apply run_always; auto. intros s s' e I H E. destruct e; auto.
  destruct (at_back count s s' I H E) as (ptr & pri & prev & q & r & K & Kq & K1 & K2 & K3 & K4).
  assert (P : forall q, (forall x, In x (lvls r) -> x < q) -> prev < q + 1).
  { intros x X. pose proof (wf_prev _ _ _ K4) as [-> |Z]; [lia|]. specialize (X (prev - 1) Z). lia. }
  exists (pri - 1), (lvls r). destruct (i_L _ _ I) as (-> & _). rewrite K. simpl. split; auto. split.
  - intros i x X L T. destruct (told_row count s _ _ _ _ _ i x I K Kq T) as (T1 & T2); [auto|].
    rewrite K3 in T2; [discriminate|]. split; [auto|lia].
  - intros i x X Su T. destruct (told_row count s _ _ _ _ _ i x I K Kq T) as (T1 & T2); [auto|].
    pose proof (row_sure count s _ _ _ _ _ x I K T1 T2 Su). rewrite K3 in T2; [discriminate|]. split; [auto|lia].
Qed.
Print Assumptions C44_back_partial.

(** When a thread is started. *)
Theorem C44_run_highest_partial count atomics l a i p e : 1 <= count <= 32 ->
  hist count atomics l = a ++ EResume i p :: e ->
  forall j q, p < q -> sure q a -> waits j q a <> WTold.
Proof.
  intros small. revert a i p e.
  enough (A : always (fun a e => match e with EResume i p =>
    forall j q, p < q -> sure q a -> waits j q a <> WTold | _ => True end) (hist count atomics l)).
  { intros a i p e E. exact (A _ _ _ E). }
  apply run_always; auto. intros s s' e I H E. destruct e; auto. intros j q L Su T.
  destruct (at_resume count s s' i p I H E) as (ptr & prev & b & w & r & K & K1 & K2 & K3).
  destruct (told_above count s j q I T) as (T1 & T2); [lia|].
  pose proof (row_sure count s _ _ _ _ _ q I K T1 T2 Su). lia.
Qed.
Print Assumptions C44_run_highest_partial.

(** While thread 3 (priority 3) runs, 1 (priority 1), 2 and 4 (priority 2) are woken; they
    are run in the order of their priorities. *)
Definition ordered : list sact :=
  [Irq; Do (SetPriority 1 1); Do (SetPriority 2 2); Do (SetPriority 4 2); Do (SetPriority 3 3)] ++ wake 3 ++
  wake 1 ++ wake 2 ++ wake 4 ++ ret ++ ret ++ ret ++ ret.
Example C44_case : forall b : bool,
  filter (fun e => match e with ESel _ | ENext _ | EBack | EResume _ _ => true | _ => false end) (hist 5 b ordered)
  = [ESel 3; EResume 3 3; ENext 2; EResume 2 2; EResume 4 2; ENext 1; EResume 1 1; EBack] /\
  forallb (fun q => negb (y_stuck (conds q (hist 5 b ordered))) && negb (y_will (conds q (hist 5 b ordered)))) [0; 1; 2; 3] = true.
Proof. intros []; vm_compute; auto. Qed.

(** ** C45: every wakeup leads to a run *)
Theorem C45_every_wakeup_refuted : forall b : bool, exists l i p,
  idle (soft 1 b l) /\ waits i p (hist 1 b l) = WTold.
Proof.
  intros b. exists yield, 0, 0. destruct b; (split; [|vm_compute; reflexivity]);
  intros f H; vm_compute in H; destruct H as [H|[]]; auto.
Qed.
Print Assumptions C45_every_wakeup_refuted.

(** More than 32 threads; no thread is woken while its priority is being run. *)
Definition lost : list sact :=
  [Irq; Do (SetPriority 2 1); Do (WillPreempt 2)] ++ go 4 ++ [Do (WillPreempt 33)] ++ go 4 ++ [Do Preempt] ++ go 20 ++
  [Do Return] ++ go 60 ++ [Do Return] ++ go 50.
Theorem C45_every_wakeup_many_refuted : forall b : bool, exists l i p,
  let m := l ++ Do Preempt :: go 50 in
  idle (soft 40 b l) /\ waits i p (hist 40 b l) = WTold /\ sure p (hist 40 b l) /\
  idle (soft 40 b m) /\ waits i p (hist 40 b m) = WTold /\ sure p (hist 40 b m).
Proof.
  intros b. exists lost, 33, 0. destruct b; (split; [|split; [|split; [|split; [|split]]]]); try (vm_compute; auto; fail);
  intros f H; vm_compute in H; destruct H as [H|[]]; auto.
Qed.
Print Assumptions C45_every_wakeup_many_refuted.

(** Missing: more than 32 threads, wakeups of a priority whose threads are being run, and
    calls of will_preempt that are not followed by preempt. *)
Theorem C45_every_wakeup_partial count atomics l i p : 1 <= count <= 32 ->
  idle (soft count atomics l) -> sure p (hist count atomics l) -> waits i p (hist count atomics l) = WNo.
Proof.
  intros small D (S1 & S2). pose proof (sinv_run count small atomics l) as I. unfold hist in *. fold (soft count atomics l) in I.
  destruct (waits i p (slog (soft count atomics l))) eqn:T; auto; exfalso;
    destruct (idle_told count _ i p I D ltac:(now rewrite T)) as (T1 & T2); replace p with (p + 1 - 1) in S1, S2 by lia;
    pose proof (y_B _ (i_Y _ _ I) (p + 1)) as Y; rewrite (idle_low count _ I D) in Y;
    specialize (Y ltac:(lia) T2 S1 S2); revert Y; now apply idle_owes.
Qed.
Print Assumptions C45_every_wakeup_partial.

(** Otherwise the wakeup is not forgotten: the next call of preempt starts with that
    priority or a higher one. *)
Theorem C45_next_preempt_partial count atomics l i p r : 1 <= count <= 32 ->
  idle (soft count atomics l) -> stk (soft count atomics l) = FIrq :: r -> waits i p (hist count atomics l) <> WNo ->
  exists q, p <= q /\ hist count atomics (l ++ [Do Preempt; Go false; Go false]) = hist count atomics l ++ [ESel q].
Proof.
  intros small D K T. pose proof (sinv_run count small atomics l) as I. unfold hist in *. fold (soft count atomics l) in I.
  destruct (idle_told count _ i p I D T) as (T1 & T2). pose proof (idle_low count _ I D) as L.
  unfold soft. rewrite srun_app. fold (soft count atomics l). set (s := soft count atomics l) in *.
  simpl. unfold opstep. rewrite K. unfold fstep at 2. simpl stk. cbv iota beta zeta.
  change (pm (access count (set_stk s (FStart :: FIrq :: r)) 0) 0) with (pm s 0).
  pose proof (find_cursor (pm s 0) 27 0 ltac:(lia)) as F. unfold start_new. change PRIORITY_LEVELS with 27.
  change (N.shiftr (pm s 0) 27) with (hC s). rewrite L.
  destruct (cursor_find_priority (pm s 0) 27 0) as [[q c']|] eqn:X.
  2: { unfold hP in T2. rewrite F in T2 by lia. discriminate. }
  destruct F as (F1 & F2 & F3 & _).
  assert (Q : p <= q - 1).
  { destruct (N.le_gt_cases p (q - 1)) as [|Z]; auto. unfold hP in T2. rewrite F3 in T2 by lia. discriminate. }
  exists (q - 1). split; auto. destruct atomics.
  - unfold fstep. simpl stk. cbv iota beta zeta. simpl pm. rewrite N.eqb_refl. cbn [negb andb]. unfold start_new. change PRIORITY_LEVELS with 27.
    change (N.shiftr (pm s 0) 27) with (hC s). rewrite L, X. reflexivity.
  - unfold fstep. simpl stk. cbv iota beta zeta. unfold started, lstep. cbv zeta.
    destruct (_ =? 0); [destruct (_ <=? _)|]; reflexivity.
Qed.
Print Assumptions C45_next_preempt_partial.

Example C45_case : forall b : bool, let s := soft 5 b ordered in
  stk s = [FIrq] /\ map (fun i => waits i (prio i (slog s)) (slog s)) [0; 1; 2; 3; 4] = [WNo; WNo; WNo; WNo; WNo] /\
  map (fun i => wakeups i (prio i (slog s)) (slog s)) [0; 1; 2; 3; 4] = [0; 1; 1; 1; 1]%nat.
Proof. intros []; vm_compute; auto. Qed.
Example C45_next_case : forall b : bool,
  stk (soft 1 b yield) = [FIrq] /\ waits 0 0 (hist 1 b yield) = WTold /\
  waits 0 0 (hist 1 b (yield ++ Do Preempt :: go 20)) = WNo.
Proof. intros []; vm_compute; auto. Qed.

(** ** C46: threads run only when woken *)

(** With more than 32 threads a thread runs that was never woken. *)
Theorem C46_only_when_woken_refuted : forall b : bool, exists l i p,
  (wakeups i p (hist 40 b l) < runs i p (hist 40 b l))%nat /\ forall q, wakeups i q (hist 40 b l) = 0%nat.
Proof.
  intros b. exists lost, 1, 0. split; [destruct b; vm_compute; auto|].
  intros q. unfold wakeups. destruct b; (replace (hist 40 _ lost) with
    [EPrio 2 1; EWake 2; EPend 2 1; EMark 2 1; EWill 2 true; EWake 33; EPend 33 0; EMark 33 0; EWill 33 true; ESel 1; ETake 2 1;
     EResume 2 1; EDone 2; ENext 0; ETake 1 0; EResume 1 0; EDone 1; EBack] by (vm_compute; reflexivity)); reflexivity.
Qed.
Print Assumptions C46_only_when_woken_refuted.

(** Missing: more than 32 threads. *)
Theorem C46_only_when_woken_partial count atomics l i p : 1 <= count <= 32 ->
  (runs i p (hist count atomics l) <= wakeups i p (hist count atomics l))%nat.
Proof. intros small. apply (i_C _ _ (sinv_run count small atomics l) i p). Qed.
Print Assumptions C46_only_when_woken_partial.

(** A thread that is started is the one chosen last, and is_pending tells whether it has
    been set pending since it was last chosen or cleared. *)
Theorem C46_cleared_first_partial count atomics l : 1 <= count <= 32 ->
  (forall a i p e, hist count atomics l = a ++ EResume i p :: e -> exists r, chosen a = (i, p) :: r) /\
  (forall a i p b e, hist count atomics l = a ++ EIs i p b :: e -> b = pending i p a).
Proof.
  intros small.
  enough (A : always (fun a e => match e with
    | EResume i p => exists r, chosen a = (i, p) :: r
    | EIs i p b => b = pending i p a
    | _ => True end) (hist count atomics l)).
  { split; intros; exact (A _ _ _ H). }
  apply run_always; auto. intros s s' e I H E. destruct e; auto.
  - destruct (at_resume count s s' i p I H E) as (ptr & prev & b & w & r & K & K1 & K2 & K3).
    rewrite (i_calls _ _ I), K. simpl. replace (p + 1 - 1) with p by lia. eauto.
  - destruct (at_is count s s' i p b I H E) as (-> & P). symmetry. now apply (i_P _ _ I).
Qed.
Print Assumptions C46_cleared_first_partial.

Example C46_case : forall b : bool,
  runs 0 0 (hist 2 b twice) = 2%nat /\ wakeups 0 0 (hist 2 b twice) = 2%nat /\
  filter (fun e => match e with EIs _ _ _ => true | _ => false end)
    (hist 1 b (Irq :: Do (WillPreempt 0) :: go 5 ++ Do (IsPending 0) :: go 5 ++ Do Preempt :: go 10 ++ Do (IsPending 0) :: go 5))
  = [EIs 0 0 true; EIs 0 0 false].
Proof. intros []; vm_compute; auto. Qed.

(** ** C71: clear_pending *)

(** The latest clear_pending of thread [i] came after the latest wakeup of it. *)
Definition cancelled (i : N) (l : list sev) : bool :=
  fold_left (fun b e => match e with
    | EPend i' _ => b && negb (i' =? i)
    | EClear i' _ => b || (i' =? i)
    | _ => b end) l false.

(** Thread 0 clears the pending state of thread 1 of the same priority, which is then
    started nevertheless. *)
Definition stale : list sact :=
  Irq :: Do (WillPreempt 0) :: go 5 ++ Do (WillPreempt 1) :: go 5 ++ Do Preempt :: go 10 ++ Do (ClearPending 1) :: go 2 ++
  Do (IsPending 1) :: go 2 ++ ret.
Theorem C71_clear_pending_refuted : forall b : bool, exists l a i p,
  hist 2 b l = a ++ [EResume i p] /\ cancelled i a = true /\ In (EIs i p false) a.
Proof.
  intros b. exists stale, (removelast (hist 2 b stale)), 1, 0.
  destruct b; (split; [|split]; [vm_compute; reflexivity|vm_compute; reflexivity|]); vm_compute; tauto.
Qed.
Print Assumptions C71_clear_pending_refuted.

(** The priority is changed between the wakeup and clear_pending. *)
Definition moved_away : list sact :=
  Irq :: Do (WillPreempt 0) :: go 5 ++ Do (SetPriority 0 1) :: Do (ClearPending 0) :: go 2 ++ Do Preempt :: go 10.
Theorem C71_clear_pending_moved_refuted : forall b : bool, exists l a i p,
  hist 1 b l = a ++ [EResume i p] /\ cancelled i a = true /\ levels a = [p].
Proof. intros b. exists moved_away, (removelast (hist 1 b moved_away)), 0, 0. destruct b; vm_compute; auto. Qed.
Print Assumptions C71_clear_pending_moved_refuted.

(** Missing: more than 32 threads, wakeups with another priority, and calls while threads
    of that priority are being run. *)
Theorem C71_clear_pending_partial count atomics l a i p e : 1 <= count <= 32 ->
  (hist count atomics l = a ++ EResume i p :: e \/ hist count atomics l = a ++ ETake i p :: e) -> cleared i p a = false.
Proof.
  intros small. revert a i p e.
  enough (A : always (fun a e => match e with EResume i p | ETake i p => cleared i p a = false | _ => True end)
    (hist count atomics l)).
  { intros a i p e [E|E]; exact (A _ _ _ E). }
  apply run_always; auto. intros s s' e I H E. destruct e; auto; apply not_true_iff_false; intros C.
  - destruct (hot_take count small s s' i p (i_base _ _ I) (i_ends _ _ I) H E) as (P & Q & _). now destruct (i_K _ _ I i p C P).
  - destruct (cal_body count small s s' i p (i_base _ _ I) (i_ends _ _ I) H E) as (P & Q & _). now destruct (i_K _ _ I i p C P).
Qed.
Print Assumptions C71_clear_pending_partial.

(** Thread 0 is woken and cleared, thread 1 is woken and run. *)
Definition cancel : list sact :=
  Irq :: Do (WillPreempt 0) :: go 5 ++ Do (WillPreempt 1) :: go 5 ++ Do (ClearPending 0) :: go 2 ++ Do Preempt :: go 10.
Example C71_case : forall b : bool,
  cleared 0 0 (hist 2 b cancel) = true /\ cleared 1 0 (hist 2 b cancel) = false /\ running (hist 2 b cancel) = [(1, 0)].
Proof. intros []; vm_compute; auto. Qed.

(** ** C72: memory *)

(** The array of {!pending_size} elements is overrun. *)
Theorem C72_in_bounds_refuted : forall b : bool, exists l, oob (soft 40 b l) = true.
Proof. intros b. exists lost. destruct b; vm_compute; reflexivity. Qed.
Print Assumptions C72_in_bounds_refuted.

(** Missing: more than 32 threads. *)
Theorem C72_in_bounds_partial count atomics l : 1 <= count <= 32 -> oob (soft count atomics l) = false.
Proof. intros small. now apply oob_run. Qed.
Print Assumptions C72_in_bounds_partial.

Example C72_case : forall b : bool,
  let l := [Irq; Do (SetPriority 31 26)] ++ Do (SetPending 31) :: go 60 in
  running (hist 32 b l) = [(31, 26)] /\ pending_size 32 = 28.
Proof. intros []; vm_compute; auto. Qed.
