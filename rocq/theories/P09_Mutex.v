(** Properties of the mutex (C25-C28, C68, C69). *)
Require Import NArith List Bool Arith Lia.
From Verif Require Import AtomicSpec AtomicsProofs Treiber TreiberProofs DrainSpec Drain DrainProofs
  MutexSpec Mutex MutexProofs MutexList MutexSafe MutexWake MutexRun.
Import ListNotations.
Open Scope N_scope.

(** An execution of a new mutex; [atomics]: whether the hardware has atomic operations,
    [v]: the initial data, [addrs]: the addresses that the allocator may use, [link]:
    the contents of that memory. *)
Definition exec (atomics : bool) (v : N) (addrs : list N) (link : N -> N) (l : list mact) : mst :=
  mrun atomics (minit v addrs link) l.
(** No call is in progress. *)
Definition calm (s : mst) : Prop := forall t, ctx s t = CIdle.

Lemma exec_inv atomics v addrs link l : minv atomics v (exec atomics v addrs link l).
Proof. apply minv_run, minv_init. Qed.

(** Context [t] runs alone; the allocator returns [x] if asked. *)
Definition go (t : nat) (x : N) (n : nat) : list mact := repeat (Step t false x) n.
Definition whole (t : nat) (o : mop) (x : N) : list mact := Call t o :: go t x 25.
Definition start (atomics : bool) (l : list mact) : mst := exec atomics 5 [8; 9; 10; 11] (fun _ => 0) l.

(** ** C25: mutual exclusion *)
Theorem C25_mutual_exclusion atomics v addrs link l :
  (guards (log (exec atomics v addrs link l)) <= 1)%nat.
Proof.
  destruct (exec_inv atomics v addrs link l) as (X & (T & _) & _). rewrite T. apply X.
Qed.
Print Assumptions C25_mutual_exclusion.

(** Two contexts compete: one gets a guard, the other one after the first one's drop. *)
Definition compete : list mact :=
  [Call 0 (Poll 0 7); Call 1 TryLock; Step 1 false 0; Step 0 false 0; Step 1 false 0] ++ go 0 8 20.
Example C25_one_wins : forall b : bool,
  (guards (log (start b compete)), map snd (filter (fun p => fst p)
    (map (fun e => match e with ERet _ r => (true, r) | _ => (false, RUnit) end) (log (start b compete)))))
  = (1%nat, [RGuard; RPending]).
Proof. intros []; vm_compute; reflexivity. Qed.
Example C25_handed_over : forall b : bool,
  guards (log (start b (compete ++ whole 1 DropGuard 0))) = 0%nat /\
  guards (log (start b (compete ++ whole 1 DropGuard 0 ++ whole 0 (Poll 0 7) 0))) = 1%nat.
Proof. intros []; vm_compute; split; reflexivity. Qed.

(** ** C26: the data *)

(** mutex.rs lines 109-111, 151-153: [into_inner] and [get_mut] access the field. *)
Definition into_inner (s : mst) : N := dt s.

Theorem C26_data atomics v addrs link l :
  let s := exec atomics v addrs link l in
  d_bad (data v (log s)) = false /\ into_inner s = d_val (data v (log s)).
Proof.
  destruct (exec_inv atomics v addrs link l) as (X & (_ & T) & _). cbv zeta. rewrite T. easy.
Qed.
Print Assumptions C26_data.

Example C26_case : forall b : bool,
  let s := start b (whole 0 TryLock 0 ++ [Get; Set_ 6] ++ whole 1 (Poll 1 7) 8 ++ whole 1 DropGuard 0 ++
                    whole 0 (Poll 1 7) 0 ++ [Get; Set_ 9]) in
  filter (fun e => match e with EGet _ | ESet _ => true | _ => false end) (log s) = [EGet 5; ESet 6; EGet 6; ESet 9] /\
  into_inner s = 9.
Proof. intros []; vm_compute; split; reflexivity. Qed.

(** ** C28: no use after free *)

(** A future is woken by a release and not polled before the next release: its node is
    freed, and used when the future is dropped.  One context suffices. *)
Definition slow : list mact :=
  whole 0 TryLock 0 ++ whole 0 (Poll 1 7) 8 ++ whole 0 DropGuard 0 ++ whole 0 TryLock 0 ++ whole 0 DropGuard 0 ++
  whole 0 (DropFut 1) 0.
Theorem C28_no_use_after_free_refuted : forall b : bool, exists l, uaf (start b l) = true.
Proof. intros b. exists slow. destruct b; vm_compute; reflexivity. Qed.
Print Assumptions C28_no_use_after_free_refuted.

(** A future is dropped by one context while another one drops the guard. *)
Definition dropped : list mact :=
  whole 0 TryLock 0 ++ whole 0 (Poll 1 7) 8 ++ Call 1 (DropFut 1) :: go 1 0 1 ++ whole 0 DropGuard 0 ++ go 1 0 10.
Theorem C28_no_use_after_free_by_drop_refuted : forall b : bool, exists l,
  uaf (start b l) = true /\ forall f, ~ In (ENotify f) (log (start b l)).
Proof.
  intros b. exists dropped. destruct b; (split; [vm_compute; reflexivity|]);
  intros f H; vm_compute in H; repeat (destruct H as [H|H]; [discriminate|]); exact H.
Qed.
Print Assumptions C28_no_use_after_free_by_drop_refuted.

(** Missing from the full claim: histories in which a release begins while a future that
    was notified by an earlier one has not returned from a new poll, or in which a future
    is destroyed while the lock is being released.  [fault]: the list code of
    linked_list.rs used a freed node. *)
Theorem C28_no_use_after_free_partial atomics v addrs link l :
  let s := exec atomics v addrs link l in
  o_stale (order (log s)) = false ->
  uaf s = false /\ fault (dsh (dr s)) = false /\ bad s = false.
Proof.
  destruct (exec_inv atomics v addrs link l) as (_ & _ & _ & q & L & H). intros s S.
  destruct (H S) as (B & _). destruct (b_ok _ _ B). destruct (l_d _ _ _ L) as (k & D).
  repeat split; auto. apply (di_fault _ _ _ D).
Qed.
Print Assumptions C28_no_use_after_free_partial.

(** What the flags record: a node used after it has been freed, and a waker read where there is none. *)
Example C28_case_flags : let s := minit 7 [10; 20] (fun _ => 0) in
  uaf (use s 10 0) = false /\ uaf (use (inc_gen s 10) 10 0) = true /\ uaf (use (use (inc_gen s 10) 10 0) 20 0) = true /\
  bad (fst (read_wk (set_wk s 10 (Some 5)) 10)) = false /\ bad (fst (read_wk s 10)) = true /\
  bad (fst (read_wk (set_wk (fst (read_wk s 10)) 10 (Some 5)) 10)) = true.
Proof. vm_compute. auto 6. Qed.

(** Nodes are allocated, freed and used again, under contention. *)
Definition used : list mact :=
  whole 0 TryLock 0 ++ whole 1 (Poll 1 7) 8 ++ whole 2 (Poll 2 6) 9 ++ whole 0 DropGuard 0 ++
  whole 2 (Poll 2 6) 10 ++ whole 3 (Poll 3 4) 11 ++ whole 2 DropGuard 0 ++ whole 1 (DropFut 1) 0 ++ whole 3 (Poll 3 4) 9.
Example C28_case : forall b : bool,
  o_stale (order (log (start b used))) = false /\ o_fail (order (log (start b used))) = false /\
  map (gen (start b used)) [8; 9; 10; 11] = [0; 1; 0; 0]%nat /\ guards (log (start b used)) = 1%nat.
Proof. intros []; vm_compute; repeat split; reflexivity. Qed.

(** ** C27: no lost wakeup *)

(** A future fails to lock while the lock is being released, after the release has looked
    at the list of waiters: nobody wakes it. *)
Definition late : list mact :=
  whole 0 TryLock 0 ++ Call 0 DropGuard :: go 0 0 4 ++ whole 1 (Poll 1 7) 8 ++ go 0 0 20.
Theorem C27_no_lost_wakeup_refuted : forall b : bool, exists l, let s := start b l in
  calm s /\ guards (log s) = 0%nat /\ o_stale (order (log s)) = false /\ u_wait (future 1 (log s)) = true /\
  forall r, u_wait (future r (log s)) = true -> u_woken (future r (log s)) = false.
Proof.
  intros b. exists late. destruct b; (split; [intros [|[|t]]; vm_compute; reflexivity|]);
  (split; [vm_compute; reflexivity|]); (split; [vm_compute; reflexivity|]); (split; [vm_compute; reflexivity|]);
  intros [|[|r]]; vm_compute; auto.
Qed.
Print Assumptions C27_no_lost_wakeup_refuted.

(** The future that the release notifies is dropped before the lock is free: the next one
    is not woken. *)
Definition dropped_late : list mact :=
  whole 0 TryLock 0 ++ whole 0 (Poll 1 7) 8 ++ whole 0 (Poll 2 6) 9 ++ Call 0 DropGuard :: go 0 0 9 ++
  whole 1 (DropFut 2) 0 ++ go 0 0 20.
Theorem C27_no_lost_wakeup_by_drop_refuted : forall b : bool, exists l, let s := start b l in
  calm s /\ guards (log s) = 0%nat /\ uaf s = false /\ u_wait (future 1 (log s)) = true /\
  forall r, u_wait (future r (log s)) = true -> u_woken (future r (log s)) = false.
Proof.
  intros b. exists dropped_late. destruct b; (split; [intros [|[|t]]; vm_compute; reflexivity|]);
  (split; [vm_compute; reflexivity|]); (split; [vm_compute; reflexivity|]); (split; [vm_compute; reflexivity|]);
  intros [|[|[|r]]]; vm_compute; auto; discriminate.
Qed.
Print Assumptions C27_no_lost_wakeup_by_drop_refuted.

(** Missing from the full claim: histories in which a future fails to lock during a
    release, and those excluded from C28. *)
Theorem C27_no_lost_wakeup_partial atomics v addrs link l :
  let s := exec atomics v addrs link l in
  o_stale (order (log s)) = false -> o_fail (order (log s)) = false ->
  calm s -> guards (log s) = 0%nat ->
  forall f, u_wait (future f (log s)) = true ->
  exists r, u_wait (future r (log s)) = true /\ u_woken (future r (log s)) = true.
Proof.
  destruct (exec_inv atomics v addrs link l) as (X & (T & _) & Y & q & L & H). intros s S F C G f W. fold s in X, Y, T, L, H.
  destruct (H S) as (B & Hc). specialize (Hc F). clear H.
  assert (Hlk : lk s = false).
  { destruct (lk s) eqn:K; auto. destruct (e_lk _ X K) as [E|(t & E)]; [congruence|]. now rewrite C in E. }
  assert (Hw : forall r b x g, fu s r = FLive b (Some (x, g)) -> tk s x = true -> b = false ->
            u_wait (future r (log s)) = true /\ u_woken (future r (log s)) = true).
  { intros r b x g E Tk ->. destruct (c_f _ _ Hc r) as (F1 & F2). split; [apply F1; eauto|].
    destruct (F2 _ _ _ E) as (F3 & _). destruct F3 as [?|(t & K)]; auto; [intros t; now rewrite C|]. now rewrite C in K. }
  assert (Hb : forall r b x g, fu s r = FLive b (Some (x, g)) -> tk s x = true ->
            u_wait (future r (log s)) = true /\ u_woken (future r (log s)) = true).
  { intros r b x g E Tk. destruct b; [|eauto]. exfalso. destruct (Y _ _ E) as (t & K). now rewrite C in K. }
  destruct (c_f _ _ Hc f) as (F1 & _). destruct F1 as (((x & g) & E) & _); [exact W|].
  destruct (tk s x) eqn:Tk; [exists f; eauto|].
  destruct (c_j _ _ Hc Hlk f x) as [(r & b & y & k & E' & T')|(t & K)].
  - split; [eauto|]. split; auto. intros t. now rewrite C.
  - exists r. eauto.
  - unfold tries in K. now rewrite C in K.
Qed.
Print Assumptions C27_no_lost_wakeup_partial.

(** Three futures wait; after the release, one of them has been woken.  A fourth one, not
    notified, has been dropped; all that with a future being polled concurrently with
    another one. *)
Definition wait3 : list mact :=
  whole 0 TryLock 0 ++ [Call 1 (Poll 1 7); Call 2 (Poll 2 6)] ++
  flat_map (fun _ => [Step 1 false 8; Step 2 false 9]) (seq 0 20) ++
  whole 3 (Poll 3 4) 10 ++ whole 3 (Poll 4 2) 11 ++ whole 3 (DropFut 4) 0 ++ whole 0 DropGuard 0.
Example C27_case : forall b : bool, let s := start b wait3 in
  o_stale (order (log s)) = false /\ o_fail (order (log s)) = false /\ calm s /\ guards (log s) = 0%nat /\
  map (fun f => u_wait (future f (log s))) [1; 2; 3; 4]%nat = [true; true; true; false] /\
  map (fun f => u_woken (future f (log s))) [1; 2; 3; 4]%nat = [false; false; true; false].
Proof.
  intros b. cbv zeta. split; [destruct b; vm_compute; reflexivity|]. split; [destruct b; vm_compute; reflexivity|].
  split; [intros [|[|[|[|t]]]]; destruct b; vm_compute; reflexivity|]. destruct b; vm_compute; repeat split; reflexivity.
Qed.

(** ** C68: the lock is free when nobody has it *)
Theorem C68_free_lock atomics v addrs link l :
  let s := exec atomics v addrs link l in
  calm s -> guards (log s) = 0%nat ->
  (forall t, log (mrun atomics s (Call t TryLock :: go t 0 2)) = log s ++ [EInv TryLock; ERet TryLock RGuard]) /\
  (forall t f w, fu s f <> FGone -> exists n e,
     log (mrun atomics s (Call t (Poll f w) :: go t 0 n)) = log s ++ EInv (Poll f w) :: e ++ [ERet (Poll f w) RGuard]).
Proof.
  destruct (exec_inv atomics v addrs link l) as (X & (T & _) & Y & _). intros s C G. fold s in X, Y, T. clearbody s.
  assert (Hlk : lk s = false).
  { destruct (lk s) eqn:K; auto. destruct (e_lk _ X K) as [E|(t & E)]; [congruence|]. now rewrite C in E. }
  split.
  - intros t. unfold go. cbn [repeat mrun]. unfold mstep at 3. unfold mcall. rewrite C.
    unfold mstep at 2, cstep at 1. simpl. rewrite upd_same, Hlk. unfold cstep. simpl. rewrite upd_same. simpl.
    now rewrite <- app_assoc.
  - intros t f w Hf. destruct (fu s f) as [b p|] eqn:F; [|easy]. assert (b = false) as ->.
    { destruct b; auto. destruct (Y _ _ F) as (t' & K). now rewrite C in K. }
    assert (K : forall s1 n, ctx s1 t = CRet (Poll f w) RGuard -> log (mrun atomics s1 (go t 0 (S n))) = log s1 ++ [ERet (Poll f w) RGuard]).
    { intros s1 n E. unfold go. simpl. unfold cstep at 1. rewrite E. simpl.
      assert (I : forall n s2, ctx s2 t = CIdle -> log (mrun atomics s2 (repeat (Step t false 0) n)) = log s2).
      { clear. induction n as [|n IH]; intros s2 E; auto. simpl. unfold cstep at 1. rewrite E. auto. }
      destruct (fu s1 f); rewrite I; simpl; auto; now rewrite upd_same. }
    assert (A : mstep atomics (mstep atomics s (Call t (Poll f w))) (Step t false 0) =
                locked (emit (goto (set_fu s f (FLive true p)) t (CPoll1 f w)) (EInv (Poll f w))) t f w).
    { simpl. unfold mcall. rewrite C, F. unfold cstep. simpl. rewrite upd_same, Hlk. reflexivity. }
    assert (B : forall n, mrun atomics s (Call t (Poll f w) :: go t 0 (S n)) =
              mrun atomics (mstep atomics (mstep atomics s (Call t (Poll f w))) (Step t false 0)) (go t 0 n)) by reflexivity.
    assert (N1 : forall n s1, mrun atomics s1 (go t 0 (S n)) = mrun atomics (cstep atomics s1 t false 0) (go t 0 n)) by reflexivity.
    destruct p as [[y g]|].
    + set (s1 := locked (emit (goto (set_fu s f (FLive true (Some (y, g)))) t (CPoll1 f w)) (EInv (Poll f w))) t f w) in A.
      assert (E : ctx s1 t = CTake f w y g /\ log s1 = log s ++ [EInv (Poll f w)] /\ tk s1 = tk s).
      { subst s1. unfold locked. simpl. repeat rewrite upd_same. simpl. repeat rewrite upd_same. auto. }
      destruct E as (E1 & E2 & E3). destruct (tk s y) eqn:Ty.
      * exists 3%nat, []. rewrite (B 2%nat), A, N1.
        rewrite K; unfold cstep; rewrite E1, E3, Ty; simpl; [now rewrite E2, <- app_assoc|now rewrite upd_same].
      * set (s2 := cstep atomics s1 t false 0).
        assert (E2' : ctx s2 t = CTakeR f w y g /\ log s2 = log s1).
        { subst s2. unfold cstep. rewrite E1, E3, Ty. simpl. now rewrite upd_same. }
        destruct E2' as (E4 & E5). exists 4%nat. exists [EDropW (match wk s2 y with Some k => k | None => 0 end)]. rewrite (B 3%nat), A, N1. fold s2. rewrite N1.
        rewrite K; unfold cstep; rewrite E4; unfold read_wk; simpl.
        -- destruct (wk s2 y); simpl; rewrite E5, E2, <- !app_assoc; reflexivity.
        -- destruct (wk s2 y); simpl; now rewrite upd_same.
    + exists 2%nat, []. rewrite (B 1%nat), A. unfold locked. simpl fu. rewrite upd_same. rewrite K; simpl; [now rewrite <- app_assoc|now rewrite upd_same].
Qed.
Print Assumptions C68_free_lock.

Example C68_case : let s := start true wait3 in calm s /\ guards (log s) = 0%nat /\ fu s 1 <> FGone /\
  u_wait (future 1 (log s)) = true.
Proof. split; [intros [|[|[|[|t]]]]; vm_compute; reflexivity|]. vm_compute. repeat split; discriminate. Qed.

(** ** C69: the task that polled last is woken *)

(** The waker passed to the last poll of [f], and whether it was woken since that poll
    began. *)
Definition lstep (f : nat) (u : option N * bool) (e : mev) : option N * bool :=
  match e with
  | EInv (Poll f' w) => if (f' =? f)%nat then (Some w, false) else u
  | EWake w => (fst u, snd u || match fst u with Some w' => w =? w' | None => false end)
  | _ => u
  end.
Definition latest (f : nat) (l : list mev) : option N * bool := fold_left (lstep f) l (None, false).

(** A waiting future keeps the waker of the poll that put it in the list. *)
Definition moved : list mact :=
  whole 0 TryLock 0 ++ whole 0 (Poll 1 7) 8 ++ whole 0 (Poll 1 6) 9 ++ whole 0 DropGuard 0.
Theorem C69_wakes_latest_refuted : forall b : bool, exists l, let s := start b l in
  o_stale (order (log s)) = false /\ o_fail (order (log s)) = false /\ calm s /\ guards (log s) = 0%nat /\
  u_wait (future 1 (log s)) = true /\
  forall r, u_wait (future r (log s)) = true -> snd (latest r (log s)) = false.
Proof.
  intros b. exists moved. cbv zeta. split; [destruct b; vm_compute; reflexivity|]. split; [destruct b; vm_compute; reflexivity|].
  split; [intros [|t]; destruct b; vm_compute; reflexivity|]. split; [destruct b; vm_compute; reflexivity|].
  split; [destruct b; vm_compute; reflexivity|]. intros [|[|r]]; destruct b; vm_compute; auto.
Qed.
Print Assumptions C69_wakes_latest_refuted.

Lemma latest_one f w l : (forall w', In w' (u_ws (future f l)) -> w' = w) ->
  latest f l = (match u_ws (future f l) with [] => None | _ => Some w end, u_woken (future f l)).
Proof.
  induction l as [|e l IH] using rev_ind; auto. rewrite future_app. unfold latest in *. rewrite fold_left_app. simpl.
  intros H.
  assert (H0 : forall w', In w' (u_ws (future f l)) -> w' = w).
  { intros w' Hw. apply H. destruct e as [[]|[] []| | | | | | | |]; simpl; auto; destruct (_ =? f)%nat; simpl; auto. }
  rewrite (IH H0). destruct e as [[|f' w'|f'|]|[|f' w'|f'|] []| | | | | | | |]; simpl in *; auto.
  - destruct (f' =? f)%nat; simpl in *; auto. now rewrite (H w' (or_introl eq_refl)).
  - destruct (f' =? f)%nat; simpl in *; auto.
  - destruct (f' =? f)%nat; simpl in *; auto.
  - f_equal. f_equal. destruct (u_ws (future f l)) as [|a r]; auto. simpl.
    rewrite (H0 a (or_introl eq_refl)). destruct (N.eqb_spec w0 w) as [->|Hn]; auto. simpl.
    destruct (existsb (N.eqb w0) r) eqn:E; auto. apply existsb_exists in E as (z & Hz & E). apply N.eqb_eq in E. subst z.
    rewrite (H0 w0 (or_intror Hz)) in Hn. easy.
Qed.

(** Missing from the full claim: futures polled with different wakers, and the histories
    excluded from C27. *)
Theorem C69_wakes_latest_partial atomics v addrs link l :
  let s := exec atomics v addrs link l in
  o_stale (order (log s)) = false -> o_fail (order (log s)) = false ->
  (forall r, exists w, forall w', In w' (u_ws (future r (log s))) -> w' = w) ->
  calm s -> guards (log s) = 0%nat ->
  forall f, u_wait (future f (log s)) = true ->
  exists r, u_wait (future r (log s)) = true /\ snd (latest r (log s)) = true.
Proof.
  intros s S F One C G f W. destruct (C27_no_lost_wakeup_partial atomics v addrs link l S F C G f W) as (r & W1 & W2).
  exists r. split; auto. destruct (One r) as (w & H). now rewrite (latest_one r w).
Qed.
Print Assumptions C69_wakes_latest_partial.

Example C69_case : forall b : bool, let s := start b (wait3 ++ whole 2 (Poll 2 6) 0 ++ whole 3 (Poll 3 4) 11 ++ whole 0 DropGuard 0) in
  map (fun f => u_ws (future f (log s))) [1; 2; 3]%nat = [[7]; [6; 6]; [4; 4]] /\
  map (fun f => (u_wait (future f (log s)), latest f (log s))) [1; 2; 3]%nat =
  [(true, (Some 7, false)); (false, (Some 6, false)); (true, (Some 4, true))] /\
  o_stale (order (log s)) = false /\ o_fail (order (log s)) = false.
Proof. intros []; vm_compute; repeat split; reflexivity. Qed.
