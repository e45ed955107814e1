(** The wakers that a mutex stores: C122. *)
Require Import NArith List Bool Arith Lia.
From Verif Require Import AtomicSpec AtomicsProofs Treiber TreiberProofs TreiberSoft DrainSpec Drain DrainProofs
  MutexSpec Mutex MutexProofs MutexList MutexSafe MutexWake MutexRun P09_Mutex MutexDropSpec MutexDrop MutexDropProofs MutexLeak.
Import ListNotations.
Open Scope N_scope.

Definition wakers (atomics : bool) (v : N) (addrs : list N) (link : N -> N) (l : list mact) : list N :=
  cloned atomics (minit v addrs link) l.

(** No clone of a waker is woken or destroyed twice, at any time.
    Missing from the full claim: the histories of [C28_no_use_after_free_partial]. *)
Theorem C122_at_most_once_partial atomics v addrs link l w :
  let s := exec atomics v addrs link l in
  o_stale (order (log s)) = false ->
  (uses w (log s) <= copies w (wakers atomics v addrs link l))%nat.
Proof.
  intros s St. destruct (wall_run atomics w l 0 _ (wall_init atomics w v addrs link)) as (_ & q & _ & H).
  destruct (H St) as (_ & W). destruct (w_sum _ _ _ _ W) as (a & b & _ & _ & E). cbn [Nat.add] in E. unfold wakers, s, exec. lia.
Qed.
Print Assumptions C122_at_most_once_partial.

(** Once the mutex is destroyed, with or without futures in the queue, each clone has been woken or destroyed exactly once, and the
    destructor has used nothing that was freed or moved out.
    Missing from the full claim: as above. *)
Theorem C122_exactly_once_partial atomics v addrs link l :
  let s := exec atomics v addrs link l in
  o_stale (order (log s)) = false -> calm s ->
  exists n, forall m, (n <= m)%nat ->
    let s' := drop_mutex m s in
    (forall w, uses w (log s') = copies w (wakers atomics v addrs link l)) /\
    fault (dsh (dr s')) = false /\ bad s' = false /\ uaf s' = false.
Proof.
  intros s St Ca.
  assert (G : forall w, exists q, linv atomics s q /\ binv s q /\ winv w (copies w (wakers atomics v addrs link l)) s q).
  { intros w. destruct (wall_run atomics w l 0 _ (wall_init atomics w v addrs link)) as (_ & q & L & H). destruct (H St) as (B & W). exists q. auto. }
  assert (Id : forall w, exists c, linv atomics s (QIdle c) /\ binv s (QIdle c) /\ winv w (copies w (wakers atomics v addrs link l)) s (QIdle c) /\
     dinv (dr s) c (QIdle c)).
  { intros w. destruct (G w) as (q & L & B & W). destruct (l_d _ _ _ L) as (c & D). exists c.
    assert (dpo (dr s) = DIdle). { destruct (dpo (dr s)) eqn:P; auto; destruct (l_dr _ _ _ L) as (t & Ht); try (rewrite P; discriminate); rewrite Ca in Ht; discriminate. }
    pose proof (idle_q _ _ _ D H) as ->. auto. }
  assert (Uq : forall c1 c2, dinv (dr s) c1 (QIdle c1) -> dinv (dr s) c2 (QIdle c2) -> c1 = c2).
  { intros c1 c2 D1 D2. apply (chain_det (nx (dsh (dr s))) c1 c2 (hd (dsh (dr s)))); [apply (own_chain _ _ _ _ _ (di_own _ _ _ D1))|apply (own_chain _ _ _ _ _ (di_own _ _ _ D2))]. }
  destruct (Id 0) as (c & _ & _ & _ & D). exists (length c). intros m Hm s'.
  assert (K : forall w, nodes_ok s' [] /\ dead (dsh (dr s')) = dead (dsh (dr s)) ++ c /\ uaf s' = uaf s /\ uaf s = false /\ uses w (log s') = copies w (wakers atomics v addrs link l)).
  { intros w. destruct (Id w) as (c' & L & B & [W1 W2 W3 (a & b & Sa & Sb & E)] & D'). pose proof (Uq _ _ D' D) as ->.
    assert (O : nodes_ok s c).
    { pose proof (di_own _ _ _ D) as Ow. constructor.
      - intros x Hx. assert (T : tk s x = false). { destruct (tk s x) eqn:T; auto. destruct (W2 x Hx T) as (t & Ht). rewrite Ca in Ht. discriminate. }
        split; auto. destruct (W3 x Hx T) as [?|(t & f & k & Ht)]; auto. rewrite Ca in Ht. discriminate.
      - intros x Hx. now apply (b_c _ _ B).
      - apply (own_nd_l _ _ _ _ _ Ow).
      - apply (own_ld _ _ _ _ _ Ow).
      - split; [apply (di_fault _ _ _ D)|apply (b_ok _ _ B)]. }
    assert (b = 0%nat) as -> by (apply (total_zero _ _ Sb); intros t; now rewrite Ca).
    destruct (drop_list_ok w c m s (hd (dsh (dr s))) a Hm (own_chain _ _ _ _ _ (di_own _ _ _ D)) O Sa) as (A1 & A2 & A3 & A4).
    fold (drop_mutex m s) in *. fold s' in A1, A2, A3, A4. split; [exact A1|]. split; [exact A2|]. split; [exact A3|]. split; [apply (b_ok _ _ B)|]. rewrite A4. lia. }
  split; [intros w; apply K|]. destruct (K 0) as (O & _ & U & U' & _). destruct (n_ok _ _ O). repeat split; auto. congruence.
Qed.
Print Assumptions C122_exactly_once_partial.

(** Two futures wait.  The release wakes the one that was queued last; the other one is forgotten, and the mutex destroyed. *)
Definition leaving : list mact :=
  whole 0 TryLock 0 ++ whole 1 (Poll 1 7) 8 ++ whole 2 (Poll 2 9) 9 ++ whole 0 DropGuard 0 ++ whole 2 (Poll 2 9) 0 ++ whole 2 (DropFut 2) 0.
Example C122_case : forall b : bool, let s := start b leaving in
  o_stale (order (log s)) = false /\ calm s /\ wakers b 5 [8; 9; 10; 11] (fun _ => 0) leaving = [7; 9] /\
  uses 7 (log s) = 0%nat /\ uses 9 (log s) = 1%nat /\ uses 7 (log (drop_mutex 4 s)) = 1%nat.
Proof.
  intros b. cbv zeta. split; [destruct b; vm_compute; reflexivity|].
  split; [intros [|[|[|t]]]; destruct b; vm_compute; reflexivity|]. destruct b; vm_compute; auto 10.
Qed.

(** No memory is leaked, in any history: once the mutex is destroyed, all the memory that the allocator gave for waiters is free again.
    The destructor accesses no node that has been freed; so it frees none twice. *)
Theorem C122_no_leak atomics v addrs link l :
  let s := exec atomics v addrs link l in
  calm s -> exists n, forall m, (n <= m)%nat -> let s' := drop_mutex m s in
    (forall x, In x addrs -> In x (dead (dsh (dr s')))) /\ fault (dsh (dr s')) = false.
Proof.
  intros s Ca. destruct (found_calm atomics addrs s) as (c & D & H); auto; [apply found_run, found_init|].
  pose proof (di_own _ _ _ D) as O. exists (length c). intros m Hm s'. unfold s', drop_mutex. split.
  - intros x Hx. rewrite (drop_list_dead c m s _ Hm (own_chain _ _ _ _ _ O)). apply in_app_iff. destruct (H x Hx); auto.
  - apply (drop_list_fault c); auto; [apply (own_chain _ _ _ _ _ O)|apply (own_nd_l _ _ _ _ _ O)|apply (own_ld _ _ _ _ _ O)|apply (di_fault _ _ _ D)].
Qed.
Print Assumptions C122_no_leak.
(** What a release frees has not been freed before, is not in the queue any more, and no other release frees it too. *)
Theorem C122_freed_once atomics v addrs link l t o x :
  let s := exec atomics v addrs link l in
  ctx s t = CRel o (UFree x) ->
  ~ In x (dead (dsh (dr s))) /\ (forall c, chain (nx (dsh (dr s))) (hd (dsh (dr s))) c -> ~ In x c) /\
  forall t' o', ctx s t' = CRel o' (UFree x) -> t' = t.
Proof.
  intros s C. destruct (found_run atomics addrs l _ (found_init atomics v addrs link)) as [_ (q & L) _ _]. fold (exec atomics v addrs link l) in L. fold s in L.
  destruct (l_d _ _ _ L) as (c & D). pose proof (di_own _ _ _ D) as O.
  assert (Hh : In x (held (dsh (dr s)))) by (apply (l_hx _ _ _ L t); now rewrite C). split; [now apply (own_hd _ _ _ _ _ O)|split].
  - intros c' Hc Hx. rewrite (chain_det _ _ _ _ Hc (own_chain _ _ _ _ _ O)) in Hx. now apply (own_lh _ _ _ _ _ O) in Hx.
  - intros t' o' C'. apply (l_hx2 _ _ _ L t' t x); [now rewrite C'|now rewrite C].
Qed.
Print Assumptions C122_freed_once.
(** The guard is dropped after the notified future was: the release is about to free the waiter of that future. *)
Definition freeing (b : bool) : list mact :=
  whole 0 TryLock 0 ++ whole 1 (Poll 1 7) 8 ++ whole 1 (DropFut 1) 0 ++ Call 0 DropGuard :: go 0 0 (if b then 7 else 6).
Example C122_freed_case : forall b : bool, ctx (start b (freeing b)) 0%nat = CRel DropGuard (UFree 8).
Proof. intros []; vm_compute; reflexivity. Qed.
(** In the history [leaving] the waiter of the forgotten future is at address 8. *)
Example C122_leak_case : forall b : bool, let s := start b leaving in
  calm s /\ mem_N 8 (dead (dsh (dr s))) = false /\ mem_N 8 (dead (dsh (dr (drop_mutex 4 s)))) = true.
Proof.
  intros b. cbv zeta. split; [intros [|[|[|t]]]; destruct b; vm_compute; reflexivity|]. destruct b; vm_compute; auto.
Qed.

(** The full claim is false.  Future 1 is dropped: it takes its waiter, but has not read the waker yet, when the guard is dropped and frees
    the waiter.  Future 2 gets the memory for its own waiter.  Then the destructor of future 1 continues: it destroys the waker of future 2,
    which still waits, and nobody destroys the waker of future 1. *)
Definition swapped : list mact :=
  whole 0 TryLock 0 ++ whole 0 (Poll 1 7) 8 ++ Call 1 (DropFut 1) :: go 1 0 1 ++ whole 0 DropGuard 0 ++
  whole 2 TryLock 0 ++ whole 2 (Poll 2 9) 8 ++ go 1 0 10.
Theorem C122_exactly_once_refuted : forall b : bool, exists l, let s := start b l in let s' := drop_mutex 4 s in
  calm s /\ u_wait (future 2 (log s)) = true /\ wakers b 5 [8; 9; 10; 11] (fun _ => 0) l = [7; 9] /\
  uses 9 (log s) = 1%nat /\ uses 7 (log s') = 0%nat /\ hd (dsh (dr s)) = 8 /\ nx (dsh (dr s)) 8 = 0.
Proof.
  intros b. exists swapped. cbv zeta. split; [intros [|[|[|t]]]; destruct b; vm_compute; reflexivity|].
  destruct b; vm_compute; auto 10.
Qed.
Print Assumptions C122_exactly_once_refuted.
