(** Properties of the lock-free stack behind the memory pool and the linked list
    under concurrency: C17, C18, C20, C21, C62. *)
Require Import NArith Arith Lia List Bool.
From Verif Require Import AtomicSpec LinSpec Treiber TreiberProofs TreiberSoft.
Import ListNotations.
Open Scope N_scope.

(** * Specification *)

(** Blocks in use, read off the calls and returns alone: a block enters when an
    allocation (pop) returns it and leaves when it is passed to a deallocation
    (push). *)
Fixpoint in_use (u : list N) (tr : list (lvis top tres)) : list N :=
  match tr with
  | [] => u
  | LCall _ (OPush x) :: r => in_use (remove1 x u) r
  | LReturn _ (RNode x) :: r => in_use (u ++ [x]) r
  | _ :: r => in_use u r
  end.

(** The nodes reachable in memory, front first. *)
Fixpoint linked (f : N -> N) (h : N) (l : list N) : Prop :=
  match l with
  | [] => h = 0
  | x :: r => h = x /\ x <> 0 /\ linked f (f x) r
  end.

(** The user does not release a node behind the structure's back; for pools this
    is not even expressible. *)
Definition keeps (lb : tlabel) : Prop := match lb with LFree _ => False | _ => True end.
Definition skeeps (lb : slabel) : Prop := match lb with SLFree _ => False | _ => True end.

Lemma in_use_app t1 : forall u t2, in_use u (t1 ++ t2) = in_use (in_use u t1) t2.
Proof.
  induction t1 as [|e t1 IH]; intros u t2; [easy|].
  simpl. destruct e as [? [| |]|? [| |]]; apply IH.
Qed.

Lemma tstep_held size edge s lb : keeps lb ->
  held (sh (fst (tstep size edge s lb))) = in_use (held (sh s)) (snd (tstep size edge s lb)) /\
  dead (sh (fst (tstep size edge s lb))) = dead (sh s).
Proof.
  destruct lb as [t o|t sp|t|x v|x]; simpl; intros Hk; [| | | |easy].
  - destruct (th s t); try easy. destruct o as [x| |]; simpl; try easy.
    now destruct (mem_N x (held (sh s))).
  - destruct (th s t); simpl; try easy;
      repeat match goal with |- context [if ?b then _ else _] => destruct b end; easy.
  - destruct (th s t); try easy. now destruct r.
  - now destruct (mem_N x (held (sh s))).
Qed.

Lemma trun_held size edge ls : forall s, Forall keeps ls ->
  held (sh (fst (trun size edge s ls))) = in_use (held (sh s)) (snd (trun size edge s ls)) /\
  dead (sh (fst (trun size edge s ls))) = dead (sh s).
Proof.
  induction ls as [|lb ls IH]; intros s Hf; [easy|].
  inversion Hf as [|? ? H1 H2]; subst. destruct (tstep_held size edge s lb H1) as [A B].
  simpl. destruct (tstep size edge s lb) as [s1 e1]. destruct (IH s1 H2) as [C D].
  destruct (trun size edge s1 ls) as [s2 e2]. simpl in *. rewrite in_use_app. split; congruence.
Qed.

Lemma sstep_held size edge s lb : skeeps lb ->
  held (ssh (fst (sstep size edge s lb))) = in_use (held (ssh s)) (snd (sstep size edge s lb)) /\
  dead (ssh (fst (sstep size edge s lb))) = dead (ssh s).
Proof.
  unfold sstep. destruct (sfs s) as [|f rest]; [easy|].
  destruct lb as [o| | | | |x v|x]; simpl; intros Hk; [| | | | | |easy].
  - destruct f; try easy. destruct o as [x| |]; simpl; try easy.
    now destruct (mem_N x (held (ssh s))).
  - destruct f as [|o|sv o|sv o cur|sv o cur new|sv r|sv| |sv|sv u|r]; simpl; try easy;
      try destruct o; simpl;
      repeat match goal with |- context [if ?b then _ else _] => destruct b end; easy.
  - destruct f; try easy. now destruct r.
  - now destruct (sie s).
  - destruct f; try easy. now destruct rest.
  - now destruct (mem_N x (held (ssh s))).
Qed.

Lemma srun_held size edge ls : forall s, Forall skeeps ls ->
  held (ssh (fst (srun size edge s ls))) = in_use (held (ssh s)) (snd (srun size edge s ls)) /\
  dead (ssh (fst (srun size edge s ls))) = dead (ssh s).
Proof.
  induction ls as [|lb ls IH]; intros s Hf; [easy|].
  inversion Hf as [|? ? H1 H2]; subst. destruct (sstep_held size edge s lb H1) as [A B].
  simpl. destruct (sstep size edge s lb) as [s1 e1]. destruct (IH s1 H2) as [C D].
  destruct (srun size edge s1 ls) as [s2 e2]. simpl in *. rewrite in_use_app. split; congruence.
Qed.

Lemma linked_chain f : forall l h, chain f h l <-> linked f h l.
Proof.
  induction l as [|x r IH]; intros h; simpl; [easy|]. now rewrite IH.
Qed.

Lemma own_nodup size edge m l cr : own size edge m l cr -> NoDup (l ++ held m).
Proof.
  intros HO. pose proof (own_nd_l _ _ _ _ _ HO) as H1. pose proof (own_lh _ _ _ _ _ HO) as H2.
  revert H1 H2. generalize (own_nd_h _ _ _ _ _ HO). clear.
  induction l as [|x l IH]; intros Hh Hl Hd; [exact Hh|].
  inversion Hl as [|? ? Hx Hl']; subst. simpl. constructor.
  - rewrite in_app_iff. intros [H|H]; [easy|]. apply (Hd x); simpl; auto.
  - apply IH; auto. intros y Hy. apply Hd. now right.
Qed.

(** * A pool shared between contexts *)

Definition pool_hw (a size : N) (count : nat) (link : N -> N) (ls : list tlabel) :=
  trun size (a + size * N.of_nat count) (tinit (shm_init a [] link)) ls.
Definition pool_cs (a size : N) (count : nat) (link : N -> N) (ie : bool) (ls : list slabel) :=
  srun size (a + size * N.of_nat count) (sinit (shm_init a [] link) ie) ls.

Lemma pool_tinv a size count link : 0 < a ->
  tinv size (a + size * N.of_nat count) (tinit (shm_init a [] link)) [].
Proof.
  intros Ha. apply tinv_init; [constructor|intros x []|apply pool_on_grid|now left].
Qed.

Lemma pool_sinv a size count link ie : 0 < a ->
  sinv size (a + size * N.of_nat count) ie (sinit (shm_init a [] link) ie) [].
Proof.
  intros Ha. apply sinv_init; [constructor|intros x []|apply pool_on_grid|now left].
Qed.

(** ** C17: critical-section build.  [sinv]'s free list is existential. *)

Theorem C17_no_double_allocation (a size : N) (count : nat) link ie ls :
  0 < a -> 0 < size -> Forall skeeps ls ->
  let u := in_use [] (snd (pool_cs a size count link ie ls)) in
  NoDup u /\ (forall x, In x u -> In x (blocks a size count)).
Proof.
  intros Ha Hs Hk. cbv zeta.
  destruct (srun_held size (a + size * N.of_nat count) ls (sinit (shm_init a [] link) ie) Hk) as [E _].
  change (held (ssh (sinit (shm_init a [] link) ie))) with (@nil N) in E.
  unfold pool_cs. rewrite <- E.
  destruct (sinv_run size (a + size * N.of_nat count) Hs ie ls _ _ (pool_sinv a size count link ie Ha))
    as (l & HI & HW & _).
  split; [apply (own_nd_h _ _ _ _ _ (si_own _ _ _ _ _ HI))|].
  intros x Hx. apply blocks_unissued; [exact Hs|].
  assert (H : somewhere size (a + size * N.of_nat count) (ssh (sinit (shm_init a [] link) ie)) []
                (crs (sfs (sinit (shm_init a [] link) ie))) x).
  { apply HW. right. left. exact Hx. }
  destruct H as [[]|[[]|[[]|[H|[t H]]]]]; [exact H|].
  unfold crs, at_depth in H. simpl in H. destruct t as [|[|]]; easy.
Qed.
Print Assumptions C17_no_double_allocation.

(** Once every context is back to rest, each block that is not in use can be had
    again: some number of further allocations returns it. *)
Theorem C17_no_loss (a size : N) (count : nat) link ie ls :
  0 < a -> 0 < size -> Forall skeeps ls ->
  sfs (fst (pool_cs a size count link ie ls)) = [FIdle] ->
  forall x, In x (blocks a size count) ->
  exists k, In x (in_use [] (snd (pool_cs a size count link ie (ls ++ sallocs k)))).
Proof.
  intros Ha Hs Hk Hid x Hx. unfold pool_cs in *.
  set (edge := a + size * N.of_nat count) in *. set (s0 := sinit (shm_init a [] link) ie) in *.
  destruct (sinv_run size edge Hs ie ls s0 [] (pool_sinv a size count link ie Ha)) as (l & HI & HW & _).
  destruct (srun_held size edge ls s0 Hk) as [E1 E2].
  assert (Hsk : forall k, Forall skeeps (sallocs k)).
  { induction k as [|k IH]; [constructor|]. cbn [sallocs]. apply Forall_app. split; [|easy].
    unfold salloc. repeat constructor. }
  assert (Hg : forall k, in_use [] (snd (srun size edge s0 (ls ++ sallocs k))) =
                         held (ssh (fst (srun size edge (fst (srun size edge s0 ls)) (sallocs k))))).
  { intros k. rewrite <- srun_app. symmetry. apply (srun_held size edge _ s0).
    apply Forall_app. split; auto. }
  destruct (in_dec N.eq_dec x (held (ssh (fst (srun size edge s0 ls))))) as [Hin|Hin].
  - exists 0%nat. rewrite Hg. exact Hin.
  - destruct (sobtain_all size edge Hs ie (fst (srun size edge s0 ls)) l x HI Hid) as [k Hk'].
    + apply HW. right. right. right. left. apply blocks_unissued; auto.
    + exact Hin.
    + rewrite E2. easy.
    + exists k. now rewrite Hg.
Qed.
Print Assumptions C17_no_loss.

(** An interrupt between the two critical sections of [allocate]. *)
Example C17_case :
  let ls := [SLInv OAlloc; SLStep; SLStep; SLStep; SLStep; SLIrq]
              ++ salloc ++ [SLInv (OPush 100)] ++ repeat SLStep 5 ++ [SLRet; SLIret]
              ++ repeat SLStep 4 ++ [SLRet] in
  in_use [] (snd (pool_cs 100 8 2 (fun _ => 0) true ls)) = [108] /\
  sfs (fst (pool_cs 100 8 2 (fun _ => 0) true ls)) = [FIdle] /\ Forall skeeps ls.
Proof. vm_compute. repeat split; repeat constructor. Qed.

(** ** C18: hardware build *)

(** The free list is X -> Y.  Context 0 reads X and its successor Y, then is
    preempted by context 1, which allocates X and Y and gives back X.  Context 0's
    compare-exchange succeeds and makes Y, which is in use, the free list. *)
Definition aba : list tlabel :=
  alloc_by 1 ++ alloc_by 1                                (* 100 and 108 in use *)
  ++ [LInv 1 (OPush 108); LStep 1 false; LStep 1 false; LStep 1 false; LRet 1]
  ++ [LInv 1 (OPush 100); LStep 1 false; LStep 1 false; LStep 1 false; LRet 1]
  ++ [LInv 0 OAlloc; LStep 0 false; LStep 0 false]          (* preempted before the CAS *)
  ++ alloc_by 1 ++ alloc_by 1
  ++ [LInv 1 (OPush 100); LStep 1 false; LStep 1 false; LStep 1 false; LRet 1]
  ++ [LStep 0 false; LRet 0]                               (* returns 100 *)
  ++ alloc_by 0.                                           (* returns 108 again *)

Theorem C18_no_double_allocation_refuted :
  exists a size count link ls, 0 < a /\ 0 < size /\ Forall keeps ls /\
    ~ NoDup (in_use [] (snd (pool_hw a size count link ls))).
Proof.
  exists 100, 8, 2%nat, (fun _ => 0), aba. split; [easy|]. split; [easy|]. split.
  - repeat constructor.
  - replace (in_use [] _) with [108; 100; 108] by (vm_compute; reflexivity).
    intros H. inversion H as [|? ? H1 _]; subst. apply H1. simpl. auto.
Qed.
Print Assumptions C18_no_double_allocation_refuted.

(** Schedules without that pattern: a block is not given back while a preempted
    allocation has it in its hands.  Sufficient: allocations do not overlap each
    other, or deallocations do not start during an allocation. *)
Definition tame (size edge : N) (s : tstate) (ls : list tlabel) : Prop :=
  no_reuse size edge s ls \/ solo_pops size edge s ls.

Lemma solo_init a nodes link : solo_inv (tinit (shm_init a nodes link)) [].
Proof. split; intros; easy. Qed.

Lemma tame_run size edge ls a nodes link : 0 < size ->
  tinv size edge (tinit (shm_init a nodes link)) [] ->
  tame size edge (tinit (shm_init a nodes link)) ls ->
  exists l', tinv size edge (fst (trun size edge (tinit (shm_init a nodes link)) ls)) l' /\
    (forall x, somewhere size edge (shm_init a nodes link) [] (fun _ => None) x <->
      somewhere size edge (sh (fst (trun size edge (tinit (shm_init a nodes link)) ls))) l'
        (fun t => carry (th (fst (trun size edge (tinit (shm_init a nodes link)) ls)) t)) x) /\
    (Forall no_alloc ls -> 
       tsim (fst (trun size edge (tinit (shm_init a nodes link)) ls)) l'
            (snd (trun size edge (tinit (shm_init a nodes link)) ls))).
Proof.
  intros Hs HI HT. set (s0 := tinit (shm_init a nodes link)) in *.
  assert (Hsim : tsim s0 [] []).
  { eexists. split; [apply lx_init|]. split; easy. }
  destruct HT as [HT|HT].
  - destruct (tinv_run size edge Hs ls s0 [] HI HT) as (l & A & B).
    exists l. split; [exact A|]. split; [exact B|].
    intros Hf. destruct (tsim_run size edge Hs ls s0 [] [] HI Hsim HT Hf) as (l2 & A2 & B2).
    assert (l = l2) as ->; [|exact B2].
    eapply chain_det; [apply (own_chain _ _ _ _ _ (ti_own _ _ _ _ A))|apply (own_chain _ _ _ _ _ (ti_own _ _ _ _ A2))].
  - destruct (solo_run size edge Hs ls s0 [] HI (solo_init a nodes link) HT) as (l & A & _ & B & C).
    exists l. split; [exact A|]. split; [exact B|]. intros Hf. now apply (C Hf []).
Qed.

Theorem C18_no_double_allocation_partial (a size : N) (count : nat) link ls :
  0 < a -> 0 < size -> Forall keeps ls ->
  tame size (a + size * N.of_nat count) (tinit (shm_init a [] link)) ls ->
  let u := in_use [] (snd (pool_hw a size count link ls)) in
  NoDup u /\ (forall x, In x u -> In x (blocks a size count)).
Proof.
  intros Ha Hs Hk HT. cbv zeta. unfold pool_hw.
  set (edge := a + size * N.of_nat count) in *.
  destruct (trun_held size edge ls (tinit (shm_init a [] link)) Hk) as [E _].
  change (held (sh (tinit (shm_init a [] link)))) with (@nil N) in E. rewrite <- E.
  destruct (tame_run size edge ls a [] link Hs (pool_tinv a size count link Ha) HT) as (l & HI & HW & _).
  split; [apply (own_nd_h _ _ _ _ _ (ti_own _ _ _ _ HI))|].
  intros x Hx. apply blocks_unissued; [exact Hs|].
  assert (H : somewhere size edge (shm_init a [] link) [] (fun _ => None) x).
  { apply HW. right. left. exact Hx. }
  destruct H as [[]|[[]|[[]|[H|[t H]]]]]; easy.
Qed.
Print Assumptions C18_no_double_allocation_partial.

Theorem C18_no_loss_partial (a size : N) (count : nat) link ls :
  0 < a -> 0 < size -> Forall keeps ls ->
  tame size (a + size * N.of_nat count) (tinit (shm_init a [] link)) ls ->
  (forall t, th (fst (pool_hw a size count link ls)) t = TIdle) ->
  forall t x, In x (blocks a size count) ->
  exists k, In x (in_use [] (snd (pool_hw a size count link (ls ++ allocs_by t k)))).
Proof.
  intros Ha Hs Hk HT Hid t x Hx. unfold pool_hw in *.
  set (edge := a + size * N.of_nat count) in *. set (s0 := tinit (shm_init a [] link)) in *.
  destruct (tame_run size edge ls a [] link Hs (pool_tinv a size count link Ha) HT) as (l & HI & HW & _).
  fold s0 in HI, HW.
  destruct (trun_held size edge ls s0 Hk) as [E1 E2].
  assert (Hsk : forall k, Forall keeps (allocs_by t k)).
  { induction k as [|k IH]; [constructor|]. cbn [allocs_by]. apply Forall_app. split; [|easy].
    unfold alloc_by. repeat constructor. }
  assert (Hg : forall k, in_use [] (snd (trun size edge s0 (ls ++ allocs_by t k))) =
                         held (sh (fst (trun size edge (fst (trun size edge s0 ls)) (allocs_by t k))))).
  { intros k. rewrite <- trun_app. symmetry. apply (trun_held size edge _ s0).
    apply Forall_app. split; auto. }
  destruct (in_dec N.eq_dec x (held (sh (fst (trun size edge s0 ls))))) as [Hin|Hin].
  - exists 0%nat. rewrite Hg. exact Hin.
  - destruct (obtain_all size edge Hs (fst (trun size edge s0 ls)) l x HI Hid) with (t := t) as [k Hk'].
    + apply HW. right. right. right. left. apply blocks_unissued; auto.
    + exact Hin.
    + rewrite E2. easy.
    + exists k. now rewrite Hg.
Qed.
Print Assumptions C18_no_loss_partial.

(** A deallocation lands in the middle of another context's allocation, whose
    compare-exchange then fails and is repeated. *)
Definition contended : list tlabel :=
  alloc_by 1 ++ alloc_by 2
  ++ [LInv 1 (OPush 100); LStep 1 false; LStep 1 false; LStep 1 false; LRet 1]
  ++ [LInv 0 OAlloc; LStep 0 false; LStep 0 false]
  ++ [LInv 1 (OPush 108); LStep 1 false; LStep 1 true; LStep 1 false; LStep 1 false; LStep 1 false; LRet 1]
  ++ [LStep 0 false; LStep 0 false; LStep 0 false; LRet 0].

Example C18_case :
  tame 8 116 (tinit (shm_init 100 [] (fun _ => 0))) contended /\
  in_use [] (snd (pool_hw 100 8 2 (fun _ => 0) contended)) = [108].
Proof.
  split; [|vm_compute; reflexivity]. right. vm_compute.
  repeat split; intros [|[|[|t]]]; reflexivity.
Qed.

(** * Pushes and pops of a linked list *)

(** No pool memory: callers bring the nodes ([un] and [edge] coincide, so nothing
    is ever bumped). *)
Definition list_hw (nodes : list N) link (ls : list tlabel) :=
  trun 1 0 (tinit (shm_init 0 nodes link)) ls.
Definition list_cs (nodes : list N) link (ie : bool) (ls : list slabel) :=
  srun 1 0 (sinit (shm_init 0 nodes link) ie) ls.

Lemma none_unissued x : ~ unissued 1 0 0 x.
Proof. intros (k & -> & H). lia. Qed.

Lemma grid0 : on_grid 1 0 0.
Proof. exists 0. reflexivity. Qed.

Theorem C20_linearizable (nodes : list N) link ie ls :
  NoDup nodes -> ~ In 0 nodes -> Forall sno_alloc ls ->
  let (s, tr) := list_cs nodes link ie ls in
  exists l, linearizable stack_ap [] tr l /\ linked (nx (ssh s)) (hd (ssh s)) l /\
    NoDup (l ++ held (ssh s)) /\ fault (ssh s) = false.
Proof.
  intros Hnd H0 Hf. unfold list_cs.
  assert (HI : sinv 1 0 ie (sinit (shm_init 0 nodes link) ie) []).
  { apply sinv_init; auto; [|apply grid0].
    intros x Hx. split; [intros ->; easy|apply none_unissued]. }
  destruct (sinv_run 1 0 ltac:(lia) ie ls _ _ HI) as (l & A & _ & C).
  specialize (C Hf []).
  destruct (srun 1 0 (sinit (shm_init 0 nodes link) ie) ls) as [s tr]. simpl in *.
  destruct C as (ab & Hab & El & _).
  { eexists. split; [apply lx_init|]. split; [easy|]. intros d. unfold at_depth. simpl.
    destruct d as [|[|]]; reflexivity. }
  exists l. pose proof (si_own _ _ _ _ _ A) as HO.
  split; [exists ab; auto|]. split; [apply linked_chain, (own_chain _ _ _ _ _ HO)|].
  split; [|apply (si_fault _ _ _ _ _ A)].
  eapply own_nodup; eauto.
Qed.
Print Assumptions C20_linearizable.

(** An interrupt pushes between a pop's call and its critical section. *)
Example C20_case :
  let ls := [SLInv (OPush 1)] ++ repeat SLStep 5 ++ [SLRet; SLInv OPop; SLIrq; SLInv (OPush 2)]
              ++ repeat SLStep 5 ++ [SLRet; SLIret] ++ repeat SLStep 5 ++ [SLRet] in
  Forall sno_alloc ls /\
  snd (list_cs [1; 2] (fun _ => 7) true ls) =
    [LCall 0 (OPush 1); LReturn 0 RPushed; LCall 0 OPop; LCall 1 (OPush 2); LReturn 1 RPushed;
     LReturn 0 (RNode 2)] /\
  hd (ssh (fst (list_cs [1; 2] (fun _ => 7) true ls))) = 1.
Proof. vm_compute. repeat split; repeat constructor. Qed.

(** ** C21: hardware build *)

Definition pop_by (t : nat) : list tlabel :=
  [LInv t OPop; LStep t false; LStep t false; LStep t false; LRet t].
Definition push_by (t : nat) (x : N) : list tlabel :=
  [LInv t (OPush x); LStep t false; LStep t false; LStep t false; LRet t].

(** The same pattern as for the pool. *)
Definition aba_list : list tlabel :=
  push_by 1 2 ++ push_by 1 1
  ++ [LInv 0 OPop; LStep 0 false; LStep 0 false]
  ++ pop_by 1 ++ pop_by 1 ++ push_by 1 1
  ++ [LStep 0 false; LRet 0] ++ pop_by 0.

Theorem C21_no_double_pop_refuted :
  exists nodes link ls, NoDup nodes /\ ~ In 0 nodes /\ Forall no_alloc ls /\ Forall keeps ls /\
    ~ NoDup (in_use nodes (snd (list_hw nodes link ls))).
Proof.
  exists [1; 2], (fun _ => 0), aba_list. split; [|split; [|split; [|split]]].
  - repeat constructor; simpl; intuition lia.
  - simpl. intuition lia.
  - repeat constructor.
  - repeat constructor.
  - replace (in_use _ _) with [2; 1; 2] by (vm_compute; reflexivity).
    intros H. inversion H as [|? ? H1 _]; subst. apply H1. simpl. auto.
Qed.
Print Assumptions C21_no_double_pop_refuted.

(** Also, [LinkedList::pop] frees the popped node (linked_list.rs:173-175) while
    another context which has read the head still reads its link. *)
Theorem C21_no_use_after_free_refuted :
  exists nodes link ls, NoDup nodes /\ ~ In 0 nodes /\ Forall no_alloc ls /\
    fault (sh (fst (list_hw nodes link ls))) = true.
Proof.
  exists [1], (fun _ => 0),
    (push_by 1 1 ++ [LInv 0 OPop; LStep 0 false] ++ pop_by 1 ++ [LFree 1] ++ [LStep 0 false]).
  split; [|split; [|split]].
  - repeat constructor; simpl; intuition lia.
  - simpl. intuition lia.
  - repeat constructor.
  - vm_compute. reflexivity.
Qed.
Print Assumptions C21_no_use_after_free_refuted.

Theorem C21_linearizable_partial (nodes : list N) link ls :
  NoDup nodes -> ~ In 0 nodes -> Forall no_alloc ls ->
  tame 1 0 (tinit (shm_init 0 nodes link)) ls ->
  let (s, tr) := list_hw nodes link ls in
  exists l, linearizable stack_ap [] tr l /\ linked (nx (sh s)) (hd (sh s)) l /\
    NoDup (l ++ held (sh s)) /\ fault (sh s) = false.
Proof.
  intros Hnd H0 Hf HT. unfold list_hw.
  assert (HI : tinv 1 0 (tinit (shm_init 0 nodes link)) []).
  { apply tinv_init; auto; [|apply grid0].
    intros x Hx. split; [intros ->; easy|apply none_unissued]. }
  destruct (tame_run 1 0 ls 0 nodes link ltac:(lia) HI HT) as (l & A & _ & C).
  specialize (C Hf).
  destruct (trun 1 0 (tinit (shm_init 0 nodes link)) ls) as [s tr]. simpl in *.
  destruct C as (ab & Hab & El & _).
  exists l. pose proof (ti_own _ _ _ _ A) as HO.
  split; [exists ab; auto|]. split; [apply linked_chain, (own_chain _ _ _ _ _ HO)|].
  split; [|apply (ti_fault _ _ _ _ A)]. eapply own_nodup; eauto.
Qed.
Print Assumptions C21_linearizable_partial.

(** Two pops overlap; nothing is pushed back meanwhile. *)
Example C21_case :
  let ls := push_by 1 2 ++ push_by 1 1 ++ [LInv 0 OPop; LStep 0 false; LStep 0 false]
              ++ pop_by 1 ++ [LStep 0 false; LStep 0 false; LStep 0 false; LRet 0] in
  Forall no_alloc ls /\ tame 1 0 (tinit (shm_init 0 [1; 2] (fun _ => 0))) ls /\
  in_use [] (snd (list_hw [1; 2] (fun _ => 0) ls)) = [1; 2].
Proof.
  split; [repeat constructor|]. split; [|vm_compute; reflexivity]. left.
  apply quiet_no_reuse. vm_compute. repeat split; intros [|[|t]]; reflexivity.
Qed.

(** * C62: when an allocation fails *)

(** A block is free: in the free list or never issued. *)
Definition some_free (edge : N) (m : shm) : bool := negb (hd m =? 0) || negb (un m =? edge).

(** Context 0 finds the free list empty; so does context 1; context 2 gives back a
    block; context 1 takes the last never issued one; context 0 reports failure. *)
Definition late : list tlabel :=
  alloc_by 2
  ++ [LInv 0 OAlloc; LStep 0 false; LStep 0 false]
  ++ [LInv 1 OAlloc; LStep 1 false; LStep 1 false]
  ++ push_by 2 100
  ++ [LStep 1 false; LStep 1 false; LRet 1]
  ++ [LStep 0 false; LStep 0 false; LRet 0].
Definition slate : list slabel :=
  salloc
  ++ [SLInv OAlloc] ++ repeat SLStep 4
  ++ [SLIrq; SLInv OAlloc] ++ repeat SLStep 4
  ++ [SLIrq; SLInv (OPush 100)] ++ repeat SLStep 5 ++ [SLRet; SLIret]
  ++ repeat SLStep 4 ++ [SLRet; SLIret] ++ repeat SLStep 4 ++ [SLRet].

Theorem C62_fails_only_when_full_refuted :
  (exists a size count link ls, 0 < a /\ 0 < size /\
    last (snd (pool_hw a size count link ls)) (LReturn 0%nat RPushed) = LReturn 0%nat RNone /\
    forall n, some_free (a + size * N.of_nat count)
                 (sh (fst (pool_hw a size count link (firstn n ls)))) = true) /\
  (exists a size count link ie ls, 0 < a /\ 0 < size /\
    last (snd (pool_cs a size count link ie ls)) (LReturn 0%nat RPushed) = LReturn 0%nat RNone /\
    forall n, some_free (a + size * N.of_nat count)
                 (ssh (fst (pool_cs a size count link ie (firstn n ls)))) = true).
Proof.
  split.
  - exists 100, 8, 2%nat, (fun _ => 0), late. split; [easy|]. split; [easy|]. split; [vm_compute; reflexivity|].
    assert (H : forallb (fun n => some_free (100 + 8 * N.of_nat 2)
                 (sh (fst (pool_hw 100 8 2 (fun _ => 0) (firstn n late))))) (seq 0 (length late)) = true)
      by (vm_compute; reflexivity).
    rewrite forallb_forall in H.
    intros n. destruct (Nat.lt_ge_cases n (length late)) as [Hn|Hn].
    + apply H. apply in_seq. lia.
    + rewrite firstn_all2 by exact Hn. vm_compute. reflexivity.
  - exists 100, 8, 2%nat, (fun _ => 0), true, slate. split; [easy|]. split; [easy|]. split; [vm_compute; reflexivity|].
    assert (H : forallb (fun n => some_free (100 + 8 * N.of_nat 2)
                 (ssh (fst (pool_cs 100 8 2 (fun _ => 0) true (firstn n slate))))) (seq 0 (length slate)) = true)
      by (vm_compute; reflexivity).
    rewrite forallb_forall in H.
    intros n. destruct (Nat.lt_ge_cases n (length slate)) as [Hn|Hn].
    + apply H. apply in_seq. lia.
    + rewrite firstn_all2 by exact Hn. vm_compute. reflexivity.
Qed.
Print Assumptions C62_fails_only_when_full_refuted.

(** Undisturbed, an allocation fails exactly when nothing is free. *)
Theorem C62_undisturbed_partial size edge s t :
  th s t = TIdle ->
  exists r, snd (trun size edge s (alloc_by t)) = [LCall t OAlloc; LReturn t r] /\
    (r = RNone <-> some_free edge (sh s) = false).
Proof.
  intros Ht. destruct s as [m c]. cbn [sh th] in *. unfold some_free.
  unfold alloc_by. cbn [trun tstep sh th]. rewrite Ht. cbn [may_call on_call begin sh th].
  rewrite upd_same. cbn [taccess sh th]. rewrite upd_same. cbn [taccess].
  destruct (N.eqb_spec (hd m) 0) as [E0|E0]; cbn [sh th]; rewrite upd_same; cbn [taccess].
  - cbn [sh th]. rewrite upd_same. cbn [taccess].
    destruct (N.eqb_spec (un m) edge) as [E1|E1]; cbn [sh th].
    + rewrite upd_same. cbn [snd]. eexists. split; [reflexivity|]. easy.
    + rewrite N.eqb_refl. cbn [negb andb sh th]. rewrite upd_same. cbn [snd].
      eexists. split; [reflexivity|]. easy.
  - cbn [touch hd]. rewrite N.eqb_refl. cbn [negb andb sh th]. rewrite upd_same. cbn [taccess sh th].
    rewrite upd_same. cbn [snd]. eexists. split; [reflexivity|]. easy.
Qed.
Print Assumptions C62_undisturbed_partial.

(** In any execution, a failing allocation has seen the free list empty, and
    afterwards all blocks issued. *)
Theorem C62_seen_empty_partial size edge s t ls :
  th s t = TIdle -> ~ In (LRet t) ls ->
  th (fst (trun size edge s (LInv t OAlloc :: ls))) t = TDone RNone ->
  exists n m, (n <= m <= length ls)%nat /\
    hd (sh (fst (trun size edge s (LInv t OAlloc :: firstn n ls)))) = 0 /\
    un (sh (fst (trun size edge s (LInv t OAlloc :: firstn m ls)))) = edge.
Proof.
  intros Ht Hret.
  set (st := fun k => fst (trun size edge s (LInv t OAlloc :: firstn k ls))).
  assert (Hst : forall k, st (S k) = match nth_error ls k with
                 | Some lb => fst (tstep size edge (st k) lb) | None => st k end).
  { intros k. unfold st. destruct (nth_error ls k) as [lb|] eqn:E.
    - replace (firstn (S k) ls) with (firstn k ls ++ [lb]).
      + change (LInv t OAlloc :: firstn k ls ++ [lb]) with ((LInv t OAlloc :: firstn k ls) ++ [lb]).
        rewrite trun_app. simpl. destruct (tstep size edge _ lb). reflexivity.
      + revert k E. clear. induction ls as [|y r IH]; intros [|k] E; try easy.
        * simpl in E. injection E as ->. reflexivity.
        * simpl. f_equal. apply IH. exact E.
    - apply nth_error_None in E. rewrite !firstn_all2 by lia. reflexivity. }
  assert (Hinv : forall k, (k <= length ls)%nat ->
    match th (st k) t with
    | TIdle => False
    | TPop1 _ c => c = 0 -> exists n, (n <= k)%nat /\ hd (sh (st n)) = 0
    | TBump0 => exists n, (n <= k)%nat /\ hd (sh (st n)) = 0
    | TBump1 u => exists n, (n <= k)%nat /\ hd (sh (st n)) = 0 /\
    (u = edge -> exists m, (n <= m <= k)%nat /\ un (sh (st m)) = edge)
    | TDone RNone => exists n m, (n <= m <= k)%nat /\ hd (sh (st n)) = 0 /\ un (sh (st m)) = edge
    | TPop0 al | TPop2 al _ _ => al = true
    | _ => True
    end /\
    match th (st k) t with TPop1 al _ => al = true | _ => True end).
  { assert (Hup : forall k, (k <= length ls)%nat -> True) by easy. clear Hup.
    induction k as [|k IH]; intros Hk.
    - unfold st. simpl. rewrite Ht. simpl. now rewrite upd_same.
    - rewrite Hst. destruct (nth_error ls k) as [lb|] eqn:E; [|apply nth_error_None in E; lia].
      assert (Hlb : lb <> LRet t) by (intros ->; apply Hret; eapply nth_error_In; eauto).
      specialize (IH ltac:(lia)).
      assert (Hkeep : th (fst (tstep size edge (st k) lb)) t = th (st k) t ->
        match th (st k) t with
        | TIdle => False
        | TPop1 _ c => c = 0 -> exists n, (n <= S k)%nat /\ hd (sh (st n)) = 0
        | TBump0 => exists n, (n <= S k)%nat /\ hd (sh (st n)) = 0
        | TBump1 u => exists n, (n <= S k)%nat /\ hd (sh (st n)) = 0 /\
    (u = edge -> exists m, (n <= m <= S k)%nat /\ un (sh (st m)) = edge)
        | TDone RNone => exists n m, (n <= m <= S k)%nat /\ hd (sh (st n)) = 0 /\ un (sh (st m)) = edge
        | TPop0 al | TPop2 al _ _ => al = true
        | _ => True
        end /\
    match th (st k) t with TPop1 al _ => al = true | _ => True end).
      { intros _. destruct IH as [IH IH2]. split; [|exact IH2].
        destruct (th (st k) t) as [|x|x cur|x cur|al|al cur|al cur nxt| |u|[|x|]]; auto.
        - intros C. destruct (IH C) as (n & ? & ?). exists n. split; [lia|easy].
        - destruct IH as (n & ? & ?). exists n. split; [lia|easy].
        - destruct IH as (n & ? & ? & IH). exists n. split; [lia|]. split; [easy|].
          intros C. destruct (IH C) as (m & ? & ?). exists m. split; [lia|easy].
        - destruct IH as (n & m & ? & ? & ?). exists n, m. split; [lia|easy]. }
      destruct lb as [t' o|t' sp|t'|x v|x].
      + destruct (Nat.eq_dec t' t) as [->|Hne].
        * assert (Es : fst (tstep size edge (st k) (LInv t o)) = st k).
          { simpl. destruct (th (st k) t) eqn:Et; easy. }
          rewrite Es. apply Hkeep. now rewrite Es.
        * assert (Es : th (fst (tstep size edge (st k) (LInv t' o))) t = th (st k) t).
          { simpl. destruct (th (st k) t'); try easy. destruct (may_call _ o); try easy.
            simpl. rewrite upd_other by congruence. easy. }
          rewrite Es. apply Hkeep. exact Es.
      + destruct (Nat.eq_dec t' t) as [->|Hne].
        * cbn [tstep]. destruct IH as [IH IH2].
          destruct (th (st k) t) as [|x|x cur|x cur|al|al cur|al cur nxt| |u|r] eqn:Et; [easy| | | | | | | | |].
          -- simpl. now rewrite upd_same.
          -- simpl. now rewrite upd_same.
          -- simpl. destruct (negb sp && (hd (sh (st k)) =? cur)); simpl; now rewrite upd_same.
          -- simpl. rewrite upd_same. split; [|exact IH]. intros C. exists k. split; [lia|easy].
          -- cbn [taccess]. subst al. destruct (N.eqb_spec cur 0) as [E0|E0]; simpl; rewrite upd_same.
             ++ split; [|easy]. destruct (IH E0) as (n & ? & ?). exists n. split; [lia|easy].
             ++ easy.
          -- cbn [taccess]. destruct (negb sp && (hd (sh (st k)) =? cur)); simpl; rewrite upd_same; [easy|].
             split; [|exact IH]. intros C. exists k. split; [lia|easy].
          -- simpl. rewrite upd_same. split; [|easy]. destruct IH as (n & ? & ?).
             exists n. split; [lia|]. split; [easy|]. intros C. exists k. split; [lia|easy].
          -- cbn [taccess]. destruct IH as (n & ? & ? & IH).
             destruct (N.eqb_spec u edge) as [E0|E0].
             ++ simpl. rewrite upd_same. split; [|easy]. destruct (IH E0) as (m & ? & ?).
                exists n, m. split; [lia|easy].
             ++ destruct (negb sp && (un (sh (st k)) =? u)); simpl; rewrite upd_same; [easy|].
                split; [|easy]. exists n. split; [lia|]. split; [easy|]. intros C.
                exists k. split; [lia|easy].
          -- assert (Es : th (fst (let (m, c) := taccess size edge (sh (st k)) (TDone r) sp in
                  (TState m (upd (th (st k)) t c), @nil (lvis top tres)))) t = TDone r)
               by (simpl; now rewrite upd_same).
             rewrite Es. apply Hkeep. cbn [tstep]. now rewrite Et.
        * assert (Es : th (fst (tstep size edge (st k) (LStep t' sp))) t = th (st k) t).
          { simpl. destruct (taccess size edge (sh (st k)) (th (st k) t') sp). simpl. rewrite upd_other by congruence. easy. }
          rewrite Es. apply Hkeep. exact Es.
      + assert (Es : th (fst (tstep size edge (st k) (LRet t'))) t = th (st k) t).
        { simpl. destruct (th (st k) t'); try easy. simpl. rewrite upd_other; [easy|congruence]. }
        rewrite Es. apply Hkeep. exact Es.
      + assert (Es : th (fst (tstep size edge (st k) (LWrite x v))) t = th (st k) t).
        { simpl. now destruct (mem_N x (held (sh (st k)))). }
        rewrite Es. apply Hkeep. exact Es.
      + assert (Es : th (fst (tstep size edge (st k) (LFree x))) t = th (st k) t).
        { simpl. now destruct (mem_N x (held (sh (st k)))). }
        rewrite Es. apply Hkeep. exact Es. }
  intros Hd. destruct (Hinv (length ls) ltac:(lia)) as [H _].
  unfold st in H at 1. rewrite firstn_all in H. rewrite Hd in H.
  destruct H as (n & m & H1 & H2 & H3). exists n, m. auto.
Qed.
Print Assumptions C62_seen_empty_partial.

Example C62_case :
  let s := fst (pool_hw 100 8 2 (fun _ => 0) (alloc_by 1 ++ alloc_by 1)) in
  let ls := repeat (LStep 0 false) 5 in
  th s 0%nat = TIdle /\ some_free 116 (sh s) = false /\ ~ In (LRet 0) ls /\
  th (fst (trun 8 116 s (LInv 0 OAlloc :: ls))) 0%nat = TDone RNone.
Proof.
  vm_compute. split; [easy|]. split; [easy|]. split; [|easy].
  intuition discriminate.
Qed.
