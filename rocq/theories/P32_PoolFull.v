(** A memory pool that reports exhaustion is exhausted: C105. *)
Require Import NArith List Bool Arith Lia.
From Verif Require Import AtomicSpec LinSpec Treiber TreiberProofs TreiberSoft PoolFullSpec PoolFull PoolFullHw P03_Treiber.
Import ListNotations.
Open Scope N_scope.

(** Critical-section build: whenever an allocation returns nothing, then at an instant of its call every
    block was in use or belonged to another call in progress. *)
Theorem C105_exhausted (a size : N) (count : nat) link ie ls d tr tr' :
  0 < a -> 0 < size -> Forall pool_slabel ls ->
  snd (pool_cs a size count link ie ls) = tr ++ LReturn d RNone :: tr' ->
  exhausted_during (fun p => snd (pool_cs a size count link ie p)) ls d count tr.
Proof.
  intros Ha Hs Hl Hev. unfold exhausted_during, pool_cs in *.
  eapply (soft_exhausted size (a + size * N.of_nat count) Hs ie _ ls (pool_sinv a size count link ie Ha) Hl
            eq_refl eq_refl eq_refl a count d tr tr' eq_refl); [|exact Hev].
  intros x Hx. right. right. right. left. now apply blocks_unissued.
Qed.
Print Assumptions C105_exhausted.

(** Hardware build, for the schedules of C18. *)
Theorem C105_exhausted_partial (a size : N) (count : nat) link ls d tr tr' :
  0 < a -> 0 < size -> Forall pool_label ls ->
  tame size (a + size * N.of_nat count) (tinit (shm_init a [] link)) ls ->
  snd (pool_hw a size count link ls) = tr ++ LReturn d RNone :: tr' ->
  exhausted_during (fun p => snd (pool_hw a size count link p)) ls d count tr.
Proof.
  intros Ha Hs Hl Ht Hev. unfold exhausted_during, pool_hw in *.
  exact (hard_exhausted size (a + size * N.of_nat count) Hs a count link ls Ha eq_refl Hl Ht d tr tr' Hev).
Qed.
Print Assumptions C105_exhausted_partial.

(** Hardware build, any schedule: after the reuse of C18, the free list has lost the block at 116. *)
Definition free_by (t : nat) (x : N) : list tlabel :=
  [LInv t (OPush x); LStep t false; LStep t false; LStep t false; LRet t].
Definition losing : list tlabel :=
  alloc_by 1 ++ alloc_by 1 ++ alloc_by 1
  ++ free_by 1 116 ++ free_by 1 108 ++ free_by 1 100
  ++ [LInv 0 OAlloc; LStep 0 false; LStep 0 false]          (* preempted before the CAS *)
  ++ alloc_by 1 ++ alloc_by 1 ++ [LWrite 108 0]
  ++ free_by 1 100
  ++ [LStep 0 false; LRet 0]                               (* returns 100; the free list is 108 *)
  ++ alloc_by 0                                            (* returns 108 *)
  ++ alloc_by 0.                                           (* returns nothing *)

Theorem C105_exhausted_refuted :
  exists a size count link ls d tr, 0 < a /\ 0 < size /\ Forall pool_label ls /\
    snd (pool_hw a size count link ls) = tr ++ [LReturn d RNone] /\
    ~ exhausted_during (fun p => snd (pool_hw a size count link p)) ls d count tr.
Proof.
  exists 100, 8, 3%nat, (fun _ => 7), losing, 0%nat.
  exists (removelast (snd (pool_hw 100 8 3 (fun _ => 7) losing))).
  split; [easy|]. split; [easy|]. split; [repeat constructor; discriminate|].
  split; [vm_compute; reflexivity|].
  intros (p & q & tr2 & _ & Etr & _ & Hq & ts & Hnd & Hts & Hc).
  assert (tr2 = []) as ->.
  { destruct tr2 as [|e tr2 _] using rev_ind; [easy|]. exfalso.
    rewrite app_assoc in Etr. apply (f_equal (@rev _)) in Etr. rewrite rev_unit in Etr.
    vm_compute in Etr. injection Etr as He _.
    specialize (Hq e ltac:(apply in_app_iff; simpl; auto)). subst e. discriminate. }
  rewrite app_nil_r in Etr. rewrite <- Etr in Hts, Hc.
  assert (ts = []) as ->.
  { destruct ts as [|t ts]; [easy|]. exfalso. destruct (Hts t (or_introl eq_refl)) as [Hne Hb].
    vm_compute in Hb. destruct t as [|[|t]]; [easy|discriminate|discriminate]. }
  vm_compute in Hc. lia.
Qed.
Print Assumptions C105_exhausted_refuted.

(** Calls in progress count.  One of two blocks is in use.  The context 0 finds the free list empty; the
    context 1, which interrupts it, too; the context 2 gives the block in use back; 1 gets the other
    block.  0 gets nothing, though at no instant both blocks were in use. *)
Definition overtaken : list slabel :=
  salloc ++ [SLInv OAlloc; SLStep; SLStep; SLStep; SLStep; SLIrq]
  ++ [SLInv OAlloc; SLStep; SLStep; SLStep; SLStep; SLIrq]
  ++ [SLInv (OPush 100)] ++ repeat SLStep 5 ++ [SLRet; SLIret]
  ++ repeat SLStep 4 ++ [SLRet; SLIret]
  ++ repeat SLStep 4 ++ [SLRet].

Example C105_case :
  let run p := snd (pool_cs 100 8 2 (fun _ => 0) true p) in
  Forall pool_slabel overtaken /\
  (exists tr, run overtaken = tr ++ [LReturn 0 RNone]) /\
  forallb (fun n => Nat.ltb (length (used [] (run (firstn n overtaken)))) 2) (seq 0 (length overtaken)) = true.
Proof.
  cbv zeta. split; [repeat constructor; discriminate|]. split; [|vm_compute; reflexivity].
  exists (removelast (snd (pool_cs 100 8 2 (fun _ => 0) true overtaken))). vm_compute. reflexivity.
Qed.

(** A schedule of the hardware build: the pool of one block is exhausted. *)
Example C105_case_hw :
  let ls := alloc_by 1 ++ [LInv 0 OAlloc; LStep 0 false; LStep 0 false; LStep 0 false; LStep 0 false; LRet 0] in
  tame 8 108 (tinit (shm_init 100 [] (fun _ => 0))) ls /\ Forall pool_label ls /\
  snd (pool_hw 100 8 1 (fun _ => 0) ls) =
    [LCall 1 OAlloc; LReturn 1 (RNode 100); LCall 0 OAlloc] ++ [LReturn 0 RNone].
Proof.
  cbv zeta. split; [|split; [repeat constructor; discriminate|vm_compute; reflexivity]].
  left. vm_compute. repeat split.
Qed.
