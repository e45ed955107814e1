(** The whole heap, used by contexts that interrupt one another: C106, C107. *)
Require Import NArith List Bool Arith Lia.
From Verif Require Import AtomicSpec LinSpec Treiber Heap HeapSpec HeapConc HeapConcSpec HeapConcProofs HeapConcQuiet HeapConcFull P02_Heap.
Import ListNotations.
Open Scope N_scope.

(** A fresh heap over any memory, used by any contexts in any order; its log of calls and returns. *)
Definition heap_cs (base : N) (cfg : list pcfg) link ie ls := hrun base cfg (hinit cfg link ie) ls.
Definition live_after (tr : list (lvis hop hres)) : list blk := live_of (fun _ => 0) [] tr.

(** C106: at every instant, the live allocations are blocks of pools, large enough, and do not overlap. *)
Theorem C106_live_disjoint ws base cfg link ie ls s tr :
  wf_cfg ws base cfg -> heap_cs base cfg link ie ls = (s, tr) ->
  (forall i j b b', nth_error (live_after tr) i = Some b -> nth_error (live_after tr) j = Some b' -> i <> j ->
     0 < b_len b -> 0 < b_len b' ->
     b_ptr b + b_len b <= b_ptr b' \/ b_ptr b' + b_len b' <= b_ptr b) /\
  (forall b, In b (live_after tr) -> b_req b <= b_len b /\ (0 < b_len b ->
     exists i a n, nth_error cfg i = Some (a, b_len b, n) /\
       a <= b_ptr b /\ b_ptr b + b_len b <= a + b_len b * n)).
Proof.
  intros Hcfg E. pose proof (reach ws base cfg Hcfg ie link ls) as H. unfold heap_cs in E. rewrite E in H.
  destruct H as [[l HI] Hl]. unfold live_after. rewrite <- Hl. exact (conc_live ws base cfg Hcfg ie s l HI).
Qed.
Print Assumptions C106_live_disjoint.

(** C106: nothing is lost.  Once the interrupts have returned, an allocation answers exactly as the live
    allocations dictate: from the first pool with large enough blocks that are not all in use. *)
Theorem C106_best_fit ws base cfg link ie ls s tr size align :
  wf_cfg ws base cfg -> heap_cs base cfg link ie ls = (s, tr) -> hfs s = [HIdle] ->
  exists r, snd (hrun base cfg s (HLInv (HAlloc size align) :: repeat HLStep (9 * length cfg) ++ [HLRet])) =
     [LCall 0%nat (HAlloc size align); LReturn 0%nat r] /\
    alloc_result cfg (live_after tr) size align (result_of r).
Proof.
  intros Hcfg E Hs. pose proof (reach ws base cfg Hcfg ie link ls) as H. unfold heap_cs in E. rewrite E in H.
  destruct H as [[l HI] Hl]. unfold live_after. rewrite <- Hl. exact (conc_best_fit ws base cfg Hcfg ie s l size align HI Hs).
Qed.
Print Assumptions C106_best_fit.

(** Two pools.  The context 0 allocates both blocks of the first, then asks for a third and finds the
    first pool empty.  It is interrupted before it turns to the next pool; the interrupt gives 0x100 back,
    scribbles over the other block, takes a block of 16, and is interrupted itself inside [deallocate]. *)
Definition calls (o : hop) : list hlabel := [HLInv o] ++ repeat HLStep 27 ++ [HLRet].
Definition between_pools : list hlabel :=
  calls (HAlloc 3 1) ++ calls (HAlloc 4 4)
  ++ [HLInv (HAlloc 2 1)] ++ repeat HLStep 8                 (* nothing in the first pool *)
  ++ [HLIrq] ++ [HLInv (HDealloc 0x100 3)] ++ [HLIrq] ++ calls (HAlloc 9 8) ++ [HLIret]
  ++ repeat HLStep 5 ++ [HLRet; HLWrite 0x104 77; HLIret]
  ++ repeat HLStep 27 ++ [HLRet].

Example C106_case :
  let '(s, tr) := heap_cs 0x100 ex_cfg (fun _ _ => 5) true between_pools in
  wf_cfg 4 0x100 ex_cfg /\ hfs s = [HIdle] /\
  tr = [LCall 0 (HAlloc 3 1); LReturn 0 (HBlock 0x100 4); LCall 0 (HAlloc 4 4); LReturn 0 (HBlock 0x104 4);
        LCall 0 (HAlloc 2 1); LCall 1 (HDealloc 0x100 3); LCall 2 (HAlloc 9 8); LReturn 2 (HBlock 0x108 16);
        LReturn 1 HFreed; LReturn 0 (HBlock 0x118 16)]%nat /\
  map (fun b => (b_ptr b, b_len b, b_req b)) (live_after tr) = [(0x104, 4, 4); (0x108, 16, 9); (0x118, 16, 2)] /\
  snd (hrun 0x100 ex_cfg s (calls (HAlloc 2 1))) = [LCall 0%nat (HAlloc 2 1); LReturn 0%nat (HBlock 0x100 4)].
Proof.
  destruct (heap_cs 0x100 ex_cfg (fun _ _ => 5) true between_pools) as [s tr] eqn:E.
  vm_compute in E. injection E as <- <-. split; [exact ex_cfg_wf|]. vm_compute. repeat split.
Qed.

(** C107, pool by pool: when an allocation fails, then for each pool with large enough blocks there is an
    instant of the call at which every block of the pool was in use or belonged to another call in progress.
    Missing: that it is the same instant for all the pools. *)
Theorem C107_failed_partial ws base cfg link ie ls d tr tr' :
  wf_cfg ws base cfg -> snd (heap_cs base cfg link ie ls) = tr ++ LReturn d HFail :: tr' ->
  forall c, In c (fitting cfg (pend_of (fun _ => 0) tr d)) ->
  during (fun p => snd (heap_cs base cfg link ie p)) ls d tr (exhausted_for [c] d).
Proof.
  intros Hcfg E c Hc. unfold heap_cs in *. exact (conc_failed ws base cfg Hcfg ie link ls d tr tr' c E Hc).
Qed.
Print Assumptions C107_failed_partial.

(** C107 is false: two pools of one block.  The first is in use.  The context 0 asks for a small block and
    finds the first pool empty.  Before it turns to the second, an interrupt gives the block of the first
    pool back and takes that of the second.  The allocation fails, though at every instant a block
    was left. *)
Definition two_pools : list pcfg := [(0x100, 4, 1); (0x104, 8, 1)].
Definition call8 (o : hop) : list hlabel := [HLInv o] ++ repeat HLStep 8 ++ [HLRet].
Definition changing_sides : list hlabel :=
  call8 (HAlloc 4 1) ++ [HLInv (HAlloc 4 1)] ++ repeat HLStep 8
  ++ [HLIrq] ++ call8 (HDealloc 0x100 4) ++ call8 (HAlloc 8 1) ++ [HLIret]
  ++ repeat HLStep 9 ++ [HLRet].

Lemma hbusy_in t : forall tr b, hbusy b tr t = true -> b t = true \/ existsb (hof t) tr = true.
Proof.
  induction tr as [|[t' o|t' r] tr IH]; intros b H; simpl in *; auto.
  - destruct (IH _ H) as [G|G]; [|rewrite G, orb_true_r; auto]. unfold upd in G. rewrite Nat.eqb_sym in G.
    destruct (Nat.eqb t' t); auto.
  - destruct (IH _ H) as [G|G]; [|rewrite G, orb_true_r; auto]. unfold upd in G. rewrite Nat.eqb_sym in G.
    destruct (Nat.eqb t' t); [discriminate|auto].
Qed.

Definition one_left (tr : list (lvis hop hres)) : bool :=
  (used_of (live_after tr) two_pools + (if hbusy (fun _ => false) tr 1%nat then 1 else 0) <? 2) &&
  forallb (fun e => hof 0 e || hof 1 e) tr.

Theorem C107_failed_refuted :
  exists base cfg link ie ls d tr, wf_cfg 4 base cfg /\
    snd (heap_cs base cfg link ie ls) = tr ++ [LReturn d HFail] /\
    ~ during (fun p => snd (heap_cs base cfg link ie p)) ls d tr
        (exhausted_for (fitting cfg (pend_of (fun _ => 0) tr d)) d).
Proof.
  exists 0x100, two_pools, (fun _ _ => 0), true, changing_sides, 0%nat.
  exists (removelast (snd (heap_cs 0x100 two_pools (fun _ _ => 0) true changing_sides))).
  split; [vm_compute; repeat split; congruence|]. split; [vm_compute; reflexivity|].
  intros (p & q & tr2 & Ep & _ & Hb & _ & ts & Hnd & Hts & Hc).
  assert (Ef : fitting two_pools (pend_of (fun _ => 0) (removelast (snd (heap_cs 0x100 two_pools (fun _ _ => 0) true changing_sides))) 0%nat) = two_pools)
    by (vm_compute; reflexivity).
  rewrite Ef in Hc. clear Ef.
  assert (A : forallb (fun n => let tr := snd (heap_cs 0x100 two_pools (fun _ _ => 0) true (firstn n changing_sides)) in
              negb (hbusy (fun _ => false) tr 0%nat) || one_left tr) (seq 0 (S (length changing_sides))) = true)
    by (vm_compute; reflexivity).
  rewrite forallb_forall in A. specialize (A (length p)). cbv zeta in A.
  assert (Efp : firstn (length p) changing_sides = p) by (rewrite Ep, firstn_app, firstn_all, Nat.sub_diag; apply app_nil_r).
  rewrite Efp in A. set (r := snd (heap_cs 0x100 two_pools (fun _ _ => 0) true p)) in *.
  assert (L : In (length p) (seq 0 (S (length changing_sides)))).
  { apply in_seq. rewrite Ep, app_length. lia. }
  specialize (A L). rewrite Hb in A. cbn [negb orb] in A. unfold one_left in A. apply andb_true_iff in A. destruct A as [A B].
  apply N.ltb_lt in A. clearbody r. change (blocks_of two_pools) with 2 in Hc.
  assert (T : forall t, In t ts -> t = 1%nat).
  { intros t Ht. destruct (Hts t Ht) as [Hne Hbt]. destruct (hbusy_in t r _ Hbt) as [G|G]; [discriminate|].
    apply existsb_exists in G. destruct G as (e & He & Hoe). rewrite forallb_forall in B. specialize (B e He).
    unfold hof in *. destruct e as [t' ?|t' ?]; apply Nat.eqb_eq in Hoe; subst t';
      (destruct t as [|[|t]]; [easy|reflexivity|discriminate]). }
  unfold live_after in A. destruct ts as [|t [|t' ts]].
  - cbn [length N.of_nat] in Hc. destruct (hbusy (fun _ => false) r 1%nat); lia.
  - assert (t = 1%nat) by (apply T; now left). subst t. destruct (Hts 1%nat (or_introl eq_refl)) as [_ Hb1]. rewrite Hb1 in A.
    cbn [length] in Hc. lia.
  - inversion Hnd as [|? ? Hn]; subst. apply Hn. left. rewrite (T t'), (T t); simpl; auto.
Qed.
Print Assumptions C107_failed_refuted.

(** Both pools in use: the failure of a context that is interrupted by a call which fails as well. *)
Example C107_case :
  let ls := call8 (HAlloc 4 1) ++ call8 (HAlloc 5 1) ++ [HLInv (HAlloc 1 1)] ++ repeat HLStep 4 ++ [HLIrq; HLInv (HAlloc 6 1)]
            ++ repeat HLStep 9 ++ [HLRet; HLIret] ++ repeat HLStep 13 ++ [HLRet] in
  snd (heap_cs 0x100 two_pools (fun _ _ => 0) true ls) =
    [LCall 0 (HAlloc 4 1); LReturn 0 (HBlock 0x100 4); LCall 0 (HAlloc 5 1); LReturn 0 (HBlock 0x104 8);
     LCall 0 (HAlloc 1 1); LCall 1 (HAlloc 6 1); LReturn 1 HFail] ++ [LReturn 0 HFail] /\
  fitting two_pools 1 = two_pools /\ fitting two_pools 6 = [(0x104, 8, 1)].
Proof. vm_compute. repeat split. Qed.
