(** Calls for memory end: C120. *)
Require Import NArith List Bool Arith Lia.
From Verif Require Import AtomicSpec LinSpec Treiber Heap HeapSpec HeapConc HeapUseSpec HeapUse HeapUseProofs HeapUseTurns HeapUseWait P02_Heap.
Import ListNotations.
Open Scope nat_scope.

(** A request returns after a number of its own steps that depends on the request and the configuration only: whoever
    interrupts it, wherever, however often, and whatever they do with the heap. *)
Theorem C120_requests_return : forall ws base cfg m ie ls d r s1 ts, wf_cfg ws base cfg ->
  ustep ws base cfg (fst (urun ws base cfg (uinit ws cfg m ie) ls)) (ULReq r) = (s1, [UCall d r]) ->
  allowance cfg r <= turns ws base cfg d s1 ts ->
  exists o, In (UBack d o) (snd (play ws base cfg s1 ts)).
Proof.
  intros ws base cfg m ie ls d r s1 ts Hcfg E T. set (s := fst (urun ws base cfg (uinit ws cfg m ie) ls)) in *.
  pose proof (urun_inv ws base cfg Hcfg ie ls _ _ (uinv_init ws base cfg Hcfg ie m)) as I. fold s in I.
  assert (F : Forall (sane cfg) (hfs (uh s))) by (apply (urun_sane ws base cfg); repeat constructor).
  pose proof (uinv_step ws base cfg Hcfg ie _ _ (ULReq r) I) as I1. pose proof (sane_ustep ws base cfg s (ULReq r) F) as F1. rewrite E in I1, F1. cbn [fst] in I1, F1.
  assert (L : 0 < left_ cfg (largest cfg) s1 d <= allowance cfg r /\ plain (uat (ufs s1) d) = false).
  { unfold ustep in E. destruct (hfs (uh s)) as [|f fr] eqn:Ef; [discriminate|]. destruct (ufs s) as [|u ur] eqn:Eu; [discriminate|].
    pose proof (len_eq _ _ _ _ _ _ _ _ I Ef Eu) as Hl. destruct f; try discriminate. destruct u; try discriminate. destruct (req_ok s r); [|discriminate].
    injection E as <- <-. unfold left_. rewrite (hs_alloc _ _ _ _ _ _ Ef). cbn [uh ufs hfs rank uat]. rewrite Nat.eqb_refl, <- Hl, Nat.eqb_refl. split; [|reflexivity].
    pose proof (start_alloc_rank base cfg (size_of r) (align_of r)) as A. unfold rk. cbn [ru]. unfold rcopy. unfold allowance. split; [|lia].
    unfold hstart. destruct (_ =? 0)%N; [cbn; lia|]. destruct (pool_range_by_layout _ _); [|cbn; lia]. destruct (Nat.ltb _ _); cbn [rf]; lia. }
  destruct L as [[L1 L2] L3].
  pose proof (wait ws base cfg Hcfg ie (largest cfg) (psize_big cfg) ts s1 _ d I1 F1 L1 ltac:(lia)) as B. unfold play in *.
  pose proof (kind ws base cfg Hcfg ie (largest cfg) (psize_big cfg) _ s1 _ d I1 F1 L1 B) as Q. now rewrite L3 in Q.
Qed.
Print Assumptions C120_requests_return.

(** [deallocate] returns after nine. *)
Theorem C120_given_back : forall ws base cfg m ie ls d p z s1 ts, wf_cfg ws base cfg ->
  ustep ws base cfg (fst (urun ws base cfg (uinit ws cfg m ie) ls)) (ULGive p z) = (s1, [UGive d p z]) ->
  9 <= turns ws base cfg d s1 ts -> In (UGiven d) (snd (play ws base cfg s1 ts)).
Proof.
  intros ws base cfg m ie ls d p z s1 ts Hcfg E T. set (s := fst (urun ws base cfg (uinit ws cfg m ie) ls)) in *.
  pose proof (urun_inv ws base cfg Hcfg ie ls _ _ (uinv_init ws base cfg Hcfg ie m)) as I. fold s in I.
  assert (F : Forall (sane cfg) (hfs (uh s))) by (apply (urun_sane ws base cfg); repeat constructor).
  pose proof (uinv_step ws base cfg Hcfg ie _ _ (ULGive p z) I) as I1. pose proof (sane_ustep ws base cfg s (ULGive p z) F) as F1. rewrite E in I1, F1. cbn [fst] in I1, F1.
  assert (L : 0 < left_ cfg (largest cfg) s1 d <= 9 /\ plain (uat (ufs s1) d) = true).
  { unfold ustep in E. destruct (hfs (uh s)) as [|f fr] eqn:Ef; [discriminate|]. destruct (ufs s) as [|u ur] eqn:Eu; [discriminate|].
    pose proof (len_eq _ _ _ _ _ _ _ _ I Ef Eu) as Hl. destruct f; try discriminate. destruct u; try discriminate. destruct (_ || _); [|discriminate].
    destruct (hstep _ _ _ _) as [h [|e er]] eqn:H; [discriminate|]. destruct (hs_give _ _ _ _ _ _ _ _ _ Ef H) as (l & _ & _ & Hf).
    injection E as <- <-. unfold left_. cbn [uh ufs]. rewrite Hf, ?Eu. cbn [rank uat]. rewrite Nat.eqb_refl, <- Hl, Nat.eqb_refl. split; [|reflexivity].
    pose proof (start_give_rank base cfg p z) as A. unfold rk. cbn [ru]. split; [|lia].
    unfold hstart. destruct (_ =? 0)%N; [cbn; lia|]. destruct (pool_by_ptr _ _ _); cbn; lia. }
  destruct L as [[L1 L2] L3].
  pose proof (wait ws base cfg Hcfg ie (largest cfg) (psize_big cfg) ts s1 _ d I1 F1 L1 ltac:(lia)) as B. unfold play in *.
  pose proof (kind ws base cfg Hcfg ie (largest cfg) (psize_big cfg) _ s1 _ d I1 F1 L1 B) as Q. now rewrite L3 in Q.
Qed.
Print Assumptions C120_given_back.

(** Both small blocks are in use.  A request looks into both pools, and is interrupted three times by a context that
    takes a large block and gives it back. *)
Definition before : list ulabel := concat (repeat ([ULReq (RNew false 3 1)] ++ repeat ULStep 9 ++ [ULRet]) 2).
Definition busy : list turn :=
  [Other ULIrq; Other (ULReq (RNew false 9 1))] ++ repeat Own 8 ++ [Other (ULGive 0x108 9)] ++ repeat Own 5 ++ [Other ULIret].
Definition often (n : nat) : list turn := busy ++ repeat Own 8 ++ busy ++ [Own] ++ busy ++ repeat Own n.
Example C120_case :
  let s := fst (urun 4 0x100 ex_cfg (uinit 4 ex_cfg (fun _ => 5%N) true) before) in
  let s1 := fst (ustep 4 0x100 ex_cfg s (ULReq (RNew false 3 1))) in
  let seen n := filter (fun e => match e with UBack O _ => true | _ => false end) (snd (play 4 0x100 ex_cfg s1 (often n))) in
  wf_cfg 4 0x100 ex_cfg /\ allowance ex_cfg (RNew false 3 1) = 28 /\
  snd (ustep 4 0x100 ex_cfg s (ULReq (RNew false 3 1))) = [UCall 0 (RNew false 3 1)] /\
  turns 4 0x100 ex_cfg 0 s1 (often 19) = 28 /\ seen 19 = [UBack 0 (Some (0x108, 16))%N] /\
  turns 4 0x100 ex_cfg 0 s1 (often 4) = 13 /\ seen 4 = [] /\ turns 4 0x100 ex_cfg 0 s1 (often 0) = 9.
Proof. split; [exact ex_cfg_wf|]. vm_compute. repeat split. Qed.
