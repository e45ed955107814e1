(** The contents of allocated memory, used by contexts that interrupt one another: C119. *)
Require Import NArith List Bool Arith Lia.
From Verif Require Import AtomicSpec LinSpec Treiber Heap HeapSpec HeapConc HeapUseSpec HeapUse HeapUseProofs HeapUseLinks P02_Heap.
Import ListNotations.
Open Scope N_scope.

(** Every byte that is read from a live block is the one last written to it by its owners, or copied there by
    [grow] or [shrink], or zero after [allocate_zeroed] or [grow_zeroed]; whatever the other contexts do. *)
Theorem C119_contents : forall ws base cfg m ie ls, wf_cfg ws base cfg ->
  faithful (snd (urun ws base cfg (uinit ws cfg m ie) ls)).
Proof.
  intros ws base cfg m ie ls Hcfg h1 a v h2 w E Hw.
  apply (urun_reads ws base cfg Hcfg ie ls _ _ (uinv_init ws base cfg Hcfg ie m) h1 a v h2 w E Hw).
Qed.
Print Assumptions C119_contents.

(** What is known after a call of [grow] or [shrink]: the bytes of the old block at the time of the call. *)
Definition no_call (d : nat) (e : uevent) : Prop := match e with UCall j _ => j <> d | _ => True end.
Theorem C119_kept : forall h1 d r p h2 q len k,
  old_of r = Some p -> Forall (no_call d) h2 -> k < keeps r -> k < len ->
  contents (h1 ++ UCall d r :: h2 ++ [UBack d (Some (q, len))]) (q + k) = contents h1 (p + k).
Proof.
  intros h1 d r p h2 q len k Ho F Hk Hl. unfold contents. rewrite fold_left_app. cbn [fold_left]. rewrite fold_left_app. cbn [fold_left].
  set (K := fold_left learn h1 known0).
  assert (T : forall K1, then_ K1 d = (r, fun j => now K (p + j)) -> then_ (fold_left learn h2 K1) d = (r, fun j => now K (p + j))).
  { clear - F. induction F as [|e h2 He F IH]; intros K1 E; [exact E|]. cbn. apply IH. destruct e as [j x|j [[q l]|]| | | |]; cbn; auto.
    destruct (Nat.eqb_spec d j) as [->|]; [now elim He|exact E]. }
  specialize (T (learn K (UCall d r))). cbn [learn then_] in T. rewrite Nat.eqb_refl, Ho in T. specialize (T eq_refl).
  cbn [learn now]. cbn [learn] in T |- *. rewrite Ho. rewrite T. cbn [fst snd].
  destruct (N.leb_spec q (q + k)); [|lia]. destruct (N.ltb_spec (q + k) (q + len)); [|lia]. cbn.
  replace (q + k - q) with k by lia. unfold handed. now destruct (N.ltb_spec k (keeps r)); [|lia].
Qed.
Print Assumptions C119_kept.

(** The links the pools follow are the bytes in memory, at every instant: for each block, in use or not, the word
    that is there. *)
Theorem C119_links : forall ws base cfg m ie ls i j x, wf_cfg ws base cfg -> slot cfg i j x ->
  let s := fst (urun ws base cfg (uinit ws cfg m ie) ls) in nx (hp (uh s) i) x = wget ws (umem s) x.
Proof.
  intros ws base cfg m ie ls i j x Hcfg S s.
  apply (coh_run ws base cfg Hcfg ie ls _ _ (uinv_init ws base cfg Hcfg ie m) (coh_init ws cfg ie m) i j x S).
Qed.
Print Assumptions C119_links.

(** A zeroed block of 3 bytes is written to and grows to 9.  [grow] is interrupted in the allocation, by a context that
    allocates and writes; and after the old block is given back, by another that takes it and writes over it. *)
Definition steps (n : nat) : list ulabel := repeat ULStep n.
Definition growing : list ulabel :=
  [ULReq (RNew true 3 1)] ++ steps 9 ++ [ULRet] ++ steps 5
  ++ [ULWrite 0x100 7; ULWrite 0x101 9; ULRead 0x102; ULReq (RGrow false 0x100 3 9 4)] ++ steps 8
  ++ [ULIrq; ULReq (RNew false 4 4)] ++ steps 8 ++ [ULRet; ULWrite 0x104 200; ULWrite 0x100 1; ULIret; ULRet] ++ steps 15
  ++ [ULIrq; ULReq (RNew false 4 4)] ++ steps 8 ++ [ULRet; ULWrite 0x100 33; ULIret; ULRet]
  ++ map ULRead [0x108; 0x109; 0x10A; 0x10B; 0x104; 0x100].
Example C119_case :
  let r := urun 4 0x100 ex_cfg (uinit 4 ex_cfg (fun _ => 5) true) growing in
  wf_cfg 4 0x100 ex_cfg /\ hfs (uh (fst r)) = [HIdle] /\
  snd r = [UCall 0 (RNew true 3 1); UBack 0 (Some (0x100, 4)); UWrote 0x100 7; UWrote 0x101 9; URead 0x102 0;
           UCall 0 (RGrow false 0x100 3 9 4); UCall 1 (RNew false 4 4); UBack 1 (Some (0x104, 4)); UWrote 0x104 200;
           UCall 1 (RNew false 4 4); UBack 1 (Some (0x100, 4)); UWrote 0x100 33; UBack 0 (Some (0x108, 16));
           URead 0x108 7; URead 0x109 9; URead 0x10A 0; URead 0x10B 5; URead 0x104 200; URead 0x100 33] /\
  map (contents (snd r)) [0x108; 0x109; 0x10A; 0x10B; 0x104; 0x100] = [Some 7; Some 9; Some 0; None; Some 200; Some 33].
Proof. split; [exact ex_cfg_wf|]. vm_compute. repeat split. Qed.
(** [shrink], interrupted in its copy; a failed [grow] leaves the old block as it was; [grow_zeroed]. *)
Definition shrinking : list ulabel :=
  [ULReq (RNew false 16 1)] ++ steps 9 ++ [ULRet; ULWrite 0x108 11; ULWrite 0x109 12; ULReq (RShrink 0x108 16 2 1)] ++ steps 9
  ++ [ULRet; ULStep; ULIrq; ULReq (RNew true 3 1)] ++ steps 9 ++ [ULRet] ++ steps 5
  ++ [ULRead 0x106; ULReq (RGrow true 0x104 3 17 1); ULRet; ULRead 0x106; ULGive 0x104 3] ++ steps 5 ++ [ULRet; ULIret]
  ++ steps 9 ++ [ULRet; ULRead 0x100; ULRead 0x101]
  ++ [ULReq (RGrow true 0x100 2 3 1)] ++ steps 9 ++ [ULRet] ++ steps 14 ++ [ULRet; ULRead 0x104; ULRead 0x105; ULRead 0x106].
Example C119_case_shrink :
  let r := urun 4 0x100 ex_cfg (uinit 4 ex_cfg (fun _ => 5) true) shrinking in
  hfs (uh (fst r)) = [HIdle] /\
  snd r = [UCall 0 (RNew false 16 1); UBack 0 (Some (0x108, 16)); UWrote 0x108 11; UWrote 0x109 12; UCall 0 (RShrink 0x108 16 2 1);
           UCall 1 (RNew true 3 1); UBack 1 (Some (0x104, 4)); URead 0x106 0; UCall 1 (RGrow true 0x104 3 17 1); UBack 1 None; URead 0x106 0;
           UGive 1 0x104 3; UGiven 1;
           UBack 0 (Some (0x100, 4)); URead 0x100 11; URead 0x101 12;
           UCall 0 (RGrow true 0x100 2 3 1); UBack 0 (Some (0x104, 4)); URead 0x104 11; URead 0x105 12; URead 0x106 0].
Proof. vm_compute. repeat split. Qed.
(** An empty allocation grows, and shrinks to nothing. *)
Definition emptying : list ulabel :=
  [ULReq (RNew true 0 4); ULRet; ULStep; ULReq (RGrow true 4 0 2 1)] ++ steps 9 ++ [ULRet] ++ steps 8
  ++ [ULRet; ULWrite 0x101 3; ULRead 0x100; ULRead 0x101; ULReq (RShrink 0x100 2 0 1); ULRet] ++ steps 6 ++ [ULRet; ULRead 0x100].
Example C119_case_empty :
  let r := urun 4 0x100 ex_cfg (uinit 4 ex_cfg (fun _ => 5) true) emptying in
  hfs (uh (fst r)) = [HIdle] /\
  snd r = [UCall 0 (RNew true 0 4); UBack 0 (Some (4, 0)); UCall 0 (RGrow true 4 0 2 1); UBack 0 (Some (0x100, 4));
           UWrote 0x101 3; URead 0x100 0; URead 0x101 3; UCall 0 (RShrink 0x100 2 0 1); UBack 0 (Some (1, 0))].
Proof. vm_compute. repeat split. Qed.
