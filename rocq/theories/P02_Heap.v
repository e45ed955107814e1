(** Property theorems C08-C16 and C61: the pool heap used from one context at a
    time.  [client_run ws (heap_new base cfg m, []) qs] is an arbitrary history of
    correct use of a fresh heap over arbitrary initial memory; its result is the
    heap and the client's live allocations. *)
Require Import NArith List Bool Arith Lia.
From Verif Require Import Heap HeapSpec HeapProofs HeapContents.
Import ListNotations.
Open Scope N_scope.

(** The configuration of the examples: three pools (the second one empty). *)
Definition ex_cfg : list pcfg := [(0x100, 4, 2); (0x108, 8, 0); (0x108, 16, 2)].

Example ex_cfg_wf : wf_cfg 4 0x100 ex_cfg.
Proof. vm_compute. repeat split; congruence. Qed.

Definition ex_hist : list req :=
  [QAlloc 3 1 false; QAlloc 4 4 true; QAlloc 1 1 false; QWrite 0 1 7; QWrite 2 15 9;
   QDealloc 1 4; QGrow 0 3 10 1 true; QShrink 0 16 2 1; QAlloc 0 8 false; QAlloc 99 1 false].

(** C08. *)
Theorem C08_live_disjoint : forall ws base cfg m qs h live,
  wf_cfg ws base cfg ->
  client_run ws (heap_new base cfg m, []) qs = (h, live) ->
  (forall i j b b', nth_error live i = Some b -> nth_error live j = Some b' -> i <> j ->
     0 < b_len b -> 0 < b_len b' ->
     b_ptr b + b_len b <= b_ptr b' \/ b_ptr b' + b_len b' <= b_ptr b) /\
  (forall b, In b live -> 0 < b_len b ->
     exists i a n, nth_error cfg i = Some (a, b_len b, n) /\
       a <= b_ptr b /\ b_ptr b + b_len b <= a + b_len b * n /\ b_req b <= b_len b).
Proof.
  intros ws base cfg m qs h live Hcfg E.
  pose proof (reachable_inv ws base cfg Hcfg m qs) as H. rewrite E in H.
  split; intros; [eapply live_disjoint_nth|eapply live_in_pool]; eauto.
Qed.
Print Assumptions C08_live_disjoint.

Example C08_example :
  map (fun b => (b_ptr b, b_len b, b_req b))
    (snd (client_run 4 (heap_new 0x100 ex_cfg (fun _ => 0xAA), []) ex_hist))
  = [(0x118, 16, 10); (0x100, 4, 2); (8, 0, 0)].
Proof. vm_compute. reflexivity. Qed.

(** C09: the answer to the next allocation, plain or zeroed, in any reachable state. *)
Theorem C09_best_fit : forall ws base cfg m qs h live size align,
  wf_cfg ws base cfg ->
  client_run ws (heap_new base cfg m, []) qs = (h, live) ->
  alloc_result cfg live size align (fst (heap_allocate ws h size align)) /\
  alloc_result cfg live size align (fst (heap_allocate_zeroed ws h size align)).
Proof.
  intros ws base cfg m qs h live size align Hcfg E.
  pose proof (reachable_inv ws base cfg Hcfg m qs) as H. rewrite E in H.
  split; [apply (heap_allocate_spec ws base cfg Hcfg h live size align H)
         |apply (heap_allocate_zeroed_spec ws base cfg Hcfg h live size align H)].
Qed.
Print Assumptions C09_best_fit.

(** C09 for reallocation: growing or shrinking answers as an allocation of the new
    size made while the old block is still in use. *)
Theorem C09_realloc_best_fit : forall ws base cfg m qs h live k b sz new align,
  wf_cfg ws base cfg ->
  client_run ws (heap_new base cfg m, []) qs = (h, live) ->
  nth_error live k = Some b -> b_req b <= sz <= b_len b ->
  (sz <= new ->
   alloc_result cfg live new align (fst (heap_grow ws h (b_ptr b) sz new align)) /\
   alloc_result cfg live new align (fst (heap_grow_zeroed ws h (b_ptr b) sz new align))) /\
  (new <= sz ->
   alloc_result cfg live new align (fst (heap_shrink ws h (b_ptr b) sz new align))).
Proof.
  intros ws base cfg m qs h live k b sz new align Hcfg E Hk [Hs1 Hs2].
  pose proof (reachable_inv ws base cfg Hcfg m qs) as H. rewrite E in H.
  assert (Hf : fits_blk b sz = true)
    by (unfold fits_blk; apply andb_true_iff; split; now apply N.leb_le).
  split; [intros Hle; split|intros Hle].
  - apply (move_contents ws base cfg Hcfg (heap_allocate ws) false h live k b sz new align sz);
      auto. now apply fresh_plain.
  - apply (move_contents ws base cfg Hcfg (heap_allocate_zeroed ws) true h live k b sz new align sz);
      auto. intros. now apply heap_allocate_zeroed_spec.
  - apply (move_contents ws base cfg Hcfg (heap_allocate ws) false h live k b sz new align new);
      auto; try lia. now apply fresh_plain.
Qed.
Print Assumptions C09_realloc_best_fit.

(** Small pool exhausted: a 3-byte request is served from the 16-byte pool; a
    third such request fails as both suitable pools are exhausted. *)
Example C09_example :
  let h0 := heap_new 0x100 ex_cfg (fun _ => 0xAA) in
  let run n := fst (client_run 4 (h0, []) (repeat (QAlloc 3 1 false) n)) in
  map (fun n => fst (heap_allocate 4 (run n) 3 1)) [0; 1; 2; 3; 4]%nat
  = [Some (0x100, 4); Some (0x104, 4); Some (0x108, 16); Some (0x118, 16); None].
Proof. vm_compute. reflexivity. Qed.

(** C10: what is in use plus what can still be obtained is the configured count. *)
Theorem C10_no_leak : forall ws base cfg m qs h live i c p,
  wf_cfg ws base cfg ->
  client_run ws (heap_new base cfg m, []) qs = (h, live) ->
  nth_error cfg i = Some c -> nth_error (h_pools h) i = Some p ->
  in_use live c + obtainable ws (S (N.to_nat (snd c))) (h_mem h) p = snd c.
Proof.
  intros ws base cfg m qs h live i c p Hcfg E Hc Hp.
  pose proof (reachable_inv ws base cfg Hcfg m qs) as H. rewrite E in H.
  destruct H as (_ & _ & HP & HF).
  apply (obtainable_spec ws base cfg Hcfg (h_mem h) i c p _ live); auto; lia.
Qed.
Print Assumptions C10_no_leak.

Theorem C10_full_capacity_back : forall ws base cfg m qs h live i c p,
  wf_cfg ws base cfg ->
  client_run ws (heap_new base cfg m, []) qs = (h, live) -> live = [] ->
  nth_error cfg i = Some c -> nth_error (h_pools h) i = Some p ->
  obtainable ws (S (N.to_nat (snd c))) (h_mem h) p = snd c.
Proof.
  intros ws base cfg m qs h live i c p Hcfg E El Hc Hp.
  pose proof (C10_no_leak ws base cfg m qs h live i c p Hcfg E Hc Hp) as H.
  subst live. destruct c as [[a s] n]. exact H.
Qed.
Print Assumptions C10_full_capacity_back.

Example C10_example :
  let qs := [QAlloc 3 1 false; QAlloc 3 1 false; QAlloc 3 1 false;
             QDealloc 1 3; QDealloc 0 3; QDealloc 0 3] in
  let s := client_run 4 (heap_new 0x100 ex_cfg (fun _ => 0xAA), []) qs in
  snd s = [] /\
  map (obtainable 4 3 (h_mem (fst s))) (h_pools (fst s)) = [2; 0; 2] /\
  map (fun p => p_free p) (h_pools (fst s)) = [0x100; 0; 0x108].
Proof. vm_compute. auto. Qed.

(** C11: the pool found by address is the first one ending after the address;
    nothing is found below the base or past the last pool. *)
Theorem C11_pool_by_ptr : forall ws base cfg m qs h live x,
  wf_cfg ws base cfg ->
  client_run ws (heap_new base cfg m, []) qs = (h, live) ->
  match pool_by_ptr (h_pools h) (h_base h) x with
  | Some i =>
      base <= x /\
      (exists a s n, nth_error cfg i = Some (a, s, n) /\ x < a + s * n) /\
      (forall i' a s n, (i' < i)%nat -> nth_error cfg i' = Some (a, s, n) -> a + s * n <= x)
  | None =>
      x < base \/ forall i a s n, nth_error cfg i = Some (a, s, n) -> a + s * n <= x
  end.
Proof.
  intros ws base cfg m qs h live x Hcfg E.
  pose proof (reachable_inv ws base cfg Hcfg m qs) as H. rewrite E in H.
  now apply pool_by_ptr_spec with (ws := ws) (live := live).
Qed.
Print Assumptions C11_pool_by_ptr.

(** C11 for the addresses handed out: the pool that issued the block is found. *)
Theorem C11_issuer : forall ws base cfg m qs h live i j x,
  wf_cfg ws base cfg ->
  client_run ws (heap_new base cfg m, []) qs = (h, live) ->
  slot cfg i j x -> pool_by_ptr (h_pools h) (h_base h) x = Some i.
Proof.
  intros ws base cfg m qs h live i j x Hcfg E Hs.
  pose proof (reachable_inv ws base cfg Hcfg m qs) as H. rewrite E in H.
  eapply pool_by_ptr_owner; eauto.
Qed.
Print Assumptions C11_issuer.

Example C11_example :
  let h := heap_new 0x100 ex_cfg (fun _ => 0) in
  map (pool_by_ptr (h_pools h) (h_base h)) [0xFF; 0x100; 0x107; 0x108; 0x127; 0x128]
  = [None; Some 0%nat; Some 0%nat; Some 2%nat; Some 2%nat; None] /\
  slot ex_cfg 2 1 0x118.
Proof.
  split; [vm_compute; reflexivity|].
  exists 0x108, 16, 2. repeat split; vm_compute; reflexivity.
Qed.

(** C12: the search returns the partition point: [Some] means in bounds and
    terminated; the point is unique. *)
Theorem C12_partition_point : forall ps f,
  monotone ps f ->
  exists i, binary_search ps f = Some i /\ partition_point ps f i /\
    forall j, partition_point ps f j -> j = i.
Proof.
  intros ps f Hm. destruct (binary_search_spec ps f Hm) as (i & E & HP).
  exists i. split; [easy|]. split; [exact HP|].
  intros j Hj. eapply partition_point_unique; eauto.
Qed.
Print Assumptions C12_partition_point.

Example C12_example :
  let ps := map (fun s => Pool s 0 0 0) [4; 8; 8; 16; 32] in
  map (fun q => binary_search ps (fun p => q <=? p_size p)) [1; 5; 8; 9; 32; 33]
  = [Some 0; Some 1; Some 1; Some 3; Some 4; Some 5]%nat.
Proof. vm_compute. reflexivity. Qed.

(** C13: reallocation.  [moved] spells out what memory holds afterwards. *)
Theorem C13_grow : forall ws base cfg m qs h live k b sz new align (z : bool),
  wf_cfg ws base cfg ->
  client_run ws (heap_new base cfg m, []) qs = (h, live) ->
  nth_error live k = Some b -> b_req b <= sz <= b_len b -> sz <= new ->
  match (if z then heap_grow_zeroed ws else heap_grow ws) h (b_ptr b) sz new align with
  | (None, h') => h' = h
  | (Some (a, len), h') =>
      new <= len /\
      (forall off, off < sz -> h_mem h' (a + off) = h_mem h (b_ptr b + off)) /\
      (z = true -> forall off, sz <= off < len -> h_mem h' (a + off) = 0) /\
      (forall k' b', k' <> k -> nth_error live k' = Some b' ->
         forall off, off < b_len b' -> h_mem h' (b_ptr b' + off) = h_mem h (b_ptr b' + off))
  end.
Proof.
  intros ws base cfg m qs h live k b sz new align z Hcfg E Hk [Hs1 Hs2] Hle.
  pose proof (reachable_inv ws base cfg Hcfg m qs) as H. rewrite E in H.
  apply (grow_contents ws base cfg Hcfg h live k b sz new align z); auto.
  unfold fits_blk. apply andb_true_iff. split; now apply N.leb_le.
Qed.
Print Assumptions C13_grow.

Theorem C13_shrink : forall ws base cfg m qs h live k b sz new align,
  wf_cfg ws base cfg ->
  client_run ws (heap_new base cfg m, []) qs = (h, live) ->
  nth_error live k = Some b -> b_req b <= sz <= b_len b -> new <= sz ->
  match heap_shrink ws h (b_ptr b) sz new align with
  | (None, h') => h' = h
  | (Some (a, len), h') =>
      new <= len /\
      (forall off, off < new -> h_mem h' (a + off) = h_mem h (b_ptr b + off)) /\
      (forall k' b', k' <> k -> nth_error live k' = Some b' ->
         forall off, off < b_len b' -> h_mem h' (b_ptr b' + off) = h_mem h (b_ptr b' + off))
  end.
Proof.
  intros ws base cfg m qs h live k b sz new align Hcfg E Hk [Hs1 Hs2] Hle.
  pose proof (reachable_inv ws base cfg Hcfg m qs) as H. rewrite E in H.
  assert (Hf : fits_blk b sz = true)
    by (unfold fits_blk; apply andb_true_iff; split; now apply N.leb_le).
  pose proof (shrink_contents ws base cfg Hcfg h live k b sz new align H Hk Hf Hle) as G.
  destruct (heap_shrink ws h (b_ptr b) sz new align) as [[[a len]|] h']; [|easy].
  destruct G as (A & B & _ & D). auto.
Qed.
Print Assumptions C13_shrink.

Example C13_example :
  let qs := [QAlloc 3 1 false; QWrite 0 0 1; QWrite 0 1 2; QWrite 0 2 3; QAlloc 3 1 true] in
  let s := client_run 4 (heap_new 0x100 ex_cfg (fun _ => 0xAA), []) qs in
  match heap_grow_zeroed 4 (fst s) 0x100 3 6 1 with
  | (Some (a, len), h') =>
      (a, len) = (0x108, 16) /\
      map (fun off => h_mem h' (a + off)) [0; 1; 2; 3; 15] = [1; 2; 3; 0; 0]
  | _ => False
  end /\
  fst (heap_grow 4 (fst s) 0x100 3 17 1) = None.
Proof. vm_compute. auto. Qed.

(** C14: no request changes a byte of an allocation it does not target ([target]:
    the allocation selected by a deallocation, a reallocation or a user write). *)
Theorem C14_untargeted_unchanged : forall ws base cfg m qs h live q k b off,
  wf_cfg ws base cfg ->
  client_run ws (heap_new base cfg m, []) qs = (h, live) ->
  match q with
  | QAlloc _ _ _ => True
  | QDealloc k' _ | QGrow k' _ _ _ _ | QShrink k' _ _ _ | QWrite k' _ _ => k' <> k
  end ->
  nth_error live k = Some b -> off < b_len b ->
  h_mem (fst (fst (client_step ws (h, live) q))) (b_ptr b + off) = h_mem h (b_ptr b + off).
Proof.
  intros ws base cfg m qs h live q k b off Hcfg E Ht Hk Ho.
  pose proof (reachable_inv ws base cfg Hcfg m qs) as H. rewrite E in H.
  eapply step_contents; eauto. destruct q; simpl in *; congruence.
Qed.
Print Assumptions C14_untargeted_unchanged.

(** C14 over whole histories: every byte the client wrote (or was promised to be
    zero, or that was carried over by a reallocation) and that was not overwritten by the client is
    there.  The book-keeping of what the client may rely on is the client's
    ([fresh_data], [moved_data], [written_data]), not the allocator's. *)
Theorem C14_data_retained : forall ws base cfg m qs h live b off v,
  wf_cfg ws base cfg ->
  client_run ws (heap_new base cfg m, []) qs = (h, live) ->
  In b live -> off < b_len b -> b_data b off = Some v ->
  h_mem h (b_ptr b + off) = v.
Proof.
  intros ws base cfg m qs h live b off v Hcfg E HIn Ho Hv.
  pose proof (reachable_inv ws base cfg Hcfg m qs) as H. rewrite E in H.
  eapply blk_data_read; eauto.
Qed.
Print Assumptions C14_data_retained.

(** The byte 7 written before other blocks were returned, moved and zeroed. *)
Example C14_example :
  let s := client_run 4 (heap_new 0x100 ex_cfg (fun _ => 0xAA), []) ex_hist in
  map (fun b => (map (b_data b) [0; 1; 15], map (fun o => h_mem (fst s) (b_ptr b + o)) [0; 1; 15]))
    (firstn 1 (snd s))
  = [([None; Some 7; Some 0], [0xAA; 7; 0])].
Proof. vm_compute. reflexivity. Qed.

(** C61 (C14 without the proviso on block sizes) is false: with one-byte blocks,
    returning a block writes a free-list link over its live neighbours. *)
Theorem C61_small_blocks_refuted : exists ws base cfg m qs h live b off v,
  client_run ws (heap_new base cfg m, []) qs = (h, live) /\
  In b live /\ off < b_len b /\ b_data b off = Some v /\
  h_mem h (b_ptr b + off) <> v.
Proof.
  exists 4%nat, 0x100, [(0x100, 1, 8)], (fun _ => 0),
    [QAlloc 1 1 false; QAlloc 1 1 false; QWrite 1 0 0x55; QDealloc 0 1].
  eexists _, _, _, 0, 0x55.
  split; [reflexivity|]. split; [left; reflexivity|].
  vm_compute. repeat split; congruence.
Qed.
Print Assumptions C61_small_blocks_refuted.

(** C15: all usable bytes of a zeroed allocation are zero. *)
Theorem C15_zeroed : forall ws base cfg m qs h live size align a len h' off,
  wf_cfg ws base cfg ->
  client_run ws (heap_new base cfg m, []) qs = (h, live) ->
  heap_allocate_zeroed ws h size align = (Some (a, len), h') ->
  size <= len /\ (off < len -> h_mem h' (a + off) = 0).
Proof.
  intros ws base cfg m qs h live size align a len h' off Hcfg E Ha.
  pose proof (reachable_inv ws base cfg Hcfg m qs) as H. rewrite E in H.
  pose proof (zeroed_contents ws base cfg Hcfg h live size align H) as G.
  rewrite Ha in G. destruct G as (G1 & G2 & _). auto.
Qed.
Print Assumptions C15_zeroed.

(** A dirtied and returned block (now holding a free-list link) is zeroed. *)
Example C15_example :
  let qs := [QAlloc 9 1 false; QAlloc 9 1 false; QWrite 0 0 1; QWrite 0 15 2; QDealloc 1 9;
             QDealloc 0 9] in
  let h := fst (client_run 4 (heap_new 0x100 ex_cfg (fun _ => 0xAA), []) qs) in
  map (h_mem h) [0x108; 0x109; 0x117] = [0x18; 1; 2] /\
  match heap_allocate_zeroed 4 h 9 1 with
  | (Some (a, len), h') => (a, len) = (0x108, 16) /\ map (h_mem h') [0x108; 0x109; 0x117] = [0; 0; 0]
  | _ => False
  end.
Proof. vm_compute. auto. Qed.

(** C16 is false: the requested alignment is not consulted. *)
Theorem C16_alignment_refuted : exists ws base cfg m qs h live size align x len h',
  wf_cfg ws base cfg /\
  client_run ws (heap_new base cfg m, []) qs = (h, live) /\
  0 < size /\ align = 8 /\
  heap_allocate ws h size align = (Some (x, len), h') /\ x mod align <> 0.
Proof.
  exists 4%nat, 0x20000000, [(0x20000000, 12, 2)], (fun _ => 0), [QAlloc 12 8 false].
  eexists _, _, 12, 8, _, _, _.
  split; [vm_compute; repeat split; congruence|].
  split; [reflexivity|]. split; [reflexivity|]. split; [reflexivity|].
  split; [reflexivity|]. vm_compute. congruence.
Qed.
Print Assumptions C16_alignment_refuted.

(** What holds of C16: if the alignment divides the address and the block size of
    every pool that can serve the request, the allocation is aligned. *)
Theorem C16_alignment_partial : forall ws base cfg m qs h live size align x len h',
  wf_cfg ws base cfg ->
  client_run ws (heap_new base cfg m, []) qs = (h, live) ->
  align <> 0 ->
  (forall i a s n, nth_error cfg i = Some (a, s, n) -> size <= s ->
     a mod align = 0 /\ s mod align = 0) ->
  heap_allocate ws h size align = (Some (x, len), h') -> x mod align = 0.
Proof.
  intros ws base cfg m qs h live size align x len h' Hcfg E Hal Hd Ha.
  pose proof (reachable_inv ws base cfg Hcfg m qs) as H. rewrite E in H.
  destruct (heap_allocate_spec ws base cfg Hcfg h live size align H) as [G _].
  rewrite Ha in G. cbn [fst] in G.
  destruct (N.eq_dec size 0) as [->|Hs].
  - destruct G as [(_ & _ & ->)|(? & _)]; [now apply N.mod_same|lia].
  - eapply (alloc_aligned cfg); eauto. lia.
Qed.
Print Assumptions C16_alignment_partial.

Example C16_example :
  forall i a s n, nth_error ex_cfg i = Some (a, s, n) -> 5 <= s -> a mod 8 = 0 /\ s mod 8 = 0.
Proof.
  intros [|[|[|[|i]]]] a s n [= <- <- <-] Hs; split; reflexivity || (exfalso; lia).
Qed.
