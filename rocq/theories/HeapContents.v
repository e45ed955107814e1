(** Contents of allocations across heap operations. *)
Require Import NArith List Bool Lia Arith.
From Verif Require Import Heap HeapSpec HeapProofs.
Import ListNotations.
Open Scope N_scope.

Section Contents.
Variable ws : nat.
Variable base : N.
Variable cfg : list pcfg.
Hypothesis Hcfg : wf_cfg ws base cfg.

(** An allocation together with everything memory holds for it. *)
Definition snap (m : mem) (b : blk) : blk :=
  Blk (b_ptr b) (b_len b) (b_req b) (fun off => Some (m (b_ptr b + off))).

Lemma used_in_snap lo hi m l : used_in lo hi (map (snap m) l) = used_in lo hi l.
Proof.
  induction l as [|b l IH]; [easy|]. simpl map. rewrite !used_in_cons, IH. reflexivity.
Qed.

Lemma snap_inv h live : heap_inv ws base cfg h live -> heap_inv ws base cfg h (map (snap (h_mem h)) live).
Proof.
  intros (Hb & Hl & Hp & HF). split; [easy|]. split; [easy|]. split.
  - intros i [[a s] n] p Hc Hpi. unfold pool_inv. rewrite used_in_snap. exact (Hp i _ p Hc Hpi).
  - rewrite Forall_forall in *. intros b Hb'. apply in_map_iff in Hb' as (b0 & <- & HIn).
    destruct (HF b0 HIn) as [P Q]. split; [exact P|]. simpl. intros off v _ [= <-]. easy.
Qed.

Lemma blk_data_read h live b off v :
  heap_inv ws base cfg h live -> In b live -> off < b_len b ->
  b_data b off = Some v -> h_mem h (b_ptr b + off) = v.
Proof.
  intros (_ & _ & _ & HF) HIn Ho Hv. rewrite Forall_forall in HF.
  destruct (HF b HIn) as [_ Q]. auto.
Qed.

Lemma raw_data_read h live a len r d off v :
  heap_inv ws base cfg h live -> In (Blk a len r d) live -> off < len ->
  d off = Some v -> h_mem h (a + off) = v.
Proof. intros Hinv HIn Ho Hv. exact (blk_data_read h live _ off v Hinv HIn Ho Hv). Qed.

Lemma snap_fits m b sz : fits_blk (snap m b) sz = fits_blk b sz.
Proof. reflexivity. Qed.

Definition same_on (m m' : mem) (b : blk) : Prop :=
  forall off, off < b_len b -> m' (b_ptr b + off) = m (b_ptr b + off).

Lemma snap_same h h' live l0 b :
  heap_inv ws base cfg h' l0 -> In (snap (h_mem h) b) l0 -> In b live ->
  same_on (h_mem h) (h_mem h') b.
Proof.
  intros Hinv HIn _ off Ho.
  apply (blk_data_read h' l0 (snap (h_mem h) b) off (h_mem h (b_ptr b + off)) Hinv HIn); auto.
Qed.

(** Result of moving an allocation, in terms of memory. *)
Definition moved (h h' : heap) (live : list blk) (k : nat) (b : blk) (n a len new : N)
  (zeroed : bool) : Prop :=
  new <= len /\
  (forall off, off < n -> h_mem h' (a + off) = h_mem h (b_ptr b + off)) /\
  (zeroed = true -> forall off, n <= off < len -> h_mem h' (a + off) = 0) /\
  (forall k' b', k' <> k -> nth_error live k' = Some b' -> same_on (h_mem h) (h_mem h') b').

Lemma nth_error_other_split {A} (l1 : list A) x l2 k' y :
  k' <> length l1 -> nth_error (l1 ++ x :: l2) k' = Some y -> In y (l1 ++ l2).
Proof.
  intros Hne H. destruct (Nat.lt_ge_cases k' (length l1)) as [L|G].
  - rewrite nth_error_app1 in H by easy. apply in_or_app. left. eapply nth_error_In; eauto.
  - rewrite nth_error_app2 in H by easy.
    destruct (k' - length l1)%nat as [|j] eqn:E; [lia|]. simpl in H.
    apply in_or_app. right. eapply nth_error_In; eauto.
Qed.

Lemma move_contents alloc (z : bool) h live k b sz new align n :
  (forall h live size align, heap_inv ws base cfg h live ->
    alloc_result cfg live size align (fst (alloc h size align)) /\
    match alloc h size align with
    | (None, h') => h' = h
    | (Some (x, len), h') =>
        heap_inv ws base cfg h' (live ++ [Blk x len size (fresh_data z)]) /\
        forall y, (y < x \/ x + len <= y) -> h_mem h' y = h_mem h y
    end) ->
  heap_inv ws base cfg h live -> nth_error live k = Some b -> fits_blk b sz = true ->
  n <= new -> n <= b_len b ->
  alloc_result cfg live new align (fst (heap_move ws alloc h (b_ptr b) sz new align n)) /\
  match heap_move ws alloc h (b_ptr b) sz new align n with
  | (None, h') => h' = h
  | (Some (a, len), h') => moved h h' live k b n a len new z
  end.
Proof.
  intros Halloc Hinv Hk Hfit H1 H2.
  apply nth_error_split in Hk as (l1 & l2 & -> & Hlen).
  assert (HR : alloc_result cfg (l1 ++ b :: l2) new align
                 (fst (heap_move ws alloc h (b_ptr b) sz new align n))).
  { apply (heap_move_spec ws base cfg Hcfg alloc (fresh_data z)); auto. }
  split; [exact HR|].
  pose proof (snap_inv _ _ Hinv) as Hs. rewrite map_app in Hs. simpl in Hs.
  destruct (heap_move_spec ws base cfg Hcfg alloc (fresh_data z) h _ (snap (h_mem h) b) _
              sz new align n Halloc Hs) as [_ HM]; auto.
  change (b_ptr (snap (h_mem h) b)) with (b_ptr b) in HM.
  destruct (heap_move ws alloc h (b_ptr b) sz new align n) as [[[a len]|] h']; [|easy].
  simpl in HR.
  assert (Hlenle : new <= len) by (destruct HR as [(-> & -> & _)|(_ & i & a' & n' & _ & L & _)]; lia).
  split; [easy|]. split; [|split].
  - intros off Ho. eapply raw_data_read; [exact HM| | |].
    + apply in_or_app. right. apply in_or_app. right. left. reflexivity.
    + lia.
    + simpl. destruct (N.ltb_spec off n); [reflexivity|lia].
  - intros -> off Ho. eapply raw_data_read; [exact HM| | |].
    + apply in_or_app. right. apply in_or_app. right. left. reflexivity.
    + lia.
    + simpl. destruct (N.ltb_spec off n); [lia|reflexivity].
  - intros k' b' Hne Hk'.
    assert (HIn : In b' (l1 ++ l2)) by (apply (nth_error_other_split l1 b l2 k'); [congruence|exact Hk']).
    eapply snap_same; [exact HM| |exact HIn].
    apply in_app_iff in HIn. apply in_or_app.
    destruct HIn; [left; now apply in_map|right; apply in_or_app; left; now apply in_map].
Qed.

Lemma fresh_plain h live size align :
  heap_inv ws base cfg h live ->
  alloc_result cfg live size align (fst (heap_allocate ws h size align)) /\
  match heap_allocate ws h size align with
  | (None, h') => h' = h
  | (Some (x, len), h') =>
      heap_inv ws base cfg h' (live ++ [Blk x len size (fresh_data false)]) /\
      forall y, (y < x \/ x + len <= y) -> h_mem h' y = h_mem h y
  end.
Proof.
  intros Hinv. destruct (heap_allocate_spec ws base cfg Hcfg h live size align Hinv) as [A B].
  split; [easy|]. destruct (heap_allocate ws h size align) as [[[x len]|] h']; [|easy].
  destruct B as [B1 B2]. split; [exact B1|]. intros. now rewrite B2.
Qed.

Lemma fits_le b sz : fits_blk b sz = true -> sz <= b_len b.
Proof. unfold fits_blk. intros E. apply andb_true_iff in E as [_ E]. now apply N.leb_le in E. Qed.

Lemma grow_contents h live k b sz new align (z : bool) :
  heap_inv ws base cfg h live -> nth_error live k = Some b -> fits_blk b sz = true -> sz <= new ->
  match (if z then heap_grow_zeroed ws else heap_grow ws) h (b_ptr b) sz new align with
  | (None, h') => h' = h
  | (Some (a, len), h') => moved h h' live k b sz a len new z
  end.
Proof.
  intros Hinv Hk Hf Hle. pose proof (fits_le _ _ Hf).
  destruct z.
  - apply (move_contents (heap_allocate_zeroed ws) true); auto.
    intros. now apply heap_allocate_zeroed_spec.
  - apply (move_contents (heap_allocate ws) false); auto. exact fresh_plain.
Qed.

Lemma shrink_contents h live k b sz new align :
  heap_inv ws base cfg h live -> nth_error live k = Some b -> fits_blk b sz = true -> new <= sz ->
  match heap_shrink ws h (b_ptr b) sz new align with
  | (None, h') => h' = h
  | (Some (a, len), h') => moved h h' live k b new a len new false
  end.
Proof.
  intros Hinv Hk Hf Hle. pose proof (fits_le _ _ Hf).
  apply (move_contents (heap_allocate ws) false); auto; try lia. exact fresh_plain.
Qed.

Lemma zeroed_contents h live size align :
  heap_inv ws base cfg h live ->
  match heap_allocate_zeroed ws h size align with
  | (None, h') => h' = h
  | (Some (a, len), h') =>
      size <= len /\ (forall off, off < len -> h_mem h' (a + off) = 0) /\
      (forall b, In b live -> same_on (h_mem h) (h_mem h') b)
  end.
Proof.
  intros Hinv.
  destruct (heap_allocate_zeroed_spec ws base cfg Hcfg h live size align Hinv) as [HR _].
  destruct (heap_allocate_zeroed_spec ws base cfg Hcfg h _ size align (snap_inv _ _ Hinv)) as [_ HA].
  destruct (heap_allocate_zeroed ws h size align) as [[[a len]|] h']; [|easy].
  destruct HA as [HI _]. simpl in HR. split; [|split].
  - destruct HR as [(-> & -> & _)|(_ & i & a' & n' & _ & L & _)]; lia.
  - intros off Ho. eapply raw_data_read; [exact HI| |exact Ho|reflexivity].
    apply in_or_app. right. left. reflexivity.
  - intros b HIn. eapply snap_same; [exact HI| |exact HIn].
    apply in_or_app. left. now apply in_map.
Qed.

Lemma dealloc_contents h live k b sz :
  heap_inv ws base cfg h live -> nth_error live k = Some b -> fits_blk b sz = true ->
  forall k' b', k' <> k -> nth_error live k' = Some b' ->
    same_on (h_mem h) (h_mem (heap_deallocate ws h (b_ptr b) sz)) b'.
Proof.
  intros Hinv Hk Hf k' b' Hne Hk'.
  apply nth_error_split in Hk as (l1 & l2 & -> & Hlen).
  pose proof (snap_inv _ _ Hinv) as Hs. rewrite map_app in Hs. simpl in Hs.
  destruct (heap_deallocate_spec ws base cfg Hcfg h _ (snap (h_mem h) b) _ sz Hs Hf) as [HD _].
  assert (HIn : In b' (l1 ++ l2)) by (apply (nth_error_other_split l1 b l2 k'); [congruence|exact Hk']).
  eapply snap_same; [exact HD| |exact HIn].
  apply in_app_iff in HIn. apply in_or_app. destruct HIn; [left|right]; now apply in_map.
Qed.

(** Which live allocation a request targets. *)
Definition target (q : req) : option nat :=
  match q with
  | QAlloc _ _ _ => None
  | QDealloc k _ | QGrow k _ _ _ _ | QShrink k _ _ _ | QWrite k _ _ => Some k
  end.

(** No request changes the bytes of an allocation it does not target. *)
Lemma step_contents h live q :
  heap_inv ws base cfg h live ->
  forall k b, target q <> Some k -> nth_error live k = Some b ->
    same_on (h_mem h) (h_mem (fst (fst (client_step ws (h, live) q)))) b.
Proof.
  intros Hinv k b Ht Hk.
  assert (Hrefl : same_on (h_mem h) (h_mem h) b) by (intros ? ?; reflexivity).
  destruct q as [size align z|k0 sz|k0 sz new align z|k0 sz new align|k0 off v];
    cbn [client_step target] in *.
  - destruct z.
    + pose proof (zeroed_contents h live size align Hinv) as H.
      destruct (heap_allocate_zeroed ws h size align) as [[[a len]|] h']; simpl.
      * destruct H as (_ & _ & H). apply H. eapply nth_error_In; eauto.
      * now subst.
    + destruct (heap_allocate_spec ws base cfg Hcfg h live size align Hinv) as [_ H].
      destruct (heap_allocate ws h size align) as [[[a len]|] h']; simpl.
      * destruct H as [_ H]. intros off _. now rewrite H.
      * now subst.
  - destruct (nth_error live k0) as [b0|] eqn:E0; [|exact Hrefl].
    destruct (fits_blk b0 sz) eqn:Ef; [|exact Hrefl]. simpl.
    apply (dealloc_contents h live k0 b0 sz Hinv E0 Ef k b); [congruence|exact Hk].
  - destruct (nth_error live k0) as [b0|] eqn:E0; [|exact Hrefl].
    destruct (fits_blk b0 sz && (sz <=? new)) eqn:Ef; [|exact Hrefl].
    apply andb_true_iff in Ef as [Ef Hle]. apply N.leb_le in Hle.
    pose proof (grow_contents h live k0 b0 sz new align z Hinv E0 Ef Hle) as H.
    destruct ((if z then heap_grow_zeroed ws else heap_grow ws) h (b_ptr b0) sz new align)
      as [[[a len]|] h']; simpl.
    * destruct H as (_ & _ & _ & H). apply (H k b); [congruence|exact Hk].
    * now subst.
  - destruct (nth_error live k0) as [b0|] eqn:E0; [|exact Hrefl].
    destruct (fits_blk b0 sz && (new <=? sz)) eqn:Ef; [|exact Hrefl].
    apply andb_true_iff in Ef as [Ef Hle]. apply N.leb_le in Hle.
    pose proof (shrink_contents h live k0 b0 sz new align Hinv E0 Ef Hle) as H.
    destruct (heap_shrink ws h (b_ptr b0) sz new align) as [[[a len]|] h']; simpl.
    * destruct H as (_ & _ & _ & H). apply (H k b); [congruence|exact Hk].
    * now subst.
  - destruct (nth_error live k0) as [b0|] eqn:E0; [|exact Hrefl].
    destruct (N.ltb_spec off (b_len b0)) as [Ho|]; [|exact Hrefl]. simpl.
    intros o Hol. apply mset_other.
    apply nth_error_split in E0 as (l1 & l2 & -> & Hlen).
    assert (HIn : In b (l1 ++ l2)) by (apply (nth_error_other_split l1 b0 l2 k); [congruence|exact Hk]).
    destruct (live_disjoint ws base cfg Hcfg h _ l1 b0 l2 b Hinv eq_refl HIn); lia.
Qed.

(** ** Addresses *)

Lemma live_disjoint_nth h live i j b b' :
  heap_inv ws base cfg h live ->
  nth_error live i = Some b -> nth_error live j = Some b' -> i <> j ->
  0 < b_len b -> 0 < b_len b' ->
  b_ptr b + b_len b <= b_ptr b' \/ b_ptr b' + b_len b' <= b_ptr b.
Proof.
  intros Hinv Hi Hj Hne H1 H2.
  apply nth_error_split in Hi as (l1 & l2 & -> & Hlen).
  eapply live_disjoint; eauto. apply (nth_error_other_split l1 b l2 j); [congruence|exact Hj].
Qed.

Lemma live_in_pool h live b :
  heap_inv ws base cfg h live -> In b live -> 0 < b_len b ->
  exists i a n, nth_error cfg i = Some (a, b_len b, n) /\
    a <= b_ptr b /\ b_ptr b + b_len b <= a + b_len b * n /\ b_req b <= b_len b.
Proof.
  intros (_ & _ & _ & HF) HIn Hp. rewrite Forall_forall in HF.
  destruct (HF b HIn) as [[[H0 _]|(Hr & i & j & a & n & Hi & Hs)] _]; [lia|].
  exists i, a, n. destruct (slot_range _ _ _ _ _ _ _ _ _ Hcfg Hi Hs) as (A & B & _).
  repeat split; auto; lia.
Qed.

(** [pool_by_ptr] over the whole address space. *)
Lemma pool_by_ptr_spec h live x :
  heap_inv ws base cfg h live ->
  match pool_by_ptr (h_pools h) (h_base h) x with
  | Some i =>
      base <= x /\
      (exists a s n, nth_error cfg i = Some (a, s, n) /\ x < a + s * n) /\
      (forall i' a s n, (i' < i)%nat -> nth_error cfg i' = Some (a, s, n) -> a + s * n <= x)
  | None =>
      x < base \/ forall i a s n, nth_error cfg i = Some (a, s, n) -> a + s * n <= x
  end.
Proof.
  intros Hinv. pose proof Hinv as (Hb & Hlen & Hp & HF).
  unfold pool_by_ptr.
  destruct (binary_search_spec _ _ (edge_monotone ws base cfg Hcfg h live x Hinv))
    as (k & Ek & Hk1 & Hlow & Hhigh).
  rewrite Ek. rewrite Hb.
  assert (Hsmall : forall i' a s n, (i' < k)%nat -> nth_error cfg i' = Some (a, s, n) -> a + s * n <= x).
  { intros i' a s n Hi' Hc.
    destruct (nth_error (h_pools h) i') as [p|] eqn:Ep.
    2:{ apply nth_error_None in Ep. lia. }
    destruct (pools_cfg _ _ _ _ _ _ _ Hinv Ep) as (a1 & s1 & n1 & E1 & _ & Ee1).
    rewrite Hc in E1. inversion E1; subst a1 s1 n1.
    specialize (Hlow _ _ Ep Hi'). apply N.ltb_ge in Hlow. lia. }
  destruct (Nat.ltb_spec k (length (h_pools h))) as [Hlt|Hge]; simpl.
  - destruct (nth_error (h_pools h) k) as [p|] eqn:Ep.
    2:{ apply nth_error_None in Ep. lia. }
    destruct (pools_cfg _ _ _ _ _ _ _ Hinv Ep) as (a1 & s1 & n1 & E1 & _ & Ee1).
    specialize (Hhigh _ _ Ep (le_n k)). apply N.ltb_lt in Hhigh.
    destruct (Nat.ltb_spec 0 k) as [Hk|Hk]; simpl.
    + split.
      * destruct (nth_error cfg 0) as [[[a0 s0] n0]|] eqn:E0.
        -- specialize (Hsmall 0%nat _ _ _ Hk E0). destruct Hcfg as [_ Hw].
           destruct (wf_from_nth _ _ _ _ _ _ _ _ Hw E0) as (G1 & _). lia.
        -- apply nth_error_None in E0. lia.
      * split; [|exact Hsmall]. exists a1, s1, n1. split; [easy|lia].
    + destruct (N.leb_spec base x).
      * split; [easy|]. split; [|exact Hsmall]. exists a1, s1, n1. split; [easy|lia].
      * now left.
  - right. intros i a s n Hc. apply (Hsmall i); auto.
    assert (nth_error cfg i <> None) as Hn by congruence. apply nth_error_Some in Hn. lia.
Qed.

(** Alignment, when the configuration provides it. *)
Lemma alloc_aligned live size align x len (al : N) :
  al <> 0 ->
  (forall i a s n, nth_error cfg i = Some (a, s, n) -> size <= s -> a mod al = 0 /\ s mod al = 0) ->
  0 < size -> alloc_result cfg live size align (Some (x, len)) -> x mod al = 0.
Proof.
  intros Hal Hc Hpos [(-> & _)|(_ & i & a & n & Hi & Hle & (j & Hs) & _)]; [lia|].
  destruct Hs as (a' & s' & c' & Hi' & _ & ->). rewrite Hi in Hi'. inversion Hi'; subst a' s' c'.
  destruct (Hc i a len n Hi Hle) as [Ha Hl].
  rewrite N.add_mod, Ha, N.mul_mod, Hl by easy. rewrite N.mul_0_l, N.mod_0_l by easy.
  reflexivity || (rewrite N.add_0_l; now rewrite !N.mod_0_l).
Qed.

End Contents.
