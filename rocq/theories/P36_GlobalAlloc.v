(** C110-C112: the heap as the global allocator. *)
Require Import NArith List Bool Lia Arith.
From Verif Require Import Heap HeapSpec HeapProofs Stream StreamSpec P05_Stream GlobalAlloc GlobalAllocSpec GlobalAllocProofs.
Import ListNotations.
Open Scope N_scope.

Definition start (base : N) (cfg : list pcfg) (m : mem) : gstate := (heap_new base cfg m, []).

Lemma sim ws base cfg m os h l rs t : wf_cfg ws base cfg -> grun ws (start base cfg m) os = (h, l, rs, t) ->
  exists s bs, as_expected [] os rs = Some s /\ rel l s bs /\ heap_inv ws base cfg h bs.
Proof.
  intros W E. apply (sim_run ws base cfg W os (heap_new base cfg m) [] [] [] h l rs t); [constructor| |exact E]. exact (reachable_inv ws base cfg W m []).
Qed.

(** C110: whatever a program does with its allocations, they are arrays of its own: each load gives what was stored
    last, across reallocations, whatever was done to other allocations, and if a request fails, nothing has changed. *)
Theorem C110_arrays ws base cfg m os h l rs t : wf_cfg ws base cfg -> grun ws (start base cfg m) os = (h, l, rs, t) ->
  exists s, as_expected [] os rs = Some s.
Proof. intros W E. destruct (sim _ _ _ _ _ _ _ _ _ W E) as (s & _ & H & _). eauto. Qed.
Print Assumptions C110_arrays.

Lemma rel_two l s bs k k' c c' : rel l s bs -> k <> k' -> owned l k = Some c -> owned l k' = Some c' ->
  exists a b a' b' b1 b2, bof c a b /\ bof c' a' b' /\ bs = b1 ++ b :: b2 /\ In b' (b1 ++ b2).
Proof.
  intros R. revert k k'. induction R as [|l s bs R IH|c0 a0 b0 l s bs B R IH]; intros k k' N O O'.
  - destruct k; discriminate.
  - destruct k as [|k]; [discriminate|]. destruct k' as [|k']; [discriminate|]. apply (IH k k'); auto.
  - destruct k as [|k], k' as [|k'].
    + easy.
    + unfold owned in O; simpl in O; injection O as ->. destruct (rel_owned l s bs k' c' R O') as (a' & b' & b1 & b2 & _ & B' & -> & _).
      exists a0, b0, a', b', [], (b1 ++ b' :: b2). repeat split; try apply B; try apply B'. simpl. apply in_or_app. simpl. auto.
    + unfold owned in O'; simpl in O'; injection O' as ->. destruct (rel_owned l s bs k c R O) as (a & b & b1 & b2 & _ & B' & -> & _).
      exists a, b, a0, b0, (b0 :: b1), b2. repeat split; try apply B; try apply B'. simpl. auto.
    + destruct (IH k k') as (a & b & a' & b' & b1 & b2 & X & Y & -> & Z); auto.
      exists a, b, a', b', (b0 :: b1), b2. split; [exact X|]. split; [exact Y|]. split; [reflexivity|]. now right.
Qed.
Lemma blk_room ws base cfg h bs b : heap_inv ws base cfg h bs -> In b bs -> b_req b <= b_len b.
Proof. intros (_ & _ & _ & HF) I. rewrite Forall_forall in HF. destruct (HF b I) as [[[_ Q]|[Q _]] _]; lia. Qed.

(** Two allocations do not overlap, and none is at the null pointer. *)
Theorem C110_apart ws base cfg m os h l rs t k k' c c' : wf_cfg ws base cfg -> grun ws (start base cfg m) os = (h, l, rs, t) ->
  owned l k = Some c -> owned l k' = Some c' -> k <> k' ->
  0 < o_ptr c /\ (o_ptr c + o_size c <= o_ptr c' \/ o_ptr c' + o_size c' <= o_ptr c).
Proof.
  intros W E O O' N. destruct (sim _ _ _ _ _ _ _ _ _ W E) as (s & bs & _ & R & I).
  destruct (rel_two _ _ _ _ _ _ _ R N O O') as (a & b & a' & b' & b1 & b2 & (B1 & B2 & B3 & _) & (B1' & B2' & B3' & _) & Ebs & Ib').
  assert (Ib : In b bs) by (rewrite Ebs; apply in_or_app; simpl; auto).
  assert (Jb : In b' bs) by (rewrite Ebs; apply in_app_iff in Ib'; apply in_or_app; simpl; tauto).
  pose proof (blk_room _ _ _ _ _ _ I Ib). pose proof (blk_room _ _ _ _ _ _ I Jb). split.
  - destruct I as (_ & _ & _ & HF). rewrite Forall_forall in HF. destruct (HF b Ib) as [[[_ Q]|(_ & i & j & x & n & _ & S)] _]; [lia|].
    rewrite <- B1. apply (slot_pos ws base cfg W i j _ S).
  - destruct (live_disjoint ws base cfg W h bs b1 b b2 b' I Ebs Ib') as [D|D]; lia.
Qed.
Print Assumptions C110_apart.

Lemma rel_count ws base cfg h l s bs c0 : heap_inv ws base cfg h bs -> rel l s bs -> count l c0 = in_use bs c0.
Proof.
  intros I R. assert (F : Forall (fun b => b_req b <= b_len b) bs) by (apply Forall_forall; intros; eapply blk_room; eauto).
  clear I. destruct c0 as [[x y] n]. unfold count, in_use, used_in. f_equal. rewrite map_length.
  induction R as [|l s bs R IH|c a b l s bs (B1 & B2 & B3 & _) R IH]; [reflexivity|exact (IH F)|].
  inversion F; subst. simpl. unfold in_pool at 1. rewrite B1. destruct (N.ltb_spec 0 (b_len b)); [|lia]. simpl.
  destruct ((x <=? o_ptr c) && (o_ptr c <? x + y * n)); simpl; rewrite IH; auto.
Qed.

(** A request fails only if all pools that have blocks of this size are used up. *)
Definition full_for (cfg : list pcfg) (l : list (option own)) (size : N) : Prop :=
  forall a s n, In (a, s, n) cfg -> size <= s -> count l (a, s, n) = n.
Theorem C110_failure ws base cfg m os h l rs t o h' l' t' : wf_cfg ws base cfg -> grun ws (start base cfg m) os = (h, l, rs, t) ->
  gstep ws (h, l) o = (h', l', GNull, t') ->
  exists size, match o with GAlloc _ n _ | GRealloc _ n => size = n | _ => False end /\ 0 < size /\ full_for cfg l size.
Proof.
  intros W E G. destruct (sim _ _ _ _ _ _ _ _ _ W E) as (s & bs & _ & R & I).
  assert (K : forall size align h1, 0 < size -> g_alloc ws h size align = (0, h1) -> full_for cfg l size).
  { intros size align h1 P A. pose proof (g_alloc_spec ws base cfg W h bs size align I P) as S. rewrite A in S. destruct S as [_ [_ S]].
    intros a s0 n H L. apply In_nth_error in H as [i H]. rewrite (rel_count ws base cfg h l s bs _ I R). exact (S i a s0 n H L). }
  destruct o as [z size align|k|k new|k off v|k off]; simpl in G.
  - destruct (N.eqb_spec size 0); [discriminate|]. exists size. split; [reflexivity|]. split; [lia|].
    destruct (g_alloc ws h size align) as [a h1] eqn:A. destruct z; [unfold g_alloc_zeroed in G; rewrite A in G|rewrite A in G].
    + destruct (N.eqb_spec a 0); simpl in G.
      * subst a. apply (K size align h1); [lia|exact A].
      * destruct (N.eqb_spec a 0); [easy|discriminate].
    + destruct (N.eqb_spec a 0); [|discriminate]. subst a. apply (K size align h1); [lia|exact A].
  - destruct (owned l k); discriminate.
  - destruct (owned l k) as [c|]; [|discriminate]. destruct (N.eqb_spec new 0); [discriminate|]. exists new. split; [reflexivity|]. split; [lia|].
    unfold g_realloc in G. destruct (g_alloc ws h new (o_align c)) as [a h1] eqn:A. destruct (N.eqb_spec a 0).
    + subst a. apply (K new (o_align c) h1); [lia|exact A].
    + simpl in G. destruct (N.eqb_spec a 0); [easy|discriminate].
  - destruct (owned l k) as [c|]; [|discriminate]. destruct (off <? o_size c); discriminate.
  - destruct (owned l k) as [c|]; [|discriminate]. destruct (off <? o_size c); discriminate.
Qed.
Print Assumptions C110_failure.

(** Nothing is lost: what is in use and what can still be had are the blocks of the pool. *)
Theorem C110_no_loss ws base cfg m os h l rs t i c p : wf_cfg ws base cfg -> grun ws (start base cfg m) os = (h, l, rs, t) ->
  nth_error cfg i = Some c -> nth_error (h_pools h) i = Some p ->
  count l c + obtainable ws (S (N.to_nat (snd c))) (h_mem h) p = snd c.
Proof.
  intros W E Hc Hp. destruct (sim _ _ _ _ _ _ _ _ _ W E) as (s & bs & _ & R & I). rewrite (rel_count ws base cfg h l s bs c I R).
  destruct I as (_ & _ & HP & HF). apply (obtainable_spec ws base cfg W (h_mem h) i c p _ bs); auto; lia.
Qed.
Print Assumptions C110_no_loss.

Definition g_cfg : list pcfg := [(0x100, 8, 2); (0x110, 16, 2)].
Definition g_ops : list gop :=
  [GAlloc false 8 4; GStore 0 0 11; GStore 0 7 22; GAlloc true 5 1; GRealloc 0 12; GLoad 0 7; GLoad 1 4; GStore 0 11 33;
   GAlloc false 3 1; GStore 2 0 44; GRealloc 0 4; GLoad 0 0; GLoad 0 7; GDealloc 1; GRealloc 0 20; GLoad 0 0; GLoad 1 0].
Example C110_case :
  wf_cfg 4 0x100 g_cfg /\
  let '(_, l, rs, _) := grun 4 (start 0x100 g_cfg (fun _ => 0xAA)) g_ops in
  rs = [GOk; GOk; GOk; GOk; GOk; GVal 22; GVal 0; GOk; GOk; GOk; GOk; GVal 11; GBad; GOk; GNull; GVal 11; GBad] /\
  l = [Some (Own 0x120 4 4); None; Some (Own 0x100 3 1)] /\
  as_expected [] g_ops rs = Some [Some [Some 11; None; None; None]; None; Some [Some 44; None; None]].
Proof. split; [vm_compute; repeat split; congruence|]. vm_compute. repeat split. Qed.

(** C111: shrinking an allocation, or resizing it to what its block has room for, takes no memory; it should succeed.
    Proved only while there is another block.  Missing: to succeed in place. *)
Theorem C111_resize_partial ws base cfg m os h l rs t k c new a s n : wf_cfg ws base cfg -> grun ws (start base cfg m) os = (h, l, rs, t) ->
  owned l k = Some c -> 0 < new -> In (a, s, n) cfg -> new <= s -> count l (a, s, n) < n ->
  exists h' l' t', gstep ws (h, l) (GRealloc k new) = (h', l', GOk, t').
Proof.
  intros W E O P J L C. destruct (gstep ws (h, l) (GRealloc k new)) as [[[h' l'] r] t'] eqn:G. exists h', l', t'. f_equal. f_equal.
  assert (X : r = GOk \/ r = GNull).
  { simpl in G. rewrite O in G. destruct (N.eqb_spec new 0); [lia|]. destruct (g_realloc ws h (o_ptr c) (o_size c) (o_align c) new) as [x h1].
    destruct (x =? 0); injection G; auto. }
  destruct X as [->| ->]; [reflexivity|]. destruct (C110_failure ws base cfg m os h l rs t _ h' l' t' W E G) as (size & -> & _ & F).
  specialize (F a s n J L). lia.
Qed.
Print Assumptions C111_resize_partial.
(** False: with every block in use, an allocation can neither be shrunk nor grown within its block, by [realloc] or by
    [Allocator::shrink] and [Allocator::grow]. *)
Theorem C111_resize_refuted : exists ws base cfg m os h l rs t c, wf_cfg ws base cfg /\ grun ws (start base cfg m) os = (h, l, rs, t) /\
  cfg = [(base, 16, 1)] /\ owned l 0 = Some c /\ o_size c = 12 /\
  snd (fst (gstep ws (h, l) (GRealloc 0 4))) = GNull /\ snd (fst (gstep ws (h, l) (GRealloc 0 16))) = GNull /\
  fst (heap_shrink ws h (o_ptr c) 12 4 1) = None /\ fst (heap_grow ws h (o_ptr c) 12 16 1) = None.
Proof.
  exists 4%nat, 0x100, [(0x100, 16, 1)], (fun _ => 0), [GAlloc false 12 1]. eexists _, _, _, _, _.
  split; [vm_compute; repeat split; congruence|]. split; [reflexivity|]. vm_compute. repeat split.
Qed.
Print Assumptions C111_resize_refuted.
Example C111_case :
  let '(h, l, _, _) := grun 4 (start 0x100 [(0x100, 16, 2)] (fun _ => 0)) [GAlloc false 12 1] in
  count l (0x100, 16, 2) = 1 /\ snd (fst (gstep 4 (h, l) (GRealloc 0 4))) = GOk.
Proof. vm_compute. repeat split. Qed.

(** C112: what a reader of the trace adds up is what is in use, and the sizes of the requests that failed. *)
Lemma total_app f a b : total f (a ++ b) = total f a + total f b.
Proof. induction a as [|x a IH]; simpl; [reflexivity|rewrite IH; lia]. Qed.
Lemma bytes_snoc l o : bytes (l ++ [o]) = bytes l + match o with Some b => o_size b | None => 0 end.
Proof. unfold bytes. induction l as [|[b|] l IH]; simpl in *; [destruct o; lia|lia|lia]. Qed.
Lemma bytes_set l k c o : owned l k = Some c -> bytes (set_nth l k o) + o_size c = bytes l + match o with Some b => o_size b | None => 0 end.
Proof.
  revert k. induction l as [|x l IH]; intros [|k] H; try discriminate.
  - unfold owned in H. simpl in H. destruct x; [|discriminate]. injection H as ->. unfold bytes. simpl. destruct o; lia.
  - specialize (IH k H). unfold bytes in *. simpl. destruct x; lia.
Qed.
Definition ops_of (t : list alloc_call) : list heap_op := flat_map (fun c => match call_op c with Some o => [o] | None => [] end) t.
Lemma ops_of_app a b : ops_of (a ++ b) = ops_of a ++ ops_of b.
Proof. apply flat_map_app. Qed.
Lemma step_total ws h l o h' l' r t : gstep ws (h, l) o = (h', l', r, t) ->
  total added (ops_of t) + bytes l = total removed (ops_of t) + bytes l' + failed [o] [r].
Proof.
  intros G. destruct o as [z size align|k|k new|k off v|k off]; simpl in G.
  - destruct (N.eqb_spec size 0); [injection G as <- <- <- <-; simpl; lia|].
    destruct ((if z then g_alloc_zeroed ws else g_alloc ws) h size align) as [a h1]. destruct (a =? 0); injection G as <- <- <- <-; rewrite bytes_snoc; simpl; lia.
  - destruct (owned l k) as [c|] eqn:O; injection G as <- <- <- <-; [|simpl; lia]. pose proof (bytes_set l k c None O). simpl in *. lia.
  - destruct (owned l k) as [c|] eqn:O; [|injection G as <- <- <- <-; simpl; lia].
    destruct (N.eqb_spec new 0); [injection G as <- <- <- <-; simpl; lia|].
    destruct (g_realloc ws h (o_ptr c) (o_size c) (o_align c) new) as [a h1]. destruct (a =? 0); injection G as <- <- <- <-; [simpl; lia|].
    pose proof (bytes_set l k c (Some (Own a new (o_align c))) O). simpl in *. lia.
  - destruct (owned l k) as [c|]; [destruct (off <? o_size c)|]; injection G as <- <- <- <-; simpl; lia.
  - destruct (owned l k) as [c|]; [destruct (off <? o_size c)|]; injection G as <- <- <- <-; simpl; lia.
Qed.
Lemma failed_cons o os r rs : failed (o :: os) (r :: rs) = failed [o] [r] + failed os rs.
Proof. destruct o; destruct r; simpl; lia. Qed.
Lemma run_total ws os : forall h l h' l' rs t, grun ws (h, l) os = (h', l', rs, t) ->
  total added (ops_of t) + bytes l = total removed (ops_of t) + bytes l' + failed os rs.
Proof.
  induction os as [|o os IH]; intros h l h' l' rs t E; [injection E as <- <- <- <-; simpl; lia|].
  cbn [grun] in E. destruct (gstep ws (h, l) o) as [[[h1 l1] r] t1] eqn:G. destruct (grun ws (h1, l1) os) as [[[h2 l2] rs2] t2] eqn:E2.
  injection E as <- <- <- <-. apply step_total in G. apply IH in E2. rewrite ops_of_app, !total_app, failed_cons. lia.
Qed.
Lemma set_nth_in {A} (l : list A) k (x y : A) : In y (set_nth l k x) -> y = x \/ In y l.
Proof. revert k. induction l as [|z l IH]; intros [|k] H; simpl in *; auto; destruct H as [H|H]; auto. destruct (IH k H); auto. Qed.
Lemma owned_in l k c : owned l k = Some c -> In (Some c) l.
Proof. unfold owned. destruct (nth_error l k) as [[x|]|] eqn:E; try discriminate. intros [= ->]. eapply nth_error_In; eauto. Qed.
Lemma run_sizes ws (B : N) os : forall h l h' l' rs t, grun ws (h, l) os = (h', l', rs, t) ->
  Forall (fun o => requested o < B) os -> (forall c, In (Some c) l -> o_size c < B) ->
  Forall (fun c => exists n, n < B /\ (c = CGlobalAlloc n \/ c = CGlobalDealloc n)) t.
Proof.
  induction os as [|o os IH]; intros h l h' l' rs t E F S; [injection E as <- <- <- <-; constructor|].
  cbn [grun] in E. destruct (gstep ws (h, l) o) as [[[h1 l1] r] t1] eqn:G. destruct (grun ws (h1, l1) os) as [[[h2 l2] rs2] t2] eqn:E2.
  injection E as <- <- <- <-. inversion F as [|? ? Fo Fos]; subst. apply Forall_app.
  assert (Z : Forall (fun c => exists n, n < B /\ (c = CGlobalAlloc n \/ c = CGlobalDealloc n)) t1 /\ forall c, In (Some c) l1 -> o_size c < B).
  { destruct o as [z size align|k|k new|k off v|k off]; simpl in G, Fo.
    - destruct (N.eqb_spec size 0); [injection G as <- <- <- <-; auto|].
      destruct ((if z then g_alloc_zeroed ws else g_alloc ws) h size align) as [a h3]. destruct (a =? 0); injection G as <- <- <- <-.
      all: split; [constructor; [exists size; auto|constructor]|].
      all: intros c H; apply in_app_iff in H; destruct H as [H|[H|[]]]; [auto|].
      + discriminate.
      + injection H as <-. exact Fo.
    - destruct (owned l k) as [c|] eqn:O; injection G as <- <- <- <-; [|auto]. apply owned_in in O.
      split; [constructor; [exists (o_size c); auto|constructor]|]. intros c' H. apply set_nth_in in H. destruct H; [discriminate|auto].
    - destruct (owned l k) as [c|] eqn:O; [|injection G as <- <- <- <-; auto]. apply owned_in in O.
      destruct (N.eqb_spec new 0); [injection G as <- <- <- <-; auto|].
      destruct (g_realloc ws h (o_ptr c) (o_size c) (o_align c) new) as [a h3]. destruct (a =? 0); injection G as <- <- <- <-.
      + split; [constructor; [exists new; auto|constructor]|exact S].
      + split; [constructor; [exists new; auto|constructor; [exists (o_size c); auto|constructor]]|].
        intros c' H. apply set_nth_in in H. destruct H as [H|H]; [injection H as ->; exact Fo|auto].
    - destruct (owned l k) as [c|]; [destruct (off <? o_size c)|]; injection G as <- <- <- <-; auto.
    - destruct (owned l k) as [c|]; [destruct (off <? o_size c)|]; injection G as <- <- <- <-; auto. }
  destruct Z as [Z1 Z2]. split; [exact Z1|]. eapply IH; eauto.
Qed.

(** The frames that a program leaves on the enabled stream are decoded to operations that add up. *)
Theorem C112_trace ws base cfg m os h l rs t mask st :
  (4 <= ws)%nat -> (ws <= 64)%nat -> N.testbit mask st = true -> Forall (fun o => requested o < 256 ^ N.of_nat ws) os ->
  grun ws (start base cfg m) os = (h, l, rs, t) ->
  exists hs, map (fun f => (fst f, parse ws (snd f))) (flat_map (call_trace ws mask st) t) = map (fun o => (st, Some o)) hs /\
    total added hs = total removed hs + bytes l + failed os rs.
Proof.
  intros W1 W2 M F E. exists (ops_of t). split.
  - pose proof (run_sizes ws (256 ^ N.of_nat ws) os _ _ _ _ _ _ E F ltac:(simpl; tauto)) as S. clear E.
    induction t as [|c t IH]; [reflexivity|]. inversion S as [|? ? (n & L & Hc) S']; subst. cbn [flat_map ops_of]. rewrite !map_app.
    apply f_equal2; [|exact (IH S')]. destruct Hc as [-> | ->].
    + destruct (C63_other_operations_traced_partial ws mask st (CGlobalAlloc n) M W1 W2 L) as (p & -> & P). cbn [map fst snd app call_op]. now rewrite P.
    + destruct (C63_other_operations_traced_partial ws mask st (CGlobalDealloc n) M W1 W2 L) as (p & -> & P). cbn [map fst snd app call_op]. now rewrite P.
  - pose proof (run_total ws os _ _ _ _ _ _ E) as T. simpl in T. lia.
Qed.
Print Assumptions C112_trace.
(** So without failures the trace tells the bytes in use; with failures it tells too many. *)
Theorem C112_in_use_partial ws base cfg m os h l rs t mask st :
  (4 <= ws)%nat -> (ws <= 64)%nat -> N.testbit mask st = true -> Forall (fun o => requested o < 256 ^ N.of_nat ws) os ->
  grun ws (start base cfg m) os = (h, l, rs, t) -> ~ In GNull rs ->
  exists hs, map (fun f => (fst f, parse ws (snd f))) (flat_map (call_trace ws mask st) t) = map (fun o => (st, Some o)) hs /\
    total added hs - total removed hs = bytes l.
Proof.
  intros W1 W2 M F E NF. destruct (C112_trace ws base cfg m os h l rs t mask st W1 W2 M F E) as (hs & A & B). exists hs. split; [exact A|].
  assert (Z : failed os rs = 0); [|lia]. clear -NF. revert rs NF. induction os as [|o os IH]; intros [|r rs] NF; try reflexivity; [destruct o; reflexivity|].
  rewrite failed_cons, IH by (intros H; apply NF; now right). assert (r <> GNull) by (intros ->; apply NF; now left). destruct o; destruct r; simpl; easy.
Qed.
Print Assumptions C112_in_use_partial.
Theorem C112_in_use_refuted : exists ws base cfg m os h l rs t mask st hs, wf_cfg ws base cfg /\ N.testbit mask st = true /\
  grun ws (start base cfg m) os = (h, l, rs, t) /\
  map (fun f => (fst f, parse ws (snd f))) (flat_map (call_trace ws mask st) t) = map (fun o => (st, Some o)) hs /\
  bytes l = 12 /\ total added hs - total removed hs = 22.
Proof.
  exists 4%nat, 0x100, [(0x100, 16, 1)], (fun _ => 0), [GAlloc false 12 1; GAlloc false 10 1]. eexists _, _, _, _.
  exists 1, 0, [HAlloc 12; HAlloc 10]. split; [vm_compute; repeat split; congruence|]. split; [reflexivity|]. split; [reflexivity|]. vm_compute. repeat split.
Qed.
Print Assumptions C112_in_use_refuted.
Example C112_case :
  let '(_, l, rs, t) := grun 4 (start 0x100 g_cfg (fun _ => 0xAA)) g_ops in
  ops_of t = [HAlloc 8; HAlloc 5; HAlloc 12; HDealloc 8; HAlloc 3; HAlloc 4; HDealloc 12; HDealloc 5; HAlloc 20] /\
  bytes l = 7 /\ failed g_ops rs = 20 /\ length (flat_map (call_trace 4 1 0) t) = 9%nat.
Proof. vm_compute. repeat split. Qed.
