(** The simulation of arrays by the heap. *)
Require Import NArith List Bool Lia Arith Permutation.
From Verif Require Import Heap HeapSpec HeapProofs HeapContents Stream GlobalAlloc GlobalAllocSpec.
Import ListNotations.
Open Scope N_scope.

Lemma filter_perm {A} (f : A -> bool) l l' : Permutation l l' -> Permutation (filter f l) (filter f l').
Proof.
  induction 1 as [|x l l' _ IH|x y l|l1 l2 l3 _ IH1 _ IH2]; simpl; auto.
  - destruct (f x); auto.
  - destruct (f x), (f y); auto. apply perm_swap.
  - eapply Permutation_trans; eauto.
Qed.

Section Sim.
Variable ws : nat.
Variable base : N.
Variable cfg : list pcfg.
Hypothesis Hcfg : wf_cfg ws base cfg.
Notation inv := (heap_inv ws base cfg).

Lemma inv_perm h l l' : Permutation l l' -> inv h l -> inv h l'.
Proof.
  intros P (A & B & C & D). split; [exact A|]. split; [exact B|]. split.
  - intros i [[a s] n] p Hc Hp. destruct (C i _ p Hc Hp) as (E1 & E2 & k & fl & F1 & F2 & F3 & F4 & F5 & F6).
    split; [exact E1|]. split; [exact E2|].
    assert (Q : Permutation (fl ++ used_in a (a + s * n) l) (fl ++ used_in a (a + s * n) l'))
      by (apply Permutation_app_head; unfold used_in; apply Permutation_map; now apply filter_perm).
    exists k, fl. split; [exact F1|]. split; [exact F2|]. split; [exact F3|].
    split; [eapply Permutation_NoDup; eauto|]. split; [eapply Permutation_Forall; eauto|].
    rewrite <- F6. f_equal. symmetry. now apply Permutation_length.
  - eapply Permutation_Forall; eauto.
Qed.

(** ** The relation *)
Definition bof (c : own) (a : array) (b : blk) : Prop :=
  b_ptr b = o_ptr c /\ b_req b = o_size c /\ 0 < o_size c /\ length a = N.to_nat (o_size c) /\
  forall off, b_data b off = nth (N.to_nat off) a None.

Inductive rel : list (option own) -> arrays -> list blk -> Prop :=
| rel_nil : rel [] [] []
| rel_none l s bs : rel l s bs -> rel (None :: l) (None :: s) bs
| rel_some c a b l s bs : bof c a b -> rel l s bs -> rel (Some c :: l) (Some a :: s) (b :: bs).

Lemma rel_none_snoc l s bs : rel l s bs -> rel (l ++ [None]) (s ++ [None]) bs.
Proof. induction 1; simpl; constructor; auto; constructor. Qed.
Lemma rel_some_snoc l s bs c a b : bof c a b -> rel l s bs -> rel (l ++ [Some c]) (s ++ [Some a]) (bs ++ [b]).
Proof. intros B. induction 1; simpl; constructor; auto; constructor. Qed.

Lemma rel_owned l s bs k c : rel l s bs -> owned l k = Some c ->
  exists a b b1 b2, live_array s k = Some a /\ bof c a b /\ bs = b1 ++ b :: b2 /\
    rel (set_nth l k None) (replace s k None) (b1 ++ b2) /\
    forall c' a' b', bof c' a' b' -> rel (set_nth l k (Some c')) (replace s k (Some a')) (b1 ++ b' :: b2).
Proof.
  intros R. revert k. induction R as [|l s bs R IH|c0 a0 b0 l s bs B R IH]; intros k H.
  - destruct k; discriminate.
  - destruct k as [|k]; [discriminate|]. destruct (IH k H) as (a & b & b1 & b2 & E1 & E2 & E3 & E4 & E5).
    exists a, b, b1, b2. split; [exact E1|]. split; [exact E2|]. split; [exact E3|].
    split; [simpl; now constructor|]. intros; simpl; constructor; auto.
  - destruct k as [|k].
    + unfold owned in H. simpl in H. injection H as ->. exists a0, b0, [], bs. split; [reflexivity|]. split; [exact B|]. split; [reflexivity|].
      split; [simpl; now constructor|]. intros; simpl; constructor; auto.
    + destruct (IH k H) as (a & b & b1 & b2 & E1 & E2 & E3 & E4 & E5).
      exists a, b, (b0 :: b1), b2. split; [exact E1|]. split; [exact E2|]. split; [simpl; now rewrite E3|].
      split; [simpl; now constructor|]. intros; simpl; constructor; auto.
Qed.
Lemma rel_not_owned l s bs k : rel l s bs -> owned l k = None -> live_array s k = None.
Proof.
  intros R. revert k. induction R as [|l s bs R IH|c0 a0 b0 l s bs B R IH]; intros [|k] H; try reflexivity; try exact (IH k H).
  discriminate.
Qed.
Lemma set_nth_nth {A} (l : list A) k x : nth_error l k = Some x -> set_nth l k x = l.
Proof. apply set_nth_id. Qed.

(** Addresses of allocations. *)
Lemma slot_pos i j x : slot cfg i j x -> 0 < x.
Proof.
  intros S. pose proof S as (a & s & c & Hi & _). destruct (slot_range ws base cfg i j x a s c Hcfg Hi S) as (A & _).
  destruct Hcfg as [P W]. destruct (wf_from_nth _ _ _ _ _ _ _ _ W Hi) as (Q & _). lia.
Qed.

Lemma g_alloc_spec h bs size align : inv h bs -> 0 < size ->
  match g_alloc ws h size align with
  | (0, h') => h' = h /\ alloc_result cfg bs size align None
  | (x, h') => exists len, size <= len /\ alloc_result cfg bs size align (Some (x, len)) /\
                 inv h' (bs ++ [Blk x len size (fun _ => None)]) /\ h_mem h' = h_mem h
  end.
Proof.
  intros I P. unfold g_alloc. destruct (heap_allocate_spec ws base cfg Hcfg h bs size align I) as [A B].
  destruct (heap_allocate ws h size align) as [[[x len]|] h']; [|simpl in *; auto].
  cbn [fst] in A. destruct B as [B1 B2]. pose proof A as A0. destruct A as [(Z & _)|(_ & i & a & n & _ & L & (j & S) & _)]; [lia|].
  pose proof (slot_pos _ _ _ S). destruct x as [|x]; [lia|]. exists len. auto.
Qed.

Lemma nth_repeat_same {A} (x : A) n k : nth k (repeat x n) x = x.
Proof. revert k. induction n; destruct k; simpl; auto. Qed.
Lemma nth_repeat_in {A} (x d : A) n k : (k < n)%nat -> nth k (repeat x n) d = x.
Proof. revert k. induction n; destruct k; simpl; intros; try lia; auto. apply IHn. lia. Qed.

Lemma nth_resize (a : array) n k : nth k (resize a n) None = if Nat.ltb k n then nth k a None else None.
Proof.
  unfold resize. destruct (Nat.ltb_spec k n) as [L|L].
  - destruct (Nat.lt_ge_cases k (length a)) as [La|La].
    + rewrite app_nth1 by (rewrite firstn_length; lia).
      clear -L. revert k L a. induction n; intros k L a; [lia|]. destruct a; [now destruct k|]. destruct k; simpl; auto. apply IHn. lia.
    + rewrite app_nth2 by (rewrite firstn_length; lia). rewrite nth_repeat_same. symmetry. now apply nth_overflow.
  - apply nth_overflow. rewrite app_length, firstn_length, repeat_length. lia.
Qed.
Lemma resize_length (a : array) n : length (resize a n) = n.
Proof. unfold resize. rewrite app_length, firstn_length, repeat_length. lia. Qed.
Lemma replace_length {A} (l : list A) k x : length (replace l k x) = length l.
Proof. revert k. induction l; destruct k; simpl; auto. Qed.
Lemma nth_replace {A} (l : list A) k x j d : (k < length l)%nat -> nth j (replace l k x) d = if Nat.eqb j k then x else nth j l d.
Proof. revert k j. induction l; intros k j L; simpl in L; [lia|]. destruct k, j; simpl; auto. apply IHl. lia. Qed.

Lemma sim_step h l s bs o h' l' r t : rel l s bs -> inv h bs -> gstep ws (h, l) o = (h', l', r, t) ->
  exists s' bs', expected s o r = Some s' /\ rel l' s' bs' /\ inv h' bs'.
Proof.
  intros R I E. destruct o as [z size align|k|k new|k off v|k off]; simpl in E.
  - destruct (N.eqb_spec size 0) as [Z|NZ].
    { injection E as <- <- <- <-. exists s, bs. simpl. destruct (N.eqb_spec size 0); [auto|lia]. }
    pose proof (g_alloc_spec h bs size align I ltac:(lia)) as G.
    destruct z.
    + unfold g_alloc_zeroed in E. destruct (g_alloc ws h size align) as [[|x] h1]; simpl in E.
      * injection E as <- <- <- <-. destruct G as [-> _]. exists (s ++ [None]), bs. simpl. destruct (N.eqb_spec size 0); [lia|].
        split; [reflexivity|]. split; [now apply rel_none_snoc|exact I].
      * injection E as <- <- <- <-. destruct G as (len & L & A & J & M). eexists _, _. simpl. destruct (N.eqb_spec size 0); [lia|].
        split; [reflexivity|]. split; [eapply rel_some_snoc; [|exact R]|].
        2:{ apply (inv_mem_change ws base cfg Hcfg h1 bs (Blk (N.pos x) len size (fun _ => None)) [] _ (fun off => nth (N.to_nat off) (repeat (Some 0) (N.to_nat size)) None) J).
            - intros y Hy. cbn [b_ptr b_len] in Hy. unfold zero_bytes. destruct (N.leb_spec (N.pos x) y), (N.ltb_spec y (N.pos x + size)); simpl; auto; lia.
            - intros off v Ho Hv. cbn [b_ptr b_len] in *. unfold zero_bytes.
              destruct (N.lt_ge_cases off size) as [Lo|Lo].
              + rewrite nth_repeat_in in Hv by lia. injection Hv as <-. destruct (N.leb_spec (N.pos x) (N.pos x + off)), (N.ltb_spec (N.pos x + off) (N.pos x + size)); simpl; auto; lia.
              + rewrite nth_overflow in Hv by (rewrite repeat_length; lia). discriminate. }
        repeat split; simpl; auto; [lia|apply repeat_length].
    + destruct (g_alloc ws h size align) as [[|x] h1]; simpl in E.
      * injection E as <- <- <- <-. destruct G as [-> _]. exists (s ++ [None]), bs. simpl. destruct (N.eqb_spec size 0); [lia|].
        split; [reflexivity|]. split; [now apply rel_none_snoc|exact I].
      * injection E as <- <- <- <-. destruct G as (len & L & A & J & M). eexists _, _. simpl. destruct (N.eqb_spec size 0); [lia|].
        split; [reflexivity|]. split; [eapply rel_some_snoc; [|exact R]|exact J].
        repeat split; simpl; auto; [lia|apply repeat_length|]. intros off. now rewrite nth_repeat_same.
  - destruct (owned l k) as [c|] eqn:O.
    + injection E as <- <- <- <-. destruct (rel_owned l s bs k c R O) as (a & b & b1 & b2 & LA & B & -> & R1 & _).
      destruct B as (B1 & B2 & B3 & B4 & B5). eexists _, _. simpl. rewrite LA. split; [reflexivity|]. split; [exact R1|].
      unfold g_dealloc. rewrite <- B1. apply (heap_deallocate_spec ws base cfg Hcfg h b1 b b2 (o_size c) I).
      assert (F : b_req b <= b_len b).
      { destruct I as (_ & _ & _ & HF). rewrite Forall_forall in HF. destruct (HF b) as [[[_ Q]|[Q _]] _]; [apply in_or_app; simpl; auto|lia|lia]. }
      unfold fits_blk. apply andb_true_iff. split; apply N.leb_le; lia.
    + injection E as <- <- <- <-. exists s, bs. simpl. rewrite (rel_not_owned l s bs k R O). auto.
  - destruct (owned l k) as [c|] eqn:O.
    2:{ injection E as <- <- <- <-. exists s, bs. simpl. rewrite (rel_not_owned l s bs k R O). auto. }
    destruct (rel_owned l s bs k c R O) as (a & b & b1 & b2 & LA & B & -> & _ & R2).
    destruct (N.eqb_spec new 0) as [Z|NZ].
    { injection E as <- <- <- <-. exists s, (b1 ++ b :: b2). simpl. rewrite LA. destruct (N.eqb_spec new 0); [auto|lia]. }
    destruct B as (B1 & B2 & B3 & B4 & B5).
    assert (F : b_req b <= b_len b).
    { destruct I as (_ & _ & _ & HF). rewrite Forall_forall in HF. destruct (HF b) as [[[_ Q]|[Q _]] _]; [apply in_or_app; simpl; auto|lia|lia]. }
    pose proof (g_alloc_spec h (b1 ++ b :: b2) new (o_align c) I ltac:(lia)) as G. unfold g_realloc in E.
    destruct (g_alloc ws h new (o_align c)) as [[|x] h1] eqn:GA; simpl in E.
    + injection E as <- <- <- <-. destruct G as [-> _]. exists s, (b1 ++ b :: b2). simpl. rewrite LA. destruct (N.eqb_spec new 0); [lia|auto].
    + injection E as <- <- <- <-. destruct G as (len & L & A & _).
      destruct (heap_move_spec ws base cfg Hcfg (heap_allocate ws) (fresh_data false) h b1 b b2 (o_size c) new (o_align c) (N.min (o_size c) new))
        as [_ HM]; auto; try lia.
      { exact (fresh_plain ws base cfg Hcfg). }
      { unfold fits_blk. apply andb_true_iff. split; apply N.leb_le; lia. }
      unfold heap_move in HM. unfold g_alloc in GA. destruct (heap_allocate ws h new (o_align c)) as [[[x' len']|] h2]; [|discriminate].
      injection GA as -> ->. rewrite B1 in HM.
      eexists _, _. simpl. rewrite LA. destruct (N.eqb_spec new 0); [lia|]. split; [reflexivity|].
      split; [apply R2|].
      2:{ eapply inv_perm; [|exact HM]. apply Permutation_app_head. apply Permutation_sym, Permutation_cons_append. }
      split; [reflexivity|]. split; [reflexivity|]. split; [simpl; lia|]. split; [simpl; apply resize_length|].
      intros off. cbn [b_data]. rewrite nth_resize. destruct (N.ltb_spec off (N.min (o_size c) new)) as [H|H].
      * destruct (Nat.ltb_spec (N.to_nat off) (N.to_nat new)); [apply B5|lia].
      * destruct (Nat.ltb_spec (N.to_nat off) (N.to_nat new)); [|reflexivity]. rewrite nth_overflow by lia. reflexivity.
  - destruct (owned l k) as [c|] eqn:O.
    2:{ injection E as <- <- <- <-. exists s, bs. simpl. rewrite (rel_not_owned l s bs k R O). auto. }
    destruct (rel_owned l s bs k c R O) as (a & b & b1 & b2 & LA & B & -> & _ & R2).
    destruct B as (B1 & B2 & B3 & B4 & B5).
    destruct (N.ltb_spec off (o_size c)) as [H|H]; injection E as <- <- <- <-; simpl.
    2:{ exists s, (b1 ++ b :: b2). rewrite LA, B4, N2Nat.id. destruct (N.ltb_spec off (o_size c)); [lia|auto]. }
    rewrite LA, B4, N2Nat.id. destruct (N.ltb_spec off (o_size c)); [|lia].
    assert (F : b_req b <= b_len b).
    { destruct I as (_ & _ & _ & HF). rewrite Forall_forall in HF. destruct (HF b) as [[[_ Q]|[Q _]] _]; [apply in_or_app; simpl; auto|lia|lia]. }
    set (a' := replace a (N.to_nat off) (Some v)).
    assert (Na : forall j, nth j a' None = if Nat.eqb j (N.to_nat off) then Some v else nth j a None) by (intros; apply nth_replace; lia).
    eexists _, _. split; [reflexivity|]. split; cycle 1.
    { apply (inv_mem_change ws base cfg Hcfg h b1 b b2 (mset (h_mem h) (o_ptr c + off) v) (fun j => nth (N.to_nat j) a' None) I).
      - intros y Hy. apply mset_other. rewrite B1 in Hy. lia.
      - intros j w Hj Hw. rewrite Na in Hw. rewrite B1. destruct (Nat.eqb_spec (N.to_nat j) (N.to_nat off)) as [Ej|Ej].
        + injection Hw as <-. apply N2Nat.inj in Ej. subst j. apply mset_same.
        + rewrite mset_other by (intros C; apply Ej; f_equal; lia). rewrite <- B1.
          apply (blk_data_read ws base cfg h (b1 ++ b :: b2) b j w I); [apply in_or_app; simpl; auto|exact Hj|]. now rewrite B5. }
    assert (Ol : nth_error l k = Some (Some c)).
    { unfold owned in O. destruct (nth_error l k) as [[c'|]|]; try discriminate. congruence. }
    rewrite <- (set_nth_nth l k (Some c) Ol) at 1. apply R2.
    repeat split; simpl; auto. unfold a'. rewrite replace_length. exact B4.
  - destruct (owned l k) as [c|] eqn:O.
    2:{ injection E as <- <- <- <-. exists s, bs. simpl. rewrite (rel_not_owned l s bs k R O). auto. }
    destruct (rel_owned l s bs k c R O) as (a & b & b1 & b2 & LA & B & -> & _ & _).
    destruct B as (B1 & B2 & B3 & B4 & B5).
    destruct (N.ltb_spec off (o_size c)) as [H|H]; injection E as <- <- <- <-; simpl; rewrite LA.
    2:{ exists s, (b1 ++ b :: b2). rewrite B4, N2Nat.id. destruct (N.ltb_spec off (o_size c)); [lia|auto]. }
    destruct (nth_error a (N.to_nat off)) as [[w|]|] eqn:Ea.
    + assert (F : b_req b <= b_len b).
      { destruct I as (_ & _ & _ & HF). rewrite Forall_forall in HF. destruct (HF b) as [[[_ Q]|[Q _]] _]; [apply in_or_app; simpl; auto|lia|lia]. }
      assert (V : h_mem h (o_ptr c + off) = w).
      { rewrite <- B1. apply (blk_data_read ws base cfg h (b1 ++ b :: b2) b off w I); [apply in_or_app; simpl; auto|lia|].
        rewrite B5. now apply nth_error_nth. }
      rewrite V, N.eqb_refl. eauto.
    + eauto.
    + apply nth_error_None in Ea. lia.
Qed.

Lemma sim_run os : forall h l s bs h' l' rs t, rel l s bs -> inv h bs -> grun ws (h, l) os = (h', l', rs, t) ->
  exists s' bs', as_expected s os rs = Some s' /\ rel l' s' bs' /\ inv h' bs'.
Proof.
  induction os as [|o os IH]; intros h l s bs h' l' rs t R I E.
  - injection E as <- <- <- <-. exists s, bs. auto.
  - cbn [grun] in E. destruct (gstep ws (h, l) o) as [[[h1 l1] r] t1] eqn:G. destruct (grun ws (h1, l1) os) as [[[h2 l2] rs2] t2] eqn:E2.
    injection E as <- <- <- <-. destruct (sim_step _ _ _ _ _ _ _ _ _ R I G) as (s1 & bs1 & X & R1 & I1).
    destruct (IH _ _ _ _ _ _ _ _ R1 I1 E2) as (s2 & bs2 & Y & R2 & I2). exists s2, bs2. simpl. rewrite X. auto.
Qed.
End Sim.
