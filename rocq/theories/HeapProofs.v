(** Invariants of the heap allocator. *)
Require Import NArith List Bool Lia Arith Permutation.
From Verif Require Import Heap HeapSpec.
Import ListNotations.
Open Scope N_scope.

(** ** Lists *)

Lemma set_nth_length {A} (l : list A) k x : length (set_nth l k x) = length l.
Proof. revert k; induction l; destruct k; simpl; auto. Qed.

Lemma nth_set_same {A} (l : list A) k x y :
  nth_error l k = Some y -> nth_error (set_nth l k x) k = Some x.
Proof. revert k; induction l; destruct k; simpl; intros; try discriminate; eauto. Qed.

Lemma nth_set_other {A} (l : list A) k k' x :
  k <> k' -> nth_error (set_nth l k x) k' = nth_error l k'.
Proof. revert k k'; induction l; destruct k, k'; simpl; intros; try easy; eauto. Qed.

Lemma set_nth_id {A} (l : list A) k x : nth_error l k = Some x -> set_nth l k x = l.
Proof.
  revert k; induction l; destruct k; simpl; intros H; try discriminate.
  - now inversion H.
  - f_equal. auto.
Qed.

Lemma del_nth_split {A} (l : list A) k x :
  nth_error l k = Some x ->
  exists l1 l2, l = l1 ++ x :: l2 /\ del_nth l k = l1 ++ l2 /\ length l1 = k.
Proof.
  revert k; induction l as [|y l IH]; destruct k; simpl; intros H; try discriminate.
  - inversion H; subst. exists [], l. auto.
  - destruct (IH _ H) as (l1 & l2 & -> & -> & <-). exists (y :: l1), l2. auto.
Qed.

Lemma set_nth_split {A} (l : list A) k x y :
  nth_error l k = Some x ->
  exists l1 l2, l = l1 ++ x :: l2 /\ set_nth l k y = l1 ++ y :: l2 /\ length l1 = k.
Proof.
  revert k; induction l as [|z l IH]; destruct k; simpl; intros H; try discriminate.
  - inversion H; subst. exists [], l. auto.
  - destruct (IH _ H) as (l1 & l2 & -> & -> & <-). exists (z :: l1), l2. auto.
Qed.

Lemma del_nth_app {A} (l l' : list A) k x :
  nth_error l k = Some x -> del_nth (l ++ l') k = del_nth l k ++ l'.
Proof.
  revert k; induction l as [|y l IH]; destruct k; simpl; intros H; try discriminate; auto.
  f_equal. auto.
Qed.

Lemma skipn_S_incl {A} i (l : list A) x : In x (skipn (S i) l) -> In x (skipn i l).
Proof.
  revert l. induction i as [|i IH]; intros [|y l] H; simpl in *; auto.
Qed.

Lemma nth_error_skipn' {A} i k (l : list A) : nth_error (skipn i l) k = nth_error l (i + k).
Proof.
  revert l. induction i as [|i IH]; intros [|y l]; simpl; auto. now destruct k.
Qed.

(** ** Words in memory *)

Lemma mset_same m a v : mset m a v a = v.
Proof. unfold mset. now rewrite N.eqb_refl. Qed.

Lemma mset_other m a v a' : a' <> a -> mset m a v a' = m a'.
Proof. unfold mset. intros. destruct (N.eqb_spec a' a); easy. Qed.

Lemma write_word_frame k m a v x :
  (x < a \/ a + N.of_nat k <= x) -> write_word k m a v x = m x.
Proof.
  revert m a v. induction k as [|k IH]; intros m a v H; simpl; [easy|].
  rewrite mset_other by lia. apply IH. lia.
Qed.

Lemma read_word_ext k m m' a :
  (forall x, a <= x < a + N.of_nat k -> m x = m' x) -> read_word k m a = read_word k m' a.
Proof.
  revert a. induction k as [|k IH]; intros a H; [easy|].
  cbn [read_word]. rewrite (H a) by lia. f_equal. f_equal. apply IH. intros. apply H. lia.
Qed.

Lemma read_write_word k m a v : v < 256 ^ N.of_nat k -> read_word k (write_word k m a v) a = v.
Proof.
  revert m a v. induction k as [|k IH]; intros m a v H.
  - simpl in *. lia.
  - cbn [read_word write_word]. rewrite mset_same.
    rewrite (read_word_ext k _ (write_word k m (a + 1) (v / 256))).
    + rewrite IH.
      * pose proof (N.div_mod v 256). lia.
      * apply N.div_lt_upper_bound; [lia|].
        rewrite Nat2N.inj_succ, N.pow_succ_r' in H. lia.
    + intros x Hx. apply mset_other. lia.
Qed.

(** ** Binary search *)

Lemma bsearch_spec ps f fuel : monotone ps f -> forall left right,
  (left <= right <= length ps)%nat -> (right - left < fuel)%nat ->
  (forall j p, nth_error ps j = Some p -> (j < left)%nat -> f p = false) ->
  (forall j p, nth_error ps j = Some p -> (right <= j)%nat -> f p = true) ->
  exists i, bsearch fuel ps f left right = Some i /\ partition_point ps f i.
Proof.
  intros Hm. induction fuel as [|fuel IH]; intros left right Hlr Hf Hl Hr; [lia|].
  simpl. destruct (Nat.ltb_spec left right) as [Hlt|Hge].
  - set (mid := (left + Nat.div2 (right - left))%nat).
    assert (Hd : (Nat.div2 (right - left) < right - left)%nat)
      by (apply Nat.lt_div2; lia).
    destruct (nth_error ps mid) as [p|] eqn:Ep.
    2:{ apply nth_error_None in Ep. lia. }
    destruct (f p) eqn:Efp.
    + apply IH; try lia; auto.
      intros j q Hq Hj. eapply (Hm mid j); eauto.
    + apply IH; try lia; auto.
      intros j q Hq Hj. destruct (f q) eqn:Efq; [|easy].
      assert (f p = true) by (eapply (Hm j mid); eauto; lia). congruence.
  - assert (left = right) by lia. subst right. exists left. split; [easy|].
    split; [lia|]. auto.
Qed.

Lemma binary_search_spec ps f :
  monotone ps f -> exists i, binary_search ps f = Some i /\ partition_point ps f i.
Proof.
  intros Hm. apply bsearch_spec; auto; try lia.
  intros j p H Hj. assert (nth_error ps j <> None) as Hn by congruence.
  apply nth_error_Some in Hn. lia.
Qed.

Lemma partition_point_unique ps f i i' :
  partition_point ps f i -> partition_point ps f i' -> i = i'.
Proof.
  intros (H1 & H2 & H3) (H1' & H2' & H3').
  destruct (Nat.lt_trichotomy i i') as [Hlt|[He|Hlt]]; [|easy|]; exfalso.
  - destruct (nth_error ps i) as [p|] eqn:E; [|apply nth_error_None in E; lia].
    assert (f p = false) by eauto. assert (f p = true) by eauto. congruence.
  - destruct (nth_error ps i') as [p|] eqn:E; [|apply nth_error_None in E; lia].
    assert (f p = false) by eauto. assert (f p = true) by eauto. congruence.
Qed.

(** ** Configurations *)

Lemma wf_from_nth ws cfg : forall lo smin i a s c,
  wf_from ws lo smin cfg -> nth_error cfg i = Some (a, s, c) ->
  lo <= a /\ smin <= s /\ N.of_nat ws <= s /\ 0 < s /\ a + s * c < 256 ^ N.of_nat ws.
Proof.
  induction cfg as [|[[a0 s0] c0] r IH]; intros lo smin i a s c H Hi.
  - destruct i; discriminate.
  - simpl in H. destruct H as (H1 & H2 & H3 & H4 & H5 & H6). destruct i; simpl in Hi.
    + inversion Hi; subst. auto.
    + destruct (IH _ _ _ _ _ _ H6 Hi) as (G1 & G2 & G3 & G4 & G5).
      repeat split; auto; try lia; nia.
Qed.

Lemma wf_from_order ws cfg : forall lo smin i j a s c a' s' c',
  wf_from ws lo smin cfg -> (i < j)%nat ->
  nth_error cfg i = Some (a, s, c) -> nth_error cfg j = Some (a', s', c') ->
  a + s * c <= a' /\ s <= s'.
Proof.
  induction cfg as [|[[a0 s0] c0] r IH]; intros lo smin i j a s c a' s' c' H Hij Hi Hj.
  - destruct i; discriminate.
  - simpl in H. destruct H as (H1 & H2 & H3 & H4 & H5 & H6).
    destruct j; [lia|]. simpl in Hj. destruct i; simpl in Hi.
    + inversion Hi; subst. destruct (wf_from_nth _ _ _ _ _ _ _ _ H6 Hj) as (G1 & G2 & _). auto.
    + eapply (IH _ _ i j); eauto. lia.
Qed.

Lemma slot_range ws base cfg i j x a s c :
  wf_cfg ws base cfg -> nth_error cfg i = Some (a, s, c) -> slot cfg i j x ->
  a <= x /\ x + s <= a + s * c /\ 0 < x /\ base <= x /\ x < 256 ^ N.of_nat ws.
Proof.
  intros [Hb Hw] Hi (a' & s' & c' & Hi' & Hj & ->).
  rewrite Hi in Hi'. inversion Hi'; subst a' s' c'.
  destruct (wf_from_nth _ _ _ _ _ _ _ _ Hw Hi) as (G1 & G2 & G3 & G4 & G5).
  assert (s * j + s <= s * c) by nia. repeat split; lia.
Qed.

(** Different blocks do not overlap. *)
Lemma slots_disjoint ws base cfg i j x a s c i' j' x' a' s' c' :
  wf_cfg ws base cfg ->
  nth_error cfg i = Some (a, s, c) -> nth_error cfg i' = Some (a', s', c') ->
  slot cfg i j x -> slot cfg i' j' x' -> x <> x' ->
  x + s <= x' \/ x' + s' <= x.
Proof.
  intros Hw Hi Hi' Hs Hs' Hne.
  destruct (slot_range _ _ _ _ _ _ _ _ _ Hw Hi Hs) as (A1 & A2 & _).
  destruct (slot_range _ _ _ _ _ _ _ _ _ Hw Hi' Hs') as (B1 & B2 & _).
  destruct Hw as [_ Hw].
  destruct (Nat.lt_trichotomy i i') as [Hlt|[He|Hlt]].
  - destruct (wf_from_order _ _ _ _ _ _ _ _ _ _ _ _ Hw Hlt Hi Hi') as [G _]. lia.
  - subst i'. rewrite Hi in Hi'. inversion Hi'; subst a' s' c'.
    destruct Hs as (a1 & s1 & c1 & E1 & Hj & ->).
    destruct Hs' as (a2 & s2 & c2 & E2 & Hj' & ->).
    rewrite Hi in E1, E2. inversion E1; inversion E2; subst.
    destruct (N.lt_trichotomy j j') as [L|[->|L]].
    + left. nia.
    + easy.
    + right. nia.
  - destruct (wf_from_order _ _ _ _ _ _ _ _ _ _ _ _ Hw Hlt Hi' Hi) as [G _]. lia.
Qed.

Lemma slot_inj ws base cfg i j i' j' x :
  wf_cfg ws base cfg -> slot cfg i j x -> slot cfg i' j' x -> i = i' /\ j = j'.
Proof.
  intros Hw Hs Hs'.
  pose proof Hs as (a & s & c & Hi & Hj & Hx).
  pose proof Hs' as (a' & s' & c' & Hi' & Hj' & Hx').
  destruct (slot_range _ _ _ _ _ _ _ _ _ Hw Hi Hs) as (A1 & A2 & _).
  destruct (slot_range _ _ _ _ _ _ _ _ _ Hw Hi' Hs') as (B1 & B2 & _).
  destruct Hw as [_ Hw].
  destruct (wf_from_nth _ _ _ _ _ _ _ _ Hw Hi) as (_ & _ & _ & Hs0 & _).
  destruct (wf_from_nth _ _ _ _ _ _ _ _ Hw Hi') as (_ & _ & _ & Hs0' & _).
  destruct (Nat.lt_trichotomy i i') as [Hlt|[He|Hlt]].
  - destruct (wf_from_order _ _ _ _ _ _ _ _ _ _ _ _ Hw Hlt Hi Hi') as [G _]. lia.
  - subst i'. rewrite Hi in Hi'. inversion Hi'; subst a' s' c'. split; [easy|]. nia.
  - destruct (wf_from_order _ _ _ _ _ _ _ _ _ _ _ _ Hw Hlt Hi' Hi) as [G _]. lia.
Qed.

Section Inv.
Variable ws : nat.
Variable base : N.
Variable cfg : list pcfg.
Hypothesis Hcfg : wf_cfg ws base cfg.

(** ** The invariant *)

(** The free list starting at [hd] runs through the blocks [fl]. *)
Fixpoint chain (m : mem) (hd : N) (fl : list N) : Prop :=
  match fl with
  | [] => hd = 0
  | x :: r => hd = x /\ x <> 0 /\ chain m (read_word ws m x) r
  end.

Definition pool_inv (m : mem) (live : list blk) (i : nat) (c : pcfg) (p : pool) : Prop :=
  let '(a, s, n) := c in
  p_size p = s /\ p_edge p = a + s * n /\
  exists k fl,
    k <= n /\ p_uninit p = a + s * k /\ chain m (p_free p) fl /\
    NoDup (fl ++ used_in a (a + s * n) live) /\
    Forall (fun x => exists j, j < k /\ x = a + s * j) (fl ++ used_in a (a + s * n) live) /\
    N.of_nat (length (fl ++ used_in a (a + s * n) live)) = k.

(** What holds for each live allocation. *)
Definition blk_inv (m : mem) (b : blk) : Prop :=
  ((b_len b = 0 /\ b_req b = 0) \/
   (0 < b_req b <= b_len b /\
    exists i j a n, nth_error cfg i = Some (a, b_len b, n) /\ slot cfg i j (b_ptr b))) /\
  (forall off v, off < b_len b -> b_data b off = Some v -> m (b_ptr b + off) = v).

Definition heap_inv (h : heap) (live : list blk) : Prop :=
  h_base h = base /\
  length (h_pools h) = length cfg /\
  (forall i c p, nth_error cfg i = Some c -> nth_error (h_pools h) i = Some p ->
     pool_inv (h_mem h) live i c p) /\
  Forall (blk_inv (h_mem h)) live.

Lemma chain_ext m m' fl : forall hd,
  (forall x a, In x fl -> x <= a < x + N.of_nat ws -> m a = m' a) ->
  chain m hd fl -> chain m' hd fl.
Proof.
  induction fl as [|x r IH]; intros hd He H; simpl in *; [easy|].
  destruct H as (H1 & H2 & H3). repeat split; auto.
  apply IH; [intros; eapply He; eauto|].
  rewrite <- (read_word_ext ws m m'); auto. intros. eapply He; eauto.
Qed.

Lemma used_in_app lo hi l1 l2 : used_in lo hi (l1 ++ l2) = used_in lo hi l1 ++ used_in lo hi l2.
Proof. unfold used_in. now rewrite filter_app, map_app. Qed.

Lemma used_in_cons lo hi b l :
  used_in lo hi (b :: l) = (if in_pool lo hi b then [b_ptr b] else []) ++ used_in lo hi l.
Proof. unfold used_in. simpl. destruct (in_pool lo hi b); easy. Qed.

Lemma used_in_snoc lo hi l b :
  in_pool lo hi b = true -> used_in lo hi (l ++ [b]) = used_in lo hi l ++ [b_ptr b].
Proof. intros H. rewrite used_in_app, used_in_cons, H. reflexivity. Qed.

Lemma in_pool_slot i j a s n b :
  nth_error cfg i = Some (a, s, n) -> slot cfg i j (b_ptr b) -> 0 < b_len b ->
  in_pool a (a + s * n) b = true.
Proof.
  intros Hi Hs Hl. destruct (slot_range _ _ _ _ _ _ _ _ _ Hcfg Hi Hs) as (A & B & _).
  destruct Hcfg as [_ Hw]. destruct (wf_from_nth _ _ _ _ _ _ _ _ Hw Hi) as (_ & _ & _ & Hs0 & _).
  unfold in_pool. rewrite !andb_true_iff, !N.ltb_lt, N.leb_le. lia.
Qed.

Lemma in_pool_other i i' j a' s' n' b :
  i <> i' -> nth_error cfg i' = Some (a', s', n') -> slot cfg i j (b_ptr b) ->
  in_pool a' (a' + s' * n') b = false.
Proof.
  intros Hne Hi' Hs. pose proof Hs as (a & s & n & Hi & Hj & Hx).
  destruct (slot_range _ _ _ _ _ _ _ _ _ Hcfg Hi Hs) as (A & B & _).
  destruct Hcfg as [_ Hw]. destruct (wf_from_nth _ _ _ _ _ _ _ _ Hw Hi) as (_ & _ & _ & Hs0 & _).
  apply not_true_iff_false. unfold in_pool.
  rewrite !andb_true_iff, !N.ltb_lt, N.leb_le. intros [[_ G1] G2].
  destruct (Nat.lt_trichotomy i i') as [Hlt|[He|Hlt]]; [|easy|].
  - destruct (wf_from_order _ _ _ _ _ _ _ _ _ _ _ _ Hw Hlt Hi Hi'). lia.
  - destruct (wf_from_order _ _ _ _ _ _ _ _ _ _ _ _ Hw Hlt Hi' Hi). lia.
Qed.

Lemma blk_in_pool m i a s n b :
  nth_error cfg i = Some (a, s, n) -> blk_inv m b -> in_pool a (a + s * n) b = true ->
  b_len b = s /\ exists j, slot cfg i j (b_ptr b).
Proof.
  intros Hi [[[H0 _]|(Hr & i' & j & a' & n' & Hi' & Hs)] _] Hp.
  - unfold in_pool in Hp. rewrite H0 in Hp. discriminate.
  - destruct (Nat.eq_dec i' i) as [->|Hne].
    + rewrite Hi in Hi'. inversion Hi'; subst. eauto.
    + rewrite (in_pool_other i' i j a s n b) in Hp; auto. discriminate.
Qed.

(** ** Memory changes inside one live allocation *)

Lemma live_slots_distinct h live l1 b l2 b' :
  heap_inv h live -> live = l1 ++ b :: l2 -> In b' (l1 ++ l2) ->
  0 < b_len b -> 0 < b_len b' ->
  b_ptr b <> b_ptr b'.
Proof.
  intros (Hb & Hlen & Hp & Hl) -> HIn Hpos Hpos' He.
  rewrite Forall_forall in Hl.
  assert (Hb1 : blk_inv (h_mem h) b) by (apply Hl, in_or_app; simpl; auto).
  assert (Hb2 : blk_inv (h_mem h) b').
  { apply Hl. apply in_app_iff in HIn. apply in_or_app. simpl. tauto. }
  destruct Hb1 as [[[H0 _]|(Hr & i & j & a & n & Hi & Hs)] _]; [lia|].
  destruct (nth_error (h_pools h) i) as [p|] eqn:Ep.
  2:{ apply nth_error_None in Ep. assert (nth_error cfg i <> None) as Hn by congruence.
      apply nth_error_Some in Hn. lia. }
  destruct (Hp i _ p Hi Ep) as (_ & _ & k & fl & _ & _ & _ & Hnd & _).
  assert (Q1 : in_pool a (a + b_len b * n) b = true) by (eapply in_pool_slot; eauto).
  assert (Q2 : in_pool a (a + b_len b * n) b' = true).
  { unfold in_pool in *. rewrite !andb_true_iff, !N.ltb_lt in *. rewrite <- He. tauto. }
  rewrite used_in_app, used_in_cons, Q1 in Hnd. simpl in Hnd.
  assert (In (b_ptr b) (used_in a (a + b_len b * n) (l1 ++ l2))) as HH.
  { rewrite He. unfold used_in. apply in_map. apply filter_In. auto. }
  rewrite used_in_app in HH.
  rewrite app_assoc in Hnd. apply NoDup_remove_2 in Hnd. apply Hnd.
  rewrite <- app_assoc. apply in_or_app. now right.
Qed.

Lemma blk_range m b :
  blk_inv m b -> 0 < b_len b ->
  exists i j a n, nth_error cfg i = Some (a, b_len b, n) /\ slot cfg i j (b_ptr b).
Proof. intros [[[H0 _]|(Hr & H)] _] Hp; [lia|]. exact H. Qed.

Lemma live_disjoint h live l1 b l2 b' :
  heap_inv h live -> live = l1 ++ b :: l2 -> In b' (l1 ++ l2) ->
  0 < b_len b -> 0 < b_len b' ->
  b_ptr b + b_len b <= b_ptr b' \/ b_ptr b' + b_len b' <= b_ptr b.
Proof.
  intros Hinv Hl HIn Hp Hp'.
  assert (Hne : b_ptr b <> b_ptr b') by (eapply live_slots_distinct; eauto).
  destruct Hinv as (_ & _ & _ & HF). rewrite Forall_forall in HF. subst live.
  assert (Hb1 : blk_inv (h_mem h) b) by (apply HF, in_or_app; simpl; auto).
  assert (Hb2 : blk_inv (h_mem h) b').
  { apply HF. apply in_app_iff in HIn. apply in_or_app. simpl. tauto. }
  destruct (blk_range _ _ Hb1 Hp) as (i & j & a & n & Hi & Hs).
  destruct (blk_range _ _ Hb2 Hp') as (i' & j' & a' & n' & Hi' & Hs').
  eapply slots_disjoint; eauto.
Qed.

(** A free block does not overlap a live allocation. *)
Lemma free_disjoint m live i a s n p k fl x b :
  nth_error cfg i = Some (a, s, n) -> Forall (blk_inv m) live ->
  p_size p = s ->
  k <= n ->
  NoDup (fl ++ used_in a (a + s * n) live) ->
  Forall (fun x => exists j, j < k /\ x = a + s * j) (fl ++ used_in a (a + s * n) live) ->
  In x fl -> In b live -> 0 < b_len b ->
  x + s <= b_ptr b \/ b_ptr b + b_len b <= x.
Proof.
  intros Hi HF Hs Hk Hnd Hall Hx Hb Hp.
  rewrite Forall_forall in HF. specialize (HF b Hb).
  destruct (blk_range _ _ HF Hp) as (i' & j' & a' & n' & Hi' & Hs').
  rewrite Forall_forall in Hall. destruct (Hall x) as (j & Hj & Hxe).
  { apply in_or_app; auto. }
  assert (Hsl : slot cfg i j x) by (exists a, s, n; repeat split; auto; lia).
  eapply slots_disjoint; eauto.
  intros He.
  assert (in_pool a (a + s * n) b = true).
  { apply (in_pool_slot i j); auto. now rewrite <- He. }
  assert (HinU : In x (used_in a (a + s * n) live)).
  { rewrite He. unfold used_in. apply in_map. now apply filter_In. }
  apply in_split in Hx as (f1 & f2 & ->).
  rewrite <- app_assoc in Hnd. simpl in Hnd. apply NoDup_remove_2 in Hnd.
  apply Hnd. apply in_or_app. right. apply in_or_app. now right.
Qed.

Lemma used_in_set lo hi l1 b l2 d :
  used_in lo hi (l1 ++ Blk (b_ptr b) (b_len b) (b_req b) d :: l2) = used_in lo hi (l1 ++ b :: l2).
Proof. rewrite !used_in_app, !used_in_cons. unfold in_pool. reflexivity. Qed.

Lemma inv_mem_change h l1 b l2 m' d :
  heap_inv h (l1 ++ b :: l2) ->
  (forall x, (x < b_ptr b \/ b_ptr b + b_len b <= x) -> m' x = h_mem h x) ->
  (forall off v, off < b_len b -> d off = Some v -> m' (b_ptr b + off) = v) ->
  heap_inv (Heap (h_base h) (h_pools h) m')
           (l1 ++ Blk (b_ptr b) (b_len b) (b_req b) d :: l2).
Proof.
  intros Hinv Hm Hd. pose proof Hinv as (Hb & Hlen & Hp & HF).
  destruct (N.eq_dec (b_len b) 0) as [Hz|Hnz].
  - (* nothing can change *)
    assert (Hall : forall x, m' x = h_mem h x) by (intros; apply Hm; lia).
    split; [easy|]. split; [easy|]. split.
    + intros i c p Hi Hpi. specialize (Hp i c p Hi Hpi). destruct c as [[a s] n].
      destruct Hp as (H1 & H2 & k & fl & H3 & H4 & H5 & H6 & H7 & H8).
      unfold pool_inv. rewrite !used_in_set. split; [easy|]. split; [easy|].
      exists k, fl. repeat split; auto. simpl. eapply chain_ext; [|exact H5]. auto.
    + apply Forall_app in HF as [F1 F2]. inversion F2 as [|? ? G1 G2]; subst.
      assert (Himp : forall b0, blk_inv (h_mem h) b0 -> blk_inv m' b0).
      { intros b0 [A B]. split; [exact A|]. intros. rewrite Hall. auto. }
      apply Forall_app. split; [|constructor].
      * eapply Forall_impl; eauto.
      * destruct G1 as [A B]. split; [exact A|]. simpl. auto.
      * eapply Forall_impl; eauto.
  - assert (Hpos : 0 < b_len b) by lia.
    split; [easy|]. split; [easy|]. split.
    + intros i c p Hi Hpi. pose proof (Hp i c p Hi Hpi) as Hpp. destruct c as [[a s] n].
      destruct Hpp as (H1 & H2 & k & fl & H3 & H4 & H5 & H6 & H7 & H8).
      unfold pool_inv. rewrite !used_in_set. split; [easy|]. split; [easy|].
      exists k, fl. repeat split; auto. simpl. eapply chain_ext; [|exact H5].
      intros x y Hx Hy. symmetry. apply Hm.
      destruct Hcfg as [_ Hw]. destruct (wf_from_nth _ _ _ _ _ _ _ _ Hw Hi) as (_ & _ & Hws & _).
      assert (x + s <= b_ptr b \/ b_ptr b + b_len b <= x).
      { eapply free_disjoint; eauto. apply in_or_app; simpl; auto. }
      lia.
    + apply Forall_app in HF as [F1 F2]. inversion F2 as [|? ? G1 G2]; subst.
      assert (Himp : forall b0, In b0 (l1 ++ l2) -> blk_inv (h_mem h) b0 -> blk_inv m' b0).
      { intros b0 HIn [A B]. split; [exact A|]. intros off v Ho Hdv.
        rewrite Hm; [auto|].
        assert (Hl0 : 0 < b_len b0) by lia.
        destruct (live_disjoint h _ l1 b l2 b0 Hinv eq_refl HIn Hpos Hl0); lia. }
      rewrite Forall_forall in F1, G2.
      apply Forall_app. split; [|constructor].
      * apply Forall_forall. intros. apply Himp; auto. apply in_or_app; auto.
      * destruct G1 as [A B]. split; [exact A|]. simpl. auto.
      * apply Forall_forall. intros. apply Himp; auto. apply in_or_app; auto.
Qed.

(** ** Allocation *)

Lemma pool_allocate_spec m live i c p :
  nth_error cfg i = Some c -> pool_inv m live i c p -> Forall (blk_inv m) live ->
  match pool_allocate ws m p with
  | (None, p') => p' = p /\ full live c
  | (Some x, p') =>
      in_use live c < snd c /\
      (exists j, slot cfg i j x) /\ p_size p' = p_size p /\
      forall b, b_ptr b = x -> b_len b = p_size p -> 0 < p_size p ->
        pool_inv m (live ++ [b]) i c p'
  end.
Proof.
  intros Hi Hp HF. destruct c as [[a s] n].
  destruct Hp as (H1 & H2 & k & fl & H3 & H4 & H5 & H6 & H7 & H8).
  destruct Hcfg as [Hb0 Hw]. destruct (wf_from_nth _ _ _ _ _ _ _ _ Hw Hi) as (G1 & G2 & G3 & G4 & G5).
  unfold pool_allocate, allocate_free.
  destruct (N.eqb_spec (p_free p) 0) as [Hf|Hf].
  - assert (fl = []) as ->.
    { destruct fl; [easy|]. simpl in H5. destruct H5 as (E & Hn & _). congruence. }
    simpl in H6, H7, H8.
    unfold allocate_uninit. destruct (N.eqb_spec (p_uninit p) (p_edge p)) as [He|He].
    + split; [easy|]. unfold full, in_use. simpl. nia.
    + assert (Hkn : k < n) by (assert (k <> n) by congruence; lia).
      split; [unfold in_use; simpl; lia|].
      split; [exists k, a, s, n; auto|]. split; [easy|].
      intros b Hbp Hbl Hs0. split; [easy|]. split; [easy|].
      exists (k + 1), []. simpl.
      assert (Hin : in_pool a (a + s * n) b = true).
      { apply (in_pool_slot i k); [auto| |lia]. exists a, s, n. repeat split; auto. congruence. }
      rewrite used_in_snoc by easy.
      repeat split; try lia; auto.
      * rewrite Hbp, H4. rewrite Forall_forall in H7.
        eapply Permutation_NoDup; [apply Permutation_cons_append|]. constructor; [|easy].
        intros HIn. destruct (H7 _ HIn) as (j & Hj & E). nia.
      * apply Forall_app. split.
        -- eapply Forall_impl; [|exact H7]. intros x (j & Hj & ->). exists j. split; [lia|easy].
        -- constructor; [|easy]. exists k. split; [lia|congruence].
      * rewrite app_length. simpl. lia.
  - destruct fl as [|x fl]; [easy|]. simpl in H5. destruct H5 as (E & Hn & H5).
    subst x. assert (Hsl : exists j, slot cfg i j (p_free p)).
    { inversion H7 as [|? ? (j & Hj & Ej) _]. exists j, a, s, n. repeat split; auto. lia. }
    assert (Hlt : in_use live (a, s, n) < n).
    { unfold in_use. rewrite app_length in H8. simpl in H8. lia. }
    split; [easy|]. split; [easy|]. split; [easy|].
    intros b Hbp Hbl Hs0. split; [easy|]. split; [easy|].
    exists k, fl. destruct Hsl as (j & Hsl).
    assert (Hin : in_pool a (a + s * n) b = true).
    { apply (in_pool_slot i j); [auto| |lia]. now rewrite Hbp. }
    rewrite used_in_snoc by easy. simpl.
    assert (Hperm : forall l : list N, NoDup ((p_free p :: fl) ++ l) ->
                    NoDup (fl ++ l ++ [p_free p])).
    { intros l HN. rewrite app_assoc. eapply Permutation_NoDup; [|exact HN].
      simpl. apply Permutation_cons_append. }
    split; [easy|]. split; [easy|]. split; [easy|].
    rewrite Hbp. split; [now apply Hperm|]. simpl in H7, H8. split.
    + inversion H7; subst. apply Forall_app in H10 as [? ?].
      apply Forall_app. split; [easy|]. apply Forall_app. split; [easy|]. auto.
    + rewrite !app_length in *. simpl. lia.
Qed.

Lemma used_in_other lo hi live b :
  in_pool lo hi b = false -> used_in lo hi (live ++ [b]) = used_in lo hi live.
Proof. intros H. rewrite used_in_app, used_in_cons, H. apply app_nil_r. Qed.

Lemma alloc_loop_spec h live req : heap_inv h live -> 0 < req -> forall n i,
  (i + n = length cfg)%nat ->
  (forall c, In c (skipn i cfg) -> req <= snd (fst c)) ->
  match alloc_loop ws (h_mem h) (h_pools h) i n with
  | (None, ps) => ps = h_pools h /\ forall i' c, (i <= i')%nat -> nth_error cfg i' = Some c -> full live c
  | (Some (x, len), ps) =>
      exists i' a n', (i <= i')%nat /\ nth_error cfg i' = Some (a, len, n') /\
        (exists j, slot cfg i' j x) /\ in_use live (a, len, n') < n' /\
        (forall i0 c, (i <= i0 < i')%nat -> nth_error cfg i0 = Some c -> full live c) /\
        forall d, (forall off, d off = None) ->
          heap_inv (Heap (h_base h) ps (h_mem h)) (live ++ [Blk x len req d])
  end.
Proof.
  intros Hinv Hreq. pose proof Hinv as (Hb & Hlen & Hp & HF).
  induction n as [|n IH]; intros i Hin Hle; simpl.
  - split; [easy|]. intros i' c Hi' Hc.
    assert (nth_error cfg i' <> None) as Hn by congruence. apply nth_error_Some in Hn. lia.
  - destruct (nth_error (h_pools h) i) as [p|] eqn:Ep.
    2:{ apply nth_error_None in Ep. lia. }
    destruct (nth_error cfg i) as [c|] eqn:Ec.
    2:{ apply nth_error_None in Ec. lia. }
    pose proof (pool_allocate_spec (h_mem h) live i c p Ec (Hp i c p Ec Ep) HF) as HA.
    destruct (pool_allocate ws (h_mem h) p) as [[x|] p'].
    + destruct c as [[a s] n']. destruct HA as (Hu & (j & Hs) & Hsz & Hpi).
      destruct (Hp i _ p Ec Ep) as (Hps & _).
      exists i, a, n'. rewrite Hps. split; [lia|]. split; [easy|]. split; [eauto|].
      split; [easy|]. split; [intros; lia|].
      intros d Hd. destruct Hcfg as [_ Hw].
      destruct (wf_from_nth _ _ _ _ _ _ _ _ Hw Ec) as (_ & _ & _ & Hs0 & _).
      split; [easy|]. split; [simpl; now rewrite set_nth_length|]. simpl. split.
      * intros i0 c0 p0 Hc0 Hp0. destruct (Nat.eq_dec i i0) as [<-|Hne].
        -- rewrite (nth_set_same _ _ _ _ Ep) in Hp0. inversion Hp0; subst p0.
           rewrite Ec in Hc0. inversion Hc0; subst c0. apply Hpi; simpl; auto; lia.
        -- rewrite nth_set_other in Hp0 by easy.
           specialize (Hp i0 c0 p0 Hc0 Hp0). destruct c0 as [[a0 s0] n0].
           unfold pool_inv in *. rewrite used_in_other; [exact Hp|].
           eapply in_pool_other; eauto.
      * apply Forall_app. split; [exact HF|]. constructor; [|easy]. split; simpl.
        -- right. split.
           ++ split; [easy|]. apply (Hle (a, s, n')).
              rewrite <- (firstn_skipn i cfg) in Ec.
              rewrite nth_error_app2 in Ec; rewrite firstn_length_le in * by lia; [|lia].
              rewrite Nat.sub_diag in Ec. destruct (skipn i cfg); [discriminate|].
              inversion Ec. simpl. auto.
           ++ exists i, j, a, n'. auto.
        -- intros off v _ Hv. rewrite Hd in Hv. discriminate.
    + destruct HA as [-> Hfull]. rewrite set_nth_id by easy.
      specialize (IH (S i)). destruct (alloc_loop ws (h_mem h) (h_pools h) (S i) n) as [[[x len]|] ps].
      * destruct IH as (i' & a & n' & H1 & H2 & H3 & H4 & H5 & H6); [lia| |].
        { intros c0 HIn. apply Hle. now apply skipn_S_incl. }
        exists i', a, n'. split; [lia|]. split; [easy|]. split; [easy|]. split; [easy|].
        split; [|easy]. intros i0 c0 Hi0 Hc0. destruct (Nat.eq_dec i0 i) as [->|]; [congruence|].
        apply (H5 i0); auto; lia.
      * destruct IH as [-> IH]; [lia| |].
        { intros c0 HIn. apply Hle. now apply skipn_S_incl. }
        split; [easy|]. intros i' c0 Hi' Hc0.
        destruct (Nat.eq_dec i' i) as [->|]; [congruence|]. apply (IH i'); auto; lia.
Qed.

Lemma pools_cfg h live i p :
  heap_inv h live -> nth_error (h_pools h) i = Some p ->
  exists a s n, nth_error cfg i = Some (a, s, n) /\ p_size p = s /\ p_edge p = a + s * n.
Proof.
  intros (Hb & Hlen & Hp & HF) Hi.
  destruct (nth_error cfg i) as [[[a s] n]|] eqn:E.
  - destruct (Hp i _ p E Hi) as (? & ? & _). exists a, s, n. auto.
  - apply nth_error_None in E. assert (nth_error (h_pools h) i <> None) as Hn by congruence.
    apply nth_error_Some in Hn. lia.
Qed.

Lemma size_monotone h live sz :
  heap_inv h live -> monotone (h_pools h) (fun p => sz <=? p_size p).
Proof.
  intros Hinv i j p q Hi Hj Hij H. apply N.leb_le in H. apply N.leb_le.
  destruct (pools_cfg _ _ _ _ Hinv Hi) as (a & s & n & E & Es & _).
  destruct (pools_cfg _ _ _ _ Hinv Hj) as (a' & s' & n' & E' & Es' & _).
  destruct (Nat.eq_dec i j) as [->|]; [congruence|].
  destruct Hcfg as [_ Hw].
  destruct (wf_from_order ws cfg _ _ i j _ _ _ _ _ _ Hw ltac:(lia) E E'). lia.
Qed.

Lemma edge_monotone h live x :
  heap_inv h live -> monotone (h_pools h) (fun p => x <? p_edge p).
Proof.
  intros Hinv i j p q Hi Hj Hij H. apply N.ltb_lt in H. apply N.ltb_lt.
  destruct (pools_cfg _ _ _ _ Hinv Hi) as (a & s & n & E & _ & Es).
  destruct (pools_cfg _ _ _ _ Hinv Hj) as (a' & s' & n' & E' & _ & Es').
  destruct (Nat.eq_dec i j) as [->|]; [congruence|].
  destruct Hcfg as [_ Hw].
  destruct (wf_from_order ws cfg _ _ i j _ _ _ _ _ _ Hw ltac:(lia) E E'). nia.
Qed.

Definition no_data : N -> option N := fun _ => None.

Lemma heap_allocate_spec h live size align :
  heap_inv h live ->
  alloc_result cfg live size align (fst (heap_allocate ws h size align)) /\
  match heap_allocate ws h size align with
  | (None, h') => h' = h
  | (Some (x, len), h') =>
      heap_inv h' (live ++ [Blk x len size no_data]) /\ h_mem h' = h_mem h
  end.
Proof.
  intros Hinv. pose proof Hinv as (Hb & Hlen & Hp & HF). unfold heap_allocate.
  destruct (N.eqb_spec size 0) as [->|Hnz].
  - split; [simpl; auto|]. split; [|easy].
    split; [easy|]. split; [easy|]. split.
    + intros i c p Hc Hpi. specialize (Hp i c p Hc Hpi). destruct c as [[a s] n].
      unfold pool_inv in *. rewrite used_in_other; [exact Hp|]. reflexivity.
    + apply Forall_app. split; [exact HF|]. constructor; [|easy]. split; simpl; [auto|].
      intros. lia.
  - assert (Hpos : 0 < size) by lia. unfold pool_range_by_layout.
    destruct (binary_search_spec (h_pools h) _ (size_monotone h live size Hinv))
      as (first & Ebs & Hle1 & Hlow & Hhigh).
    rewrite Ebs.
    assert (Hle : forall c, In c (skipn first cfg) -> size <= snd (fst c)).
    { intros [[a s] n] HIn. apply In_nth_error in HIn as (k & Hk).
      assert (Hc : nth_error cfg (first + k) = Some (a, s, n)).
      { etransitivity; [symmetry; apply nth_error_skipn'|exact Hk]. }
      destruct (nth_error (h_pools h) (first + k)) as [p|] eqn:Ep.
      - specialize (Hhigh _ _ Ep ltac:(lia)). apply N.leb_le in Hhigh.
        destruct (pools_cfg _ _ _ _ Hinv Ep) as (a1 & s1 & n1 & E1 & Es1 & _).
        rewrite Hc in E1. inversion E1; subst. simpl. easy.
      - apply nth_error_None in Ep. assert (nth_error cfg (first + k) <> None) as Hn by congruence.
        apply nth_error_Some in Hn. lia. }
    assert (Hsmall : forall i a s n, nth_error cfg i = Some (a, s, n) -> (i < first)%nat -> ~ size <= s).
    { intros i a s n Hc Hi Hs.
      destruct (nth_error (h_pools h) i) as [p|] eqn:Ep.
      - specialize (Hlow _ _ Ep Hi). apply N.leb_gt in Hlow.
        destruct (pools_cfg _ _ _ _ Hinv Ep) as (a1 & s1 & n1 & E1 & Es1 & _).
        rewrite Hc in E1. inversion E1; subst. lia.
      - apply nth_error_None in Ep. lia. }
    pose proof (alloc_loop_spec h live size Hinv Hpos (length (h_pools h) - first) first) as HL.
    destruct (alloc_loop ws (h_mem h) (h_pools h) first (length (h_pools h) - first))
      as [[[x len]|] ps].
    + destruct HL as (i' & a & n' & H1 & H2 & H3 & H4 & H5 & H6); [lia|easy|].
      split.
      * simpl. right. split; [easy|]. exists i', a, n'. split; [easy|].
        split.
        { apply (Hle (a, len, n')). apply nth_error_In with (i' - first)%nat.
          rewrite nth_error_skipn'. etransitivity; [|exact H2]. f_equal. lia. }
        split; [easy|]. split; [easy|].
        intros i0 a0 s0 n0 Hi0 Hc0 Hsz.
        destruct (Nat.lt_ge_cases i0 first) as [L|G].
        -- exfalso. eapply Hsmall; eauto.
        -- eapply (H5 i0); eauto.
      * split; [|easy]. apply H6. easy.
    + destruct HL as [-> HL]; [lia|easy|]. split.
      * simpl. split; [easy|]. intros i a s n Hc Hsz.
        destruct (Nat.lt_ge_cases i first) as [L|G].
        -- exfalso. eapply Hsmall; eauto.
        -- eapply HL; eauto.
      * destruct h; reflexivity.
Qed.

Lemma heap_allocate_zeroed_spec h live size align :
  heap_inv h live ->
  alloc_result cfg live size align (fst (heap_allocate_zeroed ws h size align)) /\
  match heap_allocate_zeroed ws h size align with
  | (None, h') => h' = h
  | (Some (x, len), h') =>
      heap_inv h' (live ++ [Blk x len size (fresh_data true)]) /\
      forall y, (y < x \/ x + len <= y) -> h_mem h' y = h_mem h y
  end.
Proof.
  intros Hinv. unfold heap_allocate_zeroed.
  destruct (heap_allocate_spec h live size align Hinv) as [HR HA].
  destruct (heap_allocate ws h size align) as [[[x len]|] h']; simpl in *; [|easy].
  destruct HA as [HI Hm]. split; [easy|]. split.
  - pose proof (inv_mem_change h' live (Blk x len size no_data) [] (zero_bytes (h_mem h') x len)
                  (fresh_data true) HI) as HC. simpl in HC. apply HC.
    + intros y Hy. unfold zero_bytes.
      destruct (N.leb_spec x y), (N.ltb_spec y (x + len)); simpl; auto; lia.
    + intros off v Ho Hv. unfold fresh_data in Hv. inversion Hv; subst.
      unfold zero_bytes.
      destruct (N.leb_spec x (x + off)), (N.ltb_spec (x + off) (x + len)); simpl; auto; lia.
  - intros y Hy. unfold zero_bytes. rewrite Hm.
    destruct (N.leb_spec x y), (N.ltb_spec y (x + len)); simpl; auto; lia.
Qed.

(** ** Deallocation *)

Lemma pool_by_ptr_owner h live i j x :
  heap_inv h live -> slot cfg i j x -> pool_by_ptr (h_pools h) (h_base h) x = Some i.
Proof.
  intros Hinv Hs. pose proof Hinv as (Hb & Hlen & Hp & HF).
  unfold pool_by_ptr.
  destruct (binary_search_spec _ _ (edge_monotone h live x Hinv)) as (k & Ek & Hk1 & Hlow & Hhigh).
  rewrite Ek. pose proof Hs as (a & s & n & Hi & Hj & Hx).
  destruct (slot_range _ _ _ _ _ _ _ _ _ Hcfg Hi Hs) as (A & B & C & D & _).
  destruct Hcfg as [_ Hw]. destruct (wf_from_nth _ _ _ _ _ _ _ _ Hw Hi) as (_ & _ & _ & Hs0 & _).
  assert (Hil : (i < length (h_pools h))%nat).
  { rewrite Hlen. apply nth_error_Some. congruence. }
  destruct (nth_error (h_pools h) i) as [p|] eqn:Ep.
  2:{ apply nth_error_None in Ep. lia. }
  destruct (pools_cfg _ _ _ _ Hinv Ep) as (a1 & s1 & n1 & E1 & _ & Ee1).
  rewrite Hi in E1. inversion E1; subst a1 s1 n1.
  assert (k = i) as ->.
  { destruct (Nat.lt_trichotomy k i) as [L|[E|L]]; [|easy|]; exfalso.
    - destruct (nth_error (h_pools h) k) as [q|] eqn:Eq.
      2:{ apply nth_error_None in Eq. lia. }
      specialize (Hhigh _ _ Eq ltac:(lia)). apply N.ltb_lt in Hhigh.
      destruct (pools_cfg _ _ _ _ Hinv Eq) as (a2 & s2 & n2 & E2 & _ & Ee2).
      destruct (wf_from_order ws cfg _ _ k i _ _ _ _ _ _ Hw L E2 Hi). lia.
    - specialize (Hlow _ _ Ep L). apply N.ltb_ge in Hlow. lia. }
  replace (Nat.ltb i (length (h_pools h))) with true by (symmetry; now apply Nat.ltb_lt).
  replace (h_base h <=? x) with true by (symmetry; apply N.leb_le; lia).
  rewrite orb_true_r. reflexivity.
Qed.

Lemma heap_deallocate_spec h l1 b l2 sz :
  heap_inv h (l1 ++ b :: l2) -> fits_blk b sz = true ->
  heap_inv (heap_deallocate ws h (b_ptr b) sz) (l1 ++ l2) /\
  (forall y, (y < b_ptr b \/ b_ptr b + b_len b <= y) ->
     h_mem (heap_deallocate ws h (b_ptr b) sz) y = h_mem h y).
Proof.
  intros Hinv Hfit. pose proof Hinv as (Hb & Hlen & Hp & HF).
  unfold fits_blk in Hfit. apply andb_true_iff in Hfit as [F1 F2].
  apply N.leb_le in F1, F2.
  assert (Hbi : blk_inv (h_mem h) b).
  { rewrite Forall_forall in HF. apply HF, in_or_app. simpl. auto. }
  assert (HF2 : Forall (blk_inv (h_mem h)) (l1 ++ l2)).
  { apply Forall_app in HF as [A1 A2]. inversion A2; subst. apply Forall_app. auto. }
  unfold heap_deallocate.
  destruct Hbi as [[[H0 H0r]|(Hr & i & j & a & n & Hi & Hs)] _].
  - assert (sz = 0) as -> by lia. simpl. split; [|easy].
    split; [easy|]. split; [easy|]. split; [|easy].
    intros i c p Hc Hpi. specialize (Hp i c p Hc Hpi). destruct c as [[a s] n].
    assert (Eb : in_pool a (a + s * n) b = false) by (unfold in_pool; now rewrite H0).
    unfold pool_inv in *. rewrite used_in_app, used_in_cons, Eb in Hp.
    rewrite used_in_app. exact Hp.
  - destruct (N.eqb_spec sz 0) as [|_]; [lia|].
    rewrite (pool_by_ptr_owner h _ i j) by eauto.
    destruct (nth_error (h_pools h) i) as [p|] eqn:Ep.
    2:{ apply nth_error_None in Ep. assert (nth_error cfg i <> None) as Hn by congruence.
        apply nth_error_Some in Hn. lia. }
    simpl. set (s := b_len b) in *.
    destruct (slot_range _ _ _ _ _ _ _ _ _ Hcfg Hi Hs) as (A & B & C & D & E).
    pose proof Hcfg as [Hbase Hw].
    destruct (wf_from_nth _ _ _ _ _ _ _ _ Hw Hi) as (_ & _ & Hws & Hs0 & Hed).
    assert (Hframe : forall y, (y < b_ptr b \/ b_ptr b + s <= y) ->
              write_word ws (h_mem h) (b_ptr b) (p_free p) y = h_mem h y).
    { intros y Hy. apply write_word_frame. lia. }
    split; [|exact Hframe].
    assert (Hdj : forall b', In b' (l1 ++ l2) -> 0 < b_len b' ->
              b_ptr b + s <= b_ptr b' \/ b_ptr b' + b_len b' <= b_ptr b).
    { intros b' HIn Hl'. eapply live_disjoint; eauto; lia. }
    split; [easy|]. split; [simpl; now rewrite set_nth_length|]. simpl. split.
    + intros i0 c0 p0 Hc0 Hp0. destruct (Nat.eq_dec i i0) as [<-|Hne].
      * rewrite (nth_set_same _ _ _ _ Ep) in Hp0. inversion Hp0; subst p0.
        rewrite Hi in Hc0. inversion Hc0; subst c0.
        destruct (Hp i _ p Hi Ep) as (G1 & G2 & k & fl & G3 & G4 & G5 & G6 & G7 & G8).
        assert (Hin : in_pool a (a + s * n) b = true) by (eapply in_pool_slot; eauto; lia).
        rewrite used_in_app, used_in_cons, Hin in G6, G7, G8. simpl in G6, G7, G8.
        split; [easy|]. split; [easy|]. exists k, (b_ptr b :: fl).
        split; [easy|]. split; [easy|]. split.
        -- cbn [chain p_free]. split; [easy|]. split; [lia|].
           rewrite read_write_word.
           ++ eapply chain_ext; [|exact G5]. intros x y Hx Hy. symmetry. apply Hframe.
              assert (x + s <= b_ptr b \/ b_ptr b + b_len b <= x) as Hd.
              { eapply (free_disjoint (h_mem h) (l1 ++ b :: l2) i a s n p k fl x b); eauto.
                - rewrite used_in_app, used_in_cons, Hin. simpl. exact G6.
                - rewrite used_in_app, used_in_cons, Hin. simpl. exact G7.
                - apply in_or_app; simpl; auto.
                }
              unfold s in *. lia.
           ++ destruct fl as [|x fl]; simpl in G5.
              ** rewrite G5. apply N.lt_le_trans with 1; [lia|].
                 pose proof (N.pow_nonzero 256 (N.of_nat ws)). lia.
              ** destruct G5 as (-> & _). inversion G7 as [|? ? (jx & Hjx & ->) _]; subst. nia.
        -- rewrite used_in_app. simpl. rewrite (app_assoc fl) in G6, G7.
           split; [|split].
           ++ constructor.
              ** apply NoDup_remove_2 in G6. rewrite <- app_assoc in G6. exact G6.
              ** apply NoDup_remove_1 in G6. rewrite <- app_assoc in G6. exact G6.
           ++ apply Forall_app in G7 as [Q1 Q2]. inversion Q2 as [|? ? Q3 Q4].
              constructor; [exact Q3|]. rewrite app_assoc. apply Forall_app. auto.
           ++ clear - G8. simpl in *. rewrite !app_length in *. simpl in *. rewrite ?app_length in *. lia.
      * rewrite nth_set_other in Hp0 by easy.
        specialize (Hp i0 c0 p0 Hc0 Hp0). destruct c0 as [[a0 s0] n0].
        destruct Hp as (G1 & G2 & k & fl & G3 & G4 & G5 & G6 & G7 & G8).
        pose proof (in_pool_other i i0 j a0 s0 n0 b Hne Hc0 Hs) as Hno.
        split; [easy|]. split; [easy|]. exists k, fl.
        assert (EU : used_in a0 (a0 + s0 * n0) (l1 ++ b :: l2)
                     = used_in a0 (a0 + s0 * n0) (l1 ++ l2)).
        { rewrite !used_in_app, used_in_cons, Hno. reflexivity. }
        rewrite EU in *. repeat split; auto.
        eapply chain_ext; [|exact G5]. intros x y Hx Hy. symmetry. apply Hframe.
        destruct (wf_from_nth _ _ _ _ _ _ _ _ Hw Hc0) as (_ & _ & Hws0 & Hs00 & _).
        rewrite Forall_forall in G7. destruct (G7 x) as (jx & Hjx & Hxe).
        { apply in_or_app; auto. }
        assert (Hsx : slot cfg i0 jx x) by (exists a0, s0, n0; repeat split; auto; lia).
        assert (x <> b_ptr b).
        { intros ->. destruct (slot_inj _ _ _ _ _ _ _ _ Hcfg Hs Hsx). easy. }
        pose proof (slots_disjoint _ _ _ _ _ _ _ _ _ _ _ _ _ _ _ Hcfg Hi Hc0 Hs Hsx ltac:(congruence)).
        unfold s in *. lia.
    + rewrite Forall_forall in HF2. apply Forall_forall. intros b' HIn.
      destruct (HF2 b' HIn) as [P Q]. split; [exact P|]. intros off v Ho Hv.
      rewrite Hframe; [auto|]. specialize (Hdj b' HIn ltac:(lia)). unfold s in *. lia.
Qed.

(** ** Moving an allocation *)

Lemma heap_move_spec alloc d0 h l1 b l2 sz new align n :
  (forall h live size align, heap_inv h live ->
    alloc_result cfg live size align (fst (alloc h size align)) /\
    match alloc h size align with
    | (None, h') => h' = h
    | (Some (x, len), h') =>
        heap_inv h' (live ++ [Blk x len size d0]) /\
        forall y, (y < x \/ x + len <= y) -> h_mem h' y = h_mem h y
    end) ->
  heap_inv h (l1 ++ b :: l2) -> fits_blk b sz = true ->
  n <= new -> n <= b_len b ->
  alloc_result cfg (l1 ++ b :: l2) new align (fst (heap_move ws alloc h (b_ptr b) sz new align n)) /\
  match heap_move ws alloc h (b_ptr b) sz new align n with
  | (None, h') => h' = h
  | (Some (x, len), h') =>
      heap_inv h' (l1 ++ l2 ++ [Blk x len new (fun off => if off <? n then b_data b off else d0 off)])
  end.
Proof.
  intros Halloc Hinv Hfit Hn1 Hn2. unfold heap_move.
  destruct (Halloc h _ new align Hinv) as [HR HA].
  destruct (alloc h new align) as [[[x len]|] h']; simpl in *; [|easy].
  split; [easy|]. destruct HA as [HI Hm].
  assert (Hlen : new <= len \/ (new = 0 /\ len = 0)).
  { destruct HR as [(-> & -> & _)|(_ & i & a & n' & _ & Hle & _)]; lia. }
  assert (Hdata : forall off v, off < n -> b_data b off = Some v -> h_mem h (b_ptr b + off) = v).
  { intros off v Ho Hv. destruct Hinv as (_ & _ & _ & HF). rewrite Forall_forall in HF.
    destruct (HF b) as [_ Q]; [apply in_or_app; simpl; auto|]. apply Q; auto. lia. }
  (* the new block does not overlap the old one *)
  assert (Hsep : 0 < n -> x + len <= b_ptr b \/ b_ptr b + b_len b <= x).
  { intros Hpos.
    pose proof (live_disjoint h' _ l1 b (l2 ++ [Blk x len new d0])
                  (Blk x len new d0) HI) as HD.
    simpl in HD. rewrite <- app_assoc in HD. simpl in HD.
    specialize (HD eq_refl).
    destruct HD as [HD|HD]; try lia.
    - apply in_or_app. right. apply in_or_app. right. simpl. auto. }
  set (d := fun off => if off <? n then b_data b off else d0 off).
  assert (HI2 : heap_inv (Heap (h_base h') (h_pools h') (copy_bytes (h_mem h') (b_ptr b) x n))
                  (l1 ++ b :: (l2 ++ [Blk x len new d]))).
  { pose proof (inv_mem_change h' (l1 ++ b :: l2) (Blk x len new d0) []
                  (copy_bytes (h_mem h') (b_ptr b) x n) d HI) as HC.
    simpl in HC. rewrite <- app_assoc in HC. simpl in HC. apply HC.
    - intros y Hy. unfold copy_bytes.
      destruct (N.leb_spec x y), (N.ltb_spec y (x + n)); simpl; auto; lia.
    - intros off v Ho Hv. unfold copy_bytes, d in *.
      destruct (N.ltb_spec off n).
      + destruct (N.leb_spec x (x + off)), (N.ltb_spec (x + off) (x + n)); simpl; try lia.
        replace (x + off - x + b_ptr b) with (b_ptr b + off) by lia.
        rewrite Hm; [auto|]. specialize (Hsep ltac:(lia)). lia.
      + destruct (N.leb_spec x (x + off)), (N.ltb_spec (x + off) (x + n)); simpl; try lia.
        destruct HI as (_ & _ & _ & HF). apply Forall_app in HF as [_ HF].
        inversion HF as [|? ? [_ Q] _]; subst. apply Q; auto. }
  destruct (heap_deallocate_spec _ l1 b _ sz HI2 Hfit) as [HD _].
  exact HD.
Qed.

(** ** All client steps *)

Lemma inv_step h live q :
  heap_inv h live ->
  let '(h', live', r) := client_step ws (h, live) q in heap_inv h' live'.
Proof.
  intros Hinv. destruct q as [size align z|k sz|k sz new align z|k sz new align|k off v]; simpl.
  - destruct z.
    + destruct (heap_allocate_zeroed_spec h live size align Hinv) as [_ HA].
      destruct (heap_allocate_zeroed ws h size align) as [[[x len]|] h'];
        [now destruct HA|now subst].
    + destruct (heap_allocate_spec h live size align Hinv) as [_ HA].
      destruct (heap_allocate ws h size align) as [[[x len]|] h'];
        [now destruct HA|now subst].
  - destruct (nth_error live k) as [b|] eqn:Ek; [|easy].
    destruct (fits_blk b sz) eqn:Ef; [|easy].
    destruct (del_nth_split _ _ _ Ek) as (l1 & l2 & -> & -> & _).
    now apply heap_deallocate_spec.
  - destruct (nth_error live k) as [b|] eqn:Ek; [|easy].
    destruct (fits_blk b sz && (sz <=? new)) eqn:Ef; [|easy].
    apply andb_true_iff in Ef as [Ef Hle]. apply N.leb_le in Hle.
    destruct (del_nth_split _ _ _ Ek) as (l1 & l2 & -> & -> & _).
    assert (Hsz : sz <= b_len b).
    { unfold fits_blk in Ef. apply andb_true_iff in Ef as [_ E]. now apply N.leb_le in E. }
    destruct z.
    + destruct (heap_move_spec (heap_allocate_zeroed ws) (fresh_data true) h l1 b l2 sz new align sz)
        as [_ HM]; auto.
      { intros. now apply heap_allocate_zeroed_spec. }
      unfold heap_grow_zeroed.
      destruct (heap_move ws (heap_allocate_zeroed ws) h (b_ptr b) sz new align sz)
        as [[[x len]|] h']; [|now subst].
      rewrite <- app_assoc. exact HM.
    + destruct (heap_move_spec (heap_allocate ws) no_data h l1 b l2 sz new align sz)
        as [_ HM]; auto.
      { intros h0 live0 s0 a0 H0. destruct (heap_allocate_spec h0 live0 s0 a0 H0) as [A B].
        split; [easy|]. destruct (heap_allocate ws h0 s0 a0) as [[[x len]|] h']; [|easy].
        destruct B as [B1 B2]. split; [easy|]. intros. now rewrite B2. }
      unfold heap_grow.
      destruct (heap_move ws (heap_allocate ws) h (b_ptr b) sz new align sz)
        as [[[x len]|] h']; [|now subst].
      rewrite <- app_assoc. exact HM.
  - destruct (nth_error live k) as [b|] eqn:Ek; [|easy].
    destruct (fits_blk b sz && (new <=? sz)) eqn:Ef; [|easy].
    apply andb_true_iff in Ef as [Ef Hle]. apply N.leb_le in Hle.
    destruct (del_nth_split _ _ _ Ek) as (l1 & l2 & -> & -> & _).
    assert (Hsz : sz <= b_len b).
    { unfold fits_blk in Ef. apply andb_true_iff in Ef as [_ E]. now apply N.leb_le in E. }
    destruct (heap_move_spec (heap_allocate ws) no_data h l1 b l2 sz new align new)
      as [_ HM]; auto; try lia.
    { intros h0 live0 s0 a0 H0. destruct (heap_allocate_spec h0 live0 s0 a0 H0) as [A B].
      split; [easy|]. destruct (heap_allocate ws h0 s0 a0) as [[[x len]|] h']; [|easy].
      destruct B as [B1 B2]. split; [easy|]. intros. now rewrite B2. }
    unfold heap_shrink.
    destruct (heap_move ws (heap_allocate ws) h (b_ptr b) sz new align new)
      as [[[x len]|] h']; [|now subst].
    rewrite <- app_assoc. exact HM.
  - destruct (nth_error live k) as [b|] eqn:Ek; [|easy].
    destruct (N.ltb_spec off (b_len b)) as [Ho|]; [|easy].
    destruct (set_nth_split _ _ _ (Blk (b_ptr b) (b_len b) (b_req b) (written_data b off v)) Ek)
      as (l1 & l2 & -> & -> & _).
    apply inv_mem_change; auto.
    + intros y Hy. apply mset_other. lia.
    + intros o w Hol Hw. unfold written_data in Hw.
      destruct (N.eqb_spec o off) as [->|Hne].
      * inversion Hw; subst. apply mset_same.
      * rewrite mset_other by lia. destruct Hinv as (_ & _ & _ & HF).
        rewrite Forall_forall in HF. destruct (HF b) as [_ Q]; [apply in_or_app; simpl; auto|].
        auto.
Qed.

Lemma inv_run qs : forall h live,
  heap_inv h live -> let (h', live') := client_run ws (h, live) qs in heap_inv h' live'.
Proof.
  induction qs as [|q qs IH]; intros h live Hinv; [easy|].
  change (client_run ws (h, live) (q :: qs))
    with (client_run ws (fst (client_step ws (h, live) q)) qs).
  pose proof (inv_step h live q Hinv) as H.
  destruct (client_step ws (h, live) q) as [[h1 l1] r]. cbn [fst]. now apply IH.
Qed.

Lemma inv_init m : heap_inv (heap_new base cfg m) [].
Proof.
  split; [easy|]. split; [simpl; now rewrite map_length|]. split; [|easy].
  intros i [[a s] n] p Hc Hp. simpl in Hp.
  pose proof (map_nth_error (fun '(a, s, c) => pool_new a s c) i cfg Hc) as E.
  assert (Some p = Some (pool_new a s n)) as Ep by (rewrite <- Hp; exact E).
  inversion Ep; subst. split; [easy|]. split; [easy|].
  exists 0, []. simpl. repeat split; auto; try lia; try constructor.
Qed.

Lemma reachable_inv m qs :
  let (h, live) := client_run ws (heap_new base cfg m, []) qs in heap_inv h live.
Proof. apply inv_run, inv_init. Qed.

(** ** Capacity *)

Lemma obtainable_spec m i c p : forall fuel live,
  nth_error cfg i = Some c -> pool_inv m live i c p -> Forall (blk_inv m) live ->
  (N.to_nat (snd c) - N.to_nat (in_use live c) < fuel)%nat ->
  in_use live c <= snd c /\ in_use live c + obtainable ws fuel m p = snd c.
Proof.
  intros fuel. revert p. induction fuel as [|fuel IH]; intros p live Hc Hp HF Hfu; [lia|].
  pose proof (pool_allocate_spec m live i c p Hc Hp HF) as HA. cbn [obtainable].
  destruct (pool_allocate ws m p) as [[x|] p'].
  - destruct HA as (Hu & (j & Hs) & Hsz & Hpi). destruct c as [[a s] n]. simpl in Hu, Hfu.
    destruct Hcfg as [_ Hw]. destruct (wf_from_nth _ _ _ _ _ _ _ _ Hw Hc) as (_ & _ & _ & Hs0 & _).
    pose proof Hp as (Hps & _).
    set (b := Blk x s s no_data).
    assert (Hin : in_use (live ++ [b]) (a, s, n) = in_use live (a, s, n) + 1).
    { unfold in_use. rewrite used_in_snoc by (apply (in_pool_slot i j); simpl; auto).
      rewrite app_length. simpl. lia. }
    destruct (IH p' (live ++ [b])) as [I1 I2]; auto.
    + apply Hpi; simpl; auto. lia.
    + apply Forall_app. split; [easy|]. constructor; [|easy]. split; simpl.
      * right. split; [lia|]. exists i, j, a, n. auto.
      * intros; discriminate.
    + rewrite Hin. simpl. unfold in_use in *. lia.
    + rewrite Hin in *. cbn [snd] in *. split; lia.
  - destruct HA as [_ Hfull]. unfold full in Hfull. lia.
Qed.

End Inv.
