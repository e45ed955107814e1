(** Proofs about the sequential linked list. *)
Require Import NArith List Bool Arith Lia.
From Verif Require Import Treiber TreiberProofs LinkedList LinkedListSpec.
Import ListNotations.
Open Scope N_scope.

Section Proofs.
Context {A : Type}.
Variable al : list N -> N.
Hypothesis Hal : forall u, al u <> 0 /\ ~ In (al u) u.

Notation state := (ls A).

(** The nodes from [h] on, with their values. *)
Fixpoint seg (c : N -> option (A * N)) (h : N) (xs : list (N * A)) (e : N) : Prop :=
  match xs with
  | [] => h = e
  | (a, v) :: r => h = a /\ a <> 0 /\ exists n, c a = Some (v, n) /\ seg c n r e
  end.

(** [xs] is the list; [out] are nodes unlinked but not freed. *)
Record rep (s : state) (xs out : list (N * A)) : Prop := {
  r_seg : seg (lcell s) (lhead s) xs 0;
  r_nd : NoDup (map fst (xs ++ out));
  r_out : forall a v, In (a, v) out -> exists n, lcell s a = Some (v, n);
  r_ndu : NoDup (lused s);
  r_used : forall a, In a (lused s) <-> In a (map fst (xs ++ out));
  r_cell : forall a, lcell s a <> None <-> In a (map fst (xs ++ out))
}.

Definition hd0 (xs : list (N * A)) : N := match xs with [] => 0 | (a, _) :: _ => a end.

Lemma cset_same c a v : @cset A c a v a = v.
Proof. unfold cset. now rewrite N.eqb_refl. Qed.
Lemma cset_other c a v b : b <> a -> @cset A c a v b = c b.
Proof. unfold cset. intros. destruct (N.eqb_spec b a); easy. Qed.

Lemma seg_ext c c' xs : forall h e, (forall a, In a (map fst xs) -> c' a = c a) ->
  seg c h xs e -> seg c' h xs e.
Proof.
  induction xs as [|[a v] r IH]; simpl; intros h e Hx; [easy|].
  intros (-> & H0 & n & Hc & Hs). split; [easy|]. split; [easy|].
  exists n. split; [rewrite Hx; auto|]. apply IH; auto.
Qed.

Lemma seg_app c xs : forall h ys e, seg c h (xs ++ ys) e <-> exists m, seg c h xs m /\ seg c m ys e.
Proof.
  induction xs as [|[a v] r IH]; simpl; intros h ys e.
  - split; [eauto|]. intros (m & -> & H). easy.
  - split.
    + intros (-> & H0 & n & Hc & Hs). apply IH in Hs. destruct Hs as (m & H1 & H2).
      exists m. split; [|easy]. split; [easy|]. split; [easy|]. eauto.
    + intros (m & (-> & H0 & n & Hc & Hs) & H2). split; [easy|]. split; [easy|].
      exists n. split; [easy|]. apply IH. eauto.
Qed.

Lemma seg_hd c h xs : seg c h xs 0 -> h = hd0 xs.
Proof. destruct xs as [|[a v] r]; simpl; intuition. Qed.

Lemma rep_new : rep lnew [] [].
Proof. constructor; simpl; try easy; constructor. Qed.

Lemma rep_node s K a v R out : rep s (K ++ (a, v) :: R) out ->
  a <> 0 /\ lcell s a = Some (v, hd0 R).
Proof.
  intros H. destruct H as [H _ _ _ _ _]. apply seg_app in H. destruct H as (m & _ & H).
  simpl in H. destruct H as (_ & H0 & n & Hc & Hs). split; [easy|].
  apply seg_hd in Hs. now subst.
Qed.

Lemma not_in_mid (K : list (N * A)) a v R out :
  NoDup (map fst ((K ++ (a, v) :: R) ++ out)) ->
  ~ In a (map fst K) /\ ~ In a (map fst R) /\ ~ In a (map fst out).
Proof.
  rewrite <- app_assoc. rewrite map_app. simpl. intros H. apply NoDup_remove_2 in H.
  rewrite map_app in H. rewrite !in_app_iff in H. tauto.
Qed.

(** Replacing the value of a node. *)
Lemma rep_set_value s K a v v' R out : rep s (K ++ (a, v) :: R) out ->
  exists s', set_value s a v' = Some s' /\ rep s' (K ++ (a, v') :: R) out /\ lhead s' = lhead s.
Proof.
  intros H. destruct (rep_node _ _ _ _ _ _ H) as [A0 Hc].
  unfold set_value. rewrite Hc. eexists. split; [reflexivity|]. split; [|easy].
  destruct H as [Zs Zn Zo Zu Zus Zc]. destruct (not_in_mid _ _ _ _ _ Zn) as (X1 & X2 & X3).
  assert (Em : map fst ((K ++ (a, v') :: R) ++ out) = map fst ((K ++ (a, v) :: R) ++ out)).
  { rewrite !map_app. reflexivity. }
  constructor; simpl.
  - apply seg_app in Zs. destruct Zs as (m & Hs1 & Hs2). apply seg_app. exists m. split.
    + eapply seg_ext; [|exact Hs1]. intros b Hb. apply cset_other. intros ->. easy.
    + simpl in Hs2. destruct Hs2 as (-> & _ & n & Hc2 & Hs3). simpl. split; [easy|]. split; [easy|].
      exists n. rewrite cset_same. split.
      * rewrite Hc in Hc2. injection Hc2 as E. now rewrite E.
      * eapply seg_ext; [|exact Hs3]. intros b Hb. apply cset_other. intros ->. easy.
  - now rewrite Em.
  - intros b w Hb. rewrite cset_other; [now apply Zo|]. intros ->. apply X3.
    apply (in_map fst) in Hb. exact Hb.
  - exact Zu.
  - now rewrite Em.
  - intros b. rewrite Em, <- Zc. destruct (N.eq_dec b a) as [->|Hne].
    + rewrite cset_same, Hc. split; easy.
    + now rewrite cset_other.
Qed.

Lemma push_spec s xs v : rep s xs [] ->
  exists s' a, push al s v = Some s' /\ rep s' ((a, v) :: xs) [].
Proof.
  intros [Zs Zn Zo Zu Zus Zc]. unfold push. destruct (Hal (lused s)) as [A0 Au].
  set (a := al (lused s)) in *.
  assert (An : ~ In a (map fst (xs ++ []))) by now rewrite <- Zus.
  unfold set_next, set_head. simpl. rewrite cset_same. eexists. exists a. split; [reflexivity|].
  assert (Hcs : forall b, b <> a ->
    cset (cset (lcell s) a (Some (v, 0))) a (Some (v, lhead s)) b = lcell s b).
  { intros b Hb. now rewrite !cset_other. }
  constructor; simpl.
  - split; [easy|]. split; [easy|]. exists (lhead s). rewrite cset_same. split; [easy|].
    eapply seg_ext; [|exact Zs]. intros b Hb. apply Hcs. intros ->. rewrite app_nil_r in An. easy.
  - constructor; auto.
  - easy.
  - constructor; auto.
  - intros b. rewrite Zus. reflexivity.
  - intros b. rewrite <- Zc. destruct (N.eq_dec b a) as [->|Hne].
    + rewrite cset_same. split; [auto|easy].
    + rewrite Hcs by easy. split; [auto|]. intros [H|H]; [congruence|easy].
Qed.

Lemma extend_spec vs : forall s xs, rep s xs [] ->
  exists s' ys, extend al s vs = Some s' /\ rep s' (ys ++ xs) [] /\ map snd ys = rev vs.
Proof.
  induction vs as [|v r IH]; intros s xs H; simpl.
  - exists s, []. auto.
  - destruct (push_spec s xs v H) as (s1 & a & -> & H1).
    destruct (IH s1 _ H1) as (s2 & ys & -> & H2 & E).
    exists s2, (ys ++ [(a, v)]). split; [easy|]. split.
    + now rewrite <- app_assoc.
    + now rewrite map_app, E.
Qed.

(** Freeing an unlinked node. *)
Lemma unbox_out s xs a v : rep s xs [(a, v)] ->
  exists s', unbox s a = Some (s', v) /\ rep s' xs [] /\ lhead s' = lhead s.
Proof.
  intros [Zs Zn Zo Zu Zus Zc]. unfold unbox.
  destruct (Zo a v) as [n Hc]; [now left|]. rewrite Hc. simpl. eexists. split; [reflexivity|].
  split; [|easy].
  rewrite map_app in Zn. simpl in Zn.
  assert (Ha : ~ In a (map fst xs)).
  { intros H. apply NoDup_remove_2 in Zn. rewrite app_nil_r in Zn. easy. }
  destruct (remove1_NoDup a (lused s) Zu) as [R1 R2].
  constructor; simpl.
  - eapply seg_ext; [|exact Zs]. intros b Hb. apply cset_other. intros ->. easy.
  - rewrite app_nil_r. apply NoDup_remove_1 in Zn. now rewrite app_nil_r in Zn.
  - easy.
  - easy.
  - intros b. rewrite app_nil_r. destruct (N.eq_dec b a) as [->|Hne]; [easy|].
    rewrite remove1_In_other by congruence. rewrite Zus, map_app, in_app_iff. simpl. intuition congruence.
  - intros b. rewrite app_nil_r. destruct (N.eq_dec b a) as [->|Hne].
    + rewrite cset_same. split; easy.
    + rewrite cset_other by easy. rewrite Zc, map_app, in_app_iff. simpl. intuition congruence.
Qed.

(** Unlinking the first node. *)
Lemma unlink_head s a v xs : rep s ((a, v) :: xs) [] -> rep (set_head s (hd0 xs)) xs [(a, v)].
Proof.
  intros H. pose proof (rep_node s [] a v xs [] H) as [A0 Hc].
  destruct H as [Zs Zn Zo Zu Zus Zc].
  simpl in Zs. destruct Zs as (Eh & _ & n & Hc2 & Zs). rewrite Hc in Hc2. injection Hc2 as <-.
  assert (Ei : forall b, In b (map fst (xs ++ [(a, v)])) <-> In b (map fst (((a, v) :: xs) ++ []))).
  { intros b. rewrite app_nil_r, map_app, in_app_iff. simpl. tauto. }
  constructor; simpl; auto.
  - rewrite app_nil_r in Zn. simpl in Zn. inversion Zn as [|? ? Ha Hx]; subst.
    rewrite map_app. simpl. now apply NoDup_snoc.
  - intros b w [E|[]]. injection E as <- <-. eauto.
  - intros b. now rewrite Ei.
  - intros b. now rewrite Ei.
Qed.

Lemma unbox_head s a v xs : rep s ((a, v) :: xs) [] ->
  exists s', unbox (set_head s (hd0 xs)) a = Some (s', v) /\ rep s' xs [].
Proof.
  intros H. apply unlink_head in H. destruct (unbox_out _ _ _ _ H) as (s' & E & H' & _). eauto.
Qed.

Lemma pop_spec s xs : rep s xs [] ->
  match xs with
  | [] => pop s = Some (s, None)
  | (a, v) :: r => exists s', pop s = Some (s', Some v) /\ rep s' r []
  end.
Proof.
  intros H. unfold pop. destruct xs as [|[a v] r].
  - pose proof (r_seg _ _ _ H) as Hs. simpl in Hs. now rewrite Hs.
  - pose proof (r_seg _ _ _ H) as (Eh & A0 & _). rewrite Eh.
    destruct (rep_node s [] a v r [] H) as [_ Hc].
    destruct (N.eqb_spec a 0); [easy|]. unfold get_next. rewrite Hc. simpl.
    destruct (unbox_head s a v r H) as (s' & -> & H'). simpl. eauto.
Qed.

Lemma into_next_spec s xs : rep s xs [] ->
  match xs with
  | [] => into_next s = Some (s, None)
  | (a, v) :: r => exists s', into_next s = Some (s', Some v) /\ rep s' r []
  end.
Proof. apply pop_spec. Qed.

Lemma into_loop_spec n : forall s xs, rep s xs [] ->
  exists s', into_loop n s = Some (s', firstn n (map snd xs)) /\ rep s' (skipn n xs) [].
Proof.
  induction n as [|n IH]; intros s xs H; simpl.
  - eauto.
  - pose proof (into_next_spec s xs H) as Hn. destruct xs as [|[a v] r].
    + rewrite Hn. simpl. eauto.
    + destruct Hn as (s' & -> & H'). simpl.
      destruct (IH s' r H') as (s2 & -> & H2). simpl. eauto.
Qed.

Lemma drop_loop_spec fuel xs : forall s, (length xs < fuel)%nat ->
  seg (lcell s) (hd0 xs) xs 0 -> NoDup (map fst xs) ->
  (forall a, lcell s a <> None <-> In a (map fst xs)) ->
  NoDup (lused s) -> (forall a, In a (lused s) <-> In a (map fst xs)) ->
  exists s', drop_loop fuel s (hd0 xs) = Some (s', map snd xs) /\
    (forall a, lcell s' a = None) /\ lused s' = [].
Proof.
  revert xs. induction fuel as [|fuel IH]; intros xs s Hf Hs Hnd Hc Hu Hiu; [lia|].
  simpl. destruct xs as [|[a v] r]; simpl.
  - exists s. split; [easy|]. split.
    + intros a. destruct (lcell s a) eqn:E; [|easy]. exfalso. apply (proj1 (Hc a)). congruence.
    + destruct (lused s) as [|b u]; [easy|]. exfalso. apply (proj1 (Hiu b)). now left.
  - simpl in Hs, Hnd, Hf. destruct Hs as (_ & A0 & n & Hca & Hs). inversion Hnd as [|? ? Ha Hnd']; subst.
    destruct (N.eqb_spec a 0); [easy|]. unfold get_next, unbox. rewrite Hca. simpl.
    pose proof (seg_hd _ _ _ Hs) as ->.
    destruct (remove1_NoDup a (lused s) Hu) as [R1 R2].
    destruct (IH r (Ls (lhead s) (cset (lcell s) a None) (remove1 a (lused s)))) as (s' & -> & E1 & E2);
      simpl; try lia; auto.
    + eapply seg_ext; [|exact Hs]. intros b Hb. apply cset_other. intros ->. easy.
    + intros b. destruct (N.eq_dec b a) as [->|Hne].
      * rewrite cset_same. split; easy.
      * rewrite cset_other by easy. rewrite Hc. simpl. intuition congruence.
    + intros b. destruct (N.eq_dec b a) as [->|Hne]; [easy|].
      rewrite remove1_In_other by congruence. rewrite Hiu. simpl. intuition congruence.
    + simpl. eauto.
Qed.

Lemma ldrop_spec fuel s xs : rep s xs [] -> (length xs < fuel)%nat ->
  exists s', ldrop fuel s = Some (s', map snd xs) /\ (forall a, lcell s' a = None) /\ lused s' = [].
Proof.
  intros [Zs Zn Zo Zu Zus Zc] Hf. rewrite app_nil_r in *. unfold ldrop.
  pose proof (seg_hd _ _ _ Zs) as Eh. rewrite Eh. apply drop_loop_spec; auto. now rewrite <- Eh.
Qed.

Lemma iter_loop_spec fuel f R : forall s K, (length R < fuel)%nat -> rep s (K ++ R) [] ->
  exists s' R', iter_loop fuel s f (hd0 R) = Some (s', map snd R) /\ rep s' (K ++ R') [] /\
    map snd R' = map f (map snd R).
Proof.
  revert R. induction fuel as [|fuel IH]; intros R s K Hf H; [lia|].
  cbn [iter_loop]. unfold iter_next. destruct R as [|[a v] R]; cbn [hd0].
  - exists s, []. auto.
  - destruct (rep_node _ _ _ _ _ _ H) as [A0 Hc].
    destruct (N.eqb_spec a 0); [easy|]. unfold get_next. rewrite Hc. cbn [fst snd]. rewrite Hc. cbn [fst snd].
    destruct (rep_set_value s K a v (f v) R [] H) as (s1 & -> & H1 & _).
    destruct (IH R s1 (K ++ [(a, f v)])) as (s2 & R2 & -> & H2 & E).
    + simpl in Hf. lia.
    + now rewrite <- app_assoc.
    + simpl. exists s2, ((a, f v) :: R2). split; [easy|]. split.
      * now rewrite <- app_assoc in H2.
      * simpl. now rewrite E.
Qed.

(** ** Draining *)

Definition prevok (p : N) (K : list (N * A)) : Prop :=
  (p = 0 /\ K = []) \/ exists K' v, p <> 0 /\ K = K' ++ [(p, v)].

(** Unlinking a node in the middle. *)
Lemma cut_spec fuel s p K a v R : rep s (K ++ (a, v) :: R) [] -> prevok p K ->
  exists s', cut_out fuel s p a (hd0 R) = Some (s', p) /\ rep s' (K ++ R) [(a, v)].
Proof.
  intros H [[-> ->]|(K' & w & P0 & ->)]; unfold cut_out.
  - simpl in *. pose proof (r_seg _ _ _ H) as (Eh & _). rewrite Eh, N.eqb_refl.
    eexists. split; [reflexivity|]. now apply unlink_head.
  - destruct (N.eqb_spec p 0); [easy|].
    rewrite <- app_assoc in H. simpl in H.
    destruct (rep_node _ _ _ _ _ _ H) as [_ Hp]. unfold set_next. rewrite Hp. simpl.
    eexists. split; [reflexivity|].
    assert (H' := H). replace (K' ++ (p, w) :: (a, v) :: R) with ((K' ++ [(p, w)]) ++ (a, v) :: R) in H'
      by now rewrite <- app_assoc.
    destruct (rep_node _ _ _ _ _ _ H') as [A0 Ha].
    destruct H as [Zs Zn Zo Zu Zus Zc]. destruct (not_in_mid _ _ _ _ _ Zn) as (X1 & X2 & _).
    simpl in X2.
    assert (Zn' := r_nd _ _ _ H'). destruct (not_in_mid _ _ _ _ _ Zn') as (Y1 & Y2 & _).
    rewrite map_app, in_app_iff in Y1. simpl in Y1.
    assert (Ei : forall b, In b (map fst (((K' ++ [(p, w)]) ++ R) ++ [(a, v)])) <->
                           In b (map fst ((K' ++ (p, w) :: (a, v) :: R) ++ []))).
    { intros b. rewrite app_nil_r, !map_app, !in_app_iff. simpl. tauto. }
    constructor; simpl.
    + rewrite <- app_assoc. simpl.
      apply seg_app in Zs. destruct Zs as (m & Hs1 & Hs2). apply seg_app. exists m. split.
      * eapply seg_ext; [|exact Hs1]. intros b Hb. apply cset_other. intros ->. easy.
      * simpl in Hs2. destruct Hs2 as (-> & _ & n1 & _ & _ & _ & n2 & Hc2 & Hs3). simpl.
        split; [easy|]. split; [easy|]. exists (hd0 R). rewrite cset_same. split; [easy|].
        rewrite Ha in Hc2. injection Hc2 as <-.
        eapply seg_ext; [|exact Hs3]. intros b Hb. apply cset_other. intros ->. auto.
    + rewrite !map_app. simpl. rewrite app_nil_r, map_app in Zn'. simpl in Zn'.
      pose proof (NoDup_remove_1 _ _ _ Zn') as N1. pose proof (NoDup_remove_2 _ _ _ Zn') as N2.
      rewrite map_app in N1, N2. simpl in N1, N2. now apply NoDup_snoc.
    + intros b u [E|[]]. injection E as <- <-. exists (hd0 R). rewrite cset_other; [easy|].
      intros ->. apply X2. now left.
    + easy.
    + intros b. now rewrite Ei.
    + intros b. rewrite Ei, <- Zc. destruct (N.eq_dec b p) as [->|Hne].
      * rewrite cset_same, Hp. split; easy.
      * now rewrite cset_other.
Qed.

Lemma split_cons f seen v r (y k : list A) : split_by f (seen ++ [v]) r = (y, k) ->
  split_by f seen (v :: r) =
    (if fst (f seen v) then (snd (f seen v) :: y, k) else (y, snd (f seen v) :: k)).
Proof. intros E. simpl. destruct (f seen v) as [b v']. now rewrite E. Qed.

Lemma drain_next_spec f R : forall fuel s K p seen, (length R < fuel)%nat ->
  rep s (K ++ R) [] -> prevok p K ->
  exists s' d' o, drain_next fuel f s (Dr p (hd0 R) seen) = Some (s', d', o) /\
  match o with
  | None => exists R', rep s' (K ++ R') [] /\ prevok (dprev d') (K ++ R') /\ dcurr d' = 0 /\
              split_by f seen (map snd R) = ([], map snd R')
  | Some a => exists v K2 R2, rep s' ((K ++ K2) ++ R2) [(a, v)] /\ prevok (dprev d') (K ++ K2) /\
              dcurr d' = hd0 R2 /\ (length R2 < length R)%nat /\
              forall y k, split_by f (dseen d') (map snd R2) = (y, k) ->
                split_by f seen (map snd R) = (v :: y, map snd K2 ++ k)
  end.
Proof.
  induction R as [|[a v] R IH]; intros fuel s K p seen Hf H Hp.
  - destruct fuel as [|fuel]; [simpl in Hf; lia|]. simpl.
    eexists _, _, None. split; [reflexivity|]. exists []. rewrite app_nil_r in *. auto.
  - destruct fuel as [|fuel]; [simpl in Hf; lia|]. cbn [drain_next dcurr hd0 dprev dseen].
    destruct (rep_node _ _ _ _ _ _ H) as [A0 Hc].
    destruct (N.eqb_spec a 0); [easy|]. unfold get_next. rewrite Hc. cbn [fst snd].
    destruct (f seen v) as [b v'] eqn:Ef.
    destruct (rep_set_value s K a v v' R [] H) as (s1 & -> & H1 & _).
    destruct b.
    + destruct (cut_spec fuel s1 p K a v' R H1 Hp) as (s2 & -> & H2). cbn [fst snd].
      eexists _, _, (Some a). split; [reflexivity|]. exists v', [], R. cbn [dprev dcurr dseen].
      rewrite app_nil_r. split; [easy|]. split; [easy|]. split; [easy|]. split; [simpl; lia|].
      intros y k E. cbn [map snd]. rewrite (split_cons _ _ _ _ _ _ E), Ef. reflexivity.
    + destruct (IH fuel s1 (K ++ [(a, v')]) a (seen ++ [v])) as (s2 & d2 & o & -> & Ho).
      * simpl in Hf. lia.
      * now rewrite <- app_assoc.
      * right. exists K, v'. auto.
      * eexists s2, d2, o. split; [reflexivity|]. destruct o as [x|].
        -- destruct Ho as (w & K2 & R2 & B1 & B2 & B3 & B4 & B5).
           exists w, ((a, v') :: K2), R2. repeat rewrite <- app_assoc in B1. repeat rewrite <- app_assoc in B2. simpl in B1, B2.
           rewrite <- !app_assoc. split; [exact B1|]. split; [exact B2|]. split; [easy|].
           split; [simpl; lia|].
           intros y k E. specialize (B5 y k E). cbn [map snd].
           rewrite (split_cons _ _ _ _ _ _ B5), Ef. reflexivity.
        -- destruct Ho as (R' & B1 & B2 & B3 & B4).
           exists ((a, v') :: R'). repeat rewrite <- app_assoc in B1. repeat rewrite <- app_assoc in B2. simpl in B1, B2.
           split; [exact B1|]. split; [exact B2|]. split; [easy|]. cbn [map snd].
           rewrite (split_cons _ _ _ _ _ _ B4), Ef. reflexivity.
Qed.

Lemma drain_take_spec f fuel n : forall s K R p seen, (length R < fuel)%nat ->
  rep s (K ++ R) [] -> prevok p K ->
  exists s' d' l K2 R2, drain_take fuel n f s (Dr p (hd0 R) seen) = Some (s', d', l) /\
    rep s' ((K ++ K2) ++ R2) [] /\ prevok (dprev d') (K ++ K2) /\ dcurr d' = hd0 R2 /\
    (length R2 <= length R)%nat /\
    let (y, k) := split_by f seen (map snd R) in
    let (y2, k2) := split_by f (dseen d') (map snd R2) in
    l = firstn n y /\ y2 = skipn n y /\ k = map snd K2 ++ k2.
Proof.
  induction n as [|n IH]; intros s K R p seen Hf H Hp.
  - simpl. exists s, (Dr p (hd0 R) seen), [], [], R. rewrite app_nil_r. split; [easy|].
    split; [easy|]. split; [easy|]. split; [easy|]. split; [lia|].
    simpl. destruct (split_by f seen (map snd R)). auto.
  - cbn [drain_take].
    destruct (drain_next_spec f R fuel s K p seen Hf H Hp) as (s1 & d1 & o & -> & Ho).
    destruct o as [a|].
    + destruct Ho as (v & K2 & R2 & B1 & B2 & B3 & B4 & B5).
      destruct (unbox_out _ _ _ _ B1) as (s2 & -> & B1' & _). cbn [fst snd].
      destruct d1 as [p1 c1 seen1]. simpl in B2, B3, B5. subst c1.
      destruct (IH s2 (K ++ K2) R2 p1 seen1) as (s3 & d3 & l3 & K3 & R3 & -> & C1 & C2 & C3 & C4 & C5);
        [lia|easy|easy|].
      exists s3, d3, (v :: l3), (K2 ++ K3), R3. split; [easy|].
      repeat rewrite <- app_assoc in C1. repeat rewrite <- app_assoc in C2. split; [now rewrite <- !app_assoc|].
      split; [easy|]. split; [easy|]. split; [lia|].
      destruct (split_by f seen1 (map snd R2)) as [y1 k1] eqn:E1.
      rewrite (B5 _ _ eq_refl).
      destruct (split_by f (dseen d3) (map snd R3)) as [y3 k3].
      destruct C5 as (-> & -> & ->). simpl. rewrite map_app, app_assoc. auto.
    + destruct Ho as (R' & B1 & B2 & B3 & B4).
      exists s1, d1, [], R', []. split; [easy|]. rewrite app_nil_r. split; [easy|].
      split; [easy|]. split; [easy|]. split; [simpl; lia|].
      rewrite B4. simpl. now rewrite app_nil_r.
Qed.

Lemma split_len f l : forall seen, (length (fst (@split_by A f seen l)) <= length l)%nat.
Proof.
  induction l as [|v r IH]; intros seen; simpl; [lia|].
  destruct (f seen v) as [b v']. specialize (IH (seen ++ [v])).
  destruct (split_by f (seen ++ [v]) r) as [y k]. simpl in IH. destruct b; simpl; lia.
Qed.

Lemma drain_filter_spec f fuel n s xs : (length xs < fuel)%nat -> rep s xs [] ->
  exists s' xs', drain_filter fuel n f s =
    Some (s', firstn n (fst (split_by f [] (map snd xs))), skipn n (fst (split_by f [] (map snd xs)))) /\
    rep s' xs' [] /\ map snd xs' = snd (split_by f [] (map snd xs)).
Proof.
  intros Hf H. unfold drain_filter, drain_start.
  pose proof (seg_hd _ _ _ (r_seg _ _ _ H)) as Eh. rewrite Eh.
  destruct (drain_take_spec f fuel n s [] xs 0 []) as (s1 & d1 & l1 & K1 & R1 & -> & B1 & B2 & B3 & B4 & B5);
    [easy|easy|now left|].
  destruct d1 as [p1 c1 seen1]. simpl in B1, B2, B3, B5. subst c1.
  destruct (drain_take_spec f fuel fuel s1 K1 R1 p1 seen1) as (s2 & d2 & l2 & K2 & R2 & -> & C1 & C2 & C3 & C4 & C5);
    [lia|easy|easy|].
  destruct d2 as [p2 c2 seen2]. simpl in C1, C2, C3, C5. subst c2.
  destruct (drain_next_spec f R2 fuel s2 (K1 ++ K2) p2 seen2) as (s3 & d3 & o & -> & Ho);
    [lia|easy|easy|].
  pose proof (split_len f (map snd R1) seen1) as L1. rewrite map_length in L1.
  destruct (split_by f [] (map snd xs)) as [y k].
  destruct (split_by f seen1 (map snd R1)) as [y1 k1].
  destruct (split_by f seen2 (map snd R2)) as [y2 k2] eqn:E2.
  destruct B5 as (-> & -> & ->). destruct C5 as (-> & -> & ->). simpl in L1. cbn [fst snd].
  assert (Hy : skipn fuel (skipn n y) = []) by (apply skipn_all2; lia).
  destruct o as [a|].
  - exfalso. destruct Ho as (v & K3 & R3 & _ & _ & _ & _ & D).
    destruct (split_by f (dseen d3) (map snd R3)) as [y3 k3].
    specialize (D _ _ eq_refl). rewrite Hy in D. discriminate.
  - destruct Ho as (R' & D1 & D2 & D3 & D4). exists s3, ((K1 ++ K2) ++ R').
    split; [|split; [easy|]].
    + f_equal. f_equal. apply firstn_all2. lia.
    + injection D4 as _ ->. rewrite !map_app, app_assoc. reflexivity.
Qed.

(** ** Operation sequences *)

(** The longest the list gets. *)
Fixpoint peak (l : list A) (os : list (lop A)) : nat :=
  match os with
  | [] => length l
  | o :: r => Nat.max (length l) (peak (fst (lspec l o)) r)
  end.

Lemma lop_spec fuel s xs o : (length xs < fuel)%nat -> rep s xs [] ->
  exists s' xs', lop_run al fuel s o = Some (s', snd (lspec (map snd xs) o)) /\
    rep s' xs' [] /\ map snd xs' = fst (lspec (map snd xs) o).
Proof.
  intros Hf H. destruct o as [v| | |vs|f|n f]; cbn [lop_run lspec].
  - destruct (push_spec s xs v H) as (s' & a & -> & H'). exists s', ((a, v) :: xs). auto.
  - pose proof (pop_spec s xs H) as Hp. destruct xs as [|[a v] r].
    + rewrite Hp. exists s, []. auto.
    + destruct Hp as (s' & -> & H'). exists s', r. auto.
  - exists s, xs. split; [|auto]. unfold is_empty.
    pose proof (r_seg _ _ _ H) as Hs. destruct xs as [|[a v] r]; simpl in Hs.
    + now rewrite Hs.
    + destruct Hs as (-> & A0 & _). simpl. destruct (N.eqb_spec a 0); easy.
  - destruct (extend_spec vs s xs H) as (s' & ys & -> & H' & E). exists s', (ys ++ xs).
    split; [easy|]. split; [easy|]. now rewrite map_app, E.
  - unfold iter_mut. pose proof (seg_hd _ _ _ (r_seg _ _ _ H)) as ->.
    destruct (iter_loop_spec fuel f xs s [] Hf H) as (s' & R' & -> & H' & E). simpl.
    exists s', R'. auto.
  - destruct (drain_filter_spec f fuel n s xs Hf H) as (s' & xs' & -> & H' & E).
    exists s', xs'. destruct (split_by f [] (map snd xs)) as [y k]. auto.
Qed.

Lemma lops_spec os : forall fuel s xs, (peak (map snd xs) os < fuel)%nat -> rep s xs [] ->
  exists s' xs', lops_run al fuel s os = Some (s', snd (lspecs (map snd xs) os)) /\
    rep s' xs' [] /\ map snd xs' = fst (lspecs (map snd xs) os).
Proof.
  induction os as [|o os IH]; intros fuel s xs Hf H.
  - exists s, xs. auto.
  - cbn [peak] in Hf. destruct (lop_spec fuel s xs o) as (s1 & x1 & E1 & H1 & M1);
      [rewrite map_length in Hf; lia|easy|].
    cbn [lops_run lspecs]. rewrite E1. cbn [fst snd].
    destruct (lspec (map snd xs) o) as [l1 r1]. simpl in M1, Hf. subst l1.
    destruct (IH fuel s1 x1) as (s2 & x2 & -> & H2 & M2); [lia|easy|]. cbn [fst snd].
    destruct (lspecs (map snd x1) os) as [l2 r2]. simpl in M2. exists s2, x2. auto.
Qed.

End Proofs.
