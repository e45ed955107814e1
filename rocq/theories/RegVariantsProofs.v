(** The conversions between the variants of a register. *)
Require Import NArith Arith String List Bool Lia.
From Verif Require Import BitDerive RegMacro RegTok RegVariants.
Import ListNotations.

Lemma distinct_NoDup l : distinct l = true -> NoDup l.
Proof.
  induction l as [|x l IH]; cbn; [constructor|]. intros H. apply andb_prop in H as (A & B). constructor; auto. intros I.
  apply negb_true_iff in A. assert (existsb (String.eqb x) l = true) by (apply existsb_exists; exists x; split; auto; apply String.eqb_refl). congruence.
Qed.
Lemma in_combine_seq {X} (l : list X) : forall b i x, In (i, x) (combine (seq b (length l)) l) <-> (b <= i)%nat /\ nth_error l (i - b) = Some x.
Proof.
  induction l as [|y l IH]; intros b i x; cbn [length seq combine In].
  - split; [easy|]. intros (_ & H). destruct (i - b)%nat; discriminate.
  - rewrite IH. split.
    + intros [E|(H1 & H2)]; [injection E as -> ->; split; auto; now rewrite Nat.sub_diag|]. split; [lia|].
      replace (i - b)%nat with (S (i - S b)) by lia. exact H2.
    + intros (H1 & H2). destruct (Nat.eq_dec i b) as [->|Hn]; [left; rewrite Nat.sub_diag in H2; cbn in H2; congruence|right]. split; [lia|].
      replace (i - b)%nat with (S (i - S b)) in H2 by lia. exact H2.
Qed.
Lemma in_enumerate {X} (l : list X) i x : In (i, x) (enumerate l) <-> nth_error l i = Some x.
Proof. unfold enumerate. rewrite in_combine_seq, Nat.sub_0_r. split; [tauto|]. intros H. split; [lia|auto]. Qed.
Lemma in_conversions l c : In c (conversions l) <->
  exists a b, nth_error l (cv_src c) = Some a /\ nth_error l (cv_dst c) = Some b /\ cv_src c <> cv_dst c /\ cv_name c = into_variant b.
Proof.
  unfold conversions. rewrite in_flat_map. split.
  - intros ((i & a) & Ha & H). apply in_flat_map in H as ((j & b) & Hb & H). cbn in H. destruct (Nat.eqb_spec i j) as [|Hn]; [easy|]. destruct H as [<-|[]].
    cbn. apply in_enumerate in Ha, Hb. eauto 6.
  - intros (a & b & Ha & Hb & Hn & E). exists (cv_src c, a). split; [now apply in_enumerate|]. apply in_flat_map. exists (cv_dst c, b). split; [now apply in_enumerate|].
    cbn. destruct (Nat.eqb_spec (cv_src c) (cv_dst c)); [easy|]. left. destruct c. cbn in *. now subst.
Qed.
Lemma into_inj a b : into_variant a = into_variant b -> reg_full a = reg_full b.
Proof. unfold into_variant, reg_full. cbn. intros H. now injection H. Qed.
Lemma same_variant l i j a b : distinct (map reg_full l) = true -> nth_error l i = Some a -> nth_error l j = Some b -> reg_full a = reg_full b -> i = j.
Proof.
  intros D Ha Hb E. apply distinct_NoDup in D. rewrite NoDup_nth_error in D. apply D.
  - rewrite map_length. apply nth_error_Some. congruence.
  - rewrite (map_nth_error reg_full _ _ Ha), (map_nth_error reg_full _ _ Hb). congruence.
Qed.
Lemma convert_in l k nm k' : convert l k nm = Some k' -> exists a b, nth_error l (fst k) = Some a /\ nth_error l (fst k') = Some b /\
  fst k <> fst k' /\ nm = into_variant b /\ snd k' = snd k.
Proof.
  unfold convert. destruct (find _ _) as [c|] eqn:F; [|easy]. intros E. injection E as <-. apply find_some in F as (I & F).
  apply andb_prop in F as (F1 & F2). apply Nat.eqb_eq in F1. apply String.eqb_eq in F2. apply in_conversions in I as (a & b & H). rewrite F1, F2 in H.
  exists a, b. cbn. tauto.
Qed.
Lemma convert_to l i j t a b : distinct (map reg_full l) = true -> nth_error l i = Some a -> nth_error l j = Some b -> i <> j ->
  convert l (i, t) (into_variant b) = Some (j, t).
Proof.
  intros D Ha Hb Hn. destruct (convert l (i, t) (into_variant b)) as [k'|] eqn:E.
  - destruct (convert_in _ _ _ _ E) as (a' & b' & _ & Hb' & _ & N & T). cbn in T. destruct k' as [j' t']. cbn in *. subst t'.
    now rewrite (same_variant l j j' b b' D Hb Hb' (into_inj _ _ N)).
  - exfalso. unfold convert in E. destruct (find _ _) eqn:F; [discriminate|].
    pose proof (find_none _ _ F (Conv i (into_variant b) j)) as G. cbn in G. rewrite Nat.eqb_refl, String.eqb_refl in G. cbn in G.
    enough (true = false) by discriminate. apply G. apply in_conversions. exists a, b. cbn. auto.
Qed.
Lemma converts_in l names : forall k k', converts l k names = Some k' -> k = k' \/ (fst k < length l)%nat /\ (fst k' < length l)%nat.
Proof.
  induction names as [|n r IH]; intros k k'; cbn; [intros E; injection E; auto|]. destruct (convert l k n) as [k1|] eqn:E; [|easy]. intros H.
  destruct (convert_in _ _ _ _ E) as (a & b & Ha & Hb & _). right.
  assert (L : (fst k < length l)%nat /\ (fst k1 < length l)%nat) by (split; apply nth_error_Some; congruence).
  destruct (IH _ _ H) as [<-|(_ & ?)]; tauto.
Qed.
Lemma converts_tag l names : forall k k', converts l k names = Some k' -> snd k' = snd k.
Proof.
  induction names as [|n r IH]; intros k k'; cbn; [intros E; injection E as <-; auto|]. destruct (convert l k n) as [k1|] eqn:E; [|easy]. intros H.
  destruct (convert_in _ _ _ _ E) as (a & b & _ & _ & _ & _ & T). rewrite <- T. now apply IH.
Qed.

Lemma replace_map {X Y} (f : X -> Y) (l : list X) n x y : nth_error l n = Some x -> f y = f x -> map f (firstn n l ++ y :: skipn (S n) l) = map f l.
Proof.
  revert n. induction l as [|z l IH]; intros [|n] H E; cbn in *; try discriminate.
  - injection H as ->. now rewrite E.
  - f_equal. apply (IH n); auto.
Qed.
Lemma hstep_addr gs toks a : (forall l v w, In l gs -> In v l -> In w l -> v_addr v = v_addr w) ->
  map (held_addr gs) (hstep gs toks a) = map (held_addr gs) toks.
Proof.
  intros S. unfold hstep. destruct (nth_error toks (fst a)) as [[g k]|] eqn:E; auto. destruct (nth_error gs g) as [l|] eqn:G; auto.
  destruct (convert l k (snd a)) as [k'|] eqn:C; auto. apply (replace_map _ _ _ _ _ E). unfold held_addr. cbn. rewrite G.
  destruct (convert_in _ _ _ _ C) as (v & w & Hv & Hw & _). rewrite Hv, Hw. f_equal. apply (S l); eauto using nth_error_In.
Qed.
Lemma hrun_addr gs l : forall toks, (forall l v w, In l gs -> In v l -> In w l -> v_addr v = v_addr w) ->
  map (held_addr gs) (hrun gs toks l) = map (held_addr gs) toks.
Proof. induction l as [|a l IH]; intros toks S; cbn; auto. change (fold_left (hstep gs) l (hstep gs toks a)) with (hrun gs (hstep gs toks a) l). rewrite IH; auto. now apply hstep_addr. Qed.

Lemma member_in idx nm k : NoDup (map fst idx) -> In (nm, k) idx -> member_of idx nm = Some k.
Proof.
  unfold member_of. induction idx as [|[n e] idx IH]; cbn; [easy|]. intros N [E|I].
  - injection E as -> ->. now rewrite String.eqb_refl.
  - inversion N; subst. destruct (String.eqb_spec n nm) as [->|]; auto. exfalso. apply H1. apply in_map_iff. exists (nm, k). auto.
Qed.
Lemma member_out idx nm k : member_of idx nm = Some k -> In (nm, k) idx.
Proof.
  unfold member_of. destruct (find _ idx) as [[n e]|] eqn:F; [|easy]. cbn. intros E. injection E as <-. apply find_some in F as (I & F). cbn in F.
  apply String.eqb_eq in F. now subst.
Qed.
