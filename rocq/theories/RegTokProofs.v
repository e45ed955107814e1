(** Proofs about register tokens. *)
Require Import NArith List Bool Arith Lia Permutation.
From Verif Require Import RegTokSpec RegTok.
Import ListNotations.
Open Scope nat_scope.

Lemma tag_eqb_eq a b : tag_eqb a b = true <-> a = b.
Proof. destruct a, b; simpl; split; congruence. Qed.
Lemma tok_eqb_eq a b : tok_eqb a b = true <-> a = b.
Proof.
  destruct a, b; simpl; try (split; congruence); rewrite ?andb_true_iff, ?Nat.eqb_eq, tag_eqb_eq;
    (split; [intuition congruence|intros [=]; auto]).
Qed.
Lemma nth_perm {A} (l : list A) : forall k x, nth_error l k = Some x -> Permutation l (x :: remove_at k l).
Proof.
  unfold remove_at. induction l as [|y l IH]; intros [|k] x H; try discriminate.
  - injection H as ->. reflexivity.
  - simpl in *. rewrite (IH k x H) at 1. apply perm_swap.
Qed.
Lemma remove_perm x l : forall r, remove_tok x l = Some r -> Permutation l (x :: r).
Proof.
  induction l as [|y l IH]; simpl; [discriminate|]. intros r. destruct (tok_eqb y x) eqn:E.
  - apply tok_eqb_eq in E. intros [= <-]. now subst.
  - destruct (remove_tok x l) as [q|]; [|discriminate]. intros [= <-]. rewrite (IH q eq_refl). apply perm_swap.
Qed.

Section Reg.
Variable d : rdef.
Hypothesis has_fields : forall v, 0 < fields d v.

Definition is_owned (x : tok) : bool := owned (tag_of x).
(** The register as a whole is one token's; or it has been taken apart; or some of it may be copied. *)
Definition clsA (a : list tok) : Prop := exists v t, owned t = true /\ a = [Whole v t].
Definition clsB (a : list tok) : Prop := exists v t, owned t = true /\ NoDup a /\
  forall x, In x a -> exists i, i < fields d v /\ x = Fld v i t.
Definition clsD (a : list tok) : Prop := exists v m, m < fields d v /\ NoDup (filter is_owned a) /\
  forall x, In x a -> tag_of x = Crt \/ exists i, i < fields d v /\ i <> m /\ x = Fld v i Srt.
Definition cls (a : list tok) : Prop := clsA a \/ clsB a \/ clsD a.

Lemma filter_perm {A} (f : A -> bool) a b : Permutation a b -> Permutation (filter f a) (filter f b).
Proof.
  induction 1; simpl; auto.
  - destruct (f x); auto.
  - destruct (f x), (f y); auto. apply perm_swap.
  - etransitivity; eauto.
Qed.
Lemma cls_perm a b : Permutation a b -> cls a -> cls b.
Proof.
  intros P [(v & t & O & ->)|[(v & t & O & N & H)|(v & m & L & N & H)]].
  - left. exists v, t. split; [easy|]. now apply Permutation_length_1_inv in P.
  - right. left. exists v, t. split; [easy|]. split; [exact (Permutation_NoDup P N)|].
    intros x I. apply H. now apply (Permutation_in _ (Permutation_sym P)).
  - right. right. exists v, m. split; [easy|]. split; [exact (Permutation_NoDup (filter_perm _ _ _ P) N)|].
    intros x I. apply H. now apply (Permutation_in _ (Permutation_sym P)).
Qed.
Lemma whole_alone v t r : owned t = true -> cls (Whole v t :: r) -> r = [].
Proof.
  intros O [(v' & t' & _ & E)|[(v' & t' & _ & _ & H)|(v' & m & _ & _ & H)]]; [now injection E| |].
  - destruct (H _ (or_introl eq_refl)) as (i & _ & E). discriminate.
  - destruct (H _ (or_introl eq_refl)) as [E|(i & _ & _ & E)]; [simpl in E; subst; discriminate|discriminate].
Qed.
Lemma crt_D a x : cls a -> In x a -> tag_of x = Crt -> clsD a.
Proof.
  intros [(v & t & O & ->)|[(v & t & O & _ & H)|H]] I E; [| |easy].
  - destruct I as [<-|[]]. simpl in E. subst. discriminate.
  - destruct (H x I) as (i & _ & ->). simpl in E. subst. discriminate.
Qed.
Lemma add_D a x : clsD a -> tag_of x = Crt -> clsD (x :: a).
Proof.
  intros (v & m & L & N & H) E. exists v, m. split; [easy|]. split.
  - simpl. unfold is_owned at 1. now rewrite E.
  - intros y [<-|I]; [now left|now apply H].
Qed.
Lemma adds_D l a : clsD a -> (forall x, In x l -> tag_of x = Crt) -> clsD (l ++ a).
Proof. induction l as [|x l IH]; intros H E; [easy|]. simpl. apply add_D; [apply IH; auto; intros; apply E; now right|apply E; now left]. Qed.
Lemma one_whole v t : cls [Whole v t].
Proof.
  destruct (owned t) eqn:O; [left; now exists v, t|]. right. right. exists v, 0. split; [apply has_fields|]. split.
  - simpl. unfold is_owned. simpl. rewrite O. constructor.
  - intros x [<-|[]]. left. destruct t; try discriminate. reflexivity.
Qed.
Lemma cls_tail x r : cls (x :: r) -> is_owned x = true -> cls r.
Proof.
  intros [(v & t & O & [= -> ->])|[(v & t & O & N & H)|(v & m & L & N & H)]] Ox.
  - right. left. exists v, t. split; [easy|]. split; [constructor|easy].
  - right. left. exists v, t. split; [easy|]. inversion N; subst. split; [easy|]. intros y I. apply H. now right.
  - right. right. exists v, m. split; [easy|]. simpl in N. rewrite Ox in N. inversion N; subst. split; [easy|].
    intros y I. apply H. now right.
Qed.
Lemma field_copy v i r : cls (Fld v i Srt :: r) -> cls (Fld v i Crt :: r).
Proof.
  intros C. right. right. destruct C as [(v' & t & O & E)|[(v' & t & O & N & H)|(v' & m & L & N & H)]]; [discriminate| |].
  - destruct (H _ (or_introl eq_refl)) as (j & Lj & [= <- <- <-]). exists v, i. split; [easy|].
    inversion N as [|? ? Nx Nd]; subst. split.
    + simpl. apply NoDup_filter. exact Nd.
    + intros y [<-|I]; [now left|]. right. destruct (H y (or_intror I)) as (j & Lj' & ->). exists j.
      split; [easy|]. split; [|easy]. intros ->. contradiction.
  - exists v', m. split; [easy|]. simpl in *. inversion N; subst. split; [easy|].
    intros y [<-|I]; [now left|]. apply H. now right.
Qed.
Lemma split_B v t : owned t = true -> cls (map (fun i => Fld v i t) (seq 0 (fields d v))).
Proof.
  intros O. right. left. exists v, t. split; [easy|]. split.
  - apply FinFun.Injective_map_NoDup; [|apply seq_NoDup]. intros i j [=]. easy.
  - intros x I. apply in_map_iff in I. destruct I as (i & <- & I). apply in_seq in I. exists i. split; [lia|easy].
Qed.
Lemma join_alone v t r : owned t = true -> cls (map (fun i => Fld v i t) (seq 0 (fields d v)) ++ r) -> r = [].
Proof.
  intros O C. pose proof (has_fields v) as F.
  assert (All : forall i, i < fields d v -> In (Fld v i t) (map (fun i => Fld v i t) (seq 0 (fields d v)))).
  { intros i L. apply in_map_iff. exists i. split; [easy|]. apply in_seq. lia. }
  assert (In0 : forall i, i < fields d v -> In (Fld v i t) (map (fun i => Fld v i t) (seq 0 (fields d v)) ++ r)).
  { intros i L. apply in_or_app. left. now apply All. }
  destruct C as [(v' & t' & _ & E)|[(v' & t' & _ & N & H)|(v' & m & L & _ & H)]].
  - specialize (In0 0 F). rewrite E in In0. destruct In0 as [K|[]]. discriminate.
  - destruct (H _ (In0 0 F)) as (i & _ & [= <- _ <-]). destruct r as [|x r]; [easy|exfalso].
    assert (Ix : In x (map (fun i => Fld v i t) (seq 0 (fields d v)) ++ x :: r)) by (apply in_or_app; right; now left).
    destruct (H x Ix) as (j & Lj & ->). apply NoDup_remove_2 in N. apply N. apply in_or_app. left. now apply All.
  - destruct (H _ (In0 0 F)) as [K|(i & _ & _ & K)]; [simpl in K; subst; discriminate|]. injection K as <- _ ->.
    destruct (H _ (In0 m L)) as [K|(i2 & _ & Ne & K)]; [discriminate|]. injection K as ->. contradiction.
Qed.
Lemma gather_owned v t o : owned t = true -> forall n l r, gather v t n o l = Some r ->
  Permutation l (map (fun i => Fld v i t) (seq 0 n) ++ r) /\ forall i, i < n -> borrowed o (Fld v i t) = false.
Proof.
  intros O. induction n as [|n IH]; intros l r H.
  - injection H as ->. split; [reflexivity|lia].
  - simpl in H. unfold movable in H. simpl in H. rewrite O in H. simpl in H.
    destruct (borrowed o (Fld v n t)) eqn:B; [discriminate|]. simpl in H.
    destruct (remove_tok (Fld v n t) l) as [q|] eqn:E; [|discriminate]. apply remove_perm in E.
    destruct (IH _ _ H) as [P Q]. split.
    + rewrite seq_S, map_app. simpl. rewrite E, P. rewrite <- app_assoc. simpl. apply Permutation_middle.
    + intros i L. destruct (Nat.eq_dec i n) as [->|]; [easy|]. apply Q. lia.
Qed.
Lemma gather_copy v o : forall n l r, gather v Crt n o l = Some r -> r = l /\ (0 < n -> exists i, In (Fld v i Crt) l).
Proof.
  induction n as [|n IH]; intros l r H; [injection H as ->; split; [easy|lia]|]. simpl in H.
  destruct (remove_tok (Fld v n Crt) l) as [q|] eqn:E; [|discriminate]. apply IH in H. destruct H as [-> _].
  split; [easy|]. intros _. exists n. apply remove_perm in E. eapply Permutation_in; [symmetry; exact E|now left].
Qed.

Definition held (o : list mop) : list tok := map m_tok (filter (fun m => negb (atomic (tag_of (m_tok m)))) o).
Definition all (s : rsys) : list tok := toks s ++ held (ops s).

Record rinv (s : rsys) : Prop := {
  r_cls : cls (all s);
  r_at : forall m, In m (ops s) -> atomic (tag_of (m_tok m)) = true -> In (m_tok m) (toks s);
  r_un : forall m, In m (ops s) -> atomic (tag_of (m_tok m)) = false -> (exists v, m_tok m = Whole v Urt) /\ m_old m = reg s
}.

Lemma innermost_split c o m o' : innermost c o = Some (m, o') -> Permutation o (m :: o') /\ m_c m = c.
Proof.
  revert m o'. induction o as [|x o IH]; simpl; [discriminate|]. intros m o'. destruct (Nat.eqb_spec (m_c x) c) as [E|].
  - intros [= <- <-]. now split.
  - destruct (innermost c o) as [[m1 o1]|]; [|discriminate]. simpl. intros [= <- <-]. destruct (IH _ _ eq_refl) as [P Q].
    split; [|easy]. rewrite P. apply perm_swap.
Qed.
Lemma held_perm a b : Permutation a b -> Permutation (held a) (held b).
Proof. intros P. unfold held. apply Permutation_map. now apply filter_perm. Qed.

(** While the register is mutably borrowed nothing else is possible. *)
Lemma borrowed_alone s m : rinv s -> In m (ops s) -> atomic (tag_of (m_tok m)) = false -> toks s = [] /\ ops s = [m].
Proof.
  intros [C A U] I E. destruct (U m I E) as [[v Ev] _].
  assert (Ih : In (m_tok m) (held (ops s))).
  { unfold held. apply in_map. apply filter_In. split; [easy|]. now rewrite E. }
  assert (P : exists r, Permutation (all s) (Whole v Urt :: r)).
  { apply in_split in Ih. destruct Ih as (l1 & l2 & Eh). exists (toks s ++ l1 ++ l2). unfold all. rewrite Eh, <- Ev.
    rewrite app_assoc. rewrite <- Permutation_middle. now rewrite app_assoc. }
  destruct P as [r P]. pose proof (cls_perm _ _ P C) as C'. apply whole_alone in C'; [|easy]. subst r.
  apply Permutation_sym, Permutation_length_1_inv in P. unfold all in P.
  destruct (toks s) as [|x tk] eqn:Et.
  - split; [easy|]. simpl in P.
    assert (N : forall m', In m' (ops s) -> atomic (tag_of (m_tok m')) = false).
    { intros m' I'. destruct (atomic (tag_of (m_tok m'))) eqn:E'; [|easy]. now apply A in I'. }
    assert (L : length (ops s) = 1).
    { assert (F : filter (fun m => negb (atomic (tag_of (m_tok m)))) (ops s) = ops s).
      { clear - N. induction (ops s) as [|y o IH]; [easy|]. simpl. rewrite N by now left. simpl. f_equal. apply IH.
        intros; apply N; now right. }
      assert (Q : length (held (ops s)) = 1) by now rewrite P. unfold held in Q. rewrite map_length, F in Q. exact Q. }
    destruct (ops s) as [|y [|z o]]; try discriminate. destruct I as [<-|[]]. reflexivity.
  - exfalso. assert (K : x :: tk ++ held (ops s) = [Whole v Urt]) by exact P.
    injection K as -> K. destruct (app_eq_nil _ _ K) as [_ K2]. rewrite K2 in Ih. destruct Ih.
Qed.

Lemma movable_not o x : is_owned x = true -> movable o x = true -> forall m, In m o -> m_tok m <> x.
Proof.
  unfold movable, is_owned. intros -> H m I E. simpl in H. apply negb_true_iff in H. unfold borrowed in H.
  assert (K : existsb (fun m => tok_eqb (m_tok m) x) o = true) by (apply existsb_exists; exists m; split; [easy|now apply tok_eqb_eq]).
  congruence.
Qed.

(** Replacing a token that is used by value. *)
Lemma r_spend tk o r lg k x new :
  rinv (Rsys tk o r lg) -> nth_error tk k = Some x -> movable o x = true ->
  (is_owned x = true -> forall rest, cls (x :: rest) -> cls (new ++ rest)) ->
  (is_owned x = false -> forall y, In y new -> tag_of y = Crt) ->
  rinv (Rsys (new ++ spend k x tk) o r lg).
Proof.
  intros [C A U] E M H1 H2. unfold all in C. cbn [toks ops reg] in *. unfold spend. fold (is_owned x).
  destruct (is_owned x) eqn:O.
  - pose proof (nth_perm _ _ _ E) as P. constructor; unfold all; cbn [toks ops reg].
    + rewrite <- app_assoc. apply H1; [easy|]. exact (cls_perm _ _ (Permutation_app_tail _ P) C).
    + intros m I Am. apply in_or_app. right. pose proof (A m I Am) as J.
      apply (Permutation_in _ P) in J. destruct J as [J|J]; [|easy]. symmetry in J.
      now apply (movable_not o x O M m I) in J.
    + exact U.
  - constructor; unfold all; cbn [toks ops reg].
    + rewrite <- app_assoc. right. right. apply adds_D; [|now apply H2]. apply (crt_D _ x C).
      * apply in_or_app. left. eapply nth_error_In; eauto.
      * unfold is_owned in O. destruct (tag_of x); easy.
    + intros m I Am. apply in_or_app. right. now apply A.
    + exact U.
Qed.

Lemma rinv_reg s r lg : rinv s -> (forall m, In m (ops s) -> atomic (tag_of (m_tok m)) = true) -> rinv (Rsys (toks s) (ops s) r lg).
Proof.
  intros [C A U] H. constructor; unfold all in *; cbn [toks ops reg]; auto. intros m I E. rewrite (H m I) in E. discriminate.
Qed.

(** A token that can be used: nobody has the register. *)
Lemma no_held s k x : rinv s -> nth_error (toks s) k = Some x -> forall m, In m (ops s) -> atomic (tag_of (m_tok m)) = true.
Proof.
  intros X E m I. destruct (atomic (tag_of (m_tok m))) eqn:Am; [easy|]. destruct (borrowed_alone s m X I Am) as [T _].
  rewrite T in E. destruct k; discriminate.
Qed.

Lemma rinv_step s a : rinv s -> rinv (rstep d s a).
Proof.
  intros X. pose proof X as [C A U]. destruct s as [tk o r lg]. destruct a as [k t|k v'|k|v t|k|c k w|c k f|c spur]; cbn [rstep].
  - destruct (nth_error tk k) as [[v u|v i u]|] eqn:E; auto.
    + destruct (movable o (Whole v u) && (owned u || negb (owned t))) eqn:G; auto. apply andb_true_iff in G. destruct G as [M G].
      apply (r_spend tk o r lg k (Whole v u) [Whole v t] X E M).
      * intros O rest Cr. unfold is_owned in O. simpl in O. apply whole_alone in Cr; [|easy]. subst. apply one_whole.
      * unfold is_owned. simpl. intros O y [<-|[]]. simpl. rewrite O in G. destruct t; easy.
    + destruct (movable o (Fld v i u) && (tag_eqb t u || atomic u && tag_eqb t Crt)) eqn:G; auto. apply andb_true_iff in G. destruct G as [M G].
      apply (r_spend tk o r lg k (Fld v i u) [Fld v i t] X E M).
      * intros O rest Cr. apply orb_true_iff in G. destruct G as [G|G].
        -- apply tag_eqb_eq in G. now subst.
        -- apply andb_true_iff in G. destruct G as [G1 G2]. apply tag_eqb_eq in G2. subst t. destruct u; try discriminate. now apply field_copy.
      * unfold is_owned. simpl. intros O y [<-|[]]. simpl. apply orb_true_iff in G. destruct G as [G|G].
        -- apply tag_eqb_eq in G. subst. destruct u; easy.
        -- apply andb_true_iff in G. destruct G as [_ G2]. now apply tag_eqb_eq in G2.
  - destruct (nth_error tk k) as [[v u|v i u]|] eqn:E; auto. destruct (movable o (Whole v u)) eqn:M; auto.
    apply (r_spend tk o r lg k (Whole v u) [Whole v' u] X E M).
    + intros O rest Cr. apply whole_alone in Cr; [|easy]. subst. apply one_whole.
    + unfold is_owned. simpl. intros O y [<-|[]]. simpl. destruct u; easy.
  - destruct (nth_error tk k) as [[v u|v i u]|] eqn:E; auto. destruct (movable o (Whole v u)) eqn:M; auto.
    apply (r_spend tk o r lg k (Whole v u) _ X E M).
    + intros O rest Cr. apply whole_alone in Cr; [|easy]. subst. rewrite app_nil_r. now apply split_B.
    + unfold is_owned. simpl. intros O y I. apply in_map_iff in I. destruct I as (i & <- & _). simpl. destruct u; easy.
  - destruct (gather v t (fields d v) o tk) as [l|] eqn:G; auto. unfold all in C. cbn [toks ops reg] in *. destruct (owned t) eqn:O.
    + destruct (gather_owned v t o O _ _ _ G) as [P Q].
      assert (Cn : cls (map (fun i => Fld v i t) (seq 0 (fields d v)) ++ (l ++ held o))).
      { rewrite app_assoc. refine (cls_perm _ _ _ C). now apply Permutation_app_tail. }
      apply join_alone in Cn; [|easy]. apply app_eq_nil in Cn. destruct Cn as [-> Hh].
      constructor; unfold all; cbn [toks ops reg].
      * rewrite Hh. apply one_whole.
      * intros m I Am. exfalso. pose proof (A m I Am) as J. apply (Permutation_in _ P) in J. rewrite app_nil_r in J.
        apply in_map_iff in J. destruct J as (i & Ei & Li). apply in_seq in Li. specialize (Q i ltac:(lia)).
        assert (K : existsb (fun m => tok_eqb (m_tok m) (Fld v i t)) o = true).
        { apply existsb_exists. exists m. split; [easy|]. apply tok_eqb_eq. now symmetry. }
        unfold borrowed in Q. congruence.
      * exact U.
    + assert (t = Crt) by (destruct t; easy). subst t. apply gather_copy in G. destruct G as [-> G].
      destruct (G (has_fields v)) as [i Ii]. constructor; unfold all; cbn [toks ops reg].
      * right. right. simpl. apply add_D; [|easy]. apply (crt_D _ (Fld v i Crt) C); [apply in_or_app; now left|easy].
      * intros m I Am. right. now apply A.
      * exact U.
  - destruct (nth_error tk k) as [x|] eqn:E; auto. destruct (owned (tag_of x) && movable o x) eqn:G; auto. apply andb_true_iff in G. destruct G as [O M].
    pose proof (r_spend tk o r lg k x [] X E M) as K. unfold spend in K. rewrite O in K. apply K.
    + intros Ox rest Cr. now apply cls_tail in Cr.
    + easy.
  - destruct (nth_error tk k) as [x|] eqn:E; auto. destruct (may_store d x && negb (masked d o c)); auto.
    apply (rinv_reg (Rsys tk o r lg) w _ X). now apply (no_held (Rsys tk o r lg) k x).
  - destruct (nth_error tk k) as [x|] eqn:E; auto. destruct (may_modify d x && negb (masked d o c)) eqn:G; auto. apply andb_true_iff in G. destruct G as [G _].
    unfold all in C. cbn [toks ops reg] in *. destruct (atomic (tag_of x)) eqn:Ax.
    + constructor; unfold all; cbn [toks ops reg].
      * unfold held. simpl. rewrite Ax. simpl. exact C.
      * intros m [<-|I] Am; [simpl; eapply nth_error_In; eauto|now apply A].
      * intros m [<-|I] Am; [simpl in Am; congruence|now apply U].
    + destruct x as [v u|v i u]; [|simpl in G; simpl in Ax; rewrite Ax, andb_false_r in G; discriminate].
      assert (u = Urt) by (destruct u; easy). subst u.
      pose proof (nth_perm _ _ _ E) as P.
      assert (Cn : cls (Whole v Urt :: (remove_at k tk ++ held o))).
      { exact (cls_perm _ _ (Permutation_app_tail _ P) C). }
      pose proof (whole_alone v Urt _ eq_refl Cn) as Nil. apply app_eq_nil in Nil. destruct Nil as [N1 N2]. rewrite N1.
      constructor; unfold all; cbn [toks ops reg].
      * unfold held. simpl. fold (held o). rewrite N2. apply one_whole.
      * intros m [<-|I] Am; [discriminate|]. exfalso. pose proof (A m I Am) as J. rewrite P, N1 in J. destruct J as [J|[]].
        rewrite <- J in Am. discriminate.
      * intros m [<-|I] Am; [simpl; split; [now exists v|easy]|]. exfalso.
        assert (K : In (m_tok m) (held o)) by (unfold held; apply in_map; apply filter_In; rewrite Am; now split).
        rewrite N2 in K. destruct K.
  - destruct (masked d o c); auto. destruct (innermost c o) as [[[c' x f old] o']|] eqn:E; auto.
    apply innermost_split in E. destruct E as [P Ec]. simpl in Ec. subst c'.
    assert (I0 : In (Mop c x f old) o) by (rewrite P; now left).
    unfold all in C. cbn [toks ops reg] in *.
    destruct (atomic (tag_of x)) eqn:Ax.
    + pose proof (A _ I0 Ax) as Ix. cbn [m_tok] in Ix. apply In_nth_error in Ix. destruct Ix as [k Ek].
      assert (Na : forall m, In m o' -> atomic (tag_of (m_tok m)) = true).
      { intros m I. apply (no_held (Rsys tk o r lg) k x X Ek). cbn [ops]. rewrite P. now right. }
      assert (Eh : held o' = []).
      { unfold held. clear - Na. induction o' as [|y o' IH]; [easy|]. simpl. rewrite Na by now left. simpl. apply IH. intros; apply Na; now right. }
      assert (Ho : held o = []).
      { pose proof (held_perm _ _ P) as Q. unfold held in Q at 2. simpl in Q. rewrite Ax in Q. simpl in Q. fold (held o') in Q.
        rewrite Eh in Q. now apply Permutation_sym, Permutation_nil in Q. }
      rewrite Ho in C.
      assert (Done : forall r' lg', rinv (Rsys tk o' r' lg')).
      { intros r' lg'. constructor; unfold all; cbn [toks ops reg].
        - now rewrite Eh.
        - intros m I Am. apply A; [rewrite P; now right|easy].
        - intros m I Am. rewrite (Na m I) in Am. discriminate. }
      destruct (hw d); [|apply Done]. destruct (spur || negb (N.eqb r old)); [|apply Done].
      constructor; unfold all; cbn [toks ops reg].
      * unfold held. simpl. rewrite Ax. simpl. fold (held o'). now rewrite Eh.
      * intros m [<-|I] Am; [simpl; eapply nth_error_In; eauto|apply A; [rewrite P; now right|easy]].
      * intros m [<-|I] Am; [simpl in Am; congruence|]. rewrite (Na m I) in Am. discriminate.
    + destruct (borrowed_alone (Rsys tk o r lg) _ X I0 Ax) as [T Oo]. cbn [toks ops] in T, Oo. subst tk o.
      assert (o' = []).
      { apply Permutation_length in P. simpl in P. destruct o'; [easy|simpl in P; lia]. }
      subst o'. constructor; unfold all; cbn [toks ops reg].
      * unfold held in *. simpl in *. rewrite Ax in C. simpl in C. exact C.
      * intros m [].
      * intros m [].
Qed.
Lemma rinv_run v r l : rinv (rrun d v r l).
Proof.
  unfold rrun. assert (X : rinv (rsys0 v r)) by (constructor; [apply one_whole|intros m []|intros m []]).
  revert X. generalize (rsys0 v r). induction l as [|a l IH]; intros s X; [exact X|]. apply IH. now apply rinv_step.
Qed.

(** *** Updates *)

Lemma replay_snoc r0 l e : replay r0 (l ++ [e]) = apply1 (replay r0 l) e.
Proof. unfold replay. now rewrite fold_left_app. Qed.

Lemma hw_step r0 s a : hw d = true -> rinv s -> reg s = replay r0 (rlog s) ->
  reg (rstep d s a) = replay r0 (rlog (rstep d s a)).
Proof.
  intros H X E. destruct s as [tk o r lg]. cbn [reg rlog] in E. destruct a as [k t|k v'|k|v t|k|c k w|c k f|c spur]; cbn [rstep].
  - destruct (nth_error tk k) as [[v u|v i u]|]; auto; match goal with |- context [if ?b then _ else _] => destruct b; auto end.
  - destruct (nth_error tk k) as [[v u|v i u]|]; auto; match goal with |- context [if ?b then _ else _] => destruct b; auto end.
  - destruct (nth_error tk k) as [[v u|v i u]|]; auto; match goal with |- context [if ?b then _ else _] => destruct b; auto end.
  - destruct (gather v t (fields d v) o tk); auto.
  - destruct (nth_error tk k) as [x|]; auto; match goal with |- context [if ?b then _ else _] => destruct b; auto end.
  - destruct (nth_error tk k) as [x|]; auto. destruct (_ && _); auto. cbn [reg rlog]. now rewrite replay_snoc.
  - destruct (nth_error tk k) as [x|]; auto. destruct (_ && _); auto. destruct (atomic _); auto.
  - destruct (masked d o c); auto. destruct (innermost c o) as [[[c' x f old] o']|] eqn:Ei; auto.
    apply innermost_split in Ei. destruct Ei as [P Ec].
    assert (I0 : In (Mop c' x f old) o) by (rewrite P; now left).
    destruct (atomic (tag_of x)) eqn:Ax.
    + rewrite H. destruct (spur || negb (N.eqb r old)) eqn:G; [exact E|]. apply orb_false_iff in G. destruct G as [_ G].
      apply negb_false_iff, N.eqb_eq in G. cbn [reg rlog]. rewrite replay_snoc. simpl. now rewrite <- E, G.
    + destruct (r_un _ X _ I0 Ax) as [_ Eo]. cbn [m_old reg] in Eo. cbn [reg rlog]. rewrite replay_snoc. simpl. now rewrite <- E, Eo.
Qed.
Lemma hw_run v r l : hw d = true -> reg (rrun d v r l) = replay r (rlog (rrun d v r l)).
Proof.
  intros H. induction l as [|a l IH] using rev_ind; [reflexivity|].
  unfold rrun in *. rewrite fold_left_app. cbn [fold_left]. apply hw_step; auto. apply rinv_run.
Qed.

(** The context uses the register in the closure of a [modify]. *)
Definition nested (s : rsys) (a : ract) : bool :=
  match a with
  | RStore c _ _ | RBegin c _ _ => existsb (fun m => m_c m =? c) (ops s)
  | _ => false
  end.

Lemma soft_step r0 s a : hw d = false -> rinv s -> nested s a = false ->
  reg s = replay r0 (rlog s) /\ length (ops s) <= 1 /\ (forall m, In m (ops s) -> m_old m = reg s) ->
  let s' := rstep d s a in
  reg s' = replay r0 (rlog s') /\ length (ops s') <= 1 /\ (forall m, In m (ops s') -> m_old m = reg s').
Proof.
  intros H X Ne (E & L & Old). destruct s as [tk o r lg]. cbn [reg rlog ops] in *.
  destruct a as [k t|k v'|k|v t|k|c k w|c k f|c spur]; cbn [rstep]; cbn zeta.
  - destruct (nth_error tk k) as [[v u|v i u]|]; auto; match goal with |- context [if ?b then _ else _] => destruct b; auto end.
  - destruct (nth_error tk k) as [[v u|v i u]|]; auto; match goal with |- context [if ?b then _ else _] => destruct b; auto end.
  - destruct (nth_error tk k) as [[v u|v i u]|]; auto; match goal with |- context [if ?b then _ else _] => destruct b; auto end.
  - destruct (gather v t (fields d v) o tk); auto.
  - destruct (nth_error tk k) as [x|]; auto; match goal with |- context [if ?b then _ else _] => destruct b; auto end.
  - destruct (nth_error tk k) as [x|] eqn:Ek; auto. destruct (may_store d x && negb (masked d o c)) eqn:G; auto.
    apply andb_true_iff in G. destruct G as [_ G]. apply negb_true_iff in G.
    assert (o = []).
    { destruct o as [|m o]; [easy|exfalso]. cbn [nested ops existsb] in Ne. apply orb_false_iff in Ne. destruct Ne as [Ne _].
      unfold masked in G. rewrite H in G. simpl in G. apply orb_false_iff in G. destruct G as [G _]. rewrite Ne in G. simpl in G.
      rewrite andb_true_r in G. rewrite (no_held _ k x X Ek m) in G by (now left). discriminate. }
    subst o. cbn [reg rlog ops]. split; [now rewrite replay_snoc|]. split; [simpl; lia|intros m []].
  - destruct (nth_error tk k) as [x|] eqn:Ek; auto. destruct (may_modify d x && negb (masked d o c)) eqn:G; auto.
    apply andb_true_iff in G. destruct G as [_ G]. apply negb_true_iff in G.
    assert (o = []).
    { destruct o as [|m o]; [easy|exfalso]. cbn [nested ops existsb] in Ne. apply orb_false_iff in Ne. destruct Ne as [Ne _].
      unfold masked in G. rewrite H in G. simpl in G. apply orb_false_iff in G. destruct G as [G _]. rewrite Ne in G. simpl in G.
      rewrite andb_true_r in G. rewrite (no_held _ k x X Ek m) in G by (now left). discriminate. }
    subst o. destruct (atomic (tag_of x)); cbn [reg rlog ops]; (split; [easy|]; split; [simpl; lia|intros m [<-|[]]; reflexivity]).
  - destruct (masked d o c); auto. destruct (innermost c o) as [[[c' x f old] o']|] eqn:Ei; auto.
    apply innermost_split in Ei. destruct Ei as [P Ec].
    assert (I0 : In (Mop c' x f old) o) by (rewrite P; now left). pose proof (Old _ I0) as Eo. cbn [m_old] in Eo. subst old.
    assert (o' = []) by (apply Permutation_length in P; simpl in P; destruct o'; [easy|simpl in P; lia]). subst o'.
    rewrite H. destruct (atomic (tag_of x)); cbn [reg rlog ops]; (split; [rewrite replay_snoc; simpl; now rewrite <- E|]; split; [simpl; lia|intros m []]).
Qed.
Lemma soft_run v r l : hw d = false -> (forall l1 a l2, l = l1 ++ a :: l2 -> nested (rrun d v r l1) a = false) ->
  reg (rrun d v r l) = replay r (rlog (rrun d v r l)).
Proof.
  intros H N. assert (K : reg (rrun d v r l) = replay r (rlog (rrun d v r l)) /\ length (ops (rrun d v r l)) <= 1 /\
    (forall m, In m (ops (rrun d v r l)) -> m_old m = reg (rrun d v r l))); [|apply K].
  induction l as [|a l IH] using rev_ind.
  - split; [reflexivity|]. split; [simpl; lia|intros m []].
  - assert (Eq : rrun d v r (l ++ [a]) = rstep d (rrun d v r l) a) by (unfold rrun; now rewrite fold_left_app).
    rewrite Eq. apply soft_step; auto.
    + apply rinv_run.
    + apply (N l a []). reflexivity.
    + apply IH. intros l1 b l2 El. apply (N l1 b (l2 ++ [a])). rewrite El. now rewrite <- app_assoc.
Qed.
End Reg.
