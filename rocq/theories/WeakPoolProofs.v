(** Proofs about the pool on a weak memory. *)
Require Import NArith List Bool Arith Lia.
From Verif Require Import Spsc WeakSpec RaceSpec RaceProofs WeakPool.
Import ListNotations.
Open Scope nat_scope.

Definition pex (s : psys) : mexec := map fst (plog s).
(** Access [i] is one of an owner of block [x], or of the freeing of it. *)
Definition on_mem (l : list (nat * maccess * bool)) (x i : nat) : Prop :=
  exists c f w, nth_error l i = Some (c, MCell (mem x f) w, false).
Definition putting (q : pos) : option nat :=
  match q with QPut0 x | QLink x _ | QPut x _ => Some x | _ => None end.

Definition known (l : list (nat * maccess * bool)) (len : nat) (x : nat) (h : holder) : Prop :=
  forall i, on_mem l x i ->
  match h with
  | HNone => exists j c n, mhb (map fst l) i j /\ nth_error (map fst l) j = Some (c, MUpd free_ AcqRel n) /\ S n < len
  | HAt c => knows (map fst l) c i
  | HSent k => exists j c, mhb (map fst l) i j /\ nth_error (map fst l) j = Some (c, MStore (chan k) Release 1)
  end.

Record pinv (s : psys) : Prop := {
  p_h : fhist s <> [];
  p_wr : forall k, k < length (fhist s) - 1 -> exists q e o, nth_error (pex s) q = Some (e, MUpd free_ o k);
  p_all : forall x i j, i < j -> on_mem (plog s) x i -> on_mem (plog s) x j -> mhb (pex s) i j;
  p_at : forall x, known (plog s) (length (fhist s)) x (hold s x);
  p_new : forall x, issued s <= x -> hold s x = HNone /\ forall i, ~ on_mem (plog s) x i;
  p_busy : forall c x, putting (at_ s c) = Some x -> hold s x = HAt c
}.

Definition quiet (e : nat * maccess * bool) : Prop := forall x f w, snd (fst e) = MCell (mem x f) w -> snd e = true.

Lemma upd_same {A} (f : nat -> A) c a : upd_ f c a c = a.
Proof. unfold upd_. now rewrite Nat.eqb_refl. Qed.
Lemma upd_other {A} (f : nat -> A) c a d : d <> c -> upd_ f c a d = f d.
Proof. unfold upd_. intros H. destruct (Nat.eqb_spec d c); easy. Qed.

Lemma on_mem_snoc l e x i : on_mem (l ++ [e]) x i ->
  on_mem l x i \/ (i = length l /\ exists c f w, e = (c, MCell (mem x f) w, false)).
Proof.
  intros (d & f & w & E). destruct (lt_dec i (length l)).
  - left. rewrite nth_error_app1 in E by easy. now exists d, f, w.
  - right. rewrite nth_error_app2 in E by lia. destruct (i - length l) as [|n0] eqn:D.
    + injection E as ->. split; [lia|eauto].
    + destruct n0; discriminate.
Qed.
Lemma quiet_old l e x i : quiet e -> on_mem (l ++ [e]) x i -> on_mem l x i.
Proof.
  intros Q H. destruct (on_mem_snoc _ _ _ _ H) as [H'|(_ & c & f & w & ->)]; [easy|].
  specialize (Q x f w eq_refl). discriminate.
Qed.

Lemma known_stay l len len' x h c a b : quiet (c, a, b) -> len <= len' ->
  known l len x h -> known (l ++ [(c, a, b)]) len' x h.
Proof.
  intros Q L K i H. apply quiet_old in H; [|easy]. specialize (K i H). rewrite map_app. cbn [map fst].
  destruct h as [|d|k].
  - destruct K as (j & d & n & A & B & C). exists j, d, n. split; [now apply mhb_app|]. split; [now apply nth_keep|lia].
  - now apply knows_app.
  - destruct K as (j & d & A & B). exists j, d. split; [now apply mhb_app|now apply nth_keep].
Qed.
Lemma all_stay l e : quiet e ->
  (forall x i j, i < j -> on_mem l x i -> on_mem l x j -> mhb (map fst l) i j) ->
  forall x i j, i < j -> on_mem (l ++ [e]) x i -> on_mem (l ++ [e]) x j -> mhb (map fst (l ++ [e])) i j.
Proof.
  intros Q H x i j L A B. apply quiet_old in A; [|easy]. apply quiet_old in B; [|easy].
  rewrite map_app. apply mhb_app. now apply (H x).
Qed.
Lemma wr_stay (l : list (nat * maccess * bool)) e n :
  (forall k, k < n -> exists q d o, nth_error (map fst l) q = Some (d, MUpd free_ o k)) ->
  forall k, k < n -> exists q d o, nth_error (map fst (l ++ [e])) q = Some (d, MUpd free_ o k).
Proof.
  intros H k L. destruct (H k L) as (q & d & o & E). exists q, d, o. rewrite map_app. now apply nth_keep.
Qed.
Lemma wr_more (l : list (nat * maccess * bool)) c (o : ord) (b : bool) n :
  (forall k, k < n -> exists q d o, nth_error (map fst l) q = Some (d, MUpd free_ o k)) ->
  forall k, k < S n -> exists q d o', nth_error (map fst (l ++ [(c, MUpd free_ o n, b)])) q = Some (d, MUpd free_ o' k).
Proof.
  intros H k L. destruct (Nat.eq_dec k n) as [->|].
  - exists (length (map fst l)), c, o. rewrite map_app. apply nth_snoc.
  - apply (wr_stay l _ n); [exact H|lia].
Qed.

Lemma step_plain s h' q' fs' us' lk' c a b :
  pinv s -> quiet (c, a, b) -> h' = fhist s ->
  (forall d x, putting (q' d) = Some x -> hold s x = HAt d) ->
  pinv (Psys h' (issued s) lk' q' fs' us' (hold s) (psent s) (dup s) (plog s ++ [(c, a, b)])).
Proof.
  intros [Hh Hw Ha Hk Hn Hb] Q -> Hq. unfold pex in *.
  constructor; cbn [fhist issued links at_ fseen useen hold psent dup plog]; unfold pex; cbn [plog]; auto.
  - now apply wr_stay.
  - now apply all_stay.
  - intros x. now apply (known_stay _ (length (fhist s))).
  - intros x L. destruct (Hn x L) as [A B]. split; [easy|]. intros i H. apply quiet_old in H; [|easy]. now apply B in H.
Qed.

Lemma pinv_at s q' : pinv s -> (forall d x, putting (q' d) = Some x -> hold s x = HAt d) ->
  pinv (Psys (fhist s) (issued s) (links s) q' (fseen s) (useen s) (hold s) (psent s) (dup s) (plog s)).
Proof. intros [Hh Hw Ha Hk Hn Hb] Hq. constructor; auto. Qed.

Lemma step_ok count s a : pinv s -> dup (pstep count s a) = false -> pinv (pstep count s a).
Proof.
  intros X D. pose proof X as [Hh Hw Ha Hk Hn Hb]. destruct s as [h u lk q fs us ho k dp lg].
  unfold pex in *. cbn [fhist issued links at_ fseen useen hold psent dup plog] in *.
  assert (Hput : forall c p, putting p = putting (q c) -> forall d x, putting (upd_ q c p d) = Some x -> ho x = HAt d).
  { intros c p E d x. destruct (Nat.eq_dec d c) as [->|]; rewrite ?upd_same, ?upd_other by easy; [rewrite E|]; apply Hb. }
  assert (Hnone : forall c p, putting p = None -> forall d x, putting (upd_ q c p d) = Some x -> ho x = HAt d).
  { intros c p E d x. destruct (Nat.eq_dec d c) as [->|]; rewrite ?upd_same, ?upd_other by easy; [congruence|apply Hb]. }
  assert (Qr : forall c l o n b, quiet (c, MRead l o n, b)) by (intros ? ? ? ? ? ? ? ?; discriminate).
  assert (Qu : forall c l o n b, quiet (c, MUpd l o n, b)) by (intros ? ? ? ? ? ? ? ?; discriminate).
  assert (Qs : forall c l o n b, quiet (c, MStore l o n, b)) by (intros ? ? ? ? ? ? ? ?; discriminate).
  assert (Lh : S (length h - 1) = length h) by (destruct h; [easy|simpl; lia]).
  destruct a as [c|c x|c spur back|c x f w g|c x|c x]; cbn [pstep] in *.
  - destruct (q c) eqn:Eq; auto. apply (pinv_at _ _ X). now apply Hnone.
  - destruct (q c) eqn:Eq; auto. destruct (ho x) as [|d|j] eqn:Eh; auto. destruct (Nat.eqb_spec d c) as [->|]; auto.
    apply (pinv_at _ _ X). intros d y. destruct (Nat.eq_dec d c) as [->|]; rewrite ?upd_same, ?upd_other by easy; [|apply Hb].
    simpl. now intros [= <-].
  - set (n := Nat.max (fs c) (length h - 1 - back)) in *. set (v := nth (length h - 1 - n) h None) in *.
    set (m := Nat.max (us c) (u - back)) in *.
    destruct (q c) as [| |[x|]|x next| |b|x|x y|x y] eqn:Eq; auto.
    + apply (step_plain _ _ _ _ _ _ _ _ _ X); auto. now apply Hnone.
    + apply (step_plain _ _ _ _ _ _ _ _ _ X); auto; [|now apply Hnone]. intros ? ? ? _. reflexivity.
    + apply (pinv_at _ _ X). now apply Hnone.
    + destruct (spur || negb (eqo v (Some x)) || negb (n =? length h - 1)) eqn:Ec.
      * apply (step_plain _ _ _ _ _ _ _ _ _ X); auto. now apply Hnone.
      * cbn [dup] in D. apply orb_false_iff in D. destruct D as [D D3]. apply orb_false_iff in D. destruct D as [D1 D2].
        apply negb_false_iff in D2. apply Nat.leb_gt in D3.
        destruct (ho x) eqn:Eh; try discriminate.
        apply orb_false_iff in Ec. destruct Ec as [_ Ec]. apply negb_false_iff, Nat.eqb_eq in Ec.
        constructor; cbn [fhist issued links at_ fseen useen hold psent dup plog]; unfold pex; cbn [plog].
        -- easy.
        -- rewrite Ec. cbn [length]. replace (S (length h) - 1) with (S (length h - 1)) by lia. now apply wr_more.
        -- now apply all_stay.
        -- intros y. destruct (Nat.eq_dec y x) as [->|Hne].
           ++ rewrite upd_same. intros i H. apply quiet_old in H; [|easy].
              specialize (Hk x i H). rewrite Eh in Hk. destruct Hk as (j & d & n0 & A & B & C).
              exists (length (map fst lg)), (MUpd free_ AcqRel n). rewrite map_app. cbn [map fst]. split; [apply nth_snoc|]. right.
              eapply mhb_trans; [apply mhb_app; exact A|].
              eapply (seq_acquired _ _ _ _ _ _ _ AcqRel n); [exact B|right; reflexivity|reflexivity|lia|].
              intros k0 L. apply Hw. lia.
           ++ rewrite upd_other by easy. apply (known_stay _ (length h)); auto. simpl. lia.
        -- intros y L. rewrite upd_other by lia. destruct (Hn y L) as [A B]. split; [easy|].
           intros i H. apply quiet_old in H; [|easy]. now apply B in H.
        -- intros d y H. assert (E : ho y = HAt d) by (apply (Hnone c QIdle eq_refl d y H)).
           rewrite upd_other; [easy|]. congruence.
    + apply (step_plain _ _ _ _ _ _ _ _ _ X); auto. now apply Hnone.
    + destruct (b =? count); [apply (pinv_at _ _ X); now apply Hnone|].
      destruct (spur || negb (m =? b) || negb (m =? u)) eqn:Ec.
      * apply (step_plain _ _ _ _ _ _ _ _ _ X); auto. now apply Hnone.
      * destruct (Hn u (le_n u)) as [Hu Hm].
        constructor; cbn [fhist issued links at_ fseen useen hold psent dup plog]; unfold pex; cbn [plog]; auto.
        -- now apply wr_stay.
        -- now apply all_stay.
        -- intros y. destruct (Nat.eq_dec y u) as [->|Hne].
           ++ rewrite upd_same. intros i H. apply quiet_old in H; [|easy]. now apply Hm in H.
           ++ rewrite upd_other by easy. now apply (known_stay _ (length h)).
        -- intros y L. rewrite upd_other by lia. destruct (Hn y ltac:(lia)) as [A B]. split; [easy|].
           intros i H. apply quiet_old in H; [|easy]. now apply B in H.
        -- intros d y H. assert (E : ho y = HAt d) by (apply (Hnone c QIdle eq_refl d y H)).
           rewrite upd_other; [easy|]. congruence.
    + apply (step_plain _ _ _ _ _ _ _ _ _ X); auto. apply Hput. now rewrite Eq.
    + (* the link is written *)
      assert (Ex : ho x = HAt c) by (apply Hb; now rewrite Eq).
      constructor; cbn [fhist issued links at_ fseen useen hold psent dup plog]; unfold pex; cbn [plog]; auto.
      * now apply wr_stay.
      * intros z i j L A B. rewrite map_app. cbn [map fst].
        destruct (on_mem_snoc _ _ _ _ B) as [B'|(-> & d & f & w & E)].
        -- destruct (on_mem_snoc _ _ _ _ A) as [A'|(-> & _)].
           ++ apply mhb_app. now apply (Ha z).
           ++ destruct B' as (? & ? & ? & B'). apply some_lt in B'. lia.
        -- destruct (on_mem_snoc _ _ _ _ A) as [A'|(-> & _)]; [|lia].
           assert (z = x) by (unfold link_of, mem in E; injection E; intros; lia). subst z.
           rewrite <- (map_length fst lg). apply knows_next. specialize (Hk x i A'). now rewrite Ex in Hk.
      * intros z i A. rewrite map_app. cbn [map fst].
        destruct (on_mem_snoc _ _ _ _ A) as [A'|(-> & d & f & w & E)].
        -- specialize (Hk z i A'). destruct (ho z) as [|d|j].
           ++ destruct Hk as (j & d & n0 & K1 & K2 & K3). exists j, d, n0. split; [now apply mhb_app|]. split; [now apply nth_keep|easy].
           ++ now apply knows_app.
           ++ destruct Hk as (j' & d & K1 & K2). exists j', d. split; [now apply mhb_app|now apply nth_keep].
        -- assert (z = x) by (unfold link_of, mem in E; injection E; intros; lia). subst z. rewrite Ex.
           exists (length (map fst lg)), (MCell (link_of x) true). split; [apply nth_snoc|]. left. now rewrite map_length.
      * intros z L. destruct (Hn z L) as [A B]. split; [easy|]. intros i H.
        destruct (on_mem_snoc _ _ _ _ H) as [H'|(-> & d & f & w & E)]; [now apply B in H'|].
        assert (z = x) by (unfold link_of, mem in E; injection E; intros; lia). subst z. congruence.
      * apply Hput. now rewrite Eq.
    + destruct (spur || negb (eqo v y) || negb (n =? length h - 1)) eqn:Ec.
      * apply (step_plain _ _ _ _ _ _ _ _ _ X); auto. apply Hput. now rewrite Eq.
      * assert (Ex : ho x = HAt c) by (apply Hb; now rewrite Eq).
        apply orb_false_iff in Ec. destruct Ec as [_ Ec]. apply negb_false_iff, Nat.eqb_eq in Ec.
        constructor; cbn [fhist issued links at_ fseen useen hold psent dup plog]; unfold pex; cbn [plog].
        -- easy.
        -- rewrite Ec. cbn [length]. replace (S (length h) - 1) with (S (length h - 1)) by lia. now apply wr_more.
        -- now apply all_stay.
        -- intros z. destruct (Nat.eq_dec z x) as [->|Hne].
           ++ rewrite upd_same. intros i H. apply quiet_old in H; [|easy].
              specialize (Hk x i H). rewrite Ex in Hk.
              exists (length (map fst lg)), c, n. rewrite map_app. cbn [map fst]. split; [now apply knows_next|].
              split; [apply nth_snoc|]. cbn [length]. lia.
           ++ rewrite upd_other by easy. apply (known_stay _ (length h)); auto. simpl. lia.
        -- intros z L. destruct (Hn z L) as [A B]. rewrite upd_other by congruence. split; [easy|].
           intros i H. apply quiet_old in H; [|easy]. now apply B in H.
        -- intros d z. destruct (Nat.eq_dec d c) as [->|Hne]; rewrite ?upd_same, ?(upd_other q) by easy; [easy|].
           intros H. apply Hb in H. rewrite upd_other; [easy|]. congruence.
  - destruct (q c) eqn:Eq; auto. destruct (ho x) as [|d|j] eqn:Ex; auto. destruct (Nat.eqb_spec d c) as [->|]; auto.
    constructor; cbn [fhist issued links at_ fseen useen hold psent dup plog]; unfold pex; cbn [plog]; auto.
    + now apply wr_stay.
    + intros z i j L A B. rewrite map_app. cbn [map fst].
      destruct (on_mem_snoc _ _ _ _ B) as [B'|(-> & d & f' & w' & E)].
      * destruct (on_mem_snoc _ _ _ _ A) as [A'|(-> & _)].
        -- apply mhb_app. now apply (Ha z).
        -- destruct B' as (? & ? & ? & B'). apply some_lt in B'. lia.
      * destruct (on_mem_snoc _ _ _ _ A) as [A'|(-> & _)]; [|lia].
        assert (z = x) by (unfold mem in E; injection E; intros; lia). subst z.
        rewrite <- (map_length fst lg). apply knows_next. specialize (Hk x i A'). now rewrite Ex in Hk.
    + intros z i A. rewrite map_app. cbn [map fst].
      destruct (on_mem_snoc _ _ _ _ A) as [A'|(-> & d & f' & w' & E)].
      * specialize (Hk z i A'). destruct (ho z) as [|d|j].
        -- destruct Hk as (j & d & n0 & K1 & K2 & K3). exists j, d, n0. split; [now apply mhb_app|]. split; [now apply nth_keep|easy].
        -- now apply knows_app.
        -- destruct Hk as (j' & d & K1 & K2). exists j', d. split; [now apply mhb_app|now apply nth_keep].
      * assert (z = x) by (unfold mem in E; injection E; intros; lia). subst z. rewrite Ex.
        exists (length (map fst lg)), (MCell (mem x f) w). split; [apply nth_snoc|]. left. now rewrite map_length.
    + intros z L. destruct (Hn z L) as [A B]. split; [easy|]. intros i H.
      destruct (on_mem_snoc _ _ _ _ H) as [H'|(-> & d & f' & w' & E)]; [now apply B in H'|].
      assert (z = x) by (unfold mem in E; injection E; intros; lia). subst z. congruence.
  - destruct (q c) eqn:Eq; auto. destruct (ho x) as [|d|j] eqn:Ex; auto. destruct (Nat.eqb_spec d c) as [->|]; auto.
    constructor; cbn [fhist issued links at_ fseen useen hold psent dup plog]; unfold pex; cbn [plog]; auto.
    + now apply wr_stay.
    + now apply all_stay.
    + intros z. destruct (Nat.eq_dec z x) as [->|Hne].
      * rewrite upd_same. intros i H. apply quiet_old in H; [|easy]. specialize (Hk x i H). rewrite Ex in Hk.
        exists (length (map fst lg)), c. rewrite map_app. cbn [map fst]. split; [now apply knows_next|apply nth_snoc].
      * rewrite upd_other by easy. now apply (known_stay _ (length h)).
    + intros z L. destruct (Hn z L) as [A B]. rewrite upd_other by congruence. split; [easy|].
      intros i H. apply quiet_old in H; [|easy]. now apply B in H.
    + intros d z H. destruct (Nat.eq_dec z x) as [->|].
      * apply Hb in H as H'. rewrite Ex in H'. injection H' as <-. rewrite Eq in H. discriminate.
      * rewrite upd_other by easy. now apply Hb.
  - destruct (q c) eqn:Eq; auto. destruct (ho x) as [|d|j] eqn:Ex; auto.
    constructor; cbn [fhist issued links at_ fseen useen hold psent dup plog]; unfold pex; cbn [plog]; auto.
    + now apply wr_stay.
    + now apply all_stay.
    + intros z. destruct (Nat.eq_dec z x) as [->|Hne].
      * rewrite upd_same. intros i H. apply quiet_old in H; [|easy]. specialize (Hk x i H). rewrite Ex in Hk.
        destruct Hk as (j' & d & K1 & K2). rewrite map_app. cbn [map fst].
        exists (length (map fst lg)), (MRead (chan j) Acquire 1). split; [apply nth_snoc|]. right.
        eapply mhb_trans; [apply mhb_app; exact K1|]. eapply acquired; [exact K2|]. now left.
      * rewrite upd_other by easy. now apply (known_stay _ (length h)).
    + intros z L. destruct (Hn z L) as [A B]. rewrite upd_other by congruence. split; [easy|].
      intros i H. apply quiet_old in H; [|easy]. now apply B in H.
    + intros d z H. destruct (Nat.eq_dec z x) as [->|].
      * apply Hb in H. congruence.
      * rewrite upd_other by easy. now apply Hb.
Qed.

Lemma dup_stays count s a : dup s = true -> dup (pstep count s a) = true.
Proof.
  destruct s as [h u lk q fs us ho k dp lg]. cbn [dup]. intros ->. destruct a; cbn [pstep].
  - destruct (q c); reflexivity.
  - destruct (q c); try reflexivity. destruct (ho x); try reflexivity. destruct (_ =? _); reflexivity.
  - destruct (q c) as [| |[?|]|y next| |b|y|y z|y z]; try reflexivity.
    + destruct (_ || _); reflexivity.
    + destruct (b =? count); [reflexivity|]. destruct (_ || _); reflexivity.
    + destruct (_ || _); reflexivity.
  - destruct (q c); try reflexivity. destruct (ho x); try reflexivity. destruct (_ =? _); reflexivity.
  - destruct (q c); try reflexivity. destruct (ho x); try reflexivity. destruct (_ =? _); reflexivity.
  - destruct (q c); try reflexivity. destruct (ho x); reflexivity.
Qed.

Lemma pinv_run count l : dup (prun count l) = false -> pinv (prun count l).
Proof.
  unfold prun. induction l as [|a l IH] using rev_ind; intros D.
  - constructor; cbn [fold_left psys0 fhist issued links at_ fseen useen hold psent dup plog length].
    + discriminate.
    + intros k L. exfalso. simpl in L. lia.
    + intros x i j _ (c & f & w & E). now destruct i.
    + intros x i (c & f & w & E). now destruct i.
    + intros x _. split; [easy|]. intros i (c & f & w & E). now destruct i.
    + discriminate.
  - rewrite fold_left_app in *. cbn [fold_left] in *. apply step_ok; [|exact D]. apply IH.
    destruct (dup (fold_left (pstep count) l psys0)) eqn:E; [|easy]. apply (dup_stays count _ a) in E. congruence.
Qed.
