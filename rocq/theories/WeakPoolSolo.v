(** One context allocates, any number of contexts use and free: no block is given out twice, and
    all accesses to a block are ordered. *)
Require Import NArith List Bool Arith Lia.
From Verif Require Import Spsc WeakSpec RaceSpec RaceProofs WeakPool WeakPoolProofs.
Import ListNotations.
Open Scope nat_scope.

Fixpoint chn (lk : nat -> option nat) (l : list nat) : Prop :=
  match l with [] => True | x :: r => lk x = hd_error r /\ chn lk r end.

Definition allocating (q : pos) : bool :=
  match q with QFree0 | QRead _ | QCas _ _ | QUninit | QBump _ => true | _ => false end.

Record solo (c0 : nat) (s : psys) (L : list nat) : Prop := {
  s_chn : chn (links s) L;
  s_free : forall x, In x L -> hold s x = HNone /\ x < issued s;
  s_nd : NoDup L;
  s_seen : fseen s c0 <= length (fhist s) - 1;
  s_hist : forall k, k <= length (fhist s) - 1 - fseen s c0 ->
    k <= length L /\ nth k (fhist s) None = hd_error (skipn k L);
  s_put : forall d x w, at_ s d = QPut x w -> links s x = w;
  s_pos : match at_ s c0 with
    | QRead v => v = nth (length (fhist s) - 1 - fseen s c0) (fhist s) None
    | QCas x next => nth (length (fhist s) - 1 - fseen s c0) (fhist s) None = Some x /\ next = links s x
    | _ => True
    end;
  s_others : forall d, d <> c0 -> allocating (at_ s d) = false
}.

Lemma chn_upd lk L x w : ~ In x L -> chn lk L -> chn (upd_ lk x w) L.
Proof.
  induction L as [|y L IH]; simpl; [easy|]. intros N [A B]. split; [|apply IH; tauto].
  rewrite upd_other; [easy|]. intros ->. tauto.
Qed.
Lemma chn_skip lk L : forall k x, chn lk L -> hd_error (skipn k L) = Some x -> lk x = hd_error (skipn (S k) L).
Proof.
  induction L as [|y L IH]; intros [|k] x C H; try easy.
  - injection H as ->. simpl in *. destruct C as [A _]. now destruct L.
  - destruct C as [_ C]. apply (IH k x C H).
Qed.
Lemma skip_in (L : list nat) : forall k x, hd_error (skipn k L) = Some x -> In x L.
Proof. induction L as [|y L IH]; intros [|k] x H; try easy; simpl in *; [injection H as ->; auto|right; eauto]. Qed.

(** Access [i] is one to block [x], the reads of links included. *)
Definition on_any (l : list (nat * maccess * bool)) (x i : nat) : Prop :=
  exists c f w b, nth_error l i = Some (c, MCell (mem x f) w, b).
Definition calm (e : nat * maccess * bool) : Prop := snd e = false /\ forall x f w, snd (fst e) <> MCell (mem x f) w.

Record full (c0 : nat) (s : psys) (L : list nat) : Prop := {
  f_all : forall x i j, i < j -> on_any (plog s) x i -> on_any (plog s) x j -> mhb (pex s) i j;
  f_own : forall x i, on_any (plog s) x i ->
    match hold s x with
    | HNone => True
    | HAt c => knows (pex s) c i
    | HSent k => exists j c, mhb (pex s) i j /\ nth_error (pex s) j = Some (c, MStore (chan k) Release 1)
    end;
  f_new : forall x i, issued s <= x -> ~ on_any (plog s) x i;
  f_tag : forall i c a, nth_error (plog s) i = Some (c, a, true) -> c = c0;
  f_know : forall y i, In y (skipn (length (fhist s) - 1 - fseen s c0) L) -> on_any (plog s) y i -> knows (pex s) c0 i;
  f_push : forall j y i, j < length (fhist s) - 1 - fseen s c0 -> nth_error L j = Some y -> on_mem (plog s) y i ->
    exists k c, mhb (pex s) i k /\ nth_error (pex s) k = Some (c, MUpd free_ AcqRel (length (fhist s) - 2 - j))
}.

Lemma on_any_snoc l e x i : on_any (l ++ [e]) x i ->
  on_any l x i \/ (i = length l /\ exists c f w b, e = (c, MCell (mem x f) w, b)).
Proof.
  intros (d & f & w & b & E). destruct (lt_dec i (length l)).
  - left. rewrite nth_error_app1 in E by easy. now exists d, f, w, b.
  - right. rewrite nth_error_app2 in E by lia. destruct (i - length l) as [|n0] eqn:D.
    + injection E as ->. split; [lia|eauto 6].
    + destruct n0; discriminate.
Qed.
Lemma calm_old l e x i : calm e -> on_any (l ++ [e]) x i -> on_any l x i.
Proof.
  intros [_ Q] H. destruct (on_any_snoc _ _ _ _ H) as [H'|(_ & c & f & w & b & ->)]; [easy|].
  now specialize (Q x f w eq_refl).
Qed.
Lemma calm_quiet e : calm e -> quiet e.
Proof. intros [_ Q] x f w H. now apply Q in H. Qed.
Lemma any_lt l x i : on_any l x i -> i < length l.
Proof. intros (c & f & w & b & E). eapply some_lt; eauto. Qed.
Lemma tag_any l c0 x i : (forall i c a, nth_error l i = Some (c, a, true) -> c = c0) ->
  on_any l x i -> on_mem l x i \/ knows (map fst l) c0 i.
Proof.
  intros T (c & f & w & [|] & E).
  - right. exists i, (MCell (mem x f) w). split; [|now left]. rewrite nth_error_map, E. simpl. now rewrite (T _ _ _ E).
  - left. now exists c, f, w.
Qed.
Lemma mem_inj x f x' f' : mem x f = mem x' f' -> x = x' /\ f = f'.
Proof. unfold mem. intros H. injection H. intros. split; [lia|easy]. Qed.
Lemma cell_inj (c : nat) x f w (b : bool) (d : nat) z g v (b' : bool) : (c, MCell (mem x f) w, b) = (d, MCell (mem z g) v, b') -> x = z.
Proof. intros H. assert (E : mem x f = mem z g) by congruence. now apply mem_inj in E. Qed.
Lemma skip_split (A : Type) (L : list A) : forall a b y, In y (skipn a L) -> In y (skipn b L) \/ exists j, a <= j < b /\ nth_error L j = Some y.
Proof.
  induction L as [|z L IH]; intros [|a] [|b] y H; try (simpl in H; easy); auto.
  - simpl in H. destruct H as [->|H]; [right; exists 0; split; [lia|easy]|].
    destruct (IH 0 b y H) as [K|(j & J & K)]; [now left|right]. exists (S j). split; [lia|easy].
  - left. simpl in *. right. clear - H. revert a H. induction L as [|w L IH]; intros [|a] H; simpl in *; try easy. right. eapply IH; eauto.
  - simpl in *. destruct (IH a b y H) as [K|(j & J & K)]; [now left|right]. exists (S j). split; [lia|easy].
Qed.

Section Full.
Variable c0 : nat.

Lemma full_same s L lk q fs us dp : full c0 s L -> fs c0 = fseen s c0 ->
  full c0 (Psys (fhist s) (issued s) lk q fs us (hold s) (psent s) dp (plog s)) L.
Proof.
  intros [A B C D E G] F. constructor; cbn [fhist issued links at_ fseen useen hold psent dup plog]; unfold pex in *;
    cbn [plog]; rewrite ?F; auto.
Qed.

(** An access that is not to a block. *)
Lemma calm_all l e : calm e ->
  (forall x i j, i < j -> on_any l x i -> on_any l x j -> mhb (map fst l) i j) ->
  forall x i j, i < j -> on_any (l ++ [e]) x i -> on_any (l ++ [e]) x j -> mhb (map fst (l ++ [e])) i j.
Proof.
  intros Q H x i j L A B. apply calm_old in A; [|easy]. apply calm_old in B; [|easy].
  rewrite map_app. apply mhb_app. now apply (H x).
Qed.
Lemma calm_tag (l : list (nat * maccess * bool)) e : calm e ->
  (forall i c a, nth_error l i = Some (c, a, true) -> c = c0) ->
  forall i c a, nth_error (l ++ [e]) i = Some (c, a, true) -> c = c0.
Proof.
  intros [T _] H i c a E. destruct (lt_dec i (length l)).
  - rewrite nth_error_app1 in E by easy. eapply H; eauto.
  - rewrite nth_error_app2 in E by lia. destruct (i - length l) as [|n0]; [|destruct n0; discriminate].
    injection E as ->. discriminate.
Qed.
Lemma own_keep (l : list (nat * maccess * bool)) e i h :
  match h with
  | HNone => True
  | HAt c => knows (map fst l) c i
  | HSent k => exists j c, mhb (map fst l) i j /\ nth_error (map fst l) j = Some (c, MStore (chan k) Release 1)
  end ->
  match h with
  | HNone => True
  | HAt c => knows (map fst (l ++ [e])) c i
  | HSent k => exists j c, mhb (map fst (l ++ [e])) i j /\ nth_error (map fst (l ++ [e])) j = Some (c, MStore (chan k) Release 1)
  end.
Proof.
  rewrite map_app. cbn [map]. destruct h as [|c|k]; [easy|apply knows_app|].
  intros (j & d & A & B). exists j, d. split; [now apply mhb_app|now apply nth_keep].
Qed.
Lemma push_keep (l : list (nat * maccess * bool)) e i n :
  (exists k c, mhb (map fst l) i k /\ nth_error (map fst l) k = Some (c, MUpd free_ AcqRel n)) ->
  exists k c, mhb (map fst (l ++ [e])) i k /\ nth_error (map fst (l ++ [e])) k = Some (c, MUpd free_ AcqRel n).
Proof. rewrite map_app. cbn [map]. intros (j & d & A & B). exists j, d. split; [now apply mhb_app|now apply nth_keep]. Qed.
Lemma keep_knows (l : list (nat * maccess * bool)) e c i : knows (map fst l) c i -> knows (map fst (l ++ [e])) c i.
Proof. rewrite map_app. cbn [map]. apply knows_app. Qed.

Lemma full_ev s L lk q fs us dp e : full c0 s L -> calm e -> fs c0 = fseen s c0 ->
  full c0 (Psys (fhist s) (issued s) lk q fs us (hold s) (psent s) dp (plog s ++ [e])) L.
Proof.
  intros [A B C D E G] Q F. constructor; cbn [fhist issued links at_ fseen useen hold psent dup plog]; unfold pex in *;
    cbn [plog]; rewrite ?F.
  - now apply calm_all.
  - intros x i H. apply calm_old in H; [|easy]. apply own_keep. now apply B.
  - intros x i Hx H. apply calm_old in H; [|easy]. now apply (C x i).
  - now apply calm_tag.
  - intros y i Hy H. apply calm_old in H; [|easy]. apply keep_knows. eapply E; eauto.
  - intros j y i Hj Hy H. apply push_keep. apply (quiet_old _ e) in H; [|now apply calm_quiet]. eapply G; eauto.
Qed.

(** The allocator acquires the value number [m]: it knows about the blocks pushed until then. *)
Lemma see_knows s L e n m : full c0 s L -> pinv s -> fst e = (c0, n) -> calm e -> m <= length (fhist s) - 1 ->
  (exists o, reads n free_ o m /\ acquires o = true) ->
  forall y i, In y (skipn (length (fhist s) - 1 - m) L) -> on_any (plog s) y i -> knows (map fst (plog s ++ [e])) c0 i.
Proof.
  intros [A B C D E G] X Fe Q Lm (o & R & Ao) y i Hy H. unfold pex in *.
  destruct (skip_split _ L _ (length (fhist s) - 1 - fseen s c0) y Hy) as [K|(j & J & K)].
  - apply keep_knows. eapply E; eauto.
  - destruct (tag_any _ c0 y i D H) as [M|M]; [|now apply keep_knows].
    destruct (G j y i ltac:(lia) K M) as (k & c & P1 & P2).
    exists (length (map fst (plog s))), n. rewrite map_app. cbn [map]. rewrite Fe. split; [apply nth_snoc|]. right.
    eapply mhb_trans; [apply mhb_app; exact P1|].
    eapply (seq_acquired _ _ _ _ _ _ _ o m); [exact P2|exact R|exact Ao|lia|].
    intros k0 L0. apply (p_wr _ X). lia.
Qed.

Lemma full_see s L lk q us dp m : full c0 s L -> pinv s -> fseen s c0 <= m <= length (fhist s) - 1 ->
  full c0 (Psys (fhist s) (issued s) lk q (upd_ (fseen s) c0 m) us (hold s) (psent s) dp
             (plog s ++ [(c0, MRead free_ Acquire m, false)])) L.
Proof.
  intros F X Lm. pose proof F as [A B C D E G].
  assert (Q : calm (c0, MRead free_ Acquire m, false)) by (split; [reflexivity|intros; discriminate]).
  constructor; cbn [fhist issued links at_ fseen useen hold psent dup plog]; unfold pex in *; cbn [plog]; rewrite ?upd_same.
  - now apply calm_all.
  - intros x i H. apply calm_old in H; [|easy]. apply own_keep. now apply B.
  - intros x i Hx H. apply calm_old in H; [|easy]. now apply (C x i).
  - now apply calm_tag.
  - intros y i Hy H. apply calm_old in H; [|easy].
    eapply (see_knows s L (c0, MRead free_ Acquire m, false) (MRead free_ Acquire m) m F X eq_refl Q); eauto; [lia|]. exists Acquire. split; [left; reflexivity|reflexivity].
  - intros j y i Hj Hy H. apply push_keep. apply (quiet_old _ (c0, MRead free_ Acquire m, false)) in H; [|now apply calm_quiet].
    eapply G; eauto. lia.
Qed.

(** An owner accesses its block. *)
Lemma full_use s L lk q dp c x f w : full c0 s L -> hold s x = HAt c -> x < issued s -> ~ In x L ->
  full c0 (Psys (fhist s) (issued s) lk q (fseen s) (useen s) (hold s) (psent s) dp (plog s ++ [(c, MCell (mem x f) w, false)])) L.
Proof.
  intros [A B C D E G] Hx Lx Nx. unfold pex in *.
  assert (New : forall z i, on_any (plog s ++ [(c, MCell (mem x f) w, false)]) z i ->
    on_any (plog s) z i \/ (i = length (plog s) /\ z = x)).
  { intros z i H. destruct (on_any_snoc _ _ _ _ H) as [H'|(-> & d & g & v & b & K)]; [now left|right].
    split; [easy|]. now apply cell_inj in K. }
  constructor; cbn [fhist issued links at_ fseen useen hold psent dup plog]; unfold pex; cbn [plog].
  - intros z i j L' I J. destruct (New _ _ J) as [J'|(-> & ->)].
    + destruct (New _ _ I) as [I'|(-> & _)]; [|apply any_lt in J'; lia]. rewrite map_app. apply mhb_app. now apply (A z).
    + destruct (New _ _ I) as [I'|(-> & _)]; [|lia]. rewrite map_app. rewrite <- (map_length fst (plog s)). apply knows_next.
      specialize (B x i I'). now rewrite Hx in B.
  - intros z i H. destruct (New _ _ H) as [H'|(-> & ->)].
    + apply own_keep. now apply B.
    + rewrite Hx. exists (length (map fst (plog s))), (MCell (mem x f) w). rewrite map_app. split; [apply nth_snoc|].
      left. now rewrite map_length.
  - intros z i Hz H. destruct (New _ _ H) as [H'|(-> & ->)]; [now apply (C z i)|lia].
  - intros i d a H. destruct (lt_dec i (length (plog s))).
    + rewrite nth_error_app1 in H by easy. eapply D; eauto.
    + rewrite nth_error_app2 in H by lia. destruct (i - length (plog s)) as [|n0]; [discriminate|destruct n0; discriminate].
  - intros y i Hy H. destruct (New _ _ H) as [H'|(-> & ->)]; [apply keep_knows; eapply E; eauto|].
    exfalso. apply Nx. rewrite <- (firstn_skipn (length (fhist s) - 1 - fseen s c0) L). apply in_or_app. now right.
  - intros j y i Hj Hy H. destruct (on_mem_snoc _ _ _ _ H) as [H'|(-> & d & g & v & K)].
    + apply push_keep. eapply G; eauto.
    + exfalso. apply Nx. apply cell_inj in K. subst y.
      eapply nth_error_In; eauto.
Qed.

(** The allocator reads a link. *)
Lemma full_link s L q dp x : full c0 s L -> x < issued s -> hold s x = HNone ->
  In x (skipn (length (fhist s) - 1 - fseen s c0) L) ->
  full c0 (Psys (fhist s) (issued s) (links s) q (fseen s) (useen s) (hold s) (psent s) dp
             (plog s ++ [(c0, MCell (link_of x) false, true)])) L.
Proof.
  intros [A B C D E G] Lx Hx Ix. unfold pex in *.
  assert (New : forall z i, on_any (plog s ++ [(c0, MCell (link_of x) false, true)]) z i ->
    on_any (plog s) z i \/ (i = length (plog s) /\ z = x)).
  { intros z i H. destruct (on_any_snoc _ _ _ _ H) as [H'|(-> & d & g & v & b & K)]; [now left|right].
    split; [easy|]. now apply cell_inj in K. }
  constructor; cbn [fhist issued links at_ fseen useen hold psent dup plog]; unfold pex; cbn [plog].
  - intros z i j L' I J. destruct (New _ _ J) as [J'|(-> & ->)].
    + destruct (New _ _ I) as [I'|(-> & _)]; [|apply any_lt in J'; lia]. rewrite map_app. apply mhb_app. now apply (A z).
    + destruct (New _ _ I) as [I'|(-> & _)]; [|lia]. rewrite map_app. rewrite <- (map_length fst (plog s)). apply knows_next.
      eapply E; eauto.
  - intros z i H. destruct (New _ _ H) as [H'|(-> & ->)]; [apply own_keep; now apply B|]. now rewrite Hx.
  - intros z i Hz H. destruct (New _ _ H) as [H'|(-> & ->)]; [now apply (C z i)|lia].
  - intros i d a H. destruct (lt_dec i (length (plog s))).
    + rewrite nth_error_app1 in H by easy. eapply D; eauto.
    + rewrite nth_error_app2 in H by lia. destruct (i - length (plog s)) as [|n0]; [|destruct n0; discriminate].
      now injection H.
  - intros y i Hy H. destruct (New _ _ H) as [H'|(-> & ->)]; [apply keep_knows; eapply E; eauto|].
    exists (length (map fst (plog s))), (MCell (link_of x) false). rewrite map_app. split; [apply nth_snoc|].
    left. now rewrite map_length.
  - intros j y i Hj Hy H. destruct (on_mem_snoc _ _ _ _ H) as [H'|(-> & d & g & v & K)]; [|discriminate].
    apply push_keep. eapply G; eauto.
Qed.

(** The allocator takes the first block of the list. *)
Lemma full_pop s L next q us dp x : full c0 s (x :: L) -> pinv s ->
  full c0 (Psys (next :: fhist s) (issued s) (links s) q (upd_ (fseen s) c0 (S (length (fhist s) - 1))) us (upd_ (hold s) x (HAt c0))
             (psent s) dp (plog s ++ [(c0, MUpd free_ AcqRel (length (fhist s) - 1), false)])) L.
Proof.
  intros F X. pose proof F as [A B C D E G].
  assert (Q : calm (c0, MUpd free_ AcqRel (length (fhist s) - 1), false)) by (split; [reflexivity|intros; discriminate]).
  assert (K : forall y i, In y (x :: L) -> on_any (plog s) y i ->
    knows (map fst (plog s ++ [(c0, MUpd free_ AcqRel (length (fhist s) - 1), false)])) c0 i).
  { intros y i Hy H. eapply (see_knows s (x :: L) (c0, MUpd free_ AcqRel (length (fhist s) - 1), false) (MUpd free_ AcqRel (length (fhist s) - 1)) (length (fhist s) - 1) F X eq_refl Q); eauto.
    - exists AcqRel. split; [right; reflexivity|reflexivity].
    - rewrite Nat.sub_diag. exact Hy. }
  constructor; cbn [fhist issued links at_ fseen useen hold psent dup plog length]; unfold pex in *; cbn [plog]; rewrite ?upd_same.
  - now apply calm_all.
  - intros z i H. apply calm_old in H; [|easy]. destruct (Nat.eq_dec z x) as [->|].
    + rewrite upd_same. apply (K x); [now left|easy].
    + rewrite upd_other by easy. apply own_keep. now apply B.
  - intros z i Hz H. apply calm_old in H; [|easy]. now apply (C z i).
  - now apply calm_tag.
  - intros y i Hy H. apply calm_old in H; [|easy]. apply (K y); [|easy]. right.
    rewrite <- (firstn_skipn (S (length (fhist s)) - 1 - S (length (fhist s) - 1)) L). apply in_or_app. now right.
  - intros j y i Hj. lia.
Qed.

(** A block is put into the list. *)
Lemma full_push s L q us dp c x : full c0 s L -> pinv s -> fseen s c0 <= length (fhist s) - 1 -> hold s x = HAt c ->
  full c0 (Psys (Some x :: fhist s) (issued s) (links s) q (upd_ (fseen s) c (S (length (fhist s) - 1))) us (upd_ (hold s) x HNone)
             (psent s) dp (plog s ++ [(c, MUpd free_ AcqRel (length (fhist s) - 1), false)])) (x :: L).
Proof.
  intros F X Ls Hx. pose proof F as [A B C D E G].
  assert (Lh : length (fhist s) = S (length (fhist s) - 1)).
  { pose proof (p_h _ X). destruct (fhist s); [easy|simpl; lia]. }
  assert (Q : calm (c, MUpd free_ AcqRel (length (fhist s) - 1), false)) by (split; [reflexivity|intros; discriminate]).
  assert (Kx : forall i, on_any (plog s) x i -> knows (map fst (plog s)) c i).
  { intros i H. specialize (B x i H). now rewrite Hx in B. }
  constructor; cbn [fhist issued links at_ fseen useen hold psent dup plog length]; unfold pex in *; cbn [plog].
  - now apply calm_all.
  - intros z i H. apply calm_old in H; [|easy]. destruct (Nat.eq_dec z x) as [->|].
    + now rewrite upd_same.
    + rewrite upd_other by easy. apply own_keep. now apply B.
  - intros z i Hz H. apply calm_old in H; [|easy]. now apply (C z i).
  - now apply calm_tag.
  - intros y i Hy H. apply calm_old in H; [|easy]. destruct (Nat.eq_dec c0 c) as [<-|Hne].
    + rewrite upd_same in Hy. replace (S (length (fhist s)) - 1 - S (length (fhist s) - 1)) with 0 in Hy by lia.
      destruct Hy as [<-|Hy]; [apply keep_knows; now apply Kx|].
      eapply (see_knows s L (c0, MUpd free_ AcqRel (length (fhist s) - 1), false) (MUpd free_ AcqRel (length (fhist s) - 1)) (length (fhist s) - 1) F X eq_refl Q); eauto.
      * exists AcqRel. split; [right; reflexivity|reflexivity].
      * rewrite Nat.sub_diag. exact Hy.
    + rewrite upd_other in Hy by easy.
      replace (S (length (fhist s)) - 1 - fseen s c0) with (S (length (fhist s) - 1 - fseen s c0)) in Hy by lia.
      cbn [skipn] in Hy. apply keep_knows. eapply E; eauto.
  - intros j y i Hj Hy H. apply (quiet_old _ (c, MUpd free_ AcqRel (length (fhist s) - 1), false)) in H; [|now apply calm_quiet].
    destruct (Nat.eq_dec c0 c) as [<-|Hne]; [rewrite upd_same in Hj; lia|]. rewrite upd_other in Hj by easy.
    destruct j as [|j].
    + injection Hy as <-. exists (length (map fst (plog s))), c. rewrite map_app. cbn [map fst]. split.
      * apply knows_next. apply Kx. destruct H as (d & f & w & H). now exists d, f, w, false.
      * rewrite nth_snoc. do 2 f_equal. f_equal. lia.
    + replace (S (length (fhist s)) - 2 - S j) with (length (fhist s) - 2 - j) by lia. apply push_keep.
      eapply G; eauto. lia.
Qed.

(** A block is handed out for the first time. *)
Lemma full_bump s L q us dp e : full c0 s L -> calm e ->
  full c0 (Psys (fhist s) (S (issued s)) (links s) q (fseen s) us (upd_ (hold s) (issued s) (HAt c0)) (psent s) dp (plog s ++ [e])) L.
Proof.
  intros [A B C D E G] Q.
  constructor; cbn [fhist issued links at_ fseen useen hold psent dup plog]; unfold pex in *; cbn [plog].
  - now apply calm_all.
  - intros z i H. apply calm_old in H; [|easy]. destruct (Nat.eq_dec z (issued s)) as [->|].
    + exfalso. apply (C (issued s) i); [lia|easy].
    + rewrite upd_other by easy. apply own_keep. now apply B.
  - intros z i Hz H. apply calm_old in H; [|easy]. apply (C z i); [lia|easy].
  - now apply calm_tag.
  - intros y i Hy H. apply calm_old in H; [|easy]. apply keep_knows. eapply E; eauto.
  - intros j y i Hj Hy H. apply push_keep. apply (quiet_old _ e) in H; [|now apply calm_quiet]. eapply G; eauto.
Qed.

Lemma full_give s L q dp c x : full c0 s L -> hold s x = HAt c ->
  full c0 (Psys (fhist s) (issued s) (links s) q (fseen s) (useen s) (upd_ (hold s) x (HSent (psent s))) (S (psent s)) dp
             (plog s ++ [(c, MStore (chan (psent s)) Release 1, false)])) L.
Proof.
  intros [A B C D E G] Hx.
  assert (Q : calm (c, MStore (chan (psent s)) Release 1, false)) by (split; [reflexivity|intros; discriminate]).
  constructor; cbn [fhist issued links at_ fseen useen hold psent dup plog]; unfold pex in *; cbn [plog].
  - now apply calm_all.
  - intros z i H. apply calm_old in H; [|easy]. destruct (Nat.eq_dec z x) as [->|].
    + rewrite upd_same. specialize (B x i H). rewrite Hx in B. exists (length (map fst (plog s))), c. rewrite map_app.
      split; [now apply knows_next|apply nth_snoc].
    + rewrite upd_other by easy. apply own_keep. now apply B.
  - intros z i Hz H. apply calm_old in H; [|easy]. now apply (C z i).
  - now apply calm_tag.
  - intros y i Hy H. apply calm_old in H; [|easy]. apply keep_knows. eapply E; eauto.
  - intros j y i Hj Hy H. apply push_keep. apply (quiet_old _ (c, MStore (chan (psent s)) Release 1, false)) in H; [|now apply calm_quiet].
    eapply G; eauto.
Qed.
Lemma full_take s L q dp c x k : full c0 s L -> hold s x = HSent k ->
  full c0 (Psys (fhist s) (issued s) (links s) q (fseen s) (useen s) (upd_ (hold s) x (HAt c)) (psent s) dp
             (plog s ++ [(c, MRead (chan k) Acquire 1, false)])) L.
Proof.
  intros [A B C D E G] Hx.
  assert (Q : calm (c, MRead (chan k) Acquire 1, false)) by (split; [reflexivity|intros; discriminate]).
  constructor; cbn [fhist issued links at_ fseen useen hold psent dup plog]; unfold pex in *; cbn [plog].
  - now apply calm_all.
  - intros z i H. apply calm_old in H; [|easy]. destruct (Nat.eq_dec z x) as [->|].
    + rewrite upd_same. specialize (B x i H). rewrite Hx in B. destruct B as (j & d & B1 & B2).
      exists (length (map fst (plog s))), (MRead (chan k) Acquire 1). rewrite map_app. split; [apply nth_snoc|]. right.
      eapply mhb_trans; [apply mhb_app; exact B1|]. eapply acquired; [exact B2|]. now left.
    + rewrite upd_other by easy. apply own_keep. now apply B.
  - intros z i Hz H. apply calm_old in H; [|easy]. now apply (C z i).
  - now apply calm_tag.
  - intros y i Hy H. apply calm_old in H; [|easy]. apply keep_knows. eapply E; eauto.
  - intros j y i Hj Hy H. apply push_keep. apply (quiet_old _ (c, MRead (chan k) Acquire 1, false)) in H; [|now apply calm_quiet].
    eapply G; eauto.
Qed.
End Full.

Definition acts_of (c0 : nat) (a : pact) : Prop := match a with PAlloc c => c = c0 | _ => True end.

Section Solo.
Variables (count c0 : nat).

Lemma solo_step s L a : pinv s -> dup s = false -> solo c0 s L -> full c0 s L -> acts_of c0 a ->
  dup (pstep count s a) = false /\ exists L', solo c0 (pstep count s a) L' /\ full c0 (pstep count s a) L'.
Proof.
  intros X D Sx Fx Ok. pose proof X as [Hh _ _ _ Hn Hb]. pose proof Sx as [Sc Sf Sn Ss Sh Sp Sq So].
  destruct s as [h u lk q fs us ho k dp lg].
  cbn [fhist issued links at_ fseen useen hold psent dup plog] in *. subst dp.
  assert (Same : forall q', (forall d x w, q' d = QPut x w -> lk x = w) ->
    match q' c0 with
    | QRead v => v = nth (length h - 1 - fs c0) h None
    | QCas x next => nth (length h - 1 - fs c0) h None = Some x /\ next = lk x
    | _ => True end ->
    (forall d, d <> c0 -> allocating (q' d) = false) ->
    forall us' lg', full c0 (Psys h u lk q' fs us' ho k false lg') L ->
    exists L', solo c0 (Psys h u lk q' fs us' ho k false lg') L' /\ full c0 (Psys h u lk q' fs us' ho k false lg') L').
  { intros q' A B C us' lg' F. exists L. split; [constructor; auto|exact F]. }
  assert (Calm : forall c e, (forall x f w, e <> MCell (mem x f) w) -> calm (c, e, false)) by (split; [reflexivity|easy]).
  assert (Lh : length h = S (length h - 1)) by (destruct h; [easy|simpl; lia]).
  assert (Iss : forall x, ho x <> HNone -> x < u).
  { intros x Hx. destruct (lt_dec x u); [easy|]. destruct (Hn x ltac:(lia)) as [A _]. now apply Hx in A. }
  (* a context loads the head *)
  assert (See : forall c q' n, (c = c0 -> fs c <= n <= length h - 1) ->
    (forall d x w, q' d = QPut x w -> lk x = w) ->
    match q' c0 with
    | QRead v => v = nth (length h - 1 - upd_ fs c n c0) h None
    | QCas x next => nth (length h - 1 - upd_ fs c n c0) h None = Some x /\ next = lk x
    | _ => True end ->
    (forall d, d <> c0 -> allocating (q' d) = false) ->
    exists L', solo c0 (Psys h u lk q' (upd_ fs c n) us ho k false (lg ++ [(c, MRead free_ Acquire n, false)])) L' /\
      full c0 (Psys h u lk q' (upd_ fs c n) us ho k false (lg ++ [(c, MRead free_ Acquire n, false)])) L').
  { intros c q' n Ln A B C. exists L. split.
    - constructor; cbn [fhist issued links at_ fseen useen hold psent dup plog]; auto.
      + destruct (Nat.eq_dec c0 c) as [<-|]; rewrite ?upd_same, ?upd_other by easy; [now apply Ln|easy].
      + intros j Hj. apply Sh. destruct (Nat.eq_dec c0 c) as [<-|]; rewrite ?upd_same, ?upd_other in Hj by easy; [specialize (Ln eq_refl)|]; lia.
    - destruct (Nat.eq_dec c0 c) as [<-|].
      + apply (full_see c0 _ _ _ _ _ _ _ Fx X). now apply Ln.
      + apply (full_ev c0 _ _ _ _ _ _ _ _ Fx); [apply Calm; easy|]. now apply upd_other. }
  destruct a as [c|c x|c spur back|c x f w g|c x|c x]; cbn [pstep acts_of] in *.
  - subst c. destruct (q c0) eqn:Eq; try (split; [reflexivity|exists L; split; [exact Sx|exact Fx]]). split; [reflexivity|].
    apply Same; [| | |apply (full_same c0 _ _ _ _ _ _ _ Fx); reflexivity].
    + intros d x w. destruct (Nat.eq_dec d c0) as [->|]; rewrite ?upd_same, ?upd_other by easy; [easy|apply Sp].
    + now rewrite upd_same.
    + intros d N. rewrite upd_other by easy. now apply So.
  - destruct (q c) eqn:Eq; try (split; [reflexivity|exists L; split; [exact Sx|exact Fx]]).
    destruct (ho x) as [|d|j] eqn:Eh; try (split; [reflexivity|exists L; split; [exact Sx|exact Fx]]).
    destruct (Nat.eqb_spec d c) as [->|]; [|split; [reflexivity|exists L; split; [exact Sx|exact Fx]]]. split; [reflexivity|].
    apply Same; [| | |apply (full_same c0 _ _ _ _ _ _ _ Fx); reflexivity].
    + intros d y w. destruct (Nat.eq_dec d c) as [->|]; rewrite ?upd_same, ?upd_other by easy; [easy|apply Sp].
    + destruct (Nat.eq_dec c0 c) as [->|]; rewrite ?upd_same, ?upd_other by easy; [easy|exact Sq].
    + intros d N. destruct (Nat.eq_dec d c) as [->|]; rewrite ?upd_same, ?upd_other by easy; [easy|now apply So].
  - set (n := Nat.max (fs c) (length h - 1 - back)) in *. set (v := nth (length h - 1 - n) h None) in *.
    set (m := Nat.max (us c) (u - back)) in *.
    destruct (q c) as [| |[x|]|x next| |b|x|x y|x y] eqn:Eq.
    + split; [reflexivity|]. exists L. split; [exact Sx|exact Fx].
    + destruct (Nat.eq_dec c c0) as [->|N]; [|exfalso; specialize (So c N); now rewrite Eq in So].
      split; [reflexivity|]. apply See; [intros _; subst n; lia| | |].
      * intros d x w. destruct (Nat.eq_dec d c0) as [->|]; rewrite ?upd_same, ?upd_other by easy; [easy|apply Sp].
      * rewrite !upd_same. reflexivity.
      * intros d N. rewrite upd_other by easy. now apply So.
    + destruct (Nat.eq_dec c c0) as [->|N]; [|exfalso; specialize (So c N); now rewrite Eq in So].
      split; [reflexivity|]. assert (Ix : hd_error (skipn (length h - 1 - fs c0) L) = Some x).
      { rewrite Eq in Sq. rewrite Sq. symmetry. apply Sh. lia. }
      assert (Jx : In x (skipn (length h - 1 - fs c0) L)).
      { destruct (skipn (length h - 1 - fs c0) L); [discriminate|]. injection Ix as ->. now left. }
      apply skip_in in Ix. destruct (Sf x Ix) as [F1 F2].
      apply Same; [| | |now apply (full_link c0 _ _ _ _ _ Fx)].
      * intros d y w. destruct (Nat.eq_dec d c0) as [->|]; rewrite ?upd_same, ?upd_other by easy; [easy|apply Sp].
      * rewrite upd_same. rewrite Eq in Sq. auto.
      * intros d N. rewrite upd_other by easy. now apply So.
    + destruct (Nat.eq_dec c c0) as [->|N]; [|exfalso; specialize (So c N); now rewrite Eq in So].
      split; [reflexivity|]. apply Same; [| | |apply (full_same c0 _ _ _ _ _ _ _ Fx); reflexivity].
      * intros d y w. destruct (Nat.eq_dec d c0) as [->|]; rewrite ?upd_same, ?upd_other by easy; [easy|apply Sp].
      * now rewrite upd_same.
      * intros d N. rewrite upd_other by easy. now apply So.
    + destruct (Nat.eq_dec c c0) as [->|N]; [|exfalso; specialize (So c N); now rewrite Eq in So].
      rewrite Eq in Sq. destruct Sq as [Q1 ->].
      destruct (spur || negb (eqo v (Some x)) || negb (n =? length h - 1)) eqn:Ec.
      * split; [reflexivity|]. apply See; [intros _; subst n; lia| | |].
        -- intros d z w. destruct (Nat.eq_dec d c0) as [->|]; rewrite ?upd_same, ?upd_other by easy; [easy|apply Sp].
        -- rewrite !upd_same. reflexivity.
        -- intros d N. rewrite upd_other by easy. now apply So.
      * apply orb_false_iff in Ec. destruct Ec as [Ec E3]. apply orb_false_iff in Ec. destruct Ec as [_ E2].
        apply negb_false_iff, Nat.eqb_eq in E3. apply negb_false_iff in E2.
        assert (Ev : nth 0 h None = Some x).
        { subst v. rewrite E3, Nat.sub_diag in E2. destruct (nth 0 h None) as [z|]; [|easy].
          simpl in E2. apply Nat.eqb_eq in E2. now subst. }
        destruct (Sh 0 ltac:(lia)) as [_ H0]. rewrite Ev in H0. simpl in H0.
        destruct L as [|y L]; [easy|]. injection H0 as <-.
        (* the value seen is the current one *)
        assert (K0 : lk x = hd_error L) by apply Sc.
        destruct (Sf x (or_introl eq_refl)) as [F1 F2]. rewrite F1. cbn [is_free negb orb].
        assert (E : u <=? x = false) by (apply Nat.leb_gt; exact F2). rewrite E. split; [reflexivity|].
        exists L. split; [|rewrite E3; apply (full_pop c0 _ _ _ _ _ _ _ Fx X)].
        inversion Sn as [|? ? Nx Nd]; subst.
        constructor; cbn [fhist issued links at_ fseen useen hold psent dup plog].
        -- apply Sc.
        -- intros z Hz. rewrite upd_other by congruence. apply Sf. now right.
        -- exact Nd.
        -- rewrite upd_same. cbn [length]. lia.
        -- rewrite upd_same. cbn [length]. intros j Hj. assert (j = 0) by lia. subst j. split; [lia|]. exact K0.
        -- intros d z w. destruct (Nat.eq_dec d c0) as [->|]; rewrite ?upd_same, ?upd_other by easy; [easy|apply Sp].
        -- now rewrite upd_same.
        -- intros d N. rewrite upd_other by easy. now apply So.
    + destruct (Nat.eq_dec c c0) as [->|N]; [|exfalso; specialize (So c N); now rewrite Eq in So].
      split; [reflexivity|]. apply Same; [| | |apply (full_ev c0 _ _ _ _ _ _ _ _ Fx); [now apply Calm|reflexivity]].
      * intros d y w. destruct (Nat.eq_dec d c0) as [->|]; rewrite ?upd_same, ?upd_other by easy; [easy|apply Sp].
      * now rewrite upd_same.
      * intros d N. rewrite upd_other by easy. now apply So.
    + destruct (Nat.eq_dec c c0) as [->|N]; [|exfalso; specialize (So c N); now rewrite Eq in So].
      assert (A1 : forall p d x w, allocating p = true \/ p = QIdle -> upd_ q c0 p d = QPut x w -> lk x = w).
      { intros p d y w Hp. destruct (Nat.eq_dec d c0) as [->|]; rewrite ?upd_same, ?upd_other by easy; [|apply Sp].
        intros ->. destruct Hp; discriminate. }
      assert (A3 : forall p d, d <> c0 -> allocating (upd_ q c0 p d) = false).
      { intros p d N. rewrite upd_other by easy. now apply So. }
      destruct (b =? count).
      * split; [reflexivity|]. apply Same; [intros d y w; apply A1; auto|now rewrite upd_same|intros d; apply A3|apply (full_same c0 _ _ _ _ _ _ _ Fx); reflexivity].
      * destruct (spur || negb (m =? b) || negb (m =? u)) eqn:Ec.
        -- split; [reflexivity|]. apply Same; [intros d y w; apply A1; auto|now rewrite upd_same|intros d; apply A3|apply (full_ev c0 _ _ _ _ _ _ _ _ Fx); [now apply Calm|reflexivity]].
        -- destruct (Hn u (le_n u)) as [Hu _]. rewrite Hu. cbn [is_free negb orb]. split; [reflexivity|].
           exists L. split; [|apply (full_bump c0 _ _ _ _ _ _ Fx); now apply Calm]. constructor; cbn [fhist issued links at_ fseen useen hold psent dup plog]; auto.
           ++ intros y Hy. destruct (Sf y Hy) as [F1 F2]. rewrite upd_other by lia. split; [easy|lia].
           ++ intros d y w. apply A1. auto.
           ++ now rewrite upd_same.
    + split; [reflexivity|].
      assert (Ln : fs c <= length h - 1 \/ c <> c0) by (destruct (Nat.eq_dec c c0) as [->|]; auto).
      destruct (Nat.eq_dec c c0) as [->|N].
      * apply See; [intros _; subst n; lia| | |].
        -- intros d z w. destruct (Nat.eq_dec d c0) as [->|]; rewrite ?upd_same, ?upd_other by easy; [easy|apply Sp].
        -- now rewrite upd_same.
        -- intros d N. rewrite upd_other by easy. now apply So.
      * exists L. split; [|apply (full_ev c0 _ _ _ _ _ _ _ _ Fx); [now apply Calm|apply upd_other; auto]]. constructor; cbn [fhist issued links at_ fseen useen hold psent dup plog]; rewrite ?(upd_other fs), ?(upd_other q _ _ c0) by auto; auto.
        -- intros d z w. destruct (Nat.eq_dec d c) as [->|]; rewrite ?upd_same, ?upd_other by easy; [easy|apply Sp].
        -- intros d N'. destruct (Nat.eq_dec d c) as [->|]; rewrite ?upd_same, ?upd_other by easy; [easy|now apply So].
    + (* the link is written *)
      assert (Ex : ho x = HAt c) by (apply Hb; now rewrite Eq).
      assert (Nx : ~ In x L) by (intros I; apply Sf in I; destruct I; congruence).
      split; [reflexivity|]. exists L. split; [|apply (full_use c0 _ _ _ _ _ _ _ _ _ Fx); auto; apply Iss; congruence].
      constructor; cbn [fhist issued links at_ fseen useen hold psent dup plog]; auto.
      * now apply chn_upd.
      * intros d z w. destruct (Nat.eq_dec d c) as [->|]; rewrite ?(upd_same q), ?(upd_other q) by easy.
        -- intros [= <- <-]. now rewrite upd_same.
        -- intros H. assert (ho z = HAt d) by (apply Hb; now rewrite H). rewrite upd_other by congruence. eapply Sp; eauto.
      * destruct (Nat.eq_dec c0 c) as [->|]; rewrite ?(upd_same q), ?(upd_other q) by easy; [easy|].
        destruct (q c0) as [| | |z next| | | | |]; auto. destruct Sq as [Q1 ->]. split; [easy|].
        rewrite upd_other; [easy|]. intros ->. apply Nx. apply (skip_in _ (length h - 1 - fs c0)).
        rewrite <- Q1. symmetry. apply Sh. lia.
      * intros d N'. destruct (Nat.eq_dec d c) as [->|]; rewrite ?upd_same, ?upd_other by easy; [easy|now apply So].
    + assert (Ex : ho x = HAt c) by (apply Hb; now rewrite Eq).
      assert (Nx : ~ In x L) by (intros I; apply Sf in I; destruct I; congruence).
      assert (El : lk x = y) by (eapply Sp; eauto).
      destruct (spur || negb (eqo v y) || negb (n =? length h - 1)) eqn:Ec.
      * split; [reflexivity|]. destruct (Nat.eq_dec c c0) as [->|N].
        -- apply See; [intros _; subst n; lia| | |].
           ++ intros d z w. destruct (Nat.eq_dec d c0) as [->|]; rewrite ?upd_same, ?upd_other by easy; [easy|apply Sp].
           ++ now rewrite upd_same.
           ++ intros d N. rewrite upd_other by easy. now apply So.
        -- exists L. split; [|apply (full_ev c0 _ _ _ _ _ _ _ _ Fx); [now apply Calm|apply upd_other; auto]]. constructor; cbn [fhist issued links at_ fseen useen hold psent dup plog]; rewrite ?(upd_other fs), ?(upd_other q _ _ c0) by auto; auto.
           ++ intros d z w. destruct (Nat.eq_dec d c) as [->|]; rewrite ?upd_same, ?upd_other by easy; [easy|apply Sp].
           ++ intros d N'. destruct (Nat.eq_dec d c) as [->|]; rewrite ?upd_same, ?upd_other by easy; [easy|now apply So].
      * apply orb_false_iff in Ec. destruct Ec as [Ec E3]. apply orb_false_iff in Ec. destruct Ec as [_ E2].
        apply negb_false_iff, Nat.eqb_eq in E3. apply negb_false_iff in E2.
        assert (Ev : nth 0 h None = y).
        { subst v. rewrite E3, Nat.sub_diag in E2. destruct (nth 0 h None) as [z|], y as [z'|]; try easy.
          simpl in E2. apply Nat.eqb_eq in E2. now subst. }
        destruct (Sh 0 ltac:(lia)) as [_ H0]. rewrite Ev in H0. cbn [skipn] in H0.
        split; [reflexivity|]. exists (x :: L). split; [|rewrite E3; now apply (full_push c0 _ _ _ _ _ _ _ Fx X)].
        assert (Hx : x < u).
        { destruct (lt_dec x u); [easy|]. destruct (Hn x ltac:(lia)) as [A _]. congruence. }
        constructor; cbn [fhist issued links at_ fseen useen hold psent dup plog].
        -- cbn. split; [congruence|easy].
        -- intros z [<-|Hz]; [now rewrite upd_same|]. rewrite upd_other by congruence. now apply Sf.
        -- now constructor.
        -- destruct (Nat.eq_dec c0 c) as [->|]; rewrite ?upd_same, ?upd_other by easy; cbn [length]; lia.
        -- intros j Hj. assert (Hj' : j <= S (length h - 1) - fs c0).
           { destruct (Nat.eq_dec c0 c) as [->|]; rewrite ?upd_same, ?upd_other in Hj by easy; cbn [length] in Hj; lia. }
           destruct j as [|j]; [split; [lia|reflexivity]|]. cbn [nth skipn length].
           destruct (Sh j ltac:(lia)). split; [lia|easy].
        -- intros d z w. destruct (Nat.eq_dec d c) as [->|]; rewrite ?upd_same, ?upd_other by easy; [easy|apply Sp].
        -- destruct (Nat.eq_dec c0 c) as [->|Hne]; rewrite ?upd_same, ?upd_other by easy; [easy|].
           assert (En : length (Some x :: h) - 1 - fs c0 = S (length h - 1 - fs c0)) by (cbn [length]; lia).
           rewrite En. exact Sq.
        -- intros d N'. destruct (Nat.eq_dec d c) as [->|]; rewrite ?upd_same, ?upd_other by easy; [easy|now apply So].
  - destruct (q c) eqn:Eq; try (split; [reflexivity|exists L; split; [exact Sx|exact Fx]]).
    destruct (ho x) as [|d|j] eqn:Ex; try (split; [reflexivity|exists L; split; [exact Sx|exact Fx]]).
    destruct (Nat.eqb_spec d c) as [->|]; [|split; [reflexivity|exists L; split; [exact Sx|exact Fx]]].
    assert (Nx : ~ In x L) by (intros I; apply Sf in I; destruct I; congruence).
    split; [reflexivity|]. destruct (w && (f =? 0)); [|apply Same; auto; apply (full_use c0 _ _ _ _ _ _ _ _ _ Fx); auto; apply Iss; congruence].
    exists L. split; [|apply (full_use c0 _ _ _ _ _ _ _ _ _ Fx); auto; apply Iss; congruence]. constructor; cbn [fhist issued links at_ fseen useen hold psent dup plog]; auto.
    + now apply chn_upd.
    + intros d z y H. assert (ho z = HAt d) by (apply Hb; now rewrite H). rewrite upd_other; [eapply Sp; eauto|].
      intros ->. assert (d = c) by congruence. subst d. congruence.
    + destruct (q c0) as [| | |z next| | | | |]; auto. destruct Sq as [Q1 ->]. split; [easy|].
      rewrite upd_other; [easy|]. intros ->. apply Nx. apply (skip_in _ (length h - 1 - fs c0)).
      rewrite <- Q1. symmetry. apply Sh. lia.
  - destruct (q c) eqn:Eq; try (split; [reflexivity|exists L; split; [exact Sx|exact Fx]]).
    destruct (ho x) as [|d|j] eqn:Ex; try (split; [reflexivity|exists L; split; [exact Sx|exact Fx]]).
    destruct (Nat.eqb_spec d c) as [->|]; [|split; [reflexivity|exists L; split; [exact Sx|exact Fx]]].
    split; [reflexivity|]. exists L. split; [|now apply (full_give c0 _ _ _ _ _ _ Fx)]. constructor; cbn [fhist issued links at_ fseen useen hold psent dup plog]; auto.
    intros z Hz. rewrite upd_other; [now apply Sf|]. intros ->. apply Sf in Hz. destruct Hz. congruence.
  - destruct (q c) eqn:Eq; try (split; [reflexivity|exists L; split; [exact Sx|exact Fx]]).
    destruct (ho x) as [|d|j] eqn:Ex; try (split; [reflexivity|exists L; split; [exact Sx|exact Fx]]).
    split; [reflexivity|]. exists L. split; [|now apply (full_take c0 _ _ _ _ _ _ _ Fx)]. constructor; cbn [fhist issued links at_ fseen useen hold psent dup plog]; auto.
    intros z Hz. rewrite upd_other; [now apply Sf|]. intros ->. apply Sf in Hz. destruct Hz. congruence.
Qed.

Theorem solo_run l : Forall (acts_of c0) l -> dup (prun count l) = false /\ exists L, solo c0 (prun count l) L /\ full c0 (prun count l) L.
Proof.
  unfold prun. induction l as [|a l IH] using rev_ind; intros H.
  - split; [reflexivity|]. exists []. split; constructor; cbn; try easy; try lia.
    + constructor.
    + intros k Hk. assert (k = 0) by lia. subst. split; [lia|reflexivity].
    + intros x i j _ Hi. apply any_lt in Hi. simpl in Hi. lia.
    + intros x i _ Hi. apply any_lt in Hi. simpl in Hi. lia.
    + intros i c a E. now destruct i.
  - apply Forall_app in H. destruct H as [H1 H2]. inversion H2; subst. destruct (IH H1) as (D & L & Sx & Fx).
    rewrite fold_left_app. cbn [fold_left]. eapply solo_step; eauto. now apply pinv_run.
Qed.

End Solo.
