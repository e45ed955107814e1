(** The invariant behind C85. *)
Require Import NArith List Bool Arith Lia.
From Verif Require Import Spsc WeakSpec RaceSpec Weak RaceProofs WeakList.
Import ListNotations.
Open Scope nat_scope.

(** [up x]: the index in the log of the update that pushes [x], and its number; [own x]: the
    context that pushes it. *)
Section Inv.
Variable up : nat -> option (nat * nat).
Variable own : nat -> nat.

Definition below (v : option nat) (k : nat) : Prop :=
  match v with Some x => exists q u, up x = Some (q, u) /\ u < k | None => True end.
(** Everything pushed with a number below [k] happens before what context 0 does from [i] on. *)
Definition acquired (lg : list (nat * maccess * bool)) (x i : nat) : Prop :=
  exists r m q u, r < i /\ nth_error lg r = Some (0, MRead head Acquire m, false) /\ up x = Some (q, u) /\ u < m /\
    forall k, k < m -> exists p c o, nth_error lg p = Some (c, MUpd head o k, false).
Definition here (lg : list (nat * maccess * bool)) (x : nat) : Prop := acquired lg x (length lg).

Definition pnode (p : pst) : option nat :=
  match p with PIdle => None | PVal x | PLoad x | PNext x _ | PCas x _ => Some x end.

Definition lower (y : option nat) (x : nat) : Prop :=
  match y with Some y => exists q u, up x = Some (q, u) /\ below (Some y) u | None => True end.
Definition above (p : option (nat * bool)) (x : nat) : Prop :=
  match p with Some (p, _) => exists q u, up p = Some (q, u) /\ below (Some x) u | None => True end.
Definition front (lg : list (nat * maccess * bool)) (p : option (nat * bool)) : Prop :=
  match p with Some (p, false) => here lg p | _ => True end.
Definition dinv (lg : list (nat * maccess * bool)) (d : dst) : Prop :=
  match d with
  | DIdle => True
  | DNext p x => here lg x /\ front lg p /\ above p x
  | DFilter p x y => here lg x /\ front lg p /\ above p x /\ lower y x
  | DHead x y | DCas x y => here lg x /\ lower y x
  | DWalk p x y => here lg x /\ lower y x /\ match p with Some p => up p <> None | None => True end
  | DSet p t x y => here lg x /\ front lg (Some (p, t)) /\ above (Some (p, t)) x /\ lower y x
  | DFree p x y => here lg x /\ front lg p /\ above p x /\ lower y x
  end.

(** An access of the log, at index [i]. *)
Definition entry (lg : list (nat * maccess * bool)) (k i : nat) (e : nat * maccess * bool) : Prop :=
  let '(c, a, t) := e in
  match a with
  | MRead _ _ _ | MUpd _ _ _ => block a = 0
  | MStore _ _ _ => False
  | MCell l w => exists x, x < k /\ (l = next_of x \/ l = value_of x) /\
      (c = own x /\ t = false /\ w = true /\ match up x with Some (q, _) => i < q | None => True end \/
       c = 0 /\ t = true /\ l = next_of x \/
       c = 0 /\ t = false /\ acquired lg x i)
  | MFree b => exists x, b = S x /\ x < k /\ c = 0 /\ t = false /\ acquired lg x i
  end.

Record inv (s : lsys) : Prop := {
  i_nonempty : 0 < length (hist s);
  i_entry : forall i e, nth_error (llog s) i = Some e -> entry (llog s) (nodes s) i e;
  i_up : forall x q u, up x = Some (q, u) ->
    x < nodes s /\ u < length (hist s) - 1 /\ nth_error (llog s) q = Some (own x, MUpd head Release u, false);
  i_upd : forall n, n < length (hist s) - 1 -> exists q c o, nth_error (llog s) q = Some (c, MUpd head o n, false);
  i_val : forall n, n < length (hist s) -> below (lvalue s n) n;
  i_next : forall x q u, up x = Some (q, u) -> below (nexts s x) u;
  i_push : forall c x, pnode (push s c) = Some x -> x < nodes s /\ own x = c /\ up x = None;
  i_one : forall c v x, push s c = PCas x v -> nexts s x = v;
  i_seen : forall c, pseen s c < length (hist s);
  i_drain : dinv (llog s) (drain s)
}.
End Inv.

Lemma below_le up v j k : j <= k -> below up v j -> below up v k.
Proof. destruct v; cbn; auto. intros L (q & u & E & H). exists q, u. split; auto. lia. Qed.
Lemma acquired_le up lg x i j : i <= j -> acquired up lg x i -> acquired up lg x j.
Proof. intros L (r & m & q & u & H & K). exists r, m, q, u. split; auto. lia. Qed.
Lemma acquired_app up lg l x i : acquired up lg x i -> acquired up (lg ++ l) x i.
Proof.
  intros (r & m & q & u & H & E & U & M & K). exists r, m, q, u. split; auto.
  split; [rewrite nth_error_app1; auto; eapply some_lt; eauto|]. split; auto. split; auto.
  intros k L. destruct (K k L) as (p & c & o & P). exists p, c, o. rewrite nth_error_app1; auto. eapply some_lt; eauto.
Qed.
Lemma here_app up lg e x : here up lg x -> here up (lg ++ [e]) x.
Proof. intros H. unfold here. rewrite app_length. eapply acquired_le; [|apply acquired_app, H]. lia. Qed.
Lemma front_app up lg e p : front up lg p -> front up (lg ++ [e]) p.
Proof. destruct p as [[p []]|]; cbn; auto using here_app. Qed.
Lemma dinv_app up lg e d : dinv up lg d -> dinv up (lg ++ [e]) d.
Proof.
  pose proof (here_app up lg e) as A. pose proof (front_app up lg e) as B.
  destruct d; cbn -[lower above front here]; intuition auto.
Qed.
Lemma entry_app up own lg e k i x : entry up own lg k i x -> entry up own (lg ++ [e]) k i x.
Proof.
  destruct x as [[c a] t]; destruct a; cbn; auto.
  - intros (x & L & E & H). exists x. split; auto. split; auto. destruct H as [H|[H|(A & B & H)]]; auto.
    right. right. repeat split; auto. now apply acquired_app.
  - intros (x & E & L & A & B & H). exists x. repeat split; auto. now apply acquired_app.
Qed.
Lemma entry_more up own lg k k' i x : k <= k' -> entry up own lg k i x -> entry up own lg k' i x.
Proof.
  destruct x as [[c a] t]; destruct a; cbn; auto; intros M.
  - intros (x & L & E & H). exists x. split; [lia|auto].
  - intros (x & E & L & H). exists x. split; [auto|split; [lia|auto]].
Qed.

Lemma eqo_eq a b : eqo a b = true -> a = b.
Proof. destruct a, b; cbn; try discriminate; auto. intros E. apply Nat.eqb_eq in E. congruence. Qed.

Ltac updc c c' := unfold upd_; destruct (Nat.eqb_spec c' c) as [->|?].

(** Adding an access that changes neither the head nor the nodes' push numbers. *)
Lemma nth_snoc {A} (l : list A) x i y : nth_error (l ++ [x]) i = Some y -> nth_error l i = Some y \/ i = length l /\ y = x.
Proof.
  intros E. destruct (Nat.lt_ge_cases i (length l)) as [L|L]; [rewrite nth_error_app1 in E by auto; auto|].
  rewrite nth_error_app2 in E by auto. destruct (i - length l) as [|d] eqn:D; cbn in E; [|destruct d; discriminate].
  right. split; [lia|congruence].
Qed.
Lemma entries_snoc up own lg k e :
  (forall i x, nth_error lg i = Some x -> entry up own lg k i x) -> entry up own (lg ++ [e]) k (length lg) e ->
  forall i x, nth_error (lg ++ [e]) i = Some x -> entry up own (lg ++ [e]) k i x.
Proof. intros H E i x N. apply nth_snoc in N as [N|(-> & ->)]; auto. apply entry_app, H, N. Qed.

Lemma lpick_lt s c back : pseen s c < length (hist s) -> 0 < length (hist s) -> lpick s c back < length (hist s).
Proof. unfold lpick. lia. Qed.

Lemma quiet up own h k nx pu se dr lg nx' pu' se' dr' e :
  inv up own (Lsys h k nx pu se dr lg) -> entry up own (lg ++ [e]) k (length lg) e ->
  (forall x q u, up x = Some (q, u) -> below up (nx' x) u) ->
  (forall c x, pnode (pu' c) = Some x -> x < k /\ own x = c /\ up x = None) ->
  (forall c v x, pu' c = PCas x v -> nx' x = v) ->
  (forall c, se' c < length h) -> dinv up (lg ++ [e]) dr' ->
  inv up own (Lsys h k nx' pu' se' dr' (lg ++ [e])).
Proof.
  intros [] E H1 H2 H3 H4 H5. cbn in *. constructor; cbn; auto.
  - now apply entries_snoc.
  - intros x q u U. destruct (i_up0 _ _ _ U) as (A & B & C). repeat split; auto. rewrite nth_error_app1; auto. eapply some_lt; eauto.
  - intros n L. destruct (i_upd0 n L) as (q & c & o & N). exists q, c, o. rewrite nth_error_app1; auto. eapply some_lt; eauto.
Qed.

Lemma lvalue_cons v h k nx pu se dr lg k' nx' pu' se' dr' lg' n :
  n < length h -> lvalue (Lsys (v :: h) k nx pu se dr lg) n = lvalue (Lsys h k' nx' pu' se' dr' lg') n.
Proof. intros L. unfold lvalue. cbn [hist length]. replace (S (length h) - 1 - n) with (S (length h - 1 - n)) by lia. reflexivity. Qed.
Lemma lvalue_top v h k nx pu se dr lg : lvalue (Lsys (v :: h) k nx pu se dr lg) (length h) = v.
Proof. unfold lvalue. cbn [hist length]. replace (S (length h) - 1 - length h) with 0 by lia. reflexivity. Qed.

(** A push succeeds: the node gets its number. *)
Section Grow.
Variables (up : nat -> option (nat * nat)) (x q n : nat).
Hypothesis new : up x = None.
Let up' := upd_ up x (Some (q, n)).
Lemma up_old y p : up y = Some p -> up' y = Some p.
Proof. intros E. unfold up', upd_. destruct (Nat.eqb_spec y x); congruence. Qed.
Lemma below_grow v j : below up v j -> below up' v j.
Proof. destruct v; cbn; auto. intros (a & u & E & L). exists a, u. split; auto. now apply up_old. Qed.
Lemma acquired_grow lg y i : acquired up lg y i -> acquired up' lg y i.
Proof. intros (r & m & a & u & L & E & U & K). exists r, m, a, u. split; auto. split; auto. split; [now apply up_old|auto]. Qed.
Lemma lower_grow y z : lower up y z -> lower up' y z.
Proof. destruct y; cbn -[below]; auto. intros (a & u & E & H). exists a, u. split; [now apply up_old|now apply below_grow]. Qed.
Lemma above_grow y z : above up y z -> above up' y z.
Proof. destruct y as [[y t]|]; cbn -[below]; auto. intros (a & u & E & H). exists a, u. split; [now apply up_old|now apply below_grow]. Qed.
Lemma dinv_grow lg d : dinv up lg d -> dinv up' lg d.
Proof.
  assert (A : forall y, here up lg y -> here up' lg y) by (intros; now apply acquired_grow).
  assert (C : forall p, front up lg p -> front up' lg p) by (intros [[p []]|]; cbn; auto).
  pose proof lower_grow as L. pose proof above_grow as B.
  destruct d; cbn -[lower above front here]; intuition auto.
  destruct p as [p|]; auto. destruct (up p) eqn:F; [|congruence]. apply up_old in F. congruence.
Qed.
Lemma entry_grow own lg k i e : i < q -> entry up own lg k i e -> entry up' own lg k i e.
Proof.
  intros L. destruct e as [[c a] t]; destruct a; cbn; auto.
  - intros (y & K & E & H). exists y. split; auto. split; auto. destruct H as [(A & B & W & C)|[H|(A & B & C)]]; auto.
    + left. repeat split; auto. unfold up', upd_. destruct (Nat.eqb_spec y x) as [->|]; auto.
    + right. right. repeat split; auto. now apply acquired_grow.
  - intros (y & E & K & A & B & C). exists y. repeat split; auto. now apply acquired_grow.
Qed.
End Grow.

Lemma grow_push up own h k nx pu se dr lg c x v :
  inv up own (Lsys h k nx pu se dr lg) -> pu c = PCas x v -> nth 0 h None = v ->
  inv (upd_ up x (Some (length lg, length h - 1))) own
    (Lsys (Some x :: h) k nx (upd_ pu c PIdle) (upd_ se c (S (length h - 1))) dr (lg ++ [(c, MUpd head Release (length h - 1), false)])).
Proof.
  intros I P T. pose proof (i_push _ _ _ I c x) as Px. cbn in Px. rewrite P in Px. destruct (Px eq_refl) as (K & O & U).
  pose proof (i_one _ _ _ I _ _ _ P) as X. destruct I. cbn in *.
  assert (V : below up v (length h - 1)).
  { specialize (i_val0 (length h - 1) ltac:(lia)). unfold lvalue in i_val0. cbn in i_val0.
    replace (length h - 1 - (length h - 1)) with 0 in i_val0 by lia. now rewrite T in i_val0. }
  constructor; cbn [hist nodes nexts push pseen drain llog length].
  - lia.
  - intros i e N. apply nth_snoc in N as [N|(-> & ->)].
    + apply entry_app, entry_grow; auto; eapply some_lt; eauto.
    + reflexivity.
  - intros y q u. unfold upd_ at 1. destruct (Nat.eqb_spec y x) as [->|N].
    + intros [= <- <-]. repeat split; auto; [lia|]. rewrite nth_error_app2, Nat.sub_diag by auto. cbn. now rewrite O.
    + intros E. destruct (i_up0 _ _ _ E) as (A & B & C). repeat split; auto; [lia|]. rewrite nth_error_app1; auto. eapply some_lt; eauto.
  - intros m L. destruct (Nat.eq_dec m (length h - 1)) as [->|N].
    + exists (length lg), c, Release. now rewrite nth_error_app2, Nat.sub_diag by auto.
    + destruct (i_upd0 m ltac:(lia)) as (q & d & o & E). exists q, d, o. rewrite nth_error_app1; auto. eapply some_lt; eauto.
  - intros m L. destruct (Nat.eq_dec m (length h)) as [->|N].
    + rewrite lvalue_top. exists (length lg), (length h - 1). unfold upd_. rewrite Nat.eqb_refl. split; auto. lia.
    + rewrite (lvalue_cons _ _ _ _ _ _ _ _ k nx pu se dr lg) by lia. apply below_grow; auto. apply i_val0. lia.
  - intros y q u. unfold upd_ at 1. destruct (Nat.eqb_spec y x) as [->|N].
    + intros [= <- <-]. rewrite X. now apply below_grow.
    + intros E. apply below_grow; auto. eapply i_next0; eauto.
  - intros d y. unfold upd_ at 1. destruct (Nat.eqb_spec d c) as [->|N]; [discriminate|].
    intros E. destruct (i_push0 _ _ E) as (A & B & C). repeat split; auto. unfold upd_. destruct (Nat.eqb_spec y x); congruence.
  - intros d w y. unfold upd_. destruct (Nat.eqb_spec d c) as [->|N]; [discriminate|]. apply i_one0.
  - intros d. unfold upd_. destruct (Nat.eqb_spec d c) as [->|N]; [lia|]. specialize (i_seen0 d). lia.
  - apply dinv_app, dinv_grow; auto.
Qed.

Lemma grow_cut up own h k nx pu se dr lg x y :
  inv up own (Lsys h k nx pu se dr lg) -> dr = DCas x y -> nth 0 h None = Some x ->
  inv up own (Lsys (y :: h) k nx pu (upd_ se 0 (S (length h - 1))) (DFree None x y) (lg ++ [(0, MUpd head Relaxed (length h - 1), false)])).
Proof.
  intros I -> T. destruct I. cbn in *. destruct i_drain0 as (Hx & Ly).
  assert (V : below up (Some x) (length h - 1)).
  { specialize (i_val0 (length h - 1) ltac:(lia)). unfold lvalue in i_val0. cbn in i_val0.
    replace (length h - 1 - (length h - 1)) with 0 in i_val0 by lia. now rewrite T in i_val0. }
  constructor; cbn [hist nodes nexts push pseen drain llog length].
  - lia.
  - apply entries_snoc; auto. reflexivity.
  - intros z q u E. destruct (i_up0 _ _ _ E) as (A & B & C). repeat split; auto; [lia|]. rewrite nth_error_app1; auto. eapply some_lt; eauto.
  - intros m L. destruct (Nat.eq_dec m (length h - 1)) as [->|N].
    + exists (length lg), 0, Relaxed. now rewrite nth_error_app2, Nat.sub_diag by auto.
    + destruct (i_upd0 m ltac:(lia)) as (q & d & o & E). exists q, d, o. rewrite nth_error_app1; auto. eapply some_lt; eauto.
  - intros m L. destruct (Nat.eq_dec m (length h)) as [->|N].
    + rewrite lvalue_top. destruct y as [y|]; cbn; auto. destruct Ly as (q & u & E & q' & u' & E' & L').
      destruct V as (q2 & u2 & E2 & L2). exists q', u'. split; auto. rewrite E in E2. injection E2 as -> ->. lia.
    + rewrite (lvalue_cons _ _ _ _ _ _ _ _ k nx pu se (DCas x y) lg) by lia. apply i_val0. lia.
  - auto.
  - auto.
  - auto.
  - intros d. unfold upd_. destruct (Nat.eqb_spec d 0) as [->|N]; [lia|]. specialize (i_seen0 d). lia.
  - cbn. repeat split; auto. now apply here_app.
Qed.

Lemma lpick_top s c back : 0 < length (hist s) -> lpick s c back = length (hist s) - 1 -> lvalue s (lpick s c back) = nth 0 (hist s) None.
Proof. intros L E. unfold lvalue. rewrite E. now replace (length (hist s) - 1 - (length (hist s) - 1)) with 0 by lia. Qed.

Lemma inv0 : inv (fun _ => None) (fun _ => 0) lsys0.
Proof.
  constructor; cbn; try lia; try discriminate; auto.
  all: intros [|i]; intros; first [discriminate|exact I|lia].
Qed.

Lemma inv_fresh up own h k nx pu se dr lg c :
  inv up own (Lsys h k nx pu se dr lg) -> inv up (upd_ own k c) (Lsys h (S k) nx (upd_ pu c (PVal k)) se dr lg).
Proof.
  intros []. cbn in *.
  assert (K : forall x p, up x = Some p -> x <> k) by (intros x [q u] E; destruct (i_up0 _ _ _ E); lia).
  assert (O : forall x, x <> k -> upd_ own k c x = own x) by (intros x N; unfold upd_; destruct (Nat.eqb_spec x k); congruence).
  constructor; cbn; auto.
  - intros i e N. specialize (i_entry0 i e N). apply (entry_more _ _ _ k (S k)); [lia|].
    destruct e as [[d a] t]; destruct a; cbn in *; auto.
    destruct i_entry0 as (x & L & E & H). exists x. split; auto. split; auto. rewrite O by lia. exact H.
  - intros x q u E. rewrite O by eauto. destruct (i_up0 _ _ _ E) as (A & B). split; auto.
  - intros d x. updc c d; cbn.
    + intros [= <-]. repeat split; [lia|now rewrite Nat.eqb_refl|]. destruct (up k) as [p|] eqn:E; auto. now apply K in E.
    + intros E. destruct (i_push0 _ _ E) as (A & B & C). repeat split; auto. destruct (Nat.eqb_spec x k); [lia|auto].
  - intros d v x. updc c d; [discriminate|]. eauto.
Qed.

Lemma below_some up v j : below up v j -> forall x, v = Some x -> up x <> None.
Proof. intros H x ->. destruct H as (q & u & E & _). congruence. Qed.

Lemma inv_step up own s a : inv up own s -> exists up' own', inv up' own' (lstep s a).
Proof.
  intros I. destruct s as [h k nx pu se dr lg]. pose proof I as [I1 I2 I3 I4 I5 I6 I7 I8 I9 I10]. cbn [hist nodes nexts push pseen drain llog] in *.
  destruct a as [c|c spur back|back|b spur back]; cbn [lstep].
  - destruct (pu c); try (now exists up, own). exists up, (upd_ own k c). now apply inv_fresh.
  - set (s := Lsys h k nx pu se dr lg) in *. set (n := lpick s c back). assert (Ln : n < length h) by (apply (lpick_lt s); [apply I9|apply I1]).
    destruct (pu c) as [|x|x|x v|x v] eqn:P; [now exists up, own| | | |].
    + exists up, own. specialize (I7 c x) as Px. rewrite P in Px. destruct (Px eq_refl) as (K & O & U). eapply quiet; eauto.
      * cbn. exists x. split; auto. split; [now right|]. left. rewrite U. auto.
      * intros d y. updc c d; [|apply I7]. intros E. apply I7. now rewrite P.
      * intros d w y. updc c d; [discriminate|apply I8].
      * now apply dinv_app.
    + exists up, own. eapply quiet; eauto.
      * cbn. reflexivity.
      * intros d y. updc c d; [|apply I7]. intros E. apply I7. now rewrite P.
      * intros d w y. updc c d; [discriminate|apply I8].
      * intros d. updc c d; [exact Ln|apply I9].
      * now apply dinv_app.
    + exists up, own. specialize (I7 c x) as Px. rewrite P in Px. destruct (Px eq_refl) as (K & O & U). eapply quiet; eauto.
      * cbn. exists x. split; auto. split; [now left|]. left. rewrite U. auto.
      * intros y q u E. updc x y; [congruence|eauto].
      * intros d y. updc c d; [|apply I7]. intros E. apply I7. now rewrite P.
      * intros d w y. unfold upd_ at 1. destruct (Nat.eqb_spec d c) as [->|N].
        -- intros [= <- <-]. unfold upd_. now rewrite Nat.eqb_refl.
        -- intros E. specialize (I7 d y) as Py. rewrite E in Py. destruct (Py eq_refl) as (_ & Oy & _). updc x y; [congruence|eauto].
      * now apply dinv_app.
    + destruct (_ || _ || _) eqn:F.
      * exists up, own. eapply quiet; eauto.
        -- cbn. reflexivity.
        -- intros d y. updc c d; [|apply I7]. intros E. apply I7. now rewrite P.
        -- intros d w y. updc c d; [discriminate|apply I8].
        -- intros d. updc c d; [exact Ln|apply I9].
        -- now apply dinv_app.
      * rewrite !orb_false_iff, !negb_false_iff, Nat.eqb_eq in F. destruct F as ((_ & F) & G). apply eqo_eq in F.
        exists (upd_ up x (Some (length lg, length h - 1))), own. rewrite G. apply (grow_push _ _ _ _ _ _ _ _ _ _ _ v); auto.
        rewrite <- F. symmetry. now apply (lpick_top s).
  - set (s := Lsys h k nx pu se dr lg) in *. set (n := lpick s 0 back). assert (Ln : n < length h) by (apply (lpick_lt s); [apply I9|apply I1]).
    destruct dr; try (now exists up, own). exists up, own. eapply quiet; eauto.
    + cbn. reflexivity.
    + intros d. updc 0 d; [exact Ln|apply I9].
    + specialize (I5 n Ln). unfold after_. destruct (lvalue s n) as [x|]; cbn; auto. split; auto. destruct I5 as (q & u & E & L).
      exists (length lg), n, q, u. rewrite app_length, nth_error_app2, Nat.sub_diag by auto. cbn. repeat split; auto; [lia|].
      intros j J. change (j < n) in J. destruct (I4 j ltac:(lia)) as (p & c & o & P). exists p, c, o. rewrite nth_error_app1; auto. eapply some_lt; eauto.
  - set (s := Lsys h k nx pu se dr lg) in *. set (n := lpick s 0 back). assert (Ln : n < length h) by (apply (lpick_lt s); [apply I9|apply I1]).
    assert (H : forall y, here up lg y -> forall e, acquired up (lg ++ [e]) y (length lg)) by (intros; now apply acquired_app).
    assert (K : forall y, here up lg y -> y < k) by (intros y (r & m & q & u & _ & _ & E & _); now destruct (I3 _ _ _ E)).
    assert (L : forall x, here up lg x -> lower up (nx x) x).
    { intros x (r & m & q & u & _ & _ & E & _). specialize (I6 _ _ _ E). destruct (nx x); cbn -[below]; eauto. }
    assert (N : forall x y e, here up lg x -> lower up y x -> match y with Some y => here up (lg ++ [e]) y | None => True end).
    { intros x [y|] e (r & m & q & u & A & B & E & C & D); cbn; auto. intros (q' & u' & E' & q2 & u2 & E2 & L2). rewrite E in E'. injection E' as <- <-.
      apply here_app. exists r, m, q2, u2. repeat split; auto; lia. }
    assert (W : match lvalue s n with Some p => up p <> None | None => True end).
    { specialize (I5 n Ln). destruct (lvalue s n) as [p|]; auto. now apply (below_some _ _ _ I5). }
    assert (T : forall p x y, above up p x -> lower up y x -> match y with Some y => above up p y | None => True end).
    { intros [[p t]|] x [y|]; cbn -[below]; auto. intros (q & u & E & q1 & u1 & E1 & L1) (q2 & u2 & E2 & B). rewrite E1 in E2. injection E2 as <- <-.
      exists q, u. split; auto. eapply below_le; [|exact B]. lia. }
    assert (A : forall e p y x, front up lg p -> above up p x -> lower up y x -> here up lg x -> dinv up (lg ++ [e]) (after_ p y)).
    { intros e p y x Fp Ap Ly Hx. apply (front_app _ _ e) in Fp. specialize (N x y e Hx Ly). specialize (T p x y Ap Ly). destruct y; cbn; auto. }
    assert (Q : forall e x y, here up lg x -> lower up y x -> lvalue s n = lvalue s n ->
      dinv up (lg ++ [e]) (if eqo (lvalue s n) (Some x) then DCas x y else DWalk (lvalue s n) x y)).
    { intros e x y Hx Ly _. destruct (eqo _ _); cbn -[lower]; auto using here_app. }
    destruct dr as [|p x|p x y|x y|x y|p x y|p t x y|p x y]; cbn -[lower above front] in I10; [now exists up, own|..].
    + destruct I10 as (Hx & Fp & Ap). exists up, own. eapply quiet; eauto.
      * cbn. exists x. split; auto. split; [now left|]. right. right. auto.
      * cbn -[lower above front]. auto using here_app, front_app.
    + destruct I10 as (Hx & Fp & Ap & Ly). exists up, own. eapply quiet; eauto.
      * cbn. exists x. split; auto. split; [now right|]. right. right. auto.
      * destruct b; [destruct p as [[p t]|]; cbn -[lower above front]; auto using here_app, front_app|].
        specialize (N x y (0, MCell (value_of x) true, false) Hx Ly). destruct y; cbn -[here]; auto using here_app.
    + destruct I10 as (Hx & Ly). exists up, own. eapply quiet; eauto.
      * cbn. reflexivity.
      * intros d. updc 0 d; [exact Ln|apply I9].
    + destruct I10 as (Hx & Ly). destruct (_ || _ || _) eqn:F.
      * exists up, own. eapply quiet; eauto.
        -- cbn. reflexivity.
        -- intros d. updc 0 d; [exact Ln|apply I9].
      * rewrite !orb_false_iff, !negb_false_iff, Nat.eqb_eq in F. destruct F as ((_ & F) & G). apply eqo_eq in F.
        exists up, own. rewrite G. apply (grow_cut _ _ _ _ _ _ _ (DCas x y)); auto. rewrite <- F. symmetry. now apply (lpick_top s).
    + destruct p as [p|]; [|now exists up, own]. destruct I10 as (Hx & Ly & Up). destruct (up p) as [[q u]|] eqn:Ep; [|congruence].
      destruct (I3 _ _ _ Ep) as (Kp & _). specialize (I6 _ _ _ Ep) as Bp. exists up, own. eapply quiet; eauto.
      * cbn. exists p. split; auto. split; [now left|]. right. left. auto.
      * destruct (eqo (nx p) (Some x)) eqn:E; cbn -[lower above front].
        -- apply eqo_eq in E. split; [now apply here_app|]. split; [exact Logic.I|]. split; auto. cbn -[below]. rewrite E in Bp. exists q, u. auto.
        -- split; [now apply here_app|]. split; auto. destruct (nx p) as [z|]; auto. now apply (below_some _ _ _ Bp).
    + destruct I10 as (Hx & Fp & Ap & Ly). pose proof Ap as (q & u & Ep & Bx). destruct (I3 _ _ _ Ep) as (Kp & _). exists up, own. eapply quiet; eauto.
      * cbn. exists p. split; auto. split; [now left|]. right. destruct t; [left|right]; auto.
      * intros z q' u' E. updc p z; [|eauto]. rewrite Ep in E. injection E as <- <-.
        specialize (T (Some (p, t)) x y Ap Ly). destruct y as [y|]; cbn; auto. destruct T as (q2 & u2 & E2 & B2). rewrite Ep in E2. injection E2 as <- <-. exact B2.
      * intros c v z E. specialize (I7 c z) as Pz. rewrite E in Pz. destruct (Pz eq_refl) as (_ & _ & Uz). updc p z; [congruence|eauto].
      * cbn -[lower above front]. auto using here_app, front_app.
    + destruct I10 as (Hx & Fp & Ap & Ly). exists up, own. eapply quiet; eauto. cbn. exists x. repeat split; auto.
Qed.

Lemma inv_run l : exists up own, inv up own (lrun l).
Proof.
  unfold lrun. assert (H : forall l s, (exists up own, inv up own s) -> exists up own, inv up own (fold_left lstep l s)).
  { clear l. induction l as [|a l IH]; intros s (up & own & I); cbn; eauto. apply IH. now apply (inv_step up own). }
  apply H. exists (fun _ => None), (fun _ => 0). apply inv0.
Qed.
