(** Deciding races of given executions, for RaceSpec.v. *)
Require Import NArith List Bool Arith Lia.
From Verif Require Import Spsc WeakSpec RaceSpec.
Import ListNotations.
Open Scope nat_scope.

Lemma some_lt {A} (l : list A) i x : nth_error l i = Some x -> i < length l.
Proof. intros E. apply nth_error_Some. congruence. Qed.

Definition eqloc (a b : loc) : bool := (fst a =? fst b) && (snd a =? snd b).
Lemma eqloc_refl a : eqloc a a = true.
Proof. unfold eqloc. now rewrite !Nat.eqb_refl. Qed.

(** [i] may come before [j] directly: includes all synchronisations, and possibly more. *)
Definition mstepb (l : mexec) (i j : nat) : bool :=
  match nth_error l i, nth_error l j with
  | Some (c, x), Some (d, y) =>
      (i <? j) && (c =? d) ||
      match x, y with
      | MUpd a o n, (MRead b o' m | MUpd b o' m) => eqloc a b && releases o && acquires o' && (n <? m)
      | MStore a o n, (MRead b o' m | MUpd b o' m) => eqloc a b && releases o && acquires o' && (n <=? m)
      | _, _ => false
      end
  | _, _ => false
  end.
Lemma mstepb_sw l i j : msyncs l i j -> mstepb l i j = true.
Proof.
  intros (c & x & d & y & a & o & n & o' & m & Ei & W & Ro & Ej & R & Ao & L & _). unfold mstepb. rewrite Ei, Ej.
  apply orb_true_iff. right.
  destruct W as [(k & -> & ->)| ->], R as [-> | ->]; rewrite eqloc_refl, Ro, Ao; cbn; first [apply Nat.ltb_lt; lia|apply Nat.leb_le; lia].
Qed.
Definition mclosed (l : mexec) (x : nat -> bool) : bool :=
  forallb (fun i => forallb (fun j => negb (x i) || negb (mstepb l i j) || x j) (seq 0 (length l))) (seq 0 (length l)).
Lemma mclosed_hb l x i j : mclosed l x = true -> mhb l i j -> x i = true -> x j = true.
Proof.
  intros C H. assert (S : forall i j, i < length l -> j < length l -> mstepb l i j = true -> x i = true -> x j = true).
  { intros a b A B S X. unfold mclosed in C. rewrite forallb_forall in C. specialize (C a). rewrite in_seq, forallb_forall in C.
    specialize (C ltac:(lia) b). rewrite in_seq in C. specialize (C ltac:(lia)). rewrite X, S in C. exact C. }
  induction H as [i j c a b L Ei Ej|i j H|i j k H1 IH1 H2 IH2]; auto.
  - apply S; [eapply some_lt; eauto|eapply some_lt; eauto|]. unfold mstepb. rewrite Ei, Ej. apply Nat.ltb_lt in L. now rewrite L, Nat.eqb_refl.
  - apply S; [| |now apply mstepb_sw]; destruct H as (c & y & d & z & a & o & n & o' & m & Ei & _ & _ & Ej & _); eapply some_lt; eauto.
Qed.
Definition among (l : list nat) (i : nat) : bool := existsb (Nat.eqb i) l.
(** The set of what access [i] may happen before, and [i]. *)
Definition mafter (l : mexec) (i : nat) : list nat :=
  Nat.iter (length l) (fun x => filter (fun j => among x j || existsb (fun i => mstepb l i j) x) (seq 0 (length l))) [i].
Definition unorderedb (l : mexec) (i j : nat) : bool :=
  let x := mafter l i in let y := mafter l j in
  negb (i =? j) && mclosed l (among x) && among x i && negb (among x j) && mclosed l (among y) && among y j && negb (among y i).
Lemma unorderedb_unordered l i j : unorderedb l i j = true -> unordered l i j.
Proof.
  unfold unorderedb. cbv zeta. rewrite !andb_true_iff, !negb_true_iff, Nat.eqb_neq.
  intros ((((((N & A) & B) & C) & D) & E) & F). split; [exact N|]. split; intros H.
  - apply (mclosed_hb _ _ _ _ A) in H; congruence.
  - apply (mclosed_hb _ _ _ _ D) in H; congruence.
Qed.

(** The order is kept when the execution goes on. *)
Lemma msyncs_app l l' i j : msyncs l i j -> msyncs (l ++ l') i j.
Proof.
  intros (c & x & d & y & a & o & n & o' & m & Ei & W & Ro & Ej & R & Ao & L & K).
  exists c, x, d, y, a, o, n, o', m. rewrite !nth_error_app1 by (eapply some_lt; eauto). repeat (split; [assumption|]).
  intros k H. destruct (K k H) as (q & e & p & E). exists q, e, p. rewrite nth_error_app1; auto. eapply some_lt; eauto.
Qed.
Lemma mhb_app l l' i j : mhb l i j -> mhb (l ++ l') i j.
Proof.
  induction 1 as [i j c a b L Ei Ej|i j H|i j k H1 IH1 H2 IH2].
  - apply (mhb_po _ i j c a b); auto; rewrite nth_error_app1; auto; eapply some_lt; eauto.
  - apply mhb_sw. now apply msyncs_app.
  - eapply mhb_trans; eauto.
Qed.

(** ** What a context knows *)

(** Context [c] has made access [j], and [i] comes before it or is it. *)
Definition knows (l : mexec) (c i : nat) : Prop :=
  exists j x, nth_error l j = Some (c, x) /\ (i = j \/ mhb l i j).

Lemma nth_snoc {A} (l : list A) x : nth_error (l ++ [x]) (length l) = Some x.
Proof. rewrite nth_error_app2, Nat.sub_diag by lia. reflexivity. Qed.
Lemma nth_keep {A} (l : list A) x i y : nth_error l i = Some y -> nth_error (l ++ [x]) i = Some y.
Proof. intros E. rewrite nth_error_app1; [easy|]. eapply some_lt; eauto. Qed.
Lemma knows_app l c i e : knows l c i -> knows (l ++ [e]) c i.
Proof.
  intros (j & x & E & H). exists j, x. split; [now apply nth_keep|]. destruct H; [now left|right]. now apply mhb_app.
Qed.
(** What a context knows comes before its next access. *)
Lemma knows_next l c i x : knows l c i -> mhb (l ++ [(c, x)]) i (length l).
Proof.
  intros (j & y & E & H).
  assert (P : mhb (l ++ [(c, x)]) j (length l)).
  { apply (mhb_po _ _ _ c y x); [eapply some_lt; eauto|now apply nth_keep|apply nth_snoc]. }
  destruct H as [-> |H]; [easy|]. eapply mhb_trans; [apply mhb_app; exact H|exact P].
Qed.
(** Reading the value of a store with acquire. *)
Lemma acquired l j d a n c x : nth_error l j = Some (d, MStore a Release n) -> reads x a Acquire n ->
  mhb (l ++ [(c, x)]) j (length l).
Proof.
  intros E R. apply mhb_sw. exists d, (MStore a Release n), c, x, a, Release, n, Acquire, n.
  split; [now apply nth_keep|]. split; [now right|]. split; [easy|]. split; [apply nth_snoc|].
  split; [easy|]. split; [easy|]. split; [lia|]. lia.
Qed.
(** Reading a later value, if all are written by read-modify-writes. *)
Lemma seq_acquired l j d a n c x o' m : nth_error l j = Some (d, MUpd a AcqRel n) -> reads x a o' m ->
  acquires o' = true -> n < m ->
  (forall k, k < m -> exists q e o, nth_error l q = Some (e, MUpd a o k)) ->
  mhb (l ++ [(c, x)]) j (length l).
Proof.
  intros E R Ao L K. apply mhb_sw. exists d, (MUpd a AcqRel n), c, x, a, AcqRel, (S n), o', m.
  split; [now apply nth_keep|]. split; [left; eauto|]. split; [easy|]. split; [apply nth_snoc|].
  split; [easy|]. split; [easy|]. split; [lia|]. intros k H. destruct (K (k - 1)) as (q & e & o & Q); [lia|].
  exists q, e, o. now apply nth_keep.
Qed.
