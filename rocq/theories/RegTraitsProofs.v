(** A boolean form of the documentation, for the proofs by cases of P37_RegTraits.v. *)
Require Import NArith List Bool.
From Verif Require Import RegTraits RegTraitsSpec.
Import ListNotations.

Definition meth_eq_dec (a b : meth) : {a = b} + {a <> b}.
Proof. decide equality. Defined.
Lemma tag_eq_iff : forall a b, tag_eq a b = true <-> a = b.
Proof. destruct a, b; simpl; intuition congruence. Qed.

(** A boolean form of [documented], for the proofs by cases. *)
Definition doc_b (t : tag) (k : kind) (m : meth) : bool :=
  existsb (fun r =>
    match r, k with
    | R name c tags, KReg rm => (if meth_eq_dec name m then true else false) && fits c rm && existsb (tag_eq t) tags
    | F name w cf cr tags, KField one f rm =>
        (if meth_eq_dec name m then true else false) && match w with None => true | Some x => Bool.eqb x one end
        && fits cf f && fits cr rm && existsb (tag_eq t) tags
    | _, _ => false
    end) table.

Lemma in_tags : forall t l, existsb (tag_eq t) l = true <-> In t l.
Proof.
  intros t l. rewrite existsb_exists. split.
  - intros (x & Hx & E). apply tag_eq_iff in E. now subst.
  - intros H. exists t. split; [exact H | now apply tag_eq_iff].
Qed.

Lemma row_iff : forall t k m r,
  (match r, k with
   | R name c tags, KReg rm => name = m /\ fits c rm = true /\ In t tags
   | F name w cf cr tags, KField one f rm =>
       name = m /\ (w = None \/ w = Some one) /\ fits cf f = true /\ fits cr rm = true /\ In t tags
   | _, _ => False
   end) <->
  (match r, k with
    | R name c tags, KReg rm => (if meth_eq_dec name m then true else false) && fits c rm && existsb (tag_eq t) tags
    | F name w cf cr tags, KField one f rm =>
        (if meth_eq_dec name m then true else false) && match w with None => true | Some x => Bool.eqb x one end
        && fits cf f && fits cr rm && existsb (tag_eq t) tags
    | _, _ => false
    end) = true.
Proof.
  intros t k m r. destruct r as [n c tags | n w cf cr tags], k as [rm | one f rm]; try (intuition congruence).
  - rewrite !andb_true_iff, in_tags. destruct (meth_eq_dec n m); intuition congruence.
  - rewrite !andb_true_iff, in_tags. destruct (meth_eq_dec n m); destruct w as [x |];
      rewrite ?eqb_true_iff; intuition congruence.
Qed.

Lemma documented_iff : forall t k m, documented t k m <-> doc_b t k m = true.
Proof.
  intros t k m. unfold documented, doc_b. rewrite existsb_exists.
  split; intros (r & H & H'); exists r; (split; [exact H | now apply row_iff]).
Qed.

Lemma mode_eq_iff : forall a b, mode_eq a b = true <-> a = b.
Proof. destruct a, b; simpl; intuition congruence. Qed.
Definition same_b (t' t : tag) (k : kind) (one : bool) (f r : mode) : bool :=
  tag_eq t' t && match k with KReg m => mode_eq m r | KField o f' r' => Bool.eqb o one && mode_eq f' f && mode_eq r' r end.
Lemma same_iff : forall t' t k one f r, same_b t' t k one f r = true <-> t' = t /\ (k = KReg r \/ k = KField one f r).
Proof.
  intros. unfold same_b. rewrite andb_true_iff, tag_eq_iff. apply and_iff_compat_l. destruct k as [m | o f' r'].
  - rewrite mode_eq_iff. intuition congruence.
  - rewrite !andb_true_iff, !mode_eq_iff, eqb_true_iff. intuition congruence.
Qed.
