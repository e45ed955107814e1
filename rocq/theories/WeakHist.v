(** Facts about histories that only depend on what each half does. *)
Require Import NArith List Bool Permutation.
From Verif Require Import Spsc Weak WeakProofs WeakSC.
Import ListNotations.

Section Hist.
  Context {O R : Type}.
  Variable side_of : O -> side.
  Definition user (e : ev O R) : Prop := match e with ESync _ | EAcc _ => False | _ => True end.

  Lemma ev_of_user (e : ev O R) : user e -> exists s, ev_of side_of s e = true /\ ev_of side_of (other s) e = false.
  Proof.
    assert (X : forall t, exists s, seqb t s = true /\ seqb t (other s) = false) by (intros t; exists t; now destruct t).
    destruct e; cbn; intros H; try contradiction; apply X.
  Qed.
  Lemma ev_of_inner (e : ev O R) s : ev_of side_of s e = true -> user e.
  Proof. now destruct e. Qed.

  Lemma split_hist {A} (f : ev O R -> list A) (l : list (ev O R)) : (forall e, ~ user e -> f e = []) ->
    Permutation (flat_map f l) (flat_map f (hist side_of TX l) ++ flat_map f (hist side_of RX l)).
  Proof.
    intros F. induction l as [|e l IH]; cbn; [constructor|]. 
    assert (U : user e \/ ~ user e) by (destruct e; cbn; auto).
    destruct U as [U|U].
    - destruct (ev_of_user _ U) as ([] & E1 & E2); cbn [other] in E2; rewrite E1, E2; cbn.
      + rewrite <- app_assoc. now apply Permutation_app_head.
      + rewrite IH. rewrite !app_assoc. apply Permutation_app_tail. apply Permutation_app_comm.
    - rewrite (F _ U). cbn. destruct (ev_of side_of TX e) eqn:E1; [apply ev_of_inner in E1; contradiction|].
      destruct (ev_of side_of RX e) eqn:E2; [apply ev_of_inner in E2; contradiction|]. exact IH.
  Qed.

  Variables a b : list (ev O R).
  Hypothesis same : forall s, hist side_of s a = hist side_of s b.

  Lemma same_perm {A} (f : ev O R -> list A) : (forall e, ~ user e -> f e = []) -> Permutation (flat_map f a) (flat_map f b).
  Proof. intros F. rewrite (split_hist f a F), (split_hist f b F), !same. reflexivity. Qed.
  Lemma same_in e : user e -> In e a <-> In e b.
  Proof.
    intros U. destruct (ev_of_user _ U) as (s & E & _).
    assert (X : forall l, In e l <-> In e (hist side_of s l)) by (intros l; unfold hist; rewrite filter_In; tauto).
    now rewrite (X a), (X b), same.
  Qed.
  Lemma same_existsb (p : ev O R -> bool) : (forall e, p e = true -> user e) -> existsb p a = existsb p b.
  Proof.
    intros P. apply eq_true_iff_eq. rewrite !existsb_exists. split; intros (e & I & E); exists e; split; auto; apply same_in in I; auto.
  Qed.
  (** A fold to which only one half contributes. *)
  Lemma same_fold {A} (f : A -> ev O R -> A) s x : (forall x e, ev_of side_of s e = false -> f x e = x) ->
    fold_left f a x = fold_left f b x.
  Proof.
    intros F. assert (X : forall l x, fold_left f l x = fold_left f (hist side_of s l) x).
    { clear - F. induction l as [|e l IH]; intros x; cbn; auto. destruct (ev_of side_of s e) eqn:E; cbn; rewrite <- IH; auto. now rewrite F. }
    now rewrite (X a), (X b), same.
  Qed.
End Hist.
