(** Tokens with a private field are conserved, and so is the access to statics. *)
Require Import NArith Arith List Bool Lia Permutation.
From Verif Require Import TokSpec Tok.
Import ListNotations.
Open Scope N_scope.

Section Proofs.
Variable D : N -> tdef.
Variable send : N -> bool.
Hypothesis Made : forall t, made (D t).

Lemma copy_alone t : copy (D t) = true -> fields (D t) = [] /\ priv (D t) = false /\ target (D t) = None.
Proof. destruct (Made t); cbn; auto; discriminate. Qed.
Lemma open_no_target t : priv (D t) = false -> target (D t) = None.
Proof. destruct (Made t); cbn; auto; discriminate. Qed.
Lemma target_alone t i : target (D t) = Some i -> fields (D t) = [].
Proof. destruct (Made t); cbn; auto; discriminate. Qed.

(** A value has the fields of its type. *)
Inductive wf : val -> Prop :=
| wf_tok t kids : map kind kids = map Some (fields (D t)) -> Forall wf kids -> wf (Tok t kids)
| wf_ref i : wf (Ref i).

Lemma exist_app t a b : exist t (a ++ b) = (exist t a + exist t b)%nat.
Proof. unfold exist. now rewrite map_app, list_sum_app. Qed.
Lemma list_sum_perm a b : Permutation a b -> list_sum a = list_sum b.
Proof. induction 1; unfold list_sum in *; cbn [fold_right]; lia. Qed.
Lemma exist_perm t a b : Permutation a b -> exist t a = exist t b.
Proof. intros P. unfold exist. apply list_sum_perm. now apply Permutation_map. Qed.
Lemma exist_pair t c kids : exist t (map (pair c) kids) = list_sum (map (occ t) kids).
Proof. unfold exist. now rewrite map_map. Qed.
Lemma exist_cons t c v r : exist t ((c, v) :: r) = (occ t v + exist t r)%nat.
Proof. reflexivity. Qed.
Lemma occ_tok t u kids : occ t (Tok u kids) = ((if (u =? t)%N then 1 else 0) + list_sum (map (occ t) kids))%nat.
Proof. reflexivity. Qed.
Lemma exist_snd t l : list_sum (map (occ t) (map snd l)) = exist t l.
Proof. unfold exist. now rewrite map_map. Qed.

Lemma front_perm {A} (s : list A) k x : nth_error s k = Some x -> Permutation s (x :: firstn k s ++ skipn (S k) s).
Proof.
  revert s. induction k as [|k IH]; intros [|y s] H; try discriminate; cbn in *.
  - now injection H as ->.
  - apply IH in H. rewrite H at 1. apply perm_swap.
Qed.

Lemma all_of_kinds c fs : forall l, all_of c fs l = true ->
  map kind (map snd l) = map Some fs /\ Forall (fun x => fst x = c) l.
Proof.
  induction fs as [|t fs IH]; intros [|x l] H; unfold all_of in H; cbn in H; try (rewrite ?andb_false_r in H; discriminate).
  - split; [reflexivity|constructor].
  - apply andb_prop in H. destruct H as [H1 H2]. apply andb_prop in H1, H2. destruct H1 as [H1 H1'], H2 as [H2 H2'].
    destruct (IH l) as [E F]. { unfold all_of. now rewrite H1', H2'. }
    cbn. rewrite E. destruct (kind (snd x)) as [u|]; [|discriminate]. apply N.eqb_eq in H2. subst u.
    split; [reflexivity|]. constructor; [now apply N.eqb_eq|exact F].
Qed.

Lemma wf_step s a : Forall (fun x => wf (snd x)) s -> Forall (fun x => wf (snd x)) (fst (tstep D send s a)).
Proof.
  intros W. destruct a as [k| |c t| |c'| | | |]; cbn [tstep].
  - destruct (nth_error s k) eqn:E; cbn [fst]; [|exact W].
    eapply Permutation_Forall; [exact (front_perm _ _ _ E)|exact W].
  - destruct s as [|[c [t kids|i]] r]; cbn [fst]; try exact W. inversion W as [|? ? W1 W2]; subst.
    apply Forall_app. split; [|exact W2]. cbn in W1. inversion W1 as [? ? _ F|]; subst.
    apply Forall_forall. intros x Hx. apply in_map_iff in Hx. destruct Hx as (v & <- & Hv). cbn.
    now apply (proj1 (Forall_forall _ _) F).
  - destruct (negb _ && _) eqn:E; cbn [fst]; [|destruct s as [|[? []]]; exact W].
    apply andb_prop in E. destruct E as [_ E]. apply all_of_kinds in E. destruct E as [E _].
    rewrite <- (firstn_skipn (length (fields (D t))) s) in W. apply Forall_app in W. destruct W as [W1 W2].
    constructor; [|exact W2]. cbn. constructor; [exact E|].
    apply Forall_forall. intros v Hv. apply in_map_iff in Hv. destruct Hv as (x & <- & Hx).
    exact (proj1 (Forall_forall _ _) W1 x Hx).
  - destruct s as [|[c [t kids|i]] r]; try exact W. destruct (copy (D t)); cbn [fst]; [|exact W].
    constructor; [|exact W]. now inversion W.
  - destruct s as [|[c v] r]; try exact W. destruct (may_send send v); cbn [fst]; [|exact W].
    inversion W; subst. now constructor.
  - destruct s as [|[c [t kids|i]] r]; try exact W. destruct (target (D t)); exact W.
  - destruct s as [|[c [t kids|i]] r]; try exact W. destruct (target (D t)); cbn [fst]; [|exact W].
    inversion W; subst. constructor; [constructor|easy].
  - destruct s as [|[c [t kids|i]] r]; exact W.
  - destruct s as [|[c [t kids|i]] r]; cbn [fst]; try exact W; now inversion W.
Qed.

Definition guarded (t : N) : Prop := priv (D t) = true /\ copy (D t) = false.

Lemma exist_step t s a : guarded t -> Forall (fun x => wf (snd x)) s ->
  (exist t (fst (tstep D send s a)) <= exist t s)%nat.
Proof.
  intros [G1 G2] W. destruct a as [k| |c u| |c'| | | |]; cbn [tstep].
  - destruct (nth_error s k) eqn:E; cbn [fst]; [|lia]. rewrite <- (exist_perm t _ _ (front_perm _ _ _ E)). lia.
  - destruct s as [|[c [u kids|i]] r]; cbn [fst]; try lia. rewrite exist_app, exist_pair, exist_cons, occ_tok. lia.
  - destruct (negb _ && _) eqn:E; cbn [fst]; [|destruct s as [|[? []]]; cbn [fst]; lia].
    apply andb_prop in E. destruct E as [E _]. apply negb_true_iff in E.
    assert (u <> t) by congruence.
    assert (L : exist t s = (exist t (firstn (length (fields (D u))) s) + exist t (skipn (length (fields (D u))) s))%nat).
    { now rewrite <- exist_app, firstn_skipn. }
    rewrite exist_cons, occ_tok, exist_snd. apply N.eqb_neq in H. rewrite H. lia.
  - destruct s as [|[c [u kids|i]] r]; cbn [fst]; try lia. destruct (copy (D u)) eqn:E; cbn [fst]; [|lia].
    inversion W as [|? ? W1 _]; subst. cbn in W1. inversion W1 as [? ? K _|]; subst.
    rewrite (proj1 (copy_alone u E)) in K. destruct kids; [|discriminate].
    assert (u <> t) by congruence. apply N.eqb_neq in H. rewrite !exist_cons, !occ_tok, H. cbn. lia.
  - destruct s as [|[c v] r]; cbn [fst]; try lia. destruct (may_send send v); cbn [fst]; [|lia]. rewrite !exist_cons. lia.
  - destruct s as [|[c [u kids|i]] r]; cbn [fst]; try lia. destruct (target (D u)); cbn [fst]; lia.
  - destruct s as [|[c [u kids|i]] r]; cbn [fst]; try lia. destruct (target (D u)); cbn [fst]; [|lia].
    rewrite !exist_cons. cbn [occ]. lia.
  - destruct s as [|[c [u kids|i]] r]; cbn [fst]; lia.
  - destruct s as [|[c [u kids|i]] r]; cbn [fst]; rewrite ?exist_cons; lia.
Qed.

Lemma exist_run t l : forall s, guarded t -> Forall (fun x => wf (snd x)) s ->
  (exist t (fst (trun D send s l)) <= exist t s)%nat.
Proof.
  induction l as [|a l IH]; intros s G W; [apply Nat.le_refl|]. cbn [trun].
  pose proof (exist_step t s a G W) as L. pose proof (wf_step s a W) as W'.
  destruct (tstep D send s a) as [s1 e1]. cbn [fst] in *. specialize (IH s1 G W').
  destruct (trun D send s1 l) as [s2 e2]. cbn [fst] in *. lia.
Qed.

(** * Statics *)
Definition reaches (s : state) : list N := flat_map (fun x => reach D (snd x)) s.
Record sinv (o : N -> N) (s : state) (l : list tev) : Prop := {
  si_wf : Forall (fun x => wf (snd x)) s;
  si_once : NoDup (reaches s);
  si_owner : forall c v i, In (c, v) s -> In i (reach D v) -> owner (o i) i l = c;
  si_excl : exclusive o l
}.

Lemma owner_app o i a : forall b, owner o i (a ++ b) = owner (owner o i a) i b.
Proof. revert o. induction a as [|[c j|c c' is] a IH]; intros o b; cbn; auto. Qed.
Lemma existsb_in i is : existsb (N.eqb i) is = true <-> In i is.
Proof.
  rewrite existsb_exists. split.
  - intros (x & H & E). apply N.eqb_eq in E. now subst.
  - intros H. exists i. now rewrite N.eqb_refl.
Qed.
Lemma exclusive_snoc o l e : exclusive o l ->
  match e with EvGet c i => owner (o i) i l = c | EvSend c _ is => forall i, In i is -> owner (o i) i l = c end ->
  exclusive o (l ++ [e]).
Proof.
  intros X H l1 e' l2 E. destruct (@exists_last _ (e' :: l2)) as (r & y & Ey); [discriminate|].
  rewrite Ey, app_assoc in E. apply app_inj_tail in E. destruct E as [-> ->].
  destruct r as [|z r].
  - cbn in Ey. injection Ey as -> ->. now rewrite app_nil_r in H.
  - cbn in Ey. injection Ey as -> ->. exact (X l1 z r eq_refl).
Qed.

Lemma nodup_r {A} (a b : list A) : NoDup (a ++ b) -> NoDup b.
Proof. induction a as [|x a IH]; cbn; auto. intros H. inversion H; auto. Qed.
Lemma nodup_sep {A} (a b : list A) x : NoDup (a ++ b) -> In x a -> In x b -> False.
Proof.
  induction a as [|y a IH]; cbn; intros H [] Hb; inversion H as [|? ? N1 N2]; subst; [|eauto].
  apply N1. apply in_or_app. now right.
Qed.
Lemma reaches_app a b : reaches (a ++ b) = reaches a ++ reaches b.
Proof. apply flat_map_app. Qed.
Lemma reaches_pair c kids : reaches (map (pair c) kids) = flat_map (reach D) kids.
Proof. induction kids as [|v r IH]; cbn; [reflexivity|]. unfold reaches in IH. now rewrite IH. Qed.
Lemma reaches_snd l : flat_map (reach D) (map snd l) = reaches l.
Proof. induction l as [|x r IH]; cbn; [reflexivity|]. now rewrite IH. Qed.
Lemma flat_map_perm {A B} (f : A -> list B) a b : Permutation a b -> Permutation (flat_map f a) (flat_map f b).
Proof.
  induction 1; cbn; auto.
  - now apply Permutation_app_head.
  - rewrite !app_assoc. apply Permutation_app_tail. apply Permutation_app_comm.
  - etransitivity; eassumption.
Qed.
Lemma in_reaches i s : In i (reaches s) <-> exists c v, In (c, v) s /\ In i (reach D v).
Proof.
  unfold reaches. rewrite in_flat_map. split.
  - intros ([c v] & H1 & H2). eauto.
  - intros (c & v & H1 & H2). exists (c, v). auto.
Qed.

Lemma sinv_step o s l a : sinv o s l ->
  sinv o (fst (tstep D send s a)) (l ++ snd (tstep D send s a)).
Proof.
  intros V. pose proof V as [W O H X].
  assert (Same : sinv o s (l ++ [])) by now rewrite app_nil_r.
  pose proof (wf_step s a W) as W'. revert W'.
  destruct a as [k| |c u| |c'| | | |]; cbn [tstep].
  - destruct (nth_error s k) eqn:E; cbn [fst snd]; [|auto]. intros W'. rewrite app_nil_r. constructor; auto.
    + eapply Permutation_NoDup; [|exact O]. apply flat_map_perm. exact (front_perm _ _ _ E).
    + intros c v i Hv. apply H. eapply Permutation_in; [symmetry; exact (front_perm _ _ _ E)|exact Hv].
  - destruct s as [|[c [t kids|i]] r]; cbn [fst snd]; auto. intros W'. rewrite app_nil_r. constructor; auto.
    + rewrite reaches_app, reaches_pair. cbn in O. rewrite <- app_assoc in O.
      exact (nodup_r _ _ O).
    + intros d v i Hv Hi. apply in_app_or in Hv. destruct Hv as [Hv|Hv]; [|apply (H d v i); [now right|exact Hi]].
      apply in_map_iff in Hv. destruct Hv as (v' & E & Hv). injection E as <- <-.
      apply (H c (Tok t kids) i); [now left|]. cbn. apply in_or_app. right. apply in_flat_map. eauto.
  - destruct (negb _ && _) eqn:E; cbn [fst snd]; [|destruct s as [|[? []]]; cbn [fst snd]; auto].
    intros W'. apply andb_prop in E. destruct E as [E A]. apply negb_true_iff in E. apply all_of_kinds in A.
    destruct A as [_ A]. pose proof (open_no_target u E) as T.
    set (n := length (fields (D u))) in *. rewrite app_nil_r.
    assert (R : reach D (Tok u (map snd (firstn n s))) = reaches (firstn n s)).
    { cbn. rewrite T. cbn. apply reaches_snd. }
    constructor; auto.
    + change (NoDup (reach D (Tok u (map snd (firstn n s))) ++ reaches (skipn n s))).
      rewrite R, <- reaches_app, firstn_skipn. exact O.
    + intros d v i [Hv|Hv] Hi.
      * injection Hv as <- <-. rewrite R in Hi. apply in_reaches in Hi. destruct Hi as (d & v & Hv & Hi).
        pose proof (proj1 (Forall_forall _ _) A _ Hv) as Ed. cbn in Ed. subst d.
        apply (H c v i); [|exact Hi]. rewrite <- (firstn_skipn n s). apply in_or_app. now left.
      * apply (H d v i); [|exact Hi]. rewrite <- (firstn_skipn n s). apply in_or_app. now right.
  - destruct s as [|[c [t kids|i]] r]; cbn [fst snd]; auto. destruct (copy (D t)) eqn:E; cbn [fst snd]; auto.
    intros W'. rewrite app_nil_r.
    inversion W as [|? ? W1 _]; subst. cbn in W1. inversion W1 as [? ? K _|]; subst.
    destruct (copy_alone t E) as (F & _ & T). rewrite F in K. destruct kids; [|discriminate].
    constructor; auto.
    + unfold reaches. cbn. rewrite T. cbn. unfold reaches in O. cbn in O. rewrite T in O. exact O.
    + intros d v i [Hv|Hv] Hi; [|now apply (H d v i)]. injection Hv as <- <-. apply (H c (Tok t []) i); [now left|exact Hi].
  - destruct s as [|[c v] r]; cbn [fst snd]; auto. destruct (may_send send v) eqn:E; cbn [fst snd]; auto.
    intros W'. constructor; auto.
    + intros d w i Hw Hi. rewrite owner_app. cbn [owner].
      destruct (existsb (N.eqb i) (reach D v)) eqn:Ei.
      * apply existsb_in in Ei. destruct Hw as [Hw|Hw]; [now injection Hw as <- <-|].
        exfalso. eapply (nodup_sep _ _ i O Ei). apply in_reaches. eauto.
      * destruct Hw as [Hw|Hw]; [|apply (H d w i); [now right|exact Hi]].
        injection Hw as <- <-. apply existsb_in in Hi. congruence.
    + apply exclusive_snoc; [exact X|]. intros i Hi. apply (H c v i); [now left|exact Hi].
  - destruct s as [|[c [t kids|i]] r]; cbn [fst snd]; auto. destruct (target (D t)) as [i|] eqn:E; cbn [fst snd]; auto.
    intros W'. constructor; auto.
    + intros d w j Hw Hj. rewrite owner_app. cbn [owner]. now apply (H d w j).
    + apply exclusive_snoc; [exact X|]. apply (H c (Tok t kids) i); [now left|]. cbn. rewrite E. now left.
  - destruct s as [|[c [t kids|i]] r]; cbn [fst snd]; auto. destruct (target (D t)) as [i|] eqn:E; cbn [fst snd]; auto.
    intros W'. rewrite app_nil_r. constructor; auto.
    + unfold reaches in O |- *. cbn in O |- *. rewrite E in O. cbn in O.
      inversion O as [|? ? N1 N2]; subst. constructor.
      * intros Hi. apply N1. apply in_or_app. now right.
      * now apply nodup_r in N2.
    + intros d w j [Hw|Hw] Hj; [|apply (H d w j); [now right|exact Hj]]. injection Hw as <- <-.
      destruct Hj as [<-|[]]. apply (H c (Tok t kids) i); [now left|]. cbn. rewrite E. now left.
  - destruct s as [|[c [t kids|i]] r]; cbn [fst snd]; auto.
    intros W'. constructor; auto.
    + intros d w j Hw Hj. rewrite owner_app. cbn [owner]. now apply (H d w j).
    + apply exclusive_snoc; [exact X|]. apply (H c (Ref i) i); [now left|now left].
  - destruct s as [|[c v] r]; cbn [fst snd]; auto.
    intros W'. assert (Q : sinv o r (l ++ [])).
    { rewrite app_nil_r. constructor; auto.
      - exact (nodup_r _ _ O).
      - intros d w i Hw. apply H. now right. }
    now destruct v.
Qed.

Lemma sinv_run o l : forall s tr, sinv o s tr -> sinv o (fst (trun D send s l)) (tr ++ snd (trun D send s l)).
Proof.
  induction l as [|a l IH]; intros s tr V; [cbn; now rewrite app_nil_r|]. cbn [trun].
  pose proof (sinv_step o s tr a V) as V'. destruct (tstep D send s a) as [s1 e1]. cbn [fst snd] in V'.
  specialize (IH s1 _ V'). destruct (trun D send s1 l) as [s2 e2]. cbn [fst snd] in *. now rewrite app_assoc.
Qed.
End Proofs.
