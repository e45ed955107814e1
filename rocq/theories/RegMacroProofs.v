(** Proofs about the methods of the value of a register. *)
Require Import NArith String List Bool Lia.
From Verif Require Import Bitfield BitfieldProofs Names BitDerive RegMacro RegMacroSpec.
From Verif Require BitDeriveProofs.
Import ListNotations.
Open Scope N_scope.

Definition one (f : rfield) : bool := (rf_width f =? 1) && negb (rf_force f).
Lemma one_iff f : one f = true <-> one_bit f.
Proof. unfold one, one_bit. rewrite andb_true_iff, N.eqb_eq, negb_true_iff. reflexivity. Qed.

Definition meth_name (v : verb) (f : rfield) : string :=
  match v with Read => member f | _ => (prefix v ++ snake (rf_words f))%string end.
Definition body (n : N) (v : verb) (f : rfield) : meth :=
  let off := from_usize n (rf_off f) in
  let w := from_usize n (rf_width f) in
  match v with
  | Read => if one f then ReadBit off else ReadBits off w
  | Set_ => SetBit off | Clear => ClearBit off | Toggle => ToggleBit off
  | Write => if one f then WriteBit off else WriteBits off w
  end.

Lemma methods_in n f v : in_table f v -> In (meth_name v f, body n v f) (hold_methods n f).
Proof.
  intros H. unfold hold_methods. fold (one f). unfold body. destruct (one f) eqn:O; destruct v; simpl in H;
    rewrite ?in_app_iff; try match type of H with _ /\ _ => destruct H as [H X]; apply one_iff in X; rewrite O in X; try discriminate X end; rewrite ?H; simpl; auto 6.
Qed.
Lemma in_methods n f nm m : In (nm, m) (hold_methods n f) -> exists v, in_table f v /\ nm = meth_name v f /\ m = body n v f.
Proof.
  unfold hold_methods. fold (one f). intros I. destruct (one f) eqn:O; apply in_app_or in I; destruct I as [I|I].
  - destruct (rf_r f) eqn:R; [|destruct I]. destruct I as [[= <- <-]|[]]. exists Read. simpl. rewrite O. auto.
  - destruct (rf_w f) eqn:R; [|destruct I].
    destruct I as [[= <- <-]|[[= <- <-]|[[= <- <-]|[[= <- <-]|[]]]]]; [exists Set_|exists Clear|exists Toggle|exists Write]; simpl; rewrite ?O;
      pose proof (proj1 (one_iff f) O); auto.
  - destruct (rf_r f) eqn:R; [|destruct I]. destruct I as [[= <- <-]|[]]. exists Read. simpl. rewrite O. auto.
  - destruct (rf_w f) eqn:R; [|destruct I]. destruct I as [[= <- <-]|[]]. exists Write. simpl. rewrite O. auto.
Qed.

Lemma call_method n debug p reset l f v a x : accepted n p reset l = true -> In f l -> in_table f v ->
  hold_call n debug l (meth_name v f) a x = run debug n (body n v f) a x.
Proof.
  intros A I H. unfold accepted in A. rewrite !andb_true_iff in A. destruct A as [[[_ A] _] _]. unfold hold_call, generate in *.
  rewrite (BitDeriveProofs.distinct_find _ (meth_name v f) (body n v f) A); [reflexivity|].
  apply in_flat_map. exists f. split; [exact I|now apply methods_in].
Qed.

Lemma name_ok v f : name_of v f (meth_name v f).
Proof.
  unfold name_of, meth_name. destruct v; try (left; split; [discriminate|reflexivity]). unfold member, unkeywordize. simpl prefix.
  destruct (existsb _ _) eqn:E.
  - right. apply existsb_exists in E. destruct E as (k & I & E). apply String.eqb_eq in E. now subst k.
  - left. split; [|reflexivity]. intros _ I. assert (X : existsb (String.eqb (snake (rf_words f))) KEYWORDS = true); [|congruence].
    apply existsb_exists. exists (snake (rf_words f)). split; [exact I|apply String.eqb_refl].
Qed.

Lemma accepted_size n p reset l : accepted n p reset l = true -> 8 <= n.
Proof.
  unfold accepted. rewrite !andb_true_iff. intros [[[[[[H _] _] _] _] _] _]. apply existsb_exists in H. destruct H as (k & I & E).
  apply N.eqb_eq in E. subst k. simpl in I. lia.
Qed.

Lemma one_inside f i : one_bit f -> inside f i <-> i = rf_off f.
Proof. intros [W _]. unfold inside. lia. Qed.

Lemma run_does debug n f v a x : lies_in n f -> in_table f v -> typed n f v a -> x < 2 ^ n ->
  exists r y, run debug n (body n v f) a x = Some (r, y) /\ does f v a x r y /\ y < 2 ^ n.
Proof.
  intros [W1 R] H T X.
  assert (G : n < 2 ^ n) by (apply N.pow_gt_lin_r; lia).
  assert (Fo : from_usize n (rf_off f) = rf_off f) by (apply N.mod_small; lia).
  assert (Fw : from_usize n (rf_width f) = rf_width f) by (apply N.mod_small; lia).
  assert (Mo : masked n (rf_off f) = rf_off f) by (apply N.mod_small; lia).
  assert (Mw : mask_width n (rf_width f) = rf_width f).
  { unfold mask_width. destruct (N.eqb_spec (rf_width f) n); [reflexivity|]. apply N.mod_small. lia. }
  assert (O : (rf_off f <? n) = true) by (apply N.ltb_lt; lia).
  assert (Ow : rf_width f <> n -> (rf_width f <? n) = true) by (intros; apply N.ltb_lt; lia).
  unfold body. rewrite Fo, Fw. unfold run.
  assert (S1 : forall m, shifts n m = [rf_off f] -> debug && negb (forallb (fun k => k <? n) (shifts n m)) = false).
  { intros m ->. simpl. rewrite O. simpl. apply andb_false_r. }
  assert (S2 : debug && negb (forallb (fun k => k <? n) (if rf_width f =? n then [] else [rf_off f; rf_width f])) = false).
  { destruct (N.eqb_spec (rf_width f) n) as [|Hn]; simpl; [apply andb_false_r|]. rewrite O, (Ow Hn). apply andb_false_r. }
  assert (L : forall y, (forall i, ~ inside f i -> N.testbit y i = N.testbit x i) -> y < 2 ^ n).
  { intros y Hy. apply bits_lt. intros i Hi. rewrite Hy; [now apply (testbit_high n)|]. unfold inside. lia. }
  assert (Q : forall g : bool -> N -> bool, one_bit f -> forall y, (forall i, N.testbit y i = if i =? rf_off f then g (N.testbit x i) i else N.testbit x i) ->
    (forall i, inside f i -> N.testbit y i = g (N.testbit x i) i) /\ (forall i, ~ inside f i -> N.testbit y i = N.testbit x i)).
  { intros g B y Hy. split; intros i Hi; rewrite Hy; rewrite (one_inside f i B) in Hi; destruct (N.eqb_spec i (rf_off f)); congruence. }
  destruct v; simpl in H, T.
  - subst a. destruct (one f) eqn:E.
    + rewrite S1 by reflexivity. apply one_iff in E. eexists _, x. split; [reflexivity|]. split; [|exact X]. simpl.
      split; [reflexivity|]. split; [|tauto]. intros _. rewrite Mo, read_bit_spec by lia. reflexivity.
    + unfold shifts. rewrite S2. assert (E' : ~ one_bit f) by (rewrite <- one_iff; congruence).
      eexists _, x. split; [reflexivity|]. split; [|exact X]. simpl. split; [reflexivity|]. split; [tauto|]. intros _.
      eexists. split; [reflexivity|]. intros i. rewrite Mo, Mw, read_bits_bits by (assumption || lia).
      rewrite (N.add_comm i). now destruct (i <? rf_width f).
  - subst a. destruct H as [_ B]. rewrite S1 by reflexivity. rewrite Mo. eexists _, _. split; [reflexivity|].
    destruct (Q (fun _ _ => true) B (set_bit n (rf_off f) x)) as [Q1 Q2]; [intros i; now rewrite set_bit_bits by lia|]. simpl. auto 6.
  - subst a. destruct H as [_ B]. rewrite S1 by reflexivity. rewrite Mo. eexists _, _. split; [reflexivity|].
    destruct (Q (fun _ _ => false) B (clear_bit n (rf_off f) x)) as [Q1 Q2]; [intros i; now rewrite clear_bit_bits by (lia || assumption)|]. simpl. auto 6.
  - subst a. destruct H as [_ B]. rewrite S1 by reflexivity. rewrite Mo. eexists _, _. split; [reflexivity|].
    destruct (Q (fun o _ => negb o) B (toggle_bit n (rf_off f) x)) as [Q1 Q2]; [intros i; now rewrite toggle_bit_bits by lia|]. simpl. auto 6.
  - destruct a as [|b|w]; [destruct T| |].
    + apply one_iff in T as E. rewrite E, S1 by reflexivity. rewrite Mo. eexists _, _. split; [reflexivity|].
      destruct (Q (fun _ _ => b) T (write_bit n (rf_off f) b x)) as [Q1 Q2]; [intros i; now rewrite write_bit_bits by (lia || assumption)|]. simpl. auto 6.
    + destruct T as [T1 T2]. assert (E : one f = false) by (destruct (one f) eqn:E; [apply one_iff in E; tauto|reflexivity]).
      rewrite E. unfold shifts. rewrite S2. apply N.ltb_lt in T2 as T3. rewrite T3, Mo, Mw.
      eexists _, _. split; [reflexivity|]. split; [|now apply write_bits_lt]. simpl. split; [reflexivity|].
      split; intros i Hi; rewrite write_bits_bits by assumption; unfold inside in Hi;
        destruct (N.leb_spec (rf_off f) i), (N.ltb_spec i (rf_off f + rf_width f)); simpl; auto; lia.
Qed.
