(** Proofs about the derived bit-fields. *)
Require Import NArith List Bool String Lia.
From Verif Require Import Bitfield BitfieldProofs BitDerive BitDeriveSpec.
Import ListNotations.
Open Scope N_scope.

Lemma distinct_find (l : list (string * meth)) nm m :
  distinct (map fst l) = true -> In (nm, m) l -> find (fun x => String.eqb (fst x) nm) l = Some (nm, m).
Proof.
  induction l as [|[k b] l IH]; simpl; intros D I; [destruct I|]. apply andb_true_iff in D. destruct D as [D1 D2].
  destruct I as [[= -> ->]|I]; [now rewrite String.eqb_refl|].
  destruct (String.eqb_spec k nm) as [->|]; [|auto]. exfalso. apply negb_true_iff in D1.
  assert (X : existsb (String.eqb nm) (map fst l) = true); [|congruence].
  apply existsb_exists. exists nm. split; [|apply String.eqb_refl]. change nm with (fst (nm, m)). now apply in_map.
Qed.

(** The body of a method of a field. *)
Definition body_of (f : bfield) (v : verb) : meth :=
  match v with
  | Read => if width f =? 1 then ReadBit (bf_off f) else ReadBits (bf_off f) (width f)
  | Set_ => SetBit (bf_off f)
  | Clear => ClearBit (bf_off f)
  | Toggle => ToggleBit (bf_off f)
  | Write => if width f =? 1 then WriteBit (bf_off f) else WriteBits (bf_off f) (width f)
  end.
Lemma methods_in f v : has f v -> In (method v f, body_of f v) (methods f).
Proof.
  intros H. unfold methods. change (match bf_width f with Some w => w | None => 1 end) with (width f).
  unfold body_of. destruct (N.eqb_spec (width f) 1) as [W|W]; apply in_or_app.
  - destruct v; simpl in H.
    + left. destruct (bf_mode f); try easy; now left.
    + right. destruct (bf_mode f); simpl; try easy; auto.
    + right. destruct (bf_mode f); simpl; try easy; auto.
    + right. destruct (bf_mode f); simpl; try easy; auto.
    + right. destruct (bf_mode f); simpl; try easy; auto.
  - destruct v; simpl in H; try easy.
    + left. destruct (bf_mode f); try easy; now left.
    + right. destruct (bf_mode f); simpl; try easy; auto.
Qed.
Lemma in_methods f nm m : In (nm, m) (methods f) -> exists v, has f v /\ nm = method v f /\ m = body_of f v.
Proof.
  unfold methods. change (match bf_width f with Some w => w | None => 1 end) with (width f). unfold body_of.
  destruct (N.eqb_spec (width f) 1) as [W|W]; intros I; apply in_app_or in I; destruct I as [I|I].
  - destruct (is_read (bf_mode f)) eqn:M; [|destruct I]. destruct I as [[= <- <-]|[]]. exists Read. split; [|auto]. simpl. intros E. now rewrite E in M.
  - destruct (is_write (bf_mode f)) eqn:M; [|destruct I]. assert (R : bf_mode f <> MRead) by (intros E; now rewrite E in M).
    destruct I as [[= <- <-]|[[= <- <-]|[[= <- <-]|[[= <- <-]|[]]]]]; [exists Set_|exists Clear|exists Toggle|exists Write]; simpl; auto.
  - destruct (is_read (bf_mode f)) eqn:M; [|destruct I]. destruct I as [[= <- <-]|[]]. exists Read. split; [|auto]. simpl. intros E. now rewrite E in M.
  - destruct (is_write (bf_mode f)) eqn:M; [|destruct I]. destruct I as [[= <- <-]|[]]. exists Write. split; [|auto]. simpl. intros E. now rewrite E in M.
Qed.

Lemma call_method debug n l f v a x : accepted n l = true -> In f l -> has f v ->
  call debug n l (method v f) a x = run debug n (body_of f v) a x.
Proof.
  intros A I H. unfold accepted in A. apply andb_true_iff in A. destruct A as [A _]. unfold call, derive in *.
  rewrite (distinct_find _ (method v f) (body_of f v) A); [reflexivity|]. apply in_flat_map. exists f. split; [exact I|now apply methods_in].
Qed.

Lemma within_one f i : width f = 1 -> within f i = (i =? bf_off f).
Proof. intros W. unfold within. rewrite W. destruct (N.leb_spec (bf_off f) i), (N.ltb_spec i (bf_off f + 1)), (N.eqb_spec i (bf_off f)); auto; lia. Qed.

Lemma low_bits n y z : z < 2 ^ n -> (forall i, n <= i -> N.testbit y i = N.testbit z i) -> y < 2 ^ n.
Proof. intros Z H. apply bits_lt. intros i Hi. rewrite (H i Hi). now apply (testbit_high n). Qed.

Lemma run_documented debug n f v a x : in_range n f -> has f v -> typed n f v a -> x < 2 ^ n ->
  exists r y, run debug n (body_of f v) a x = Some (r, y) /\ documented f v a x r y /\ y < 2 ^ n.
Proof.
  intros [R1 R2] H T X. unfold run.
  assert (Mo : masked n (bf_off f) = bf_off f) by (apply N.mod_small; exact R1).
  assert (Mw : mask_width n (width f) = width f).
  { unfold mask_width. destruct (N.eqb_spec (width f) n); [reflexivity|]. apply N.mod_small. lia. }
  assert (S : forallb (fun k => k <? n) (shifts n (body_of f v)) = true).
  { assert (O : (bf_off f <? n) = true) by now apply N.ltb_lt.
    destruct v; simpl; try (destruct (width f =? 1)); simpl; rewrite ?O; auto; destruct (N.eqb_spec (width f) n); auto; simpl; rewrite O;
      replace (width f <? n) with true; auto; symmetry; apply N.ltb_lt; lia. }
  rewrite S, andb_false_r.
  assert (B1 : width f = 1 -> forall i, within f i = (i =? bf_off f)) by (intros W i; now apply within_one).
  destruct v; simpl in H, T; cbn [body_of].
  - subst a. destruct (N.eqb_spec (width f) 1) as [W|W].
    + exists (RBit (N.testbit x (bf_off f))), x. rewrite Mo, read_bit_spec by assumption. split; [reflexivity|]. split; [|exact X].
      simpl. rewrite W. auto.
    + eexists _, x. split; [reflexivity|]. split; [|exact X]. simpl. split; [reflexivity|]. destruct (N.eqb_spec (width f) 1); [easy|].
      rewrite Mo, Mw, read_bits_spec by assumption. reflexivity.
  - subst a. destruct H as [_ W]. rewrite Mo. eexists _, _. split; [reflexivity|]. split; [split; [reflexivity|]|].
    + intros i. rewrite (B1 W), set_bit_bits by assumption. destruct (i =? bf_off f); reflexivity.
    + apply (low_bits n _ x X). intros i Hi. rewrite set_bit_bits by assumption. destruct (N.eqb_spec i (bf_off f)); [lia|reflexivity].
  - subst a. destruct H as [_ W]. rewrite Mo. eexists _, _. split; [reflexivity|]. split; [split; [reflexivity|]|].
    + intros i. rewrite (B1 W), clear_bit_bits by assumption. destruct (i =? bf_off f); reflexivity.
    + apply (low_bits n _ x X). intros i Hi. rewrite clear_bit_bits by assumption. destruct (N.eqb_spec i (bf_off f)); [lia|reflexivity].
  - subst a. destruct H as [_ W]. rewrite Mo. eexists _, _. split; [reflexivity|]. split; [split; [reflexivity|]|].
    + intros i. rewrite (B1 W), toggle_bit_bits by assumption. destruct (i =? bf_off f); reflexivity.
    + apply (low_bits n _ x X). intros i Hi. rewrite toggle_bit_bits by assumption. destruct (N.eqb_spec i (bf_off f)); [lia|reflexivity].
  - destruct a as [|b|w]; [destruct T| |].
    + destruct (N.eqb_spec (width f) 1) as [W|W]; [|easy]. rewrite Mo. eexists _, _. split; [reflexivity|]. split; [split; [reflexivity|]|].
      * intros i. rewrite (B1 W), write_bit_bits by assumption. reflexivity.
      * apply (low_bits n _ x X). intros i Hi. rewrite write_bit_bits by assumption. destruct (N.eqb_spec i (bf_off f)); [lia|reflexivity].
    + destruct T as [T1 T2]. destruct (N.eqb_spec (width f) 1) as [W|W]; [easy|]. apply N.ltb_lt in T2 as T3. rewrite T3, Mo, Mw.
      eexists _, _. split; [reflexivity|]. split; [split; [reflexivity|]|].
      * intros i. rewrite write_bits_bits by assumption. reflexivity.
      * now apply write_bits_lt.
Qed.

(** A call that belongs to a field apart from [g] leaves what [g] reads. *)
Lemma apart_read f g v a x r y : v <> Read -> apart f g -> documented f v a x r y -> forall i, within g i = true -> N.testbit y i = N.testbit x i.
Proof.
  intros V P D i G. unfold within in G. apply andb_true_iff in G. destruct G as [G1 G2]. apply N.leb_le in G1. apply N.ltb_lt in G2.
  assert (F : within f i = false).
  { unfold within. destruct (N.leb_spec (bf_off f) i), (N.ltb_spec i (bf_off f + width f)); auto. unfold apart in P. lia. }
  destruct v; [easy| | | |]; destruct D as [_ D]; rewrite (D i), F; reflexivity.
Qed.
Lemma same_read g x y : (forall i, within g i = true -> N.testbit y i = N.testbit x i) ->
  (if width g =? 1 then RBit (N.testbit y (bf_off g)) else RVal ((y / 2 ^ bf_off g) mod 2 ^ width g)) =
  (if width g =? 1 then RBit (N.testbit x (bf_off g)) else RVal ((x / 2 ^ bf_off g) mod 2 ^ width g)).
Proof.
  intros H. destruct (N.eqb_spec (width g) 1) as [W|W].
  - f_equal. apply H. rewrite (within_one _ _ W). apply N.eqb_refl.
  - f_equal. apply N.bits_inj. intros i. destruct (N.ltb_spec i (width g)).
    + rewrite !N.mod_pow2_bits_low, <- !N.shiftr_div_pow2, !N.shiftr_spec by lia. apply H. unfold within.
      destruct (N.leb_spec (bf_off g) (i + bf_off g)), (N.ltb_spec (i + bf_off g) (bf_off g + width g)); auto; lia.
    + now rewrite !N.mod_pow2_bits_high by assumption.
Qed.
