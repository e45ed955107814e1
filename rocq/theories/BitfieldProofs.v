(** Proofs about the bit-field accessors. *)
Require Import NArith Bool Lia.
From Verif Require Import Bitfield.
Open Scope N_scope.

Lemma testbit_high n x i : x < 2 ^ n -> n <= i -> N.testbit x i = false.
Proof.
  intros H Hi.
  destruct (N.eq_dec x 0) as [->|Hx]; [apply N.bits_0|].
  apply N.bits_above_log2. apply N.log2_lt_pow2 in H; lia.
Qed.

Lemma bits_lt n x : (forall i, n <= i -> N.testbit x i = false) -> x < 2 ^ n.
Proof.
  intros H.
  assert (x mod 2 ^ n = x) as E.
  { apply N.bits_inj. intros i.
    destruct (N.lt_ge_cases i n).
    - now apply N.mod_pow2_bits_low.
    - rewrite N.mod_pow2_bits_high by lia. symmetry. now apply H. }
  rewrite <- E. apply N.mod_lt. apply N.pow_nonzero. lia.
Qed.

Lemma wshl_bits n x k i :
  N.testbit (wshl n x k) i = (i <? n) && (k <=? i) && N.testbit x (i - k).
Proof.
  unfold wshl. destruct (N.ltb_spec i n).
  - rewrite N.mod_pow2_bits_low by lia.
    destruct (N.leb_spec k i); simpl.
    + now rewrite N.shiftl_spec_high' by lia.
    + now rewrite N.shiftl_spec_low by lia.
  - now rewrite N.mod_pow2_bits_high by lia.
Qed.

Lemma maybe_bit_at_bits n b off i :
  off < n -> N.testbit (maybe_bit_at n b off) i = b && (i =? off).
Proof.
  intros H. unfold maybe_bit_at. rewrite wshl_bits.
  destruct (N.eqb_spec i off) as [->|Hne].
  - replace (off <? n) with true by (symmetry; now apply N.ltb_lt).
    rewrite N.leb_refl, N.sub_diag. now destruct b.
  - rewrite andb_false_r. destruct (N.leb_spec off i).
    + replace (N.testbit (if b then 1 else 0) (i - off)) with false.
      * now rewrite andb_false_r.
      * destruct b; [|now rewrite N.bits_0].
        symmetry. rewrite <- (N.pow_0_r 2). rewrite N.pow2_bits_eqb.
        apply N.eqb_neq. lia.
    + now rewrite andb_false_r.
Qed.

Lemma bit_at_bits n off i : off < n -> N.testbit (bit_at n off) i = (i =? off).
Proof. intros. unfold bit_at. rewrite maybe_bit_at_bits; auto. Qed.

Lemma wnot_bits n x i : N.testbit (wnot n x) i = xorb (N.testbit x i) (i <? n).
Proof.
  unfold wnot. rewrite N.lxor_spec. f_equal.
  destruct (N.ltb_spec i n).
  - now apply N.ones_spec_low.
  - now apply N.ones_spec_high.
Qed.

Lemma bit_mask_ones n w : w < n -> bit_mask n w = N.ones w.
Proof.
  intros H. unfold bit_mask, bit_at, maybe_bit_at, wshl.
  rewrite N.shiftl_1_l, N.mod_small by (apply N.pow_lt_mono_r; lia).
  rewrite N.ones_equiv. now rewrite N.sub_1_r.
Qed.

Lemma ones_bits w i : N.testbit (N.ones w) i = (i <? w).
Proof.
  destruct (N.ltb_spec i w).
  - now apply N.ones_spec_low.
  - now apply N.ones_spec_high.
Qed.

Lemma read_bit_spec n off x :
  off < n -> read_bit n off x = N.testbit x off.
Proof.
  intros H. unfold read_bit.
  destruct (N.testbit x off) eqn:E.
  - apply negb_true_iff, N.eqb_neq. intros Hz.
    assert (N.testbit (N.land x (bit_at n off)) off = true) as HH.
    { now rewrite N.land_spec, bit_at_bits, N.eqb_refl, E. }
    rewrite Hz, N.bits_0 in HH. discriminate.
  - apply negb_false_iff, N.eqb_eq. apply N.bits_inj. intros i.
    rewrite N.bits_0, N.land_spec, bit_at_bits by easy.
    destruct (N.eqb_spec i off) as [->|]; [now rewrite E | now rewrite andb_false_r].
Qed.

Lemma set_bit_bits n off x i :
  off < n -> N.testbit (set_bit n off x) i = if i =? off then true else N.testbit x i.
Proof.
  intros. unfold set_bit. rewrite N.lor_spec, bit_at_bits by easy.
  destruct (i =? off); [apply orb_true_r | apply orb_false_r].
Qed.

Lemma clear_bit_bits n off x i :
  off < n -> x < 2 ^ n ->
  N.testbit (clear_bit n off x) i = if i =? off then false else N.testbit x i.
Proof.
  intros H Hx. unfold clear_bit. rewrite N.land_spec, wnot_bits, bit_at_bits by easy.
  destruct (N.eqb_spec i off) as [->|].
  - replace (off <? n) with true by (symmetry; now apply N.ltb_lt). apply andb_false_r.
  - destruct (N.ltb_spec i n); simpl; [apply andb_true_r|].
    rewrite (testbit_high n) by easy. easy.
Qed.

Lemma toggle_bit_bits n off x i :
  off < n ->
  N.testbit (toggle_bit n off x) i = if i =? off then negb (N.testbit x i) else N.testbit x i.
Proof.
  intros. unfold toggle_bit. rewrite N.lxor_spec, bit_at_bits by easy.
  destruct (i =? off); [apply xorb_true_r | apply xorb_false_r].
Qed.

Lemma write_bit_bits n off b x i :
  off < n -> x < 2 ^ n ->
  N.testbit (write_bit n off b x) i = if i =? off then b else N.testbit x i.
Proof.
  intros H Hx. unfold write_bit.
  fold (clear_bit n off x). rewrite N.lor_spec, clear_bit_bits, maybe_bit_at_bits by easy.
  destruct (i =? off); [now rewrite andb_true_r | now rewrite andb_false_r, orb_false_r].
Qed.

Lemma write_bits_bits n off w v x i :
  off + w <= n -> x < 2 ^ n -> v < 2 ^ n ->
  N.testbit (write_bits n off w v x) i =
  if (off <=? i) && (i <? off + w) then N.testbit v (i - off) else N.testbit x i.
Proof.
  intros H Hx Hv. unfold write_bits. destruct (N.eqb_spec w n) as [->|Hne].
  - assert (off = 0) as -> by lia. rewrite N.add_0_l, N.sub_0_r.
    destruct (N.leb_spec 0 i); [|lia]. simpl.
    destruct (N.ltb_spec i n); [easy|].
    now rewrite !(testbit_high n) by easy.
  - rewrite bit_mask_ones by lia.
    rewrite N.lor_spec, N.land_spec, wnot_bits, !wshl_bits, N.land_spec, !ones_bits.
    destruct (N.leb_spec off i), (N.ltb_spec i n), (N.ltb_spec (i - off) w),
      (N.ltb_spec i (off + w)); simpl; try lia;
      rewrite ?andb_true_r, ?andb_false_r, ?orb_false_r; try easy;
      rewrite ?(testbit_high n x) by easy; easy.
Qed.

Lemma read_bits_spec n off w x :
  off + w <= n -> x < 2 ^ n ->
  read_bits n off w x = (x / 2 ^ off) mod 2 ^ w.
Proof.
  intros H Hx. unfold read_bits. destruct (N.eqb_spec w n) as [->|Hne].
  - assert (off = 0) as -> by lia. rewrite N.pow_0_r, N.div_1_r.
    symmetry. now apply N.mod_small.
  - rewrite bit_mask_ones by lia. rewrite N.land_ones, N.shiftr_div_pow2. easy.
Qed.

Lemma read_bits_bits n off w x i :
  off + w <= n -> x < 2 ^ n ->
  N.testbit (read_bits n off w x) i = (i <? w) && N.testbit x (i + off).
Proof.
  intros H Hx. rewrite read_bits_spec by easy.
  rewrite <- N.shiftr_div_pow2.
  destruct (N.ltb_spec i w).
  - now rewrite N.mod_pow2_bits_low, N.shiftr_spec' by easy.
  - now rewrite N.mod_pow2_bits_high by easy.
Qed.

Lemma write_bits_lt n off w v x :
  off + w <= n -> x < 2 ^ n -> v < 2 ^ n -> write_bits n off w v x < 2 ^ n.
Proof.
  intros H Hx Hv. apply bits_lt. intros i Hi.
  rewrite write_bits_bits by easy.
  destruct (N.leb_spec off i), (N.ltb_spec i (off + w)); simpl; try lia;
    now apply (testbit_high n).
Qed.

Lemma write_read n off w v x :
  off + w <= n -> x < 2 ^ n -> v < 2 ^ n ->
  read_bits n off w (write_bits n off w v x) = v mod 2 ^ w.
Proof.
  intros H Hx Hv. apply N.bits_inj. intros i.
  rewrite read_bits_bits, write_bits_bits; try easy; [|now apply write_bits_lt].
  destruct (N.ltb_spec i w).
  - rewrite N.mod_pow2_bits_low by easy. simpl.
    destruct (N.leb_spec off (i + off)), (N.ltb_spec (i + off) (off + w)); simpl; try lia.
    f_equal. lia.
  - now rewrite N.mod_pow2_bits_high by easy.
Qed.

Lemma apply_fop_lt n f o x :
  f_off f + f_width f <= n -> 0 < f_width f -> x < 2 ^ n ->
  (forall v, o = FWriteBits v -> v < 2 ^ n) ->
  apply_fop n f o x < 2 ^ n.
Proof.
  intros H Hw Hx Hv.
  assert (f_off f < n) as Ho by lia.
  destruct o; simpl; [| | | | apply write_bits_lt; auto];
    apply bits_lt; intros i Hi;
    rewrite ?set_bit_bits, ?clear_bit_bits, ?toggle_bit_bits, ?write_bit_bits by easy;
    (destruct (N.eqb_spec i (f_off f)); [lia | now apply (testbit_high n)]).
Qed.

(** Bits outside of the field are untouched by any accessor. *)
Lemma apply_fop_frame n f o x i :
  f_off f + f_width f <= n -> 0 < f_width f -> x < 2 ^ n ->
  (forall v, o = FWriteBits v -> v < 2 ^ n) ->
  (i < f_off f \/ f_off f + f_width f <= i) ->
  N.testbit (apply_fop n f o x) i = N.testbit x i.
Proof.
  intros H Hw Hx Hv Hi.
  assert (f_off f < n) as Ho by lia.
  destruct o; simpl;
    rewrite ?set_bit_bits, ?clear_bit_bits, ?toggle_bit_bits, ?write_bit_bits by easy.
  1-4: destruct (N.eqb_spec i (f_off f)); [lia|easy].
  rewrite write_bits_bits by (try easy; now apply Hv).
  destruct (N.leb_spec (f_off f) i), (N.ltb_spec i (f_off f + f_width f)); simpl;
    try easy; lia.
Qed.

(** Accessors of two disjoint fields commute. *)
Lemma apply_fop_comm n f g o p x :
  f_off f + f_width f <= n -> 0 < f_width f ->
  f_off g + f_width g <= n -> 0 < f_width g ->
  (f_off f + f_width f <= f_off g \/ f_off g + f_width g <= f_off f) ->
  x < 2 ^ n ->
  (forall v, o = FWriteBits v -> v < 2 ^ n) ->
  (forall v, p = FWriteBits v -> v < 2 ^ n) ->
  apply_fop n f o (apply_fop n g p x) = apply_fop n g p (apply_fop n f o x).
Proof.
  intros Hf Hwf Hg Hwg Hd Hx Ho Hp.
  assert (Hlf : apply_fop n f o x < 2 ^ n) by now apply apply_fop_lt.
  assert (Hlg : apply_fop n g p x < 2 ^ n) by now apply apply_fop_lt.
  assert (f_off f < n) by lia. assert (f_off g < n) by lia.
  (* the value of a bit inside the own field depends on that bit only *)
  assert (Hloc : forall h q y z i, f_off h + f_width h <= n -> 0 < f_width h ->
      y < 2 ^ n -> z < 2 ^ n -> (forall v, q = FWriteBits v -> v < 2 ^ n) ->
      N.testbit y i = N.testbit z i ->
      N.testbit (apply_fop n h q y) i = N.testbit (apply_fop n h q z) i).
  { intros h q y z i Hh Hwh Hy Hz Hq E. assert (f_off h < n) by lia.
    destruct q; simpl;
      rewrite ?set_bit_bits, ?clear_bit_bits, ?toggle_bit_bits, ?write_bit_bits by easy.
    1-4: now rewrite E.
    rewrite !write_bits_bits by (try easy; now apply Hq). now rewrite E. }
  apply N.bits_inj. intros i.
  destruct (N.lt_ge_cases i (f_off f)) as [Hi|Hi].
  - rewrite (apply_fop_frame n f o) by (auto; lia).
    apply Hloc; auto. symmetry. apply apply_fop_frame; auto.
  - destruct (N.lt_ge_cases i (f_off f + f_width f)) as [Hj|Hj].
    + rewrite (apply_fop_frame n g p (apply_fop n f o x)) by (auto; lia).
      apply Hloc; auto. apply apply_fop_frame; auto; lia.
    + rewrite (apply_fop_frame n f o) by (auto; lia).
      apply Hloc; auto. symmetry. apply apply_fop_frame; auto.
Qed.
