(** The state word of the ring channel as a record of its fields. *)
Require Import NArith List Bool Lia.
Require Import Verif.Spsc Verif.Ring.
Import ListNotations.
Open Scope N_scope.

Record view := V { vr : bool; vf : bool; vw : bool; ve : bool; vc : bool; vh : bool; vcur : N; vlen : N }.

Definition b2n (b : bool) (n : N) : N := if b then n else 0.
Definition flags (r f w e c h : bool) : N := b2n r 1 + b2n f 2 + b2n w 4 + b2n e 8 + b2n c 16 + b2n h 32.

Lemma flags_lt r f w e c h : flags r f w e c h < 64.
Proof. destruct r, f, w, e, c, h; reflexivity. Qed.

Lemma lor_disj n a y : a < 2 ^ n -> N.lor a (2 ^ n * y) = a + 2 ^ n * y.
Proof.
  intros Ha. symmetry. rewrite N.add_nocarry_lxor; [|].
  - symmetry. rewrite <- N.lxor_lor; [reflexivity|].
    apply N.bits_inj_iff. intros i. rewrite N.land_spec, N.bits_0.
    destruct (N.lt_ge_cases i n) as [Hi|Hi].
    + rewrite (N.mul_comm (2 ^ n)), N.mul_pow2_bits_low by assumption. apply andb_false_r.
    + destruct (N.eq_0_gt_0_cases a) as [->|Hp]; [now rewrite N.bits_0|].
      rewrite (N.bits_above_log2 a i); [reflexivity|].
      apply N.lt_le_trans with n; [now apply N.log2_lt_pow2|assumption].
  - apply N.bits_inj_iff. intros i. rewrite N.land_spec, N.bits_0.
    destruct (N.lt_ge_cases i n) as [Hi|Hi].
    + rewrite (N.mul_comm (2 ^ n)), N.mul_pow2_bits_low by assumption. apply andb_false_r.
    + destruct (N.eq_0_gt_0_cases a) as [->|Hp]; [now rewrite N.bits_0|].
      rewrite (N.bits_above_log2 a i); [reflexivity|].
      apply N.lt_le_trans with n; [now apply N.log2_lt_pow2|assumption].
Qed.

Lemma land_low n e b : e < 64 -> N.land b 63 = b -> N.land (e + 64 * n) b = N.land e b.
Proof.
  intros He Hb. rewrite <- Hb at 1. rewrite (N.land_comm b 63), N.land_assoc.
  change 63 with (N.ones 6). rewrite N.land_ones. change (2 ^ 6) with 64.
  rewrite (N.mul_comm 64 n), N.mod_add by lia. now rewrite N.mod_small.
Qed.
Lemma lor_low n e b : e < 64 -> b < 64 -> N.lor (e + 64 * n) b = N.lor e b + 64 * n.
Proof.
  intros He Hb. change 64 with (2 ^ 6) in *. rewrite <- !lor_disj; [|clear n|assumption].
  - rewrite <- !N.lor_assoc. f_equal. apply N.lor_comm.
  - destruct (N.eq_0_gt_0_cases (N.lor e b)) as [->|Hp]; [reflexivity|].
    apply N.log2_lt_pow2; [assumption|]. rewrite N.log2_lor.
    apply N.max_lub_lt.
    + destruct (N.eq_0_gt_0_cases e) as [->|]; [reflexivity|now apply N.log2_lt_pow2].
    + destruct (N.eq_0_gt_0_cases b) as [->|]; [reflexivity|now apply N.log2_lt_pow2].
Qed.
Lemma ldiff_low n e b : e < 64 -> b < 64 -> N.ldiff (e + 64 * n) b = N.ldiff e b + 64 * n.
Proof.
  intros He Hb. change 64 with (2 ^ 6) in *. rewrite <- !lor_disj; [|clear n|assumption].
  - apply N.bits_inj_iff. intros i. rewrite N.ldiff_spec, !N.lor_spec, N.ldiff_spec.
    destruct (N.testbit (2 ^ 6 * n) i) eqn:E; [|now rewrite !orb_false_r].
    rewrite !orb_true_r. cbn. replace (N.testbit b i) with false; [reflexivity|].
    destruct (N.lt_ge_cases i 6) as [Hi|Hi]; [rewrite (N.mul_comm (2 ^ 6)), N.mul_pow2_bits_low in E by assumption; discriminate|].
    destruct (N.eq_0_gt_0_cases b) as [->|Hp]; [now rewrite N.bits_0|].
    symmetry. apply N.bits_above_log2. apply N.lt_le_trans with 6; [now apply N.log2_lt_pow2|assumption].
  - assert (N.land (N.ldiff e b) (N.land e b) = 0) as Z.
    { apply N.bits_inj_iff. intros i. rewrite !N.land_spec, N.ldiff_spec, N.bits_0.
      now destruct (N.testbit e i), (N.testbit b i). }
    pose proof (N.lor_ldiff_and e b) as K.
    rewrite <- N.lxor_lor, <- N.add_nocarry_lxor in K by assumption. lia.
Qed.

Section Word.
  Variables bits cap : N.
  Notation cb := (COUNT_BITS bits).
  Definition LB : N := bits - PARAM_BITS - cb.
  Hypothesis Hbits : 6 <= bits.
  Hypothesis Hcap0 : 1 < cap.
  Hypothesis Hcap : cap <= MAX_CAPACITY bits.

  Definition encv (v : view) : N :=
    flags (vr v) (vf v) (vw v) (ve v) (vc v) (vh v) + 64 * (vcur v + 2 ^ cb * vlen v).
  Definition vok (v : view) : Prop := vcur v < cap /\ vlen v < 2 ^ LB.

  Lemma capp : cap <= 2 ^ cb.
  Proof. unfold MAX_CAPACITY in Hcap. now rewrite N.shiftl_1_l in Hcap. Qed.
  Lemma cbsum : 6 + cb + LB = bits.
  Proof.
    unfold LB, COUNT_BITS, PARAM_BITS. rewrite N.shiftr_div_pow2. change (2 ^ 1) with 2.
    assert ((bits - 6) / 2 <= bits - 6) by (apply N.div_le_upper_bound; lia). lia.
  Qed.
  Lemma cb_LB : cb <= LB.
  Proof.
    unfold LB, COUNT_BITS, PARAM_BITS. rewrite N.shiftr_div_pow2. change (2 ^ 1) with 2.
    assert (2 * ((bits - 6) / 2) <= bits - 6) by (apply N.mul_div_le; lia). lia.
  Qed.
  Lemma max_LB : MAX_CAPACITY bits <= 2 ^ LB.
  Proof.
    unfold MAX_CAPACITY. rewrite N.shiftl_1_l. apply N.pow_le_mono_r; [lia|apply cb_LB].
  Qed.

  Ltac low := unfold has, encv; rewrite ?land_low, ?lor_low, ?ldiff_low by (apply flags_lt || reflexivity);
    match goal with v : view |- _ => destruct v as [[] [] [] [] [] [] ? ?] end; cbn [vr vf vw ve vc vh vcur vlen]; reflexivity.

  Lemma has_READY v : has (encv v) READY = vr v. Proof. low. Qed.
  Lemma has_FLUSH v : has (encv v) FLUSH = vf v. Proof. low. Qed.
  Lemma has_RXW v : has (encv v) RXW = vw v. Proof. low. Qed.
  Lemma has_ERR v : has (encv v) ERR = ve v. Proof. low. Qed.
  Lemma has_CLOSED v : has (encv v) CLOSED = vc v. Proof. low. Qed.
  Lemma has_HALF v : has (encv v) HALF = vh v. Proof. low. Qed.

  Definition with_r (v : view) (b : bool) := V b (vf v) (vw v) (ve v) (vc v) (vh v) (vcur v) (vlen v).
  Definition with_f (v : view) (b : bool) := V (vr v) b (vw v) (ve v) (vc v) (vh v) (vcur v) (vlen v).
  Definition with_w (v : view) (b : bool) := V (vr v) (vf v) b (ve v) (vc v) (vh v) (vcur v) (vlen v).
  Definition with_e (v : view) (b : bool) := V (vr v) (vf v) (vw v) b (vc v) (vh v) (vcur v) (vlen v).
  Definition with_c (v : view) (b : bool) := V (vr v) (vf v) (vw v) (ve v) b (vh v) (vcur v) (vlen v).
  Definition with_h (v : view) (b : bool) := V (vr v) (vf v) (vw v) (ve v) (vc v) b (vcur v) (vlen v).

  Lemma or_READY v : N.lor (encv v) READY = encv (with_r v true). Proof. low. Qed.
  Lemma or_FLUSH v : N.lor (encv v) FLUSH = encv (with_f v true). Proof. low. Qed.
  Lemma or_RXW v : N.lor (encv v) RXW = encv (with_w v true). Proof. low. Qed.
  Lemma or_ERR v : N.lor (encv v) ERR = encv (with_e v true). Proof. low. Qed.
  Lemma or_CLOSED v : N.lor (encv v) CLOSED = encv (with_c v true). Proof. low. Qed.
  Lemma or_HALF v : N.lor (encv v) HALF = encv (with_h v true). Proof. low. Qed.
  Lemma or_0 v : N.lor (encv v) 0 = encv v. Proof. apply N.lor_0_r. Qed.
  Lemma no_READY v : N.ldiff (encv v) READY = encv (with_r v false). Proof. low. Qed.
  Lemma no_FLUSH v : N.ldiff (encv v) FLUSH = encv (with_f v false). Proof. low. Qed.
  Lemma no_ERR v : N.ldiff (encv v) ERR = encv (with_e v false). Proof. low. Qed.

  Lemma or_flags v (a e : bool) :
    N.lor (encv v) (N.lor (if a then N.lor READY FLUSH else 0) (if e then ERR else 0)) =
    encv (V (vr v || a) (vf v || a) (vw v) (ve v || e) (vc v) (vh v) (vcur v) (vlen v)).
  Proof. destruct a, e; low. Qed.
  Lemma flags_0 (a e : bool) :
    N.lor (if a then N.lor READY FLUSH else 0) (if e then ERR else 0) =? 0 = negb (a || e).
  Proof. now destruct a, e. Qed.

  Lemma len_encv v : vok v -> get_length bits (encv v) = vlen v.
  Proof.
    intros [Hc Hl]. unfold get_length, encv. rewrite N.shiftr_div_pow2, N.pow_add_r. change (2 ^ PARAM_BITS) with 64.
    pose proof capp. pose proof (flags_lt (vr v) (vf v) (vw v) (ve v) (vc v) (vh v)).
    rewrite <- N.div_div by (try apply N.pow_nonzero; discriminate).
    rewrite (N.mul_comm 64), N.div_add by discriminate. rewrite (N.div_small (flags _ _ _ _ _ _)) by assumption.
    rewrite N.add_0_l, N.mul_comm, N.add_comm, N.div_add_l by (apply N.pow_nonzero; discriminate).
    rewrite N.div_small by lia. lia.
  Qed.
  Lemma cur_encv v : vok v -> get_cursor bits (encv v) = vcur v.
  Proof.
    intros [Hc Hl]. unfold get_cursor, encv. rewrite N.shiftr_div_pow2, N.land_ones. change (2 ^ PARAM_BITS) with 64.
    pose proof capp. pose proof (flags_lt (vr v) (vf v) (vw v) (ve v) (vc v) (vh v)).
    rewrite (N.mul_comm 64), N.div_add by discriminate. rewrite (N.div_small (flags _ _ _ _ _ _)) by assumption.
    rewrite N.add_0_l, N.mul_comm, N.mod_add by (apply N.pow_nonzero; discriminate). apply N.mod_small. lia.
  Qed.
  Lemma params_encv v : N.land (encv v) (N.ones PARAM_BITS) = flags (vr v) (vf v) (vw v) (ve v) (vc v) (vh v).
  Proof.
    unfold encv. rewrite N.land_ones. change (2 ^ PARAM_BITS) with 64.
    rewrite (N.mul_comm 64), N.mod_add by discriminate. apply N.mod_small, flags_lt.
  Qed.

  Definition claimv (v : view) : view :=
    V (vr v) (vf v) (vw v) (ve v) (vc v) (vh v) (add_cursor (vcur v) 1 cap) (vlen v - 1).

  Lemma add_cursor_lt c k : c < cap -> k <= cap -> add_cursor c k cap < cap.
  Proof. unfold add_cursor. intros. destruct (N.leb_spec cap (c + k)); lia. Qed.

  Lemma claimv_ok v : vok v -> vok (claimv v).
  Proof. intros [Hc Hl]. split; cbn; [apply add_cursor_lt; lia|lia]. Qed.

  Lemma claim_encv v : vok v -> claim_next bits cap (encv v) (vlen v) = encv (claimv v).
  Proof.
    intros Hv. pose proof capp. unfold claim_next. rewrite params_encv, cur_encv by assumption.
    pose proof (flags_lt (vr v) (vf v) (vw v) (ve v) (vc v) (vh v)).
    pose proof (add_cursor_lt (vcur v) 1 (proj1 Hv)).
    rewrite !N.shiftl_mul_pow2, N.pow_add_r. change (2 ^ PARAM_BITS) with (2 ^ 6) at 1.
    rewrite (N.mul_comm _ (2 ^ 6)), lor_disj by assumption.
    change (2 ^ PARAM_BITS) with 64. change (2 ^ 6) with 64.
    replace ((vlen v - 1) * (64 * 2 ^ cb)) with (2 ^ (6 + cb) * (vlen v - 1)).
    2: { rewrite N.pow_add_r. change (2 ^ 6) with 64. lia. }
    rewrite lor_disj.
    - unfold encv, claimv. cbn [vr vf vw ve vc vh vcur vlen]. rewrite N.pow_add_r. change (2 ^ 6) with 64. lia.
    - rewrite N.pow_add_r. change (2 ^ 6) with 64. lia.
  Qed.
  Definition claim_unless (v : view) : view := if 0 <? vlen v then claimv v else v.
  Definition claim_full (v : view) : view := if negb (vc v) && (vlen v =? cap) then claimv v else v.
  Definition nextv (v : view) : view := with_e (claim_unless v) false.
  Lemma claim_unless_encv v : vok v -> claim_next_unless_empty bits cap (encv v) = encv (claim_unless v).
  Proof.
    intros Hv. unfold claim_next_unless_empty, claim_unless. rewrite len_encv by assumption.
    destruct (0 <? vlen v); [now apply claim_encv|reflexivity].
  Qed.
  Lemma claim_full_encv v : vok v -> claim_next_if_full bits cap (encv v) = encv (claim_full v).
  Proof.
    intros Hv. unfold claim_next_if_full, claim_full. rewrite len_encv, has_CLOSED by assumption.
    destruct (negb (vc v) && (vlen v =? cap)); [now apply claim_encv|reflexivity].
  Qed.
  Lemma next_encv v : vok v -> next_claim bits cap (encv v) = encv (nextv v).
  Proof. intros Hv. unfold next_claim, nextv. rewrite claim_unless_encv by assumption. apply no_ERR. Qed.

  Definition addv (v : view) : view :=
    if vc v then v
    else V (vr v) (vf v) (vw v) (ve v) (vc v) (vh v) (vcur v) ((vlen v + 1) mod 2 ^ LB).
  Lemma add_encv v : vok v -> add_length bits (encv v) 1 = encv (addv v).
  Proof.
    intros [Hc Hl]. unfold add_length, addv. rewrite has_CLOSED. destruct (vc v) eqn:Ec; [reflexivity|]. cbn [negb].
    pose proof capp. pose proof (flags_lt (vr v) (vf v) (vw v) (ve v) (vc v) (vh v)) as Hf.
    rewrite N.shiftl_1_l. unfold encv. cbn [vr vf vw ve vc vh vcur vlen]. rewrite Ec in *.
    set (F := flags _ _ _ _ _ _) in *.
    replace (F + 64 * (vcur v + 2 ^ cb * vlen v) + 2 ^ (PARAM_BITS + cb))
      with ((F + 64 * vcur v) + 2 ^ (6 + cb) * (vlen v + 1)).
    2: { unfold PARAM_BITS. rewrite N.pow_add_r. change (2 ^ 6) with 64. lia. }
    replace (2 ^ bits) with (2 ^ (6 + cb) * 2 ^ LB) by (now rewrite <- N.pow_add_r, cbsum).
    assert (F + 64 * vcur v < 2 ^ (6 + cb)). { rewrite N.pow_add_r. change (2 ^ 6) with 64. lia. }
    rewrite N.mod_mul_r by (apply N.pow_nonzero; discriminate).
    rewrite (N.mul_comm (2 ^ (6 + cb)) (vlen v + 1)).
    rewrite N.mod_add, N.div_add by (apply N.pow_nonzero; discriminate).
    rewrite N.mod_small, N.div_small by assumption. rewrite N.add_0_l, N.pow_add_r. change (2 ^ 6) with 64. lia.
  Qed.
  Lemma addv_ok v : vok v -> vok (addv v).
  Proof.
    intros [Hc Hl]. unfold addv. destruct (vc v); [now split|]. split; [exact Hc|]. cbn. apply N.mod_lt, N.pow_nonzero. discriminate.
  Qed.

  Definition dropv (v : view) : view := V (vr v) (vf v) (vw v) (ve v) true true (vcur v) 0.
  Lemma drop_encv v : vok v -> cb = LB ->
    N.lor (N.lor (N.shiftr (N.shiftl (encv v) cb mod 2 ^ bits) cb) CLOSED) HALF = encv (dropv v).
  Proof.
    intros [Hc Hl] E.
    pose proof capp. pose proof (flags_lt (vr v) (vf v) (vw v) (ve v) (vc v) (vh v)) as Hf.
    replace (N.shiftr _ _) with (encv (V (vr v) (vf v) (vw v) (ve v) (vc v) (vh v) (vcur v) 0)).
    { rewrite or_CLOSED, or_HALF. reflexivity. }
    rewrite N.shiftl_mul_pow2, N.shiftr_div_pow2.
    replace (2 ^ bits) with (2 ^ (6 + LB) * 2 ^ cb) by (rewrite <- N.pow_add_r; f_equal; pose proof cbsum; lia).
    rewrite N.mul_mod_distr_r, N.div_mul by (apply N.pow_nonzero; discriminate).
    unfold encv. cbn [vr vf vw ve vc vh vcur vlen]. set (F := flags _ _ _ _ _ _) in *.
    replace (F + 64 * (vcur v + 2 ^ cb * vlen v)) with ((F + 64 * vcur v) + vlen v * 2 ^ (6 + LB)).
    2: { rewrite N.pow_add_r, E. change (2 ^ 6) with 64. lia. }
    rewrite N.mod_add by (apply N.pow_nonzero; discriminate). symmetry. rewrite N.mod_small; [lia|].
    rewrite N.pow_add_r, <- E. change (2 ^ 6) with 64. lia.
  Qed.
  Lemma dropv_ok v : vok v -> vok (dropv v).
  Proof. intros [Hc Hl]. split; [exact Hc|]. cbn. apply N.neq_0_lt_0, N.pow_nonzero. discriminate. Qed.
End Word.

Lemma encv_0 bits : encv bits (V false false false false false false 0 0) = 0.
Proof. unfold encv. cbn [vr vf vw ve vc vh vcur vlen]. rewrite N.mul_0_r. reflexivity. Qed.
