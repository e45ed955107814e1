(** No data race on the cells of a pulse channel. *)
Require Import NArith List Bool Arith Lia.
From Verif Require Import Spsc WeakSpec Weak WeakProofs Pulse.
From Verif Require WeakOneshot.
Import WeakOneshot(has_pow, has_lor, has_diff).
Import ListNotations.
Open Scope N_scope.

(** [td], [tt_], [tr]: the sender may access the value, its own waker, the receiver's
    waker; [tfin]: it has set the half bit.  [rd], [rt], [rr] for the receiver; [rend]: it
    has set the half bit. *)
Record tg := mktg { td : bool; tt_ : bool; tr : bool; tfin : bool }.
Record rg := mkrg { rd : bool; rt : bool; rr : bool; rend : bool }.

Definition BUF := CErr.
Definition J (v : N) (k : KP) (g : tg) (h : rg) : Prop :=
  (td g = true -> kK k TX BUF = true /\ has v ERR = false /\ rd h = false) /\
  (has v ERR = true -> rend h = false -> kP k TX BUF = true /\ rd h = false) /\
  (rd h = true -> kK k RX BUF = true /\ kP k TX BUF = true) /\
  (tt_ g = true -> kK k TX CTxW = true /\ rt h = false /\ (has v TXW = true -> has v CLOSED = true)) /\
  (has v TXW = true -> has v CLOSED = false -> kP k TX CTxW = true) /\
  (rt h = true -> kK k RX CTxW = true) /\
  (tt_ g = false -> has v TXW = true) /\
  (rr h = true -> kK k RX CRxW = true /\ tr g = false /\ (has v RXW = true -> tfin g = true)) /\
  (has v RXW = true -> tfin g = false -> kP k RX CRxW = true) /\
  (tr g = true -> kK k TX CRxW = true) /\
  (rr h = false -> has v RXW = true) /\
  (tfin g = true -> has v HALF = true) /\ (rend h = true -> has v HALF = true) /\
  (has v HALF = true -> tfin g = false -> rend h = true) /\
  (tfin g = false -> td g = true).
Definition tidle (gone : bool) (g : tg) : Prop := gone = false -> tfin g = false.
Definition ridle (gone : bool) (h : rg) : Prop := gone = false -> rend h = false.
Definition Qt (g : tg) (v : N) : Prop := tt_ g = false -> has v TXW = true.
Definition Qr (h : rg) (v : N) : Prop := True.
Definition all (c : cell) : bool := true.

Lemma lTXW v a : has (N.lor v a) TXW = has v TXW || N.testbit a 0. Proof. apply (has_lor v a 0). Qed.
Lemma lRXW v a : has (N.lor v a) RXW = has v RXW || N.testbit a 1. Proof. apply (has_lor v a 1). Qed.
Lemma lERR v a : has (N.lor v a) ERR = has v ERR || N.testbit a 2. Proof. apply (has_lor v a 2). Qed.
Lemma lCLOSED v a : has (N.lor v a) CLOSED = has v CLOSED || N.testbit a 3. Proof. apply (has_lor v a 3). Qed.
Lemma lHALF v a : has (N.lor v a) HALF = has v HALF || N.testbit a 4. Proof. apply (has_lor v a 4). Qed.
Lemma dTXW v a : has (N.ldiff v a) TXW = has v TXW && negb (N.testbit a 0). Proof. apply (has_diff v a 0). Qed.
Lemma dRXW v a : has (N.ldiff v a) RXW = has v RXW && negb (N.testbit a 1). Proof. apply (has_diff v a 1). Qed.
Lemma dERR v a : has (N.ldiff v a) ERR = has v ERR && negb (N.testbit a 2). Proof. apply (has_diff v a 2). Qed.
Lemma dCLOSED v a : has (N.ldiff v a) CLOSED = has v CLOSED && negb (N.testbit a 3). Proof. apply (has_diff v a 3). Qed.
Lemma dHALF v a : has (N.ldiff v a) HALF = has v HALF && negb (N.testbit a 4). Proof. apply (has_diff v a 4). Qed.
#[local] Hint Rewrite lTXW lRXW lERR lCLOSED lHALF dTXW dRXW dERR dCLOSED dHALF : bits.
#[local] Hint Rewrite orb_false_r orb_true_r andb_true_r andb_false_r : bits2.

Ltac fwd :=
  repeat match goal with
  | H : _ /\ _ |- _ => destruct H
  | H : ?x = ?x -> _ |- _ => specialize (H eq_refl)
  | E : ?x = ?b, H : ?x = ?b -> _ |- _ => specialize (H E)
  | E : ?x = true, H : ?x = false -> _ |- _ => clear H
  | E : ?x = false, H : ?x = true -> _ |- _ => clear H
  | H : true = false -> _ |- _ => clear H
  | H : false = true -> _ |- _ => clear H
  end.
Ltac bits := autorewrite with bits in *;
  cbn [N.testbit TXW RXW ERR CLOSED HALF Pos.testbit N.pred Pos.pred_N Pos.pred_double orb andb negb] in *; autorewrite with bits2 in *.
Ltac jsolve :=
  unfold J in *; cbn [kK kP krmw kacc seqb cell_eqb other acquires releases BUF N.eqb td tt_ tr tfin rd rt rr rend orb andb negb] in *;
  bits; fwd.


Ltac sc := repeat (match goal with |- _ /\ _ => split | |- _ -> _ => intro end; fwd).
Ltac boolh :=
  repeat match goal with
  | H : _ || _ = true |- _ => apply orb_true_iff in H as [H|H]
  | H : _ || _ = false |- _ => apply orb_false_iff in H as (? & ?)
  | H : _ && _ = true |- _ => apply andb_true_iff in H as (? & ?)
  end.
Ltac case1 :=
  match goal with
  | H : ?b = true -> _ |- _ => is_var b; fail 1
  | H : ?b = true -> _ |- _ => destruct b eqn:?
  | H : ?b = false -> _ |- _ => destruct b eqn:?
  end.
Ltac done1 :=
  first [congruence
    | match goal with |- _ || _ = true => apply orb_true_iff; first [left; congruence | right; congruence] end].
Ltac crush0 := jsolve; sc; boolh; fwd; try done1; try (repeat (case1; fwd; boolh; try done1)).
Ltac crush := solve [crush0].


Ltac kq := intros ? ?; unfold Qt, Qr in *; cbn [tt_] in *; auto.
Ltac may := intros _; unfold J in *; cbn [td tt_ tr tfin rd rt rr rend] in *; fwd; solve [auto].
(** An access to a cell that the half keeps. *)
Ltac own g :=
  let v := fresh "v0" in let k := fresh "k0" in let h := fresh "h0" in let H := fresh "HJ" in
  intros v k h H; split; [may|exists g; split; [crush|split; [kq|clear v k h H]]].
Ltac fin g := cbn [wwp]; intros ? ? ? ?; exists g; split; [auto|split; [kq|]]; intros ?; try discriminate; try assumption; try reflexivity.


Lemma low v p k : k < 5 -> N.testbit (v + N.shiftl p PARAM_BITS) k = N.testbit v k.
Proof.
  intros L. rewrite N.shiftl_mul_pow2. change PARAM_BITS with 5.
  rewrite <- (N.mod_pow2_bits_low (v + p * 2 ^ 5) 5 k L), N.mod_add by discriminate. now apply N.mod_pow2_bits_low.
Qed.
Lemma low_or v p k : k < 5 -> N.testbit (N.lor v (N.shiftl p PARAM_BITS)) k = N.testbit v k.
Proof. intros L. rewrite N.lor_spec, N.shiftl_spec_low by (change PARAM_BITS with 5; auto). apply orb_false_r. Qed.
Definition same (v v' : N) : Prop := forall k, k < 5 -> N.testbit v' k = N.testbit v k.
Lemma same_has v v' : same v v' -> has v' TXW = has v TXW /\ has v' RXW = has v RXW /\ has v' ERR = has v ERR /\
  has v' CLOSED = has v CLOSED /\ has v' HALF = has v HALF.
Proof.
  intros S. change TXW with (2 ^ 0). change RXW with (2 ^ 1). change ERR with (2 ^ 2). change CLOSED with (2 ^ 3). change HALF with (2 ^ 4).
  rewrite !has_pow. repeat split; now apply S.
Qed.
Lemma params_bit v k : k < 5 -> N.testbit (params v) k = N.testbit v k && negb (N.testbit ERR k).
Proof.
  intros L. unfold params. rewrite N.ldiff_spec, N.land_spec, N.ones_spec_low by (change PARAM_BITS with 5; auto). now rewrite andb_true_r.
Qed.
Lemma pTXW v : has (params v) TXW = has v TXW.
Proof. change TXW with (2 ^ 0). rewrite !has_pow, params_bit by reflexivity. apply andb_true_r. Qed.
Lemma pRXW v : has (params v) RXW = has v RXW.
Proof. change RXW with (2 ^ 1). rewrite !has_pow, params_bit by reflexivity. apply andb_true_r. Qed.
Lemma pERR v : has (params v) ERR = false.
Proof. change ERR with (2 ^ 2). rewrite !has_pow, params_bit by reflexivity. apply andb_false_r. Qed.
Lemma pCLOSED v : has (params v) CLOSED = has v CLOSED.
Proof. change CLOSED with (2 ^ 3). rewrite !has_pow, params_bit by reflexivity. apply andb_true_r. Qed.
Lemma pHALF v : has (params v) HALF = has v HALF.
Proof. change HALF with (2 ^ 4). rewrite !has_pow, params_bit by reflexivity. apply andb_true_r. Qed.
#[local] Hint Rewrite pTXW pRXW pERR pCLOSED pHALF : bits.

Section Width.
Variable bits : N.
Notation wpt := (@wwp pop pres tg rg all TX pconsuming J tidle Qt).

Lemma send_wp o p g : pconsuming o = false -> tfin g = false -> forall f k,
  (forall v, same v (f v)) -> (forall s, k s = notify s \/ exists r, k s = Done r) -> wpt o (Rmw Acquire Acquire p f k) g.
Proof.
  intros Co Hi f k Hf Hk. cbn [wwp]. intros v kp h HJ. destruct (same_has _ _ (Hf v)) as (E1 & E2 & E3 & E4 & E5).
  exists (mktg (td g) (tt_ g) (tr g || has v RXW) (tfin g)). split.
  { unfold J. rewrite E1, E2, E3, E4, E5. clear E1 E2 E3 E4 E5 Hf. destruct (tr g) eqn:T, (has v RXW) eqn:X; cbn [orb]; crush. }
  destruct (Hk v) as [-> | (r & ->)].
  - unfold notify. destruct (has v CLOSED); [fin (mktg (td g) (tt_ g) (tr g || has v RXW) (tfin g))|].
    destruct (has v RXW) eqn:X; [|fin (mktg (td g) (tt_ g) (tr g || false) (tfin g))].
    rewrite orb_true_r. cbn [wwp]. own (mktg (td g) (tt_ g) true (tfin g)). intros w. fin (mktg (td g) (tt_ g) true (tfin g)).
  - fin (mktg (td g) (tt_ g) (tr g || has v RXW) (tfin g)).
Qed.

Lemma call_t o : pside o = TX -> forall v k g h, J v k g h -> tidle false g ->
  exists g', J v k g' h /\ keepQ Qt g g' /\ wpt o (pcode bits o) g'.
Proof.
  intros So v k g h HJ Hi. exists g. split; auto. split; [intros ?; auto|]. clear HJ v k h.
  destruct o as [w0|w0|w0|w0| | | | |w0| |]; try discriminate; clear So; specialize (Hi eq_refl); cbn [pcode].
  - unfold send. destruct (CAPACITY bits - 1 <? w0); [fin g|]. cbv zeta. apply send_wp; auto.
    + intros v. unfold checked_add. destruct (_ <? _); intros j L; auto. now apply low.
    + intros v. destruct (checked_add _ _ _); eauto.
  - unfold saturating_send. cbv zeta.
    assert (S : forall p, wpt (SatSend w0) (Rmw Acquire Acquire None (fun s => match checked_add bits s (N.shiftl p PARAM_BITS) with
                       | Some s' => s'
                       | None => N.lor s (N.shiftl (CAPACITY bits - 1) PARAM_BITS)
                       end) notify) g).
    { intros p. apply send_wp; auto. intros v. unfold checked_add. destruct (_ <? _); intros j L; [now apply low|now apply low_or]. }
    destruct (CAPACITY bits - 1 <? w0); apply S.
  - (* send_err *)
    unfold send_err. cbn [wwp]. own g.
    intros v k h HJ. destruct (has v CLOSED) eqn:C; cbn [negb].
    + exists (mktg true (tt_ g) (has v RXW) true). split; [crush|].
      assert (F : forall w, wwp all TX pconsuming J tidle Qt (SendErr w0)
        (if has v HALF then Free (Done (RBack w)) else Done (RBack w)) (mktg true (tt_ g) (has v RXW) true)).
      { intros w. destruct (has v HALF); cbn [wwp]; fin (mktg true (tt_ g) (has v RXW) true). }
      destruct (has v RXW) eqn:X; cbn [wwp].
      * own (mktg true (tt_ g) true true). intros w. cbn [wwp]. own (mktg true (tt_ g) true true). exact F.
      * own (mktg true (tt_ g) false true). exact F.
    + exists (mktg false (tt_ g) (has v RXW) true). split; [crush|].
      destruct (has v RXW) eqn:X; cbn [wwp].
      * own (mktg false (tt_ g) true true). intros w. fin (mktg false (tt_ g) true true).
      * fin (mktg false (tt_ g) false true).
  - (* poll_canceled *)
    unfold poll_canceled. cbn [wwp]. intros u Hu. destruct (has u CLOSED) eqn:C; [fin g|].
    destruct (has u TXW) eqn:X; cbn [negb]; [fin g|].
    assert (T : tt_ g = true). { destruct (tt_ g) eqn:T; auto. unfold Qt in Hu. rewrite (Hu T) in X. discriminate. }
    cbn [wwp]. own g. intros v k h HJ. destruct (has v CLOSED) eqn:C'.
    + exists g. split; [crush|]. cbn [wwp]. own g. intros x. fin g.
    + exists (mktg (td g) false (tr g) (tfin g)). split; [crush|]. fin (mktg (td g) false (tr g) (tfin g)).
  - unfold is_canceled. cbn [wwp]. intros u _. fin g.
  - (* drop_tx *)
    unfold drop_tx. cbn [wwp]. intros v k h HJ.
    exists (mktg (td g) (tt_ g) (has v RXW) true). split; [crush|].
    assert (F : wwp all TX pconsuming J tidle Qt DropTx
      (if has v HALF then Free (Done RUnit) else Done RUnit) (mktg (td g) (tt_ g) (has v RXW) true)).
    { destruct (has v HALF); cbn [wwp]; fin (mktg (td g) (tt_ g) (has v RXW) true). }
    destruct (has v RXW) eqn:X; [|exact F]. cbn [wwp].
    own (mktg (td g) (tt_ g) true true). intros w. destruct (has v HALF); cbn [negb wwp]; [exact F|].
    fin (mktg (td g) (tt_ g) true true).
Qed.

Definition J' v k h g := J v k g h.
Notation wpr := (@wwp pop pres rg tg all RX pconsuming J' ridle Qr).
Ltac crush' := unfold J' in *; crush.
Ltac mayr := unfold J' in *; may.
Ltac ownr g :=
  let v := fresh "v0" in let k := fresh "k0" in let h := fresh "h0" in let H := fresh "HJ" in
  intros v k h H; split; [mayr|exists g; split; [crush'|split; [kq|clear v k h H]]].

(** The error flag has been taken with [s] and is put back. *)
Lemma pulses_wp o s h : pconsuming o = false -> rend h = false -> (has s ERR = true -> rd h = true) -> wpr o (pulses s) h.
Proof.
  intros Co He Hs. unfold pulses. destruct (has s ERR); [|fin h]. specialize (Hs eq_refl). cbn [wwp]. intros v k g HJ.
  exists (mkrg false (rt h) (rr h) (rend h)). split; [crush'|]. fin (mkrg false (rt h) (rr h) (rend h)).
Qed.

Lemma call_r o : pside o = RX -> forall v k g h, J v k g h -> ridle false h ->
  exists h', J v k g h' /\ keepQ Qr h h' /\ wpr o (pcode bits o) h'.
Proof.
  intros So v k g h HJ Hi. exists h. split; auto. split; [intros ?; auto|]. clear HJ v k g.
  destruct o as [w0|w0|w0|w0| | | | |w0| |]; try discriminate; clear So; specialize (Hi eq_refl); cbn [pcode].
  - (* close *)
    unfold close. cbn [wwp]. intros v k g HJ.
    exists (mkrg (rd h) (if negb (has v CLOSED) && has v TXW then true else rt h) (rr h) (rend h)).
    destruct (negb (has v CLOSED) && has v TXW) eqn:B.
    + apply andb_true_iff in B as (B1 & B2). apply negb_true_iff in B1. split; [crush'|].
      cbn [wwp]. ownr (mkrg (rd h) true (rr h) (rend h)). intros w. destruct (has v HALF); fin (mkrg (rd h) true (rr h) (rend h)).
    + split; [|fin (mkrg (rd h) (rt h) (rr h) (rend h))]. apply andb_false_iff in B. rewrite negb_false_iff in B.
      destruct B; crush'.
  - (* try_next *)
    unfold try_next. cbn [wwp]. intros v k g HJ. exists (mkrg (if has v ERR then true else rd h) (rt h) (rr h) (rend h)).
    split; [destruct (has v ERR) eqn:D; crush'|]. clear HJ. destruct (negb (count v =? 0)).
    { apply pulses_wp; auto. intros ->. reflexivity. }
    destruct (has v ERR) eqn:D.
    + cbn [wwp]. ownr (mkrg true (rt h) (rr h) (rend h)). intros w. fin (mkrg true (rt h) (rr h) (rend h)).
    + destruct (has v HALF || has v CLOSED); fin (mkrg (rd h) (rt h) (rr h) (rend h)).
  - (* poll_next *)
    unfold poll_next. cbn [wwp]. intros v k g HJ. exists (mkrg (if has v ERR then true else rd h) (rt h) (rr h) (rend h)).
    split; [destruct (has v ERR) eqn:D; crush'|]. destruct (negb (count v =? 0)).
    { apply pulses_wp; auto. intros ->. reflexivity. }
    destruct (has v ERR) eqn:D.
    { cbn [wwp]. ownr (mkrg true (rt h) (rr h) (rend h)). intros w. fin (mkrg true (rt h) (rr h) (rend h)). }
    destruct (has v HALF || has v CLOSED); [fin (mkrg (rd h) (rt h) (rr h) (rend h))|].
    destruct (has v RXW) eqn:X; cbn [negb]; [fin (mkrg (rd h) (rt h) (rr h) (rend h))|].
    assert (T : rr h = true). { destruct (rr h) eqn:T; auto. unfold J', J in HJ. fwd. congruence. }
    rename v into s0. clear k g HJ D X. rewrite T. cbn [wwp]. ownr (mkrg (rd h) (rt h) true (rend h)). intros v k g HJ. cbn beta zeta.
    destruct (has v HALF) eqn:B.
    + exists (mkrg (if has v ERR then true else rd h) (rt h) true (rend h)).
      split; [destruct (has v ERR) eqn:D; crush'|]. clear HJ.
      cbn [wwp]. ownr (mkrg (if has v ERR then true else rd h) (rt h) true (rend h)). intros w. cbn [wwp].
      destruct (negb (count v =? 0)). { apply pulses_wp; auto. intros ->. reflexivity. }
      destruct (has v ERR); [|fin (mkrg (rd h) (rt h) true (rend h))].
      cbn [wwp]. ownr (mkrg true (rt h) true (rend h)). intros x. fin (mkrg true (rt h) true (rend h)).
    + exists (mkrg (if has v ERR then true else rd h) (rt h) false (rend h)).
      split; [destruct (has v ERR) eqn:D; crush'|]. clear HJ.
      destruct (negb (count v =? 0)). { apply pulses_wp; auto. intros ->. reflexivity. }
      fin (mkrg (if has v ERR then true else rd h) (rt h) false (rend h)).
  - unfold is_terminated. cbn [wwp]. intros u _. fin h.
  - (* drop_rx *)
    unfold drop_rx. cbn [wwp]. intros v k g HJ.
    exists (mkrg (if has v ERR then true else rd h) (if negb (has v CLOSED) && has v TXW then true else rt h) (rr h) true).
    match goal with |- _ /\ wwp _ _ _ _ _ _ _ _ ?h' => set (h1 := h') end.
    assert (K : J' (N.lor (N.lor v CLOSED) HALF) (krmw RX Acquire k) h1 g).
    { unfold h1. destruct (has v ERR) eqn:D; destruct (negb (has v CLOSED) && has v TXW) eqn:B;
        (apply andb_true_iff in B as (B1 & B2); apply negb_true_iff in B1; crush') ||
        (apply andb_false_iff in B; rewrite negb_false_iff in B; destruct B; crush'). }
    split; [exact K|]. clear K.
    assert (F : wpr DropRx (if has v HALF then Free (Done RUnit) else Done RUnit) h1).
    { destruct (has v HALF); fin h1. }
    assert (W : wpr DropRx
       (if negb (has v CLOSED) && has v TXW then
        Take CTxW (fun w => if negb (has v HALF) then Wake w (Done RUnit) else DropW w (if has v HALF then Free (Done RUnit) else Done RUnit))
      else if has v HALF then Free (Done RUnit) else Done RUnit) h1).
    { destruct (negb (has v CLOSED) && has v TXW) eqn:B; [|exact F]. cbn [wwp].
      assert (T : rt h1 = true) by reflexivity. clear - F T. ownr h1.
      intros w. destruct (has v HALF); cbn [negb wwp]; [exact F|fin h1]. }
    destruct (has v ERR) eqn:D; [|exact W]. cbn [wwp]. assert (T : rd h1 = true) by reflexivity. clear - W T. ownr h1. intros w. exact W.
Qed.

Lemma J_0 : J 0 kp0 (mktg true true false false) (mkrg false false true false).
Proof. unfold J. cbn. repeat split; discriminate || auto. Qed.
Lemma JQ v k g h : J v k g h -> Qt g v /\ Qr h v.
Proof. intros H. split; [|exact I]. unfold Qt. unfold J in H. fwd. auto. Qed.

Theorem pulse_cells l : ~ racing clash (accesses (wlog (wrun pside pconsuming (pcode bits) l))).
Proof.
  intros (i & j & s & t & a & b & N & Ei & Ej & C & H1 & H2).
  refine (wok_races all pside pconsuming (pcode bits) J tidle ridle Qt Qr (mktg true true false false) (mkrg false false true false)
    J_0 _ _ JQ (fun _ => True) (fun o _ => call_t o) (fun o _ => call_r o) l (allowed_any l) _); try (intros _; reflexivity).
  exists i, j, s, t, a, b. repeat (split; auto). destruct a as [| |c w|]; try contradiction. exists c, w. auto.
Qed.
End Width.
