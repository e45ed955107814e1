(** No data race on the cells of a oneshot channel. *)
Require Import NArith List Bool Arith Lia.
From Verif Require Import Spsc WeakSpec Weak WeakProofs Oneshot.
Import ListNotations.
Open Scope N_scope.

Lemma has_pow v k : has v (2 ^ k) = N.testbit v k.
Proof.
  unfold has. destruct (N.testbit v k) eqn:E.
  - apply negb_true_iff, N.eqb_neq. intros X. assert (Y := f_equal (fun x => N.testbit x k) X). cbn beta in Y.
    rewrite N.land_spec, N.bits_0, E, N.pow2_bits_true in Y. discriminate.
  - apply negb_false_iff, N.eqb_eq. apply N.bits_inj. intros j. rewrite N.land_spec, N.bits_0.
    destruct (N.eq_dec j k) as [->|]; [now rewrite E|]. rewrite N.pow2_bits_false by auto. apply andb_false_r.
Qed.
Lemma has_lor v a k : has (N.lor v a) (2 ^ k) = has v (2 ^ k) || N.testbit a k.
Proof. now rewrite !has_pow, N.lor_spec. Qed.
Lemma has_diff v a k : has (N.ldiff v a) (2 ^ k) = has v (2 ^ k) && negb (N.testbit a k).
Proof. now rewrite !has_pow, N.ldiff_spec. Qed.


(** [td], [tt_], [tr]: the sender may access the value, its own waker, the receiver's
    waker; [tfin]: it has set the half bit.  [rd], [rt], [rr] for the receiver; [rend]: it
    has set the half bit. *)
Record tg := mktg { td : bool; tt_ : bool; tr : bool; tfin : bool }.
Record rg := mkrg { rd : bool; rt : bool; rr : bool; rend : bool }.

Definition BUF := CBuf 0.
Definition J (v : N) (k : KP) (g : tg) (h : rg) : Prop :=
  (td g = true -> kK k TX BUF = true /\ has v DATA = false /\ rd h = false) /\
  (has v DATA = true -> rend h = false -> kP k TX BUF = true /\ rd h = false) /\
  (rd h = true -> kK k RX BUF = true) /\
  (tt_ g = true -> kK k TX CTxW = true /\ rt h = false /\ (has v TXW = true -> has v CLOSED = true)) /\
  (has v TXW = true -> has v CLOSED = false -> kP k TX CTxW = true) /\
  (rt h = true -> kK k RX CTxW = true) /\
  (tt_ g = false -> has v TXW = true) /\
  (rr h = true -> kK k RX CRxW = true /\ tr g = false /\ (has v RXW = true -> tfin g = true)) /\
  (has v RXW = true -> tfin g = false -> kP k RX CRxW = true) /\
  (tr g = true -> kK k TX CRxW = true) /\
  (rr h = false -> has v RXW = true) /\
  (tfin g = true -> has v HALF = true) /\ (rend h = true -> has v HALF = true) /\
  (has v HALF = true -> tfin g = false -> rend h = true) /\
  (tfin g = false -> td g = true).
Definition tidle (gone : bool) (g : tg) : Prop := gone = false -> tfin g = false.
Definition ridle (gone : bool) (h : rg) : Prop := gone = false -> rend h = false.
Definition Qt (g : tg) (v : N) : Prop := tt_ g = false -> has v TXW = true.
Definition Qr (h : rg) (v : N) : Prop := True.
Definition all (c : cell) : bool := true.

Lemma lTXW v a : has (N.lor v a) TXW = has v TXW || N.testbit a 0. Proof. apply (has_lor v a 0). Qed.
Lemma lRXW v a : has (N.lor v a) RXW = has v RXW || N.testbit a 1. Proof. apply (has_lor v a 1). Qed.
Lemma lDATA v a : has (N.lor v a) DATA = has v DATA || N.testbit a 2. Proof. apply (has_lor v a 2). Qed.
Lemma lCLOSED v a : has (N.lor v a) CLOSED = has v CLOSED || N.testbit a 3. Proof. apply (has_lor v a 3). Qed.
Lemma lHALF v a : has (N.lor v a) HALF = has v HALF || N.testbit a 4. Proof. apply (has_lor v a 4). Qed.
Lemma dTXW v a : has (N.ldiff v a) TXW = has v TXW && negb (N.testbit a 0). Proof. apply (has_diff v a 0). Qed.
Lemma dRXW v a : has (N.ldiff v a) RXW = has v RXW && negb (N.testbit a 1). Proof. apply (has_diff v a 1). Qed.
Lemma dDATA v a : has (N.ldiff v a) DATA = has v DATA && negb (N.testbit a 2). Proof. apply (has_diff v a 2). Qed.
Lemma dCLOSED v a : has (N.ldiff v a) CLOSED = has v CLOSED && negb (N.testbit a 3). Proof. apply (has_diff v a 3). Qed.
Lemma dHALF v a : has (N.ldiff v a) HALF = has v HALF && negb (N.testbit a 4). Proof. apply (has_diff v a 4). Qed.
#[local] Hint Rewrite lTXW lRXW lDATA lCLOSED lHALF dTXW dRXW dDATA dCLOSED dHALF : bits.
#[local] Hint Rewrite orb_false_r orb_true_r andb_true_r andb_false_r : bits2.

Ltac fwd :=
  repeat match goal with
  | H : _ /\ _ |- _ => destruct H
  | H : ?x = ?x -> _ |- _ => specialize (H eq_refl)
  | E : ?x = ?b, H : ?x = ?b -> _ |- _ => specialize (H E)
  | E : ?x = true, H : ?x = false -> _ |- _ => clear H
  | E : ?x = false, H : ?x = true -> _ |- _ => clear H
  | H : true = false -> _ |- _ => clear H
  | H : false = true -> _ |- _ => clear H
  end.
Ltac bits := autorewrite with bits in *;
  cbn [N.testbit TXW RXW DATA CLOSED HALF Pos.testbit N.pred Pos.pred_N Pos.pred_double orb andb negb] in *; autorewrite with bits2 in *.
Ltac jsolve :=
  unfold J in *; cbn [kK kP krmw kacc seqb cell_eqb other acquires releases BUF N.eqb td tt_ tr tfin rd rt rr rend orb andb negb] in *;
  bits; fwd.


Ltac sc := repeat (match goal with |- _ /\ _ => split | |- _ -> _ => intro end; fwd).
Ltac boolh :=
  repeat match goal with
  | H : _ || _ = true |- _ => apply orb_true_iff in H as [H|H]
  | H : _ || _ = false |- _ => apply orb_false_iff in H as (? & ?)
  | H : _ && _ = true |- _ => apply andb_true_iff in H as (? & ?)
  end.
Ltac case1 :=
  match goal with
  | H : ?b = true -> _ |- _ => is_var b; fail 1
  | H : ?b = true -> _ |- _ => destruct b eqn:?
  | H : ?b = false -> _ |- _ => destruct b eqn:?
  end.
Ltac done1 :=
  first [congruence
    | match goal with |- _ || _ = true => apply orb_true_iff; first [left; congruence | right; congruence] end].
Ltac crush0 := jsolve; sc; boolh; fwd; try done1; try (repeat (case1; fwd; boolh; try done1)).
Ltac crush := solve [crush0].


Ltac kq := intros ? ?; unfold Qt, Qr in *; cbn [tt_] in *; auto.
Ltac may := intros _; unfold J in *; cbn [td tt_ tr tfin rd rt rr rend] in *; fwd; solve [auto].
(** An access to a cell that the half keeps. *)
Ltac own g :=
  let v := fresh "v0" in let k := fresh "k0" in let h := fresh "h0" in let H := fresh "HJ" in
  intros v k h H; split; [may|exists g; split; [crush|split; [kq|clear v k h H]]].
Ltac fin g := cbn [wwp]; intros ? ? ? ?; exists g; split; [auto|split; [kq|]]; intros ?; try discriminate; try assumption; try reflexivity.

Lemma call_t o : oside o = TX -> forall v k g h, J v k g h -> tidle false g ->
  exists g', J v k g' h /\ keepQ Qt g g' /\ @wwp oop ores tg rg all TX oconsuming J tidle Qt o (ocode o) g'.
Proof.
  intros So v k g h HJ Hi. exists g. split; auto. split; [intros ?; auto|]. clear HJ v k h.
  destruct o as [w0|w0| | | | |w0| |]; try discriminate; clear So; specialize (Hi eq_refl); cbn [ocode].
  - (* send *)
    unfold send. cbn [wwp]. own g.
    intros v k h HJ. destruct (has v CLOSED) eqn:C; cbn [negb].
    + exists (mktg true (tt_ g) (has v RXW) true). split; [crush|].
      assert (F : forall w, wwp all TX oconsuming J tidle Qt (Send w0)
        (if has v HALF then Free (Done (RErr w)) else Done (RErr w)) (mktg true (tt_ g) (has v RXW) true)).
      { intros w. destruct (has v HALF); cbn [wwp]; fin (mktg true (tt_ g) (has v RXW) true). }
      destruct (has v RXW) eqn:X; cbn [wwp].
      * own (mktg true (tt_ g) true true). intros w. cbn [wwp]. own (mktg true (tt_ g) true true). exact F.
      * own (mktg true (tt_ g) false true). exact F.
    + exists (mktg false (tt_ g) (has v RXW) true). split; [crush|].
      destruct (has v RXW) eqn:X; cbn [wwp].
      * own (mktg false (tt_ g) true true). intros w. fin (mktg false (tt_ g) true true).
      * fin (mktg false (tt_ g) false true).
  - (* poll_canceled *)
    unfold poll_canceled. cbn [wwp]. intros u Hu. destruct (has u CLOSED) eqn:C; [fin g|].
    destruct (has u TXW) eqn:X; cbn [negb]; [fin g|].
    assert (T : tt_ g = true). { destruct (tt_ g) eqn:T; auto. unfold Qt in Hu. rewrite (Hu T) in X. discriminate. }
    cbn [wwp]. own g. intros v k h HJ. destruct (has v CLOSED) eqn:C'.
    + exists g. split; [crush|]. cbn [wwp]. own g. intros x. fin g.
    + exists (mktg (td g) false (tr g) (tfin g)). split; [crush|]. fin (mktg (td g) false (tr g) (tfin g)).
  - unfold is_canceled. cbn [wwp]. intros u _. fin g.
  - (* drop_tx *)
    unfold drop_tx. cbn [wwp]. intros v k h HJ.
    exists (mktg (td g) (tt_ g) (has v RXW) true). split; [crush|].
    assert (F : wwp all TX oconsuming J tidle Qt DropTx
      (if has v HALF then Free (Done RUnit) else Done RUnit) (mktg (td g) (tt_ g) (has v RXW) true)).
    { destruct (has v HALF); cbn [wwp]; fin (mktg (td g) (tt_ g) (has v RXW) true). }
    destruct (has v RXW) eqn:X; [|exact F]. cbn [wwp].
    own (mktg (td g) (tt_ g) true true). intros w. destruct (has v HALF); cbn [negb wwp]; [exact F|].
    fin (mktg (td g) (tt_ g) true true).
Qed.

Definition J' v k h g := J v k g h.
Ltac crush' := unfold J' in *; crush.
Ltac mayr := unfold J' in *; may.
Ltac ownr g :=
  let v := fresh "v0" in let k := fresh "k0" in let h := fresh "h0" in let H := fresh "HJ" in
  intros v k h H; split; [mayr|exists g; split; [crush'|split; [kq|clear v k h H]]].

Lemma call_r o : oside o = RX -> forall v k g h, J v k g h -> ridle false h ->
  exists h', J v k g h' /\ keepQ Qr h h' /\ @wwp oop ores rg tg all RX oconsuming J' ridle Qr o (ocode o) h'.
Proof.
  intros So v k g h HJ Hi. exists h. split; auto. split; [intros ?; auto|]. clear HJ v k g.
  destruct o as [w0|w0| | | | |w0| |]; try discriminate; clear So; specialize (Hi eq_refl); cbn [ocode].
  - (* close *)
    unfold close. cbn [wwp]. intros v k g HJ.
    exists (mkrg (rd h) (if negb (has v CLOSED) && has v TXW then true else rt h) (rr h) (rend h)).
    destruct (negb (has v CLOSED) && has v TXW) eqn:B.
    + apply andb_true_iff in B as (B1 & B2). apply negb_true_iff in B1. split; [crush'|].
      cbn [wwp]. ownr (mkrg (rd h) true (rr h) (rend h)). intros w. destruct (has v HALF); fin (mkrg (rd h) true (rr h) (rend h)).
    + split; [|fin (mkrg (rd h) (rt h) (rr h) (rend h))]. apply andb_false_iff in B. rewrite negb_false_iff in B.
      destruct B; crush'.
  - (* try_recv *)
    unfold try_recv. cbn [wwp]. intros v k g HJ. exists (mkrg (if has v DATA then true else rd h) (rt h) (rr h) (rend h)).
    destruct (has v DATA) eqn:D.
    + split; [crush'|]. cbn [wwp]. ownr (mkrg true (rt h) (rr h) (rend h)). intros w. fin (mkrg true (rt h) (rr h) (rend h)).
    + split; [crush'|]. destruct (has v HALF || has v CLOSED); fin (mkrg (rd h) (rt h) (rr h) (rend h)).
  - (* poll *)
    unfold poll. cbn [wwp]. intros v k g HJ. destruct (has v DATA) eqn:D.
    { exists (mkrg true (rt h) (rr h) (rend h)). split; [crush'|]. cbn [wwp]. ownr (mkrg true (rt h) (rr h) (rend h)). intros w. fin (mkrg true (rt h) (rr h) (rend h)). }
    exists h. split; [crush'|]. destruct (has v HALF || has v CLOSED); [fin h|].
    destruct (has v RXW) eqn:X; cbn [negb]; [fin h|].
    assert (T : rr h = true). { destruct (rr h) eqn:T; auto. unfold J', J in HJ. fwd. congruence. }
    rename v into s0. clear k g HJ D X. cbn [wwp]. ownr h. intros v k g HJ. destruct (has v HALF) eqn:B.
    + exists (mkrg (if has v DATA then true else rd h) (rt h) true (rend h)). destruct (has v DATA) eqn:D.
      * split; [crush'|]. cbn [wwp]. ownr (mkrg true (rt h) true (rend h)). intros w.
        cbn [wwp]. ownr (mkrg true (rt h) true (rend h)). intros x. fin (mkrg true (rt h) true (rend h)).
      * split; [crush'|]. cbn [wwp]. ownr (mkrg (rd h) (rt h) true (rend h)). intros w. fin (mkrg (rd h) (rt h) true (rend h)).
    + exists (mkrg (if has v DATA then true else rd h) (rt h) false (rend h)). destruct (has v DATA) eqn:D.
      * split; [crush'|]. fin (mkrg true (rt h) false (rend h)).
      * split; [crush'|]. fin (mkrg (rd h) (rt h) false (rend h)).
  - unfold is_terminated. cbn [wwp]. intros u _. fin h.
  - (* drop_rx *)
    unfold drop_rx. cbn [wwp]. intros v k g HJ.
    exists (mkrg (if has v DATA then true else rd h) (if negb (has v CLOSED) && has v TXW then true else rt h) (rr h) true).
    match goal with |- _ /\ wwp _ _ _ _ _ _ _ _ ?h' => set (h1 := h') end.
    assert (K : J' (N.lor (N.lor v CLOSED) HALF) (krmw RX Acquire k) h1 g).
    { unfold h1. destruct (has v DATA) eqn:D; destruct (negb (has v CLOSED) && has v TXW) eqn:B;
        (apply andb_true_iff in B as (B1 & B2); apply negb_true_iff in B1; crush') ||
        (apply andb_false_iff in B; rewrite negb_false_iff in B; destruct B; crush'). }
    split; [exact K|]. clear K.
    assert (F : wwp all RX oconsuming J' ridle Qr DropRx (if has v HALF then Free (Done RUnit) else Done RUnit) h1).
    { destruct (has v HALF); fin h1. }
    assert (W : wwp all RX oconsuming J' ridle Qr DropRx
       (if negb (has v CLOSED) && has v TXW then
        Take CTxW (fun w => if negb (has v HALF) then Wake w (Done RUnit) else DropW w (if has v HALF then Free (Done RUnit) else Done RUnit))
      else if has v HALF then Free (Done RUnit) else Done RUnit) h1).
    { destruct (negb (has v CLOSED) && has v TXW) eqn:B; [|exact F]. cbn [wwp].
      assert (T : rt h1 = true) by reflexivity. clear - F T. ownr h1.
      intros w. destruct (has v HALF); cbn [negb wwp]; [exact F|fin h1]. }
    destruct (has v DATA) eqn:D; [|exact W]. cbn [wwp]. assert (T : rd h1 = true) by reflexivity. clear - W T. ownr h1. intros w. exact W.
Qed.

Lemma J_0 : J 0 kp0 (mktg true true false false) (mkrg false false true false).
Proof. unfold J. cbn. repeat split; discriminate || auto. Qed.
Lemma JQ v k g h : J v k g h -> Qt g v /\ Qr h v.
Proof. intros H. split; [|exact I]. unfold Qt. unfold J in H. fwd. auto. Qed.

Theorem oneshot_cells l : ~ racing clash (accesses (wlog (wrun oside oconsuming ocode l))).
Proof.
  intros (i & j & s & t & a & b & N & Ei & Ej & C & H1 & H2).
  refine (wok_races all oside oconsuming ocode J tidle ridle Qt Qr (mktg true true false false) (mkrg false false true false)
    J_0 _ _ JQ (fun _ => True) (fun o _ => call_t o) (fun o _ => call_r o) l (allowed_any l) _); try (intros _; reflexivity).
  exists i, j, s, t, a, b. repeat (split; auto). destruct a as [| |c w|]; try contradiction. exists c, w. auto.
Qed.
