(** No data race on the error and the wakers of a ring channel. *)
Require Import NArith List Bool Arith Lia.
From Verif Require Import Spsc WeakSpec Weak WeakProofs Ring.
From Verif Require WeakOneshot.
Import WeakOneshot(has_pow, has_lor, has_diff).
Import ListNotations.
Open Scope N_scope.

(** [td], [tt_], [tr]: the sender may access the error, its own waker, the receiver's
    waker; [tfin]: it has set the half bit.  [rd], [rt], [rr] for the receiver; [rend]: it
    has set the half bit. *)
Record tg := mktg { td : bool; tt_ : bool; tr : bool; tfin : bool }.
Record rg := mkrg { rd : bool; rt : bool; rr : bool; rend : bool }.

Lemma lRXW v a : has (N.lor v a) RXW = has v RXW || N.testbit a 2. Proof. apply (has_lor v a 2). Qed.
Lemma lERR v a : has (N.lor v a) ERR = has v ERR || N.testbit a 3. Proof. apply (has_lor v a 3). Qed.
Lemma lCLOSED v a : has (N.lor v a) CLOSED = has v CLOSED || N.testbit a 4. Proof. apply (has_lor v a 4). Qed.
Lemma lHALF v a : has (N.lor v a) HALF = has v HALF || N.testbit a 5. Proof. apply (has_lor v a 5). Qed.
Lemma lW v a : has_waker (N.lor v a) = has_waker v || (N.testbit a 0 || N.testbit a 1).
Proof.
  unfold has_waker. change READY with (2 ^ 0). change FLUSH with (2 ^ 1). rewrite !has_lor.
  destruct (has v (2 ^ 0)), (has v (2 ^ 1)), (N.testbit a 0), (N.testbit a 1); reflexivity.
Qed.
#[local] Hint Rewrite lRXW lERR lCLOSED lHALF lW : bits.
#[local] Hint Rewrite orb_false_r orb_true_r andb_true_r andb_false_r : bits2.

Definition same (v v' : N) : Prop := forall k, k < 6 -> N.testbit v' k = N.testbit v k.
Lemma same_has v v' : same v v' -> has_waker v' = has_waker v /\ has v' RXW = has v RXW /\ has v' ERR = has v ERR /\
  has v' CLOSED = has v CLOSED /\ has v' HALF = has v HALF.
Proof.
  intros S. unfold has_waker. change READY with (2 ^ 0). change FLUSH with (2 ^ 1). change RXW with (2 ^ 2).
  change ERR with (2 ^ 3). change CLOSED with (2 ^ 4). change HALF with (2 ^ 5).
  rewrite !has_pow, !S by reflexivity. repeat split.
Qed.

Ltac fwd :=
  repeat match goal with
  | H : _ /\ _ |- _ => destruct H
  | H : ?x = ?x -> _ |- _ => specialize (H eq_refl)
  | E : ?x = ?b, H : ?x = ?b -> _ |- _ => specialize (H E)
  | E : ?x = true, H : ?x = false -> _ |- _ => clear H
  | E : ?x = false, H : ?x = true -> _ |- _ => clear H
  | H : true = false -> _ |- _ => clear H
  | H : false = true -> _ |- _ => clear H
  end.
Ltac bits := autorewrite with bits in *;
  cbn [N.testbit READY FLUSH RXW ERR CLOSED HALF N.lor Pos.lor Pos.testbit N.pred Pos.pred_N Pos.pred_double orb andb negb] in *; autorewrite with bits2 in *.

Section Ring.
Variables bits cap : N.
Hypothesis Hbits : 6 <= bits.
(** Whether the receiver is not closed before it is dropped. *)
Variable nc : bool.

Definition J (v : N) (k : KP) (g : tg) (h : rg) : Prop :=
  (td g = true -> kK k TX CErr = true /\ has v ERR = false /\ rd h = false) /\
  (has v ERR = true -> rend h = false -> kP k TX CErr = true /\ rd h = false) /\
  (rd h = true -> kK k RX CErr = true /\ kP k TX CErr = true) /\
  (nc = true -> tt_ g = true -> kK k TX CTxW = true /\ rt h = false /\ (has_waker v = true -> has v CLOSED = true)) /\
  (nc = true -> has_waker v = true -> has v CLOSED = false -> kP k TX CTxW = true) /\
  (nc = true -> rt h = true -> kK k RX CTxW = true) /\
  (nc = true -> tt_ g = false -> has_waker v = true) /\
  (nc = true -> has v CLOSED = true -> rend h = true) /\
  (rr h = true -> kK k RX CRxW = true /\ tr g = false /\ (has v RXW = true -> tfin g = true)) /\
  (has v RXW = true -> tfin g = false -> kP k RX CRxW = true) /\
  (tr g = true -> kK k TX CRxW = true) /\
  (rr h = false -> has v RXW = true) /\
  (tfin g = true -> has v HALF = true) /\ (rend h = true -> has v HALF = true) /\
  (has v HALF = true -> tfin g = false -> rend h = true) /\
  (tfin g = false -> td g = true).
Definition tidle (gone : bool) (g : tg) : Prop := gone = false -> tfin g = false.
Definition ridle (gone : bool) (h : rg) : Prop := gone = false -> rend h = false.
Definition Qt (g : tg) (v : N) : Prop := nc = true -> tt_ g = false -> has_waker v = true.
Definition Qr (h : rg) (v : N) : Prop := True.
Definition care (c : cell) : bool := match c with CBuf _ => false | CTxW => nc | _ => true end.
Definition may_call (o : rop) : Prop := nc = true -> o <> Close.

Ltac jsolve :=
  unfold J in *; cbn [kK kP krmw kacc seqb cell_eqb other acquires releases td tt_ tr tfin rd rt rr rend orb andb negb] in *;
  bits; fwd.
Ltac sc := repeat (match goal with |- _ /\ _ => split | |- _ -> _ => intro end; fwd).
Ltac boolh :=
  repeat match goal with
  | H : _ || _ = true |- _ => apply orb_true_iff in H as [H|H]
  | H : _ || _ = false |- _ => apply orb_false_iff in H as (? & ?)
  | H : _ && _ = true |- _ => apply andb_true_iff in H as (? & ?)
  end.
Ltac case1 :=
  match goal with
  | H : ?b = true -> _ |- _ => let E := fresh in destruct (bool_dec b true) as [E|E]; [|apply not_true_is_false in E]
  | H : ?b = false -> _ |- _ => let E := fresh in destruct (bool_dec b true) as [E|E]; [|apply not_true_is_false in E]
  end.
Ltac done1 :=
  first [congruence
    | match goal with |- _ || _ = true => apply orb_true_iff; first [left; congruence | right; congruence] end].
Ltac crush0 := jsolve; sc; boolh; fwd; try done1; try (repeat (case1; fwd; boolh; try done1)).
Ltac crush := solve [crush0].


Ltac kq := intros ? ?; unfold Qt, Qr in *; cbn [tt_] in *; auto.
Ltac may := cbn [care]; intros ?; try discriminate; unfold J in *; cbn [td tt_ tr tfin rd rt rr rend] in *; fwd; solve [auto].
(** An access to a cell that the half keeps. *)
Ltac own g :=
  let v := fresh "v0" in let k := fresh "k0" in let h := fresh "h0" in let H := fresh "HJ" in
  intros v k h H; split; [may|exists g; split; [crush|split; [kq|clear v k h H]]].
Ltac fin g := cbn [wwp]; intros ? ? ? ?; exists g; split; [auto|split; [kq|]]; intros ?; try discriminate; try assumption; try reflexivity.




(** Words that differ in the cursor and the length only. *)
Lemma shift_low p k n : 6 <= n -> k < 6 -> N.testbit (N.shiftl p n) k = false.
Proof. intros A B. apply N.shiftl_spec_low. lia. Qed.
Lemma claim_same v n : same v (claim_next bits cap v n).
Proof.
  intros k L. unfold claim_next. rewrite !N.lor_spec, !shift_low, !orb_false_r, N.land_spec, N.ones_spec_low, andb_true_r;
    auto; unfold PARAM_BITS; lia.
Qed.
Lemma full_same v : same v (claim_next_if_full bits cap v).
Proof. unfold claim_next_if_full. cbv zeta. destruct (_ && _); [apply claim_same|]. intros k L. reflexivity. Qed.
Lemma add_same v n : same v (add_length bits v n).
Proof.
  unfold add_length. destruct (negb _); [|intros k L; reflexivity]. intros k L. rewrite N.mod_pow2_bits_low by lia.
  rewrite N.shiftl_mul_pow2, N.pow_add_r. change (2 ^ PARAM_BITS) with (2 ^ 6). rewrite (N.mul_comm (2 ^ 6)), N.mul_assoc.
  rewrite <- (N.mod_pow2_bits_low (v + _) 6 k L), N.mod_add by discriminate. now apply N.mod_pow2_bits_low.
Qed.
Lemma next_bits v : let v' := next_claim bits cap v in
  has_waker v' = has_waker v /\ has v' RXW = has v RXW /\ has v' ERR = false /\ has v' CLOSED = has v CLOSED /\ has v' HALF = has v HALF.
Proof.
  cbv zeta. unfold next_claim, claim_next_unless_empty. cbv zeta.
  assert (S : same v (if 0 <? get_length bits v then claim_next bits cap v (get_length bits v) else v)).
  { destruct (0 <? _); [apply claim_same|]. intros k L. reflexivity. }
  destruct (same_has _ _ S) as (E1 & E2 & E3 & E4 & E5). unfold has_waker in *. change READY with (2 ^ 0) in *.
  change FLUSH with (2 ^ 1) in *. change RXW with (2 ^ 2) in *. change CLOSED with (2 ^ 4) in *. change HALF with (2 ^ 5) in *.
  change (has (N.ldiff (if 0 <? get_length bits v then claim_next bits cap v (get_length bits v) else v) ERR) ERR)
    with (has (N.ldiff (if 0 <? get_length bits v then claim_next bits cap v (get_length bits v) else v) ERR) (2 ^ 3)).
  rewrite !has_diff. cbn [N.testbit ERR Pos.testbit N.pred Pos.pred_N Pos.pred_double negb]. rewrite !andb_true_r, andb_false_r. auto.
Qed.
Lemma strip_same v : same v (N.shiftr (N.shiftl v (COUNT_BITS bits) mod 2 ^ bits) (COUNT_BITS bits)).
Proof.
  assert (C : COUNT_BITS bits + 6 <= bits).
  { unfold COUNT_BITS, PARAM_BITS. rewrite N.shiftr_div_pow2. change (2 ^ 1) with 2.
    assert ((bits - 6) / 2 <= bits - 6) by (apply N.div_le_upper_bound; lia). lia. }
  intros k L. rewrite N.shiftr_spec, N.mod_pow2_bits_low, N.shiftl_spec_high by lia. f_equal. lia.
Qed.
Lemma mark_bits v m : m = set_ready_waker \/ m = set_flush_waker \/ m = set_close_waker ->
  has_waker (m v) = true /\ has (m v) RXW = has v RXW /\ has (m v) ERR = has v ERR /\
  has (m v) CLOSED = has v CLOSED /\ has (m v) HALF = has v HALF.
Proof.
  intros M. assert (D : forall a b v', v' = N.lor (N.ldiff v a) b -> a < 4 -> b < 4 -> 0 < b ->
    has_waker v' = true /\ has v' RXW = has v RXW /\ has v' ERR = has v ERR /\
    has v' CLOSED = has v CLOSED /\ has v' HALF = has v HALF).
  { intros a b v' -> A B B0. rewrite lW, lRXW, lERR, lCLOSED, lHALF.
    change RXW with (2 ^ 2). change ERR with (2 ^ 3). change CLOSED with (2 ^ 4). change HALF with (2 ^ 5). rewrite !has_diff.
    assert (a = 0 \/ a = 1 \/ a = 2 \/ a = 3) as [->|[->|[->| ->]]] by lia;
    assert (b = 1 \/ b = 2 \/ b = 3) as [->|[->| ->]] by lia;
    cbn [N.testbit Pos.testbit N.pred Pos.pred_N Pos.pred_double negb]; rewrite ?orb_true_r, ?orb_false_r, ?andb_true_r; auto. }
  destruct M as [->|[->| ->]].
  - apply D with FLUSH READY; reflexivity.
  - apply D with READY FLUSH; reflexivity.
  - apply D with 0 (N.lor READY FLUSH); try reflexivity. unfold set_close_waker. now rewrite N.ldiff_0_r, N.lor_assoc.
Qed.

Notation wpt := (@wwp rop rres tg rg care TX rconsuming J tidle Qt).
Ltac gl g := constr:(g).

(** After a store that the receiver may see. *)
Lemma store_wp o p i (cl : N -> prog rres) (ok : prog rres) g v :
  rconsuming o = false -> tfin g = false ->
  (forall w g, tfin g = false -> wpt o (cl w) g) -> (forall g, tfin g = false -> wpt o ok g) ->
  wpt o (Write (CBuf i) v (Rmw Acquire AcqRel p (fun s => add_length bits s 1) (fun s =>
    if has s CLOSED then Take (CBuf i) cl else if has s RXW then Peek CRxW (fun w => Wake w ok) else ok))) g.
Proof.
  intros Co Hi Hcl Hok. cbn [wwp]. own g. clear v. intros v k h HJ. destruct (same_has _ _ (add_same v 1)) as (E1 & E2 & E3 & E4 & E5).
  exists (mktg (td g) (tt_ g) (tr g || has v RXW) (tfin g)). split.
  { unfold J. rewrite E1, E2, E3, E4, E5. clear E1 E2 E3 E4 E5. destruct (tr g) eqn:T, (has v RXW) eqn:X; cbn [orb]; crush. }
  destruct (has v CLOSED).
  { cbn [wwp]. generalize (tr g || has v RXW). intros b. own (mktg (td g) (tt_ g) b (tfin g)). intros w. now apply Hcl. }
  destruct (has v RXW) eqn:X; [|now apply Hok].
  rewrite orb_true_r. cbn [wwp]. own (mktg (td g) (tt_ g) true (tfin g)). intros w. now apply Hok.
Qed.
Lemma try_send_wp o v k g : rconsuming o = false -> tfin g = false ->
  (forall r g, tfin g = false -> wpt o (k r) g) -> wpt o (try_send_then bits cap v k) g.
Proof.
  intros Co Hi Hk. unfold try_send_then. cbn [wwp]. intros u _. cbv zeta. destruct (get_length bits u =? cap); [now apply Hk|].
  now apply store_wp; auto.
Qed.
Lemma over_wp o v s g : rconsuming o = false -> tfin g = false -> wpt o (over_claimed bits cap v s) g.
Proof.
  intros Co Hi. unfold over_claimed. cbv zeta. destruct (has s CLOSED); [fin g|].
  assert (S : forall i ov g, tfin g = false -> wpt o (over_store bits v i ov s) g).
  { intros i ov g' Hi'. unfold over_store. apply store_wp; auto.
    - intros w g1 H1. fin g1. 
    - intros g1 H1. fin g1. }
  destruct (get_length bits s =? cap); [|now apply S]. cbn [wwp]. own g. intros w. now apply S.
Qed.

Lemma register_wp o w s m c r g : rconsuming o = false -> tfin g = false -> Qt g s ->
  m = set_ready_waker \/ m = set_flush_waker \/ m = set_close_waker -> wpt o (register w s m c r) g.
Proof.
  intros Co Hi Hq M. unfold register. cbv zeta.
  assert (T : nc = true -> negb (has_waker s) = true -> tt_ g = true).
  { intros N W. destruct (tt_ g) eqn:T; auto. rewrite (Hq N T) in W. discriminate. }
  assert (R : wpt o (Rmw Relaxed Release (Some s) m (fun s0 =>
        if has s0 CLOSED then
          if negb (has_waker s) then Take CTxW (fun w => DropW w (Done c)) else Done c
        else if r s0 then Done RReady
        else Done RPending)) g).
  { cbn [wwp]. intros v k h HJ. destruct (mark_bits v m M) as (E1 & E2 & E3 & E4 & E5).
    destruct (has v CLOSED) eqn:C.
    - exists g. split; [unfold J; rewrite E1, E2, E3, E4, E5; clear E1 E2 E3 E4 E5 T Hq; crush|].
      destruct (negb (has_waker s)) eqn:W; [|fin g]. cbn [wwp]. 
      clear - T Co Hi. own g. intros x. fin g.
    - exists (mktg (td g) false (tr g) (tfin g)).
      split; [unfold J; rewrite E1, E2, E3, E4, E5; clear E1 E2 E3 E4 E5 T Hq; crush|].
      destruct (r v); fin (mktg (td g) false (tr g) (tfin g)). }
  destruct (negb (has_waker s)) eqn:W; [|exact R]. cbn [wwp]. clear Hq M. own g. exact R.
Qed.

Lemma call_t o : may_call o -> rside o = TX -> forall v k g h, J v k g h -> tidle false g ->
  exists g', J v k g' h /\ keepQ Qt g g' /\ wpt o (rcode bits cap o) g'.
Proof.
  intros _ So v k g h HJ Hi. exists g. split; auto. split; [intros ?; auto|]. clear HJ v k h.
  destruct o as [w0|w0|w0|w0| |w0|w0|w0| | | |w0| |]; try discriminate; clear So; specialize (Hi eq_refl); cbn [rcode].
  - unfold try_send. apply try_send_wp; auto. intros r g' H'. fin g'.
  - unfold start_send. apply try_send_wp; auto. intros r g' H'. destruct r; fin g'.
  - unfold send_overwrite. cbn [wwp]. intros u _. destruct (get_length bits u =? cap); [|now apply over_wp].
    cbn [wwp]. intros v k h HJ. destruct (same_has _ _ (full_same v)) as (E1 & E2 & E3 & E4 & E5).
    exists g. split; [unfold J; rewrite E1, E2, E3, E4, E5; clear E1 E2 E3 E4 E5; crush|]. now apply over_wp.
  - (* send_err *)
    unfold send_err. cbn [wwp]. own g.
    intros v k h HJ. destruct (has v CLOSED) eqn:C; cbn [negb].
    + exists (mktg true (tt_ g) (has v RXW) true). split; [crush|].
      assert (F : forall w, wpt (SendErr w0)
        (if has v HALF then Free (Done (RBack w)) else Done (RBack w)) (mktg true (tt_ g) (has v RXW) true)).
      { intros w. destruct (has v HALF); cbn [wwp]; fin (mktg true (tt_ g) (has v RXW) true). }
      destruct (has v RXW) eqn:X; cbn [wwp].
      * own (mktg true (tt_ g) true true). intros w. cbn [wwp]. own (mktg true (tt_ g) true true). exact F.
      * own (mktg true (tt_ g) false true). exact F.
    + exists (mktg false (tt_ g) (has v RXW) true). split; [crush|].
      destruct (has v RXW) eqn:X; cbn [wwp].
      * own (mktg false (tt_ g) true true). intros w. fin (mktg false (tt_ g) true true).
      * fin (mktg false (tt_ g) false true).
  - unfold is_canceled. cbn [wwp]. intros u _. fin g.
  - unfold poll_ready. cbn [wwp]. intros u Hu. destruct (has u CLOSED); [fin g|]. destruct (get_length bits u <? cap); [fin g|].
    destruct (negb (has_ready_waker u)); [|fin g]. apply register_wp; auto.
  - unfold poll_flush. cbn [wwp]. intros u Hu. destruct (has u CLOSED); [fin g|]. destruct (get_length bits u =? 0); [fin g|].
    destruct (negb (has_flush_waker u)); [|fin g]. apply register_wp; auto.
  - unfold poll_close. cbn [wwp]. intros u Hu. destruct (has u CLOSED); [fin g|].
    destruct (negb (has_close_waker u)); [|fin g]. apply register_wp; auto.
  - (* drop_tx *)
    unfold drop_tx. cbn [wwp]. intros v k h HJ.
    exists (mktg (td g) (tt_ g) (has v RXW) true). split; [crush|].
    assert (F : wpt DropTx (if has v HALF then Free (Done RUnit) else Done RUnit) (mktg (td g) (tt_ g) (has v RXW) true)).
    { destruct (has v HALF); cbn [wwp]; fin (mktg (td g) (tt_ g) (has v RXW) true). }
    destruct (has v RXW) eqn:X; [|exact F]. cbn [wwp].
    own (mktg (td g) (tt_ g) true true). intros w. destruct (has v HALF); cbn [negb wwp]; [exact F|].
    fin (mktg (td g) (tt_ g) true true).
Qed.

Definition J' v k h g := J v k g h.
Notation wpr := (@wwp rop rres rg tg care RX rconsuming J' ridle Qr).
Ltac crush' := unfold J' in *; crush.
Ltac mayr := unfold J' in *; may.
Ltac ownr g :=
  let v := fresh "v0" in let k := fresh "k0" in let h := fresh "h0" in let H := fresh "HJ" in
  intros v k h H; split; [mayr|exists g; split; [crush'|split; [kq|clear v k h H]]].

(** The error flag has been taken with [s] and is put back. *)
Lemma take_wp o s n h : rconsuming o = false -> rend h = false -> (has s ERR = true -> rd h = true) ->
  (nc = true -> has_waker s = true -> rt h = true) -> wpr o (take_value bits cap s n) h.
Proof.
  intros Co He Hs Hw. unfold take_value. cbv zeta.
  set (sw := if has_ready_waker s then n =? cap else if has_flush_waker s then n =? 1 else false).
  assert (Hsw : nc = true -> sw = true -> rt h = true).
  { intros N S. apply Hw; auto. unfold sw, has_ready_waker, has_flush_waker in S. unfold has_waker.
    destruct (has s READY), (has s FLUSH); auto; discriminate. }
  assert (R : forall h', rend h' = false -> wpr o (Take (CBuf (get_cursor bits s)) (fun v => Done (RVal v))) h').
  { intros h' H'. cbn [wwp]. ownr h'. intros w. fin h'. }
  assert (W : forall s' h', rt h' = rt h -> rend h' = false ->
    wpr o (if sw && negb (has s' HALF) then Peek CTxW (fun w => Wake w (Take (CBuf (get_cursor bits s)) (fun v => Done (RVal v))))
      else Take (CBuf (get_cursor bits s)) (fun v => Done (RVal v))) h').
  { intros s' h' Er H'. destruct (sw && negb (has s' HALF)) eqn:B; [|now apply R]. apply andb_true_iff in B as (B & _).
    cbn [wwp]. assert (X : nc = true -> rt h' = true) by (intros N; rewrite Er; auto). clear - X H' R.
    ownr h'. intros w. apply R, H'. }
  clear Hw. destruct (negb (_ =? 0)) eqn:Z; [|now apply W].
  cbn [wwp]. intros v k g HJ. exists (mkrg (if has s ERR then false else rd h) (rt h) (rr h) (rend h)). split; [|now apply W].
  clear W R Z Co. destruct sw eqn:S, (has s ERR) eqn:E; clear sw S; crush'.
Qed.

Lemma call_r o : may_call o -> rside o = RX -> forall v k g h, J v k g h -> ridle false h ->
  exists h', J v k g h' /\ keepQ Qr h h' /\ wpr o (rcode bits cap o) h'.
Proof.
  intros M So v k g h HJ Hi. exists h. split; auto. split; [intros ?; auto|]. clear HJ v k g.
  destruct o as [w0|w0|w0|w0| |w0|w0|w0| | | |w0| |]; try discriminate; clear So; specialize (Hi eq_refl); cbn [rcode].
  - (* close *)
    assert (N : nc = false). { apply not_true_is_false. intros X. exact (M X eq_refl). }
    unfold close. cbn [wwp]. intros v k g HJ. exists h. split; [crush'|].
    destruct (negb (has v CLOSED) && has_waker v) eqn:B; [|fin h].
    cbn [wwp]. clear - Hi N. intros v1 k1 g1 H1. split; [cbn [care]; congruence|]. exists h. split; [crush'|split; [kq|]].
    intros w. destruct (has v HALF); fin h.
  - (* try_next *)
    unfold try_next. cbn [wwp]. intros v k g HJ. destruct (next_bits v) as (E1 & E2 & E3 & E4 & E5).
    exists (mkrg (if has v ERR then true else rd h) (if has_waker v then true else rt h) (rr h) (rend h)).
    split; [unfold J', J; rewrite E1, E2, E3, E4, E5; clear E1 E2 E3 E4 E5; destruct (has v ERR) eqn:D, (has_waker v) eqn:X; crush'|].
    clear HJ E1 E2 E3 E4 E5. cbv zeta. destruct (0 <? get_length bits v).
    { apply take_wp; auto; cbn [rd rt]; [intros ->|intros _ ->]; reflexivity. }
    destruct (has v ERR) eqn:D.
    + cbn [wwp]. generalize (if has_waker v then true else rt h). intros b. ownr (mkrg true b (rr h) (rend h)). intros w. fin (mkrg true b (rr h) (rend h)).
    + generalize (if has_waker v then true else rt h). intros b. destruct (has v HALF || has v CLOSED); fin (mkrg (rd h) b (rr h) (rend h)).
  - (* poll_next *)
    unfold poll_next. cbn [wwp]. intros v k g HJ. destruct (next_bits v) as (E1 & E2 & E3 & E4 & E5).
    exists (mkrg (if has v ERR then true else rd h) (if has_waker v then true else rt h) (rr h) (rend h)).
    split; [unfold J', J; rewrite E1, E2, E3, E4, E5; clear E1 E2 E3 E4 E5; destruct (has v ERR) eqn:D, (has_waker v) eqn:X; crush'|].
    clear E1 E2 E3 E4 E5. cbv zeta. destruct (0 <? get_length bits v).
    { apply take_wp; auto; cbn [rd rt]; [intros ->|intros _ ->]; reflexivity. }
    generalize (if has_waker v then true else rt h). intros b0.
    destruct (has v ERR) eqn:D.
    { cbn [wwp]. ownr (mkrg true b0 (rr h) (rend h)). intros w. fin (mkrg true b0 (rr h) (rend h)). }
    destruct (has v HALF || has v CLOSED); [fin (mkrg (rd h) b0 (rr h) (rend h))|].
    destruct (has v RXW) eqn:X; cbn [negb]; [fin (mkrg (rd h) b0 (rr h) (rend h))|].
    assert (T : rr h = true). { destruct (rr h) eqn:T; auto. unfold J', J in HJ. fwd. congruence. }
    rename v into s0. clear k g HJ D X. rewrite T. cbn [wwp]. ownr (mkrg (rd h) b0 true (rend h)). intros v k g HJ. cbn beta zeta.
    destruct (next_bits v) as (E1 & E2 & E3 & E4 & E5).
    destruct (has v HALF) eqn:B.
    + exists (mkrg (if has v ERR then true else rd h) (if has_waker v then true else b0) true (rend h)).
      split.
      { unfold J', J. rewrite lW, lRXW, lERR, lCLOSED, lHALF, E1, E2, E3, E4, E5. clear E1 E2 E3 E4 E5.
        destruct (has v ERR) eqn:D, (has_waker v) eqn:X; crush'. }
      clear HJ E1 E2 E3 E4 E5. cbn [wwp].
      intros v1 k1 g1 H1. split; [mayr|]. exists (mkrg (if has v ERR then true else rd h) (if has_waker v then true else b0) true (rend h)).
      split; [generalize dependent (if has v ERR then true else rd h); generalize dependent (if has_waker v then true else b0); intros; crush'|].
      split; [kq|]. clear v1 k1 g1 H1. intros w. cbn [wwp].
      destruct (0 <? get_length bits v). { apply take_wp; auto; cbn [rd rt]; [intros ->|intros _ ->]; reflexivity. }
      generalize (if has_waker v then true else b0). intros b1.
      destruct (has v ERR); [|fin (mkrg (rd h) b1 true (rend h))].
      cbn [wwp]. ownr (mkrg true b1 true (rend h)). intros x. fin (mkrg true b1 true (rend h)).
    + exists (mkrg (if has v ERR then true else rd h) (if has_waker v then true else b0) false (rend h)).
      split.
      { unfold J', J. rewrite lW, lRXW, lERR, lCLOSED, lHALF, E1, E2, E3, E4, E5. clear E1 E2 E3 E4 E5.
        destruct (has v ERR) eqn:D, (has_waker v) eqn:X; crush'. }
      clear HJ E1 E2 E3 E4 E5.
      destruct (0 <? get_length bits v). { apply take_wp; auto; cbn [rd rt]; [intros ->|intros _ ->]; reflexivity. }
      fin (mkrg (if has v ERR then true else rd h) (if has_waker v then true else b0) false (rend h)).
  - unfold is_terminated. cbn [wwp]. intros u _. fin h.
  - (* drop_rx *)
    unfold drop_rx. cbn [wwp]. intros v k g HJ. destruct (same_has _ _ (strip_same v)) as (E1 & E2 & E3 & E4 & E5).
    exists (mkrg (if has v ERR then true else rd h) (if negb (has v CLOSED) && has_waker v then true else rt h) (rr h) true).
    match goal with |- J' ?v' _ ?h' _ /\ _ => set (h1 := h'); set (v1 := v') end.
    assert (K : J' v1 (krmw RX Acquire k) h1 g).
    { unfold J', J, v1. rewrite !lW, !lRXW, !lERR, !lCLOSED, !lHALF, E1, E2, E3, E4, E5. clear E1 E2 E3 E4 E5 v1. unfold h1.
      destruct (has v ERR) eqn:D; destruct (negb (has v CLOSED) && has_waker v) eqn:B;
        (apply andb_true_iff in B as (B1 & B2); apply negb_true_iff in B1; crush') ||
        (apply andb_false_iff in B; rewrite negb_false_iff in B; destruct B; crush'). }
    split; [exact K|]. clear K E1 E2 E3 E4 E5.
    assert (F : wpr DropRx (if has v HALF then Free (Done RUnit) else Done RUnit) h1).
    { destruct (has v HALF); fin h1. }
    assert (W : wpr DropRx
       (if negb (has v CLOSED) && has_waker v then
        Take CTxW (fun w => if negb (has v HALF) then Wake w (Done RUnit) else DropW w (if has v HALF then Free (Done RUnit) else Done RUnit))
      else if has v HALF then Free (Done RUnit) else Done RUnit) h1).
    { destruct (negb (has v CLOSED) && has_waker v) eqn:B; [|exact F]. cbn [wwp].
      assert (T : rt h1 = true) by reflexivity.
      enough (forall w, wpr DropRx (if negb (has v HALF) then Wake w (Done RUnit) else DropW w (if has v HALF then Free (Done RUnit) else Done RUnit)) h1) as R.
      { revert R. generalize (fun w => if negb (has v HALF) then Wake w (Done RUnit) else DropW w (if has v HALF then Free (Done RUnit) else Done RUnit)) as q.
        clearbody h1. clear - T. intros q R. ownr h1. exact R. }
      intros w. destruct (has v HALF); cbn [negb wwp]; [exact F|fin h1]. }
    assert (E : wpr DropRx (if has v ERR then Take CErr (fun v0 => DropV v0
       (if negb (has v CLOSED) && has_waker v then
        Take CTxW (fun w => if negb (has v HALF) then Wake w (Done RUnit) else DropW w (if has v HALF then Free (Done RUnit) else Done RUnit))
      else if has v HALF then Free (Done RUnit) else Done RUnit))
      else if negb (has v CLOSED) && has_waker v then
        Take CTxW (fun w => if negb (has v HALF) then Wake w (Done RUnit) else DropW w (if has v HALF then Free (Done RUnit) else Done RUnit))
      else if has v HALF then Free (Done RUnit) else Done RUnit) h1).
    { destruct (has v ERR) eqn:D; [|exact W]. cbn [wwp]. assert (T : rd h1 = true) by reflexivity.
      revert W. generalize (if negb (has v CLOSED) && has_waker v then
        Take CTxW (fun w => if negb (has v HALF) then Wake w (Done RUnit) else DropW w (if has v HALF then Free (Done RUnit) else Done RUnit))
      else if has v HALF then Free (Done RUnit) else Done RUnit) as q.
      clearbody h1. clear - T. intros q W. ownr h1. intros w. exact W. }
    cbv zeta. revert E. generalize (N.to_nat (get_length bits v)), 0.
    match goal with |- forall n i, wwp _ _ _ _ _ _ _ ?p _ -> _ => generalize p end. clearbody h1. clear - Hbits.
    intros p n. induction n as [|n IH]; intros i E; cbn [drop_values]; [exact E|].
    cbn [wwp]. intros v1 k1 g1 H1. split; [discriminate|]. exists h1. split; [crush'|split; [kq|]]. intros w. apply IH, E.
Qed.

Lemma J_0 : J 0 kp0 (mktg true true false false) (mkrg false false true false).
Proof. unfold J. cbn. repeat split; discriminate || auto. Qed.
Lemma JQ v k g h : J v k g h -> Qt g v /\ Qr h v.
Proof. intros H. split; [|exact I]. unfold Qt. intros N. unfold J in H. fwd. auto. Qed.

Theorem ring_cells l : Forall (allowed may_call) l ->
  ~ racing (fun a b => clash a b /\ exists c w, a = ACell c w /\ care c = true) (accesses (wlog (wrun rside rconsuming (rcode bits cap) l))).
Proof.
  intros A. refine (wok_races care rside rconsuming (rcode bits cap) J tidle ridle Qt Qr (mktg true true false false) (mkrg false false true false)
    J_0 _ _ JQ may_call call_t call_r l A); intros _; reflexivity.
Qed.
End Ring.
