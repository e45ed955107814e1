(** No data race on the slots of a ring channel whose sender sends as many values as
    there are slots at most, and whose receiver is not dropped. *)
Require Import NArith List Bool Arith Lia.
From Verif Require Import Spsc WeakSpec Weak WeakProofs Ring RingSpec RingWord RingMain.
Import ListNotations.
Open Scope N_scope.

Section Slots.
Variables bits cap : N.
Hypothesis F : fits bits cap.
Let Hbits : 6 <= bits := proj1 F.
Let Hcap0 : 1 < cap := proj1 (proj2 (proj2 F)).
Let Hcap : cap < MAX_CAPACITY bits := proj2 (proj2 (proj2 F)).
Let Hcap' : cap <= MAX_CAPACITY bits := N.lt_le_incl _ _ Hcap.
Notation enc := (encv bits).
Notation vok := (vok bits cap).

(** [a] values have been published and [r] of them claimed. *)
Definition word (v r a : N) : Prop :=
  a <= cap /\ r <= a /\ exists w, v = enc w /\ vok w /\ vcur w = (if r =? cap then 0 else r) /\ vlen w = a - r.
Definition J' (v : N) (k : KP) (r a : N) : Prop :=
  word v r a /\ (forall i, r <= i -> kK k TX (CBuf i) = true) /\
  (forall i, i < a -> kP k TX (CBuf i) = true) /\ (forall i, i < r -> kK k RX (CBuf i) = true).
Definition J (n : nat) (v : N) (k : KP) (a r : N) : Prop := a <= N.of_nat n /\ N.of_nat n <= cap /\ J' v k r a.
Definition idle (gone : bool) (g : N) : Prop := True.
Definition Qt (a v : N) : Prop := exists r, word v r a.
Definition Qr (r v : N) : Prop := True.
Definition care (c : cell) : bool := match c with CBuf _ => true | _ => false end.
Definition may_call (o : rop) : Prop := o <> DropRx.
Definition spend (o : rop) : bool := match o with TrySend _ | StartSend _ | SendOver _ => true | _ => false end.

Definition keeps (f : N -> N) : Prop := forall w, vok w -> exists w', f (enc w) = enc w' /\ vcur w' = vcur w /\ vlen w' = vlen w.
Lemma keeps_word f v r a : keeps f -> word v r a -> word (f v) r a.
Proof.
  intros K (A & B & w & -> & V & C & L). destruct (K w V) as (w' & E & C' & L'). split; auto. split; auto.
  exists w'. split; auto. unfold RingWord.vok in *. rewrite C', L'. auto.
Qed.
Lemma keeps_READY : keeps (fun v => N.lor v READY).
Proof. intros w V. rewrite or_READY. eexists. split; [reflexivity|]. auto. Qed.
Lemma keeps_FLUSH : keeps (fun v => N.lor v FLUSH).
Proof. intros w V. rewrite or_FLUSH. eexists. split; [reflexivity|]. auto. Qed.
Lemma keeps_HALF : keeps (fun v => N.lor v HALF).
Proof. intros w V. rewrite or_HALF. eexists. split; [reflexivity|]. auto. Qed.
Lemma keeps_CLOSED : keeps (fun v => N.lor v CLOSED).
Proof. intros w V. rewrite or_CLOSED. eexists. split; [reflexivity|]. auto. Qed.
Lemma keeps_RXW : keeps (fun v => N.lor v RXW).
Proof. intros w V. rewrite or_RXW. eexists. split; [reflexivity|]. auto. Qed.
Lemma keeps_mark m : m = set_ready_waker \/ m = set_flush_waker \/ m = set_close_waker -> keeps m.
Proof.
  intros M w V. destruct M as [->|[->| ->]]; unfold set_ready_waker, set_flush_waker, set_close_waker.
  - rewrite no_FLUSH, or_READY. eexists. split; [reflexivity|]. auto.
  - rewrite no_READY, or_FLUSH. eexists. split; [reflexivity|]. auto.
  - rewrite or_READY, or_FLUSH. eexists. split; [reflexivity|]. auto.
Qed.
Lemma keeps_err : keeps (fun s => N.lor (N.lor s (if negb (has s CLOSED) then ERR else 0)) HALF).
Proof.
  intros w V. destruct (negb _); [rewrite or_ERR|rewrite or_0]; rewrite or_HALF; eexists; (split; [reflexivity|]); auto.
Qed.
Lemma keeps_flags (a e : bool) : keeps (fun s => N.lor s (N.lor (if a then N.lor READY FLUSH else 0) (if e then ERR else 0))).
Proof. intros w V. rewrite or_flags. eexists. split; [reflexivity|]. auto. Qed.

Lemma J_rmw v v' k r a s c : word v' r a -> J' v k r a -> J' v' (krmw s c k) r a.
Proof.
  intros W (_ & A & B & C). split; auto. cbn [krmw kK kP].
  split; [|split]; intros i L; apply orb_true_iff; left; auto.
Qed.
Lemma J_acc v k r a s c : care c = false -> J' v k r a -> J' v (kacc s c k) r a.
Proof.
  intros E (W & A & B & C). split; auto. cbn [kacc kK kP]. destruct c; try discriminate; cbn [cell_eqb].
  all: split; [|split]; intros i L; rewrite andb_false_r, andb_true_r; auto.
Qed.
Lemma word_view v r a : word v r a -> exists w, v = enc w /\ vok w /\ get_cursor bits v = (if r =? cap then 0 else r) /\
  get_length bits v = a - r /\ vcur w = (if r =? cap then 0 else r) /\ vlen w = a - r.
Proof.
  intros (A & B & w & -> & V & C & L). exists w. rewrite cur_encv with (cap := cap), len_encv with (cap := cap); auto. repeat split; auto; apply V.
Qed.

(** ** The sender *)
Section Sender.
Variable n : nat.
Notation wpt := (@wwp rop rres N N care TX rconsuming (J n) idle Qt).

Ltac fin a := cbn [wwp]; intros ? ? ? ?; exists a; split; [assumption|split; [intros ?; auto|exact I]].
Lemma kq (a : N) : keepQ Qt a a. Proof. intros v. auto. Qed.
Lemma J_acc_t v k a r c : care c = false -> J n v k a r -> J n v (kacc TX c k) a r.
Proof. intros E (A & B & C). split; auto. split; auto. now apply J_acc. Qed.
Lemma J_keep_t f v k a r c : keeps f -> J n v k a r -> J n (f v) (krmw TX c k) a r.
Proof. intros K (A & B & C). split; auto. split; auto. apply J_rmw with v; auto. apply keeps_word; auto. apply C. Qed.
(** The slot that the sender writes. *)
Lemma J_slot_t v k a r : J n v k a r -> a < N.of_nat n -> kK k TX (CBuf a) = true /\ J n v (kacc TX (CBuf a) k) a r.
Proof.
  intros (A & B & W & C1 & C2 & C3) L. pose proof W as (_ & Lr & _). split; [auto|]. split; auto. split; auto. split; auto. cbn [kacc kK kP seqb other andb negb].
  split; [intros i Li; rewrite andb_true_r; auto|]. split; intros i Li.
  - destruct (cell_eqb_spec (CBuf i) (CBuf a)) as [X|X]; [injection X as X; lia|]. rewrite C2 by auto. reflexivity.
  - destruct (cell_eqb_spec (CBuf i) (CBuf a)) as [X|X]; [injection X as X; lia|]. rewrite C3 by auto. reflexivity.
Qed.
Lemma add_word v r a : word v r a -> a < cap -> if has v CLOSED then add_length bits v 1 = v else word (add_length bits v 1) r (a + 1).
Proof.
  intros (A & B & w & -> & V & C & L) La. rewrite has_CLOSED, add_encv with (cap := cap); auto. unfold addv.
  destruct (vc w) eqn:E; [reflexivity|]. split; [lia|]. split; [lia|]. eexists. split; [reflexivity|].
  pose proof (max_LB bits cap Hbits Hcap0 Hcap') as ML. pose proof Hcap as HC. rewrite L. cbn [vcur vlen]. rewrite N.mod_small by lia.
  split; [split; cbn [vcur vlen]; [apply V|lia]|]. split; [exact C|lia].
Qed.
Lemma store_wp o i p (cl : N -> prog rres) (ok : prog rres) a v :
  i = a -> a < N.of_nat n -> (forall w a, wpt o (cl w) a) -> (forall a, wpt o ok a) ->
  wpt o (Write (CBuf i) v (Rmw Acquire AcqRel p (fun s => add_length bits s 1) (fun s =>
    if has s CLOSED then Take (CBuf i) cl else if has s RXW then Peek CRxW (fun w => Wake w ok) else ok))) a.
Proof.
  intros -> La Hcl Hok. cbn [wwp]. clear v. intros v k r HJ. destruct (J_slot_t _ _ _ _ HJ La) as (X & Y). split; auto.
  exists a. split; auto. split; [apply kq|]. clear v k r HJ X Y. intros v k r HJ. pose proof HJ as (A & B & W & C1 & C2 & C3).
  pose proof (add_word _ _ _ W) as W'. destruct (has v CLOSED) eqn:E.
  - rewrite W' by lia. exists a. split. { split; auto. split; auto. apply J_rmw with v; auto. apply HJ. }
    cbn [wwp]. clear v k r HJ A B W C1 C2 C3 W' E. intros v k r HJ. destruct (J_slot_t _ _ _ _ HJ La) as (X & Y). split; auto.
    exists a. split; auto. split; [apply kq|]. auto.
  - exists (a + 1). split.
    { split; [lia|]. split; auto. split; [apply W'; lia|]. cbn [krmw kK kP seqb releases acquires andb other orb].
      split; [|split].
      - intros i Li. rewrite (C1 i Li). reflexivity.
      - intros i Li. apply orb_true_r.
      - intros i Li. rewrite (C3 i Li). reflexivity. }
    destruct (has v RXW); [|auto]. cbn [wwp]. clear - Hok. intros v k r HJ. split; [discriminate|]. exists (a + 1). split; [now apply J_acc_t|].
    split; [apply kq|]. auto.
Qed.
Lemma slot v a : Qt a v -> a < cap -> get_length bits v =? cap = false /\ add_cursor (get_cursor bits v) (get_length bits v) cap = a.
Proof.
  intros (r & W) La. pose proof W as (A & B & _). destruct (word_view _ _ _ W) as (w & _ & _ & -> & -> & _ & _).
  destruct (N.eqb_spec r cap); [lia|]. split; [apply N.eqb_neq; lia|]. unfold add_cursor. destruct (N.leb_spec cap (r + (a - r))); lia.
Qed.
Lemma try_send_wp o v kk a : N.of_nat n <= cap -> a < N.of_nat n -> (forall r a, wpt o (kk r) a) -> wpt o (try_send_then bits cap v kk) a.
Proof.
  intros Ln La Hk. unfold try_send_then. cbn [wwp]. intros u Hu. cbv zeta. destruct (slot _ _ Hu) as (-> & ->); [lia|].
  apply store_wp; auto.
Qed.
Lemma register_wp o w s m c r a : m = set_ready_waker \/ m = set_flush_waker \/ m = set_close_waker -> wpt o (register w s m c r) a.
Proof.
  intros M. unfold register. cbv zeta.
  assert (R : wpt o (Rmw Relaxed Release (Some s) m (fun s0 =>
        if has s0 CLOSED then
          if negb (has_waker s) then Take CTxW (fun w => DropW w (Done c)) else Done c
        else if r s0 then Done RReady
        else Done RPending)) a).
  { cbn [wwp]. intros v k h HJ. exists a. split; [apply J_keep_t; auto; now apply keeps_mark|]. clear.
    destruct (has v CLOSED); [|destruct (r v); fin a]. destruct (negb _); [|fin a]. cbn [wwp].
    intros v' k h HJ. split; [discriminate|]. exists a. split; [now apply J_acc_t|]. split; [apply kq|]. intros _. fin a. }
  destruct (negb (has_waker s)); [|exact R]. cbn [wwp]. intros v k h HJ. split; [discriminate|].
  exists a. split; [now apply J_acc_t|]. split; [apply kq|exact R].
Qed.
Lemma tx_wp o a : rside o = TX -> N.of_nat n <= cap -> (spend o = true -> a < N.of_nat n) -> wpt o (rcode bits cap o) a.
Proof.
  intros So Ln La. destruct o as [w0|w0|w0|w0| |w0|w0|w0| | | |w0| |]; try discriminate; clear So; cbn [rcode spend] in *.
  - unfold try_send. apply try_send_wp; auto. intros r a'. fin a'.
  - unfold start_send. apply try_send_wp; auto. intros r a'. destruct r; fin a'.
  - unfold send_overwrite. cbn [wwp]. intros u Hu. destruct (slot _ _ Hu) as (E & E'); [specialize (La eq_refl); lia|]. rewrite E.
    unfold over_claimed. cbv zeta. rewrite E, E'. destruct (has u CLOSED); [fin a|]. unfold over_store.
    apply store_wp; auto; [intros w a'; fin a'|intros a'; fin a'].
  - unfold send_err. cbn [wwp]. intros v k r HJ. split; [discriminate|]. exists a. split; [now apply J_acc_t|]. split; [apply kq|].
    clear v k r HJ. intros v k r HJ. exists a. split; [now apply (J_keep_t _ v k a r AcqRel keeps_err)|]. clear k r HJ.
    set (rest := if has v CLOSED then _ else _). assert (R : wpt (SendErr w0) rest a).
    { unfold rest. destruct (has v CLOSED); [|fin a]. cbn [wwp]. intros v' k r HJ. split; [discriminate|].
      exists a. split; [now apply J_acc_t|]. split; [apply kq|]. intros w. destruct (has v HALF); fin a. }
    destruct (has v RXW); [|exact R]. cbn [wwp]. intros v' k r HJ. split; [discriminate|].
    exists a. split; [now apply J_acc_t|]. split; [apply kq|]. intros w. destruct (negb _); exact R.
  - unfold is_canceled. cbn [wwp]. intros u _. fin a.
  - unfold poll_ready. cbn [wwp]. intros u Hu. destruct (has u CLOSED); [fin a|]. destruct (get_length bits u <? cap); [fin a|].
    destruct (negb (has_ready_waker u)); [|fin a]. apply register_wp; auto.
  - unfold poll_flush. cbn [wwp]. intros u Hu. destruct (has u CLOSED); [fin a|]. destruct (get_length bits u =? 0); [fin a|].
    destruct (negb (has_flush_waker u)); [|fin a]. apply register_wp; auto.
  - unfold poll_close. cbn [wwp]. intros u Hu. destruct (has u CLOSED); [fin a|].
    destruct (negb (has_close_waker u)); [|fin a]. apply register_wp; auto.
  - unfold drop_tx. cbn [wwp]. intros v k r HJ. exists a. split; [now apply (J_keep_t _ v k a r Acquire keeps_HALF)|]. clear k r HJ.
    assert (R : wpt DropTx (if has v HALF then Free (Done RUnit) else Done RUnit) a) by (destruct (has v HALF); fin a).
    destruct (has v RXW); [|exact R]. cbn [wwp]. intros v' k r HJ. split; [discriminate|].
    exists a. split; [now apply J_acc_t|]. split; [apply kq|]. intros w. destruct (negb _); [fin a|exact R].
Qed.
End Sender.

(** ** The receiver *)
Notation wpr := (@wwp rop rres N N care RX rconsuming J' idle Qr).
Ltac fin a := cbn [wwp]; intros ? ? ? ?; exists a; split; [assumption|split; [intros ?; auto|exact I]].
Lemma kqr (r r' : N) : keepQ Qr r r'. Proof. intros v. auto. Qed.
(** An access to none of the slots. *)
Ltac own r := cbn [wwp]; intros ? ? ? ?; split; [discriminate|]; exists r; split; [now apply J_acc|]; split; [apply kqr|].
Lemma J_slot_r v k r a i : i < r -> J' v k r a -> kK k RX (CBuf i) = true /\ J' v (kacc RX (CBuf i) k) r a.
Proof.
  intros L (W & C1 & C2 & C3). split; [auto|]. split; auto. cbn [kacc kK kP seqb other andb negb].
  split; [|split]; intros j Lj; rewrite ?andb_true_r; auto.
  destruct (cell_eqb_spec (CBuf j) (CBuf i)) as [X|X]; [injection X as X; lia|]. rewrite C1 by auto. reflexivity.
Qed.
Lemma take_wp o s len r : get_cursor bits s < r -> wpr o (take_value bits cap s len) r.
Proof.
  intros L. unfold take_value. cbv zeta. set (sw := if has_ready_waker s then _ else _).
  assert (R : wpr o (Take (CBuf (get_cursor bits s)) (fun v => Done (RVal v))) r).
  { cbn [wwp]. intros v k a HJ. destruct (J_slot_r _ _ _ _ _ L HJ) as (X & Y). split; auto. exists r. split; auto.
    split; [apply kqr|]. intros w. fin r. }
  assert (W : forall s', wpr o (if sw && negb (has s' HALF) then Peek CTxW (fun w => Wake w (Take (CBuf (get_cursor bits s)) (fun v => Done (RVal v))))
      else Take (CBuf (get_cursor bits s)) (fun v => Done (RVal v))) r).
  { intros s'. destruct (sw && _); [|exact R]. own r. intros w. exact R. }
  destruct (negb _); [|apply W]. cbn [wwp]. intros v k a HJ. exists r. split; [|apply W].
  apply J_rmw with v; auto. apply (keeps_word _ _ _ _ (keeps_flags _ _)). apply HJ.
Qed.
(** Claiming the next value with a read-modify-write that acquires. *)
Lemma J_next v k r a f c : keeps f -> acquires c = true -> J' v k r a ->
  let r' := if 0 <? get_length bits v then r + 1 else r in
  J' (f (next_claim bits cap v)) (krmw RX c k) r' a /\ (0 <? get_length bits v = true -> get_cursor bits v = r).
Proof.
  intros K Ac (W & C1 & C2 & C3). pose proof W as (A & B & _). destruct (word_view _ _ _ W) as (w & -> & V & Ec & El & Vc & Vl).
  rewrite El, Ec. cbv zeta. split.
  2: { intros H. apply N.ltb_lt in H. destruct (N.eqb_spec r cap); lia. }
  assert (W' : word (next_claim bits cap (enc w)) (if 0 <? a - r then r + 1 else r) a).
  { rewrite next_encv by auto. unfold nextv, claim_unless. rewrite Vl. destruct (N.ltb_spec 0 (a - r)).
    - split; auto. split; [lia|]. eexists. split; [reflexivity|]. cbn [with_e claimv vcur vlen]. destruct (N.eqb_spec r cap); [lia|]. rewrite Vc, Vl.
      split; [|split; [|lia]].
      + destruct V as (V1 & V2). split; cbn [with_e claimv vcur vlen]; [apply (add_cursor_lt bits cap Hbits Hcap0 Hcap'); lia|lia].
      + unfold add_cursor. destruct (N.leb_spec cap (r + 1)), (N.eqb_spec (r + 1) cap); lia.
    - split; auto. split; auto. eexists. split; [reflexivity|]. cbn [with_e vcur vlen]. auto. }
  split; [now apply keeps_word|]. cbn [krmw kK kP seqb other]. rewrite Ac. cbn [andb orb].
  split; [|split]; intros i Li.
  - rewrite orb_false_r. apply C1. destruct (0 <? a - r); lia.
  - rewrite orb_false_r. auto.
  - destruct (N.ltb_spec 0 (a - r)).
    + rewrite (C2 i) by lia. apply orb_true_r.
    + rewrite C3 by auto. reflexivity.
Qed.
Lemma keeps_id : keeps (fun v => v).
Proof. intros w _. exists w. auto. Qed.
Lemma rx_wp o r : may_call o -> rside o = RX -> wpr o (rcode bits cap o) r.
Proof.
  intros M So. destruct o as [w0|w0|w0|w0| |w0|w0|w0| | | |w0| |]; try discriminate; clear So; cbn [rcode].
  - unfold close. cbn [wwp]. intros v k a HJ. exists r. split; [apply J_rmw with v; auto; apply (keeps_word _ _ _ _ keeps_CLOSED), HJ|].
    destruct (_ && _); [|fin r]. own r. intros w. destruct (negb _); fin r.
  - unfold try_next. cbn [wwp]. intros v k a HJ. destruct (J_next v k r a _ Acquire keeps_id eq_refl HJ) as (X & Y).
    eexists. split; [exact X|]. destruct (0 <? get_length bits v) eqn:E. { apply take_wp. rewrite Y by auto. lia. }
    destruct (has v ERR). { own r. intros w. fin r. } destruct (_ || _); fin r.
  - unfold poll_next. cbn [wwp]. intros v k a HJ. destruct (J_next v k r a _ Acquire keeps_id eq_refl HJ) as (X & Y).
    eexists. split; [exact X|]. destruct (0 <? get_length bits v) eqn:E. { apply take_wp. rewrite Y by auto. lia. }
    destruct (has v ERR). { own r. intros w. fin r. } destruct (_ || _); [fin r|].
    destruct (negb _); [|fin r]. clear k a HJ X Y E. own r. clear v. intros v k a HJ.
    destruct (J_next v k r a _ AcqRel keeps_RXW eq_refl HJ) as (X & Y). eexists. split; [exact X|]. clear X HJ. cbv zeta.
    set (r' := if 0 <? get_length bits v then r + 1 else r) in *.
    match goal with |- wwp _ _ _ _ _ _ _ (if has v HALF then Take CRxW (fun w => DropW w ?q) else _) _ => assert (R : wpr (PollNext w0) q r') end.
    { destruct (0 <? get_length bits v). { apply take_wp. rewrite Y by auto. lia. }
      destruct (has v HALF); [|fin r']. destruct (has v ERR); [|fin r']. own r'. intros w. fin r'. }
    destruct (has v HALF); [|exact R]. own r'. intros w. exact R.
  - unfold is_terminated. cbn [wwp]. intros u _. fin r.
  - now destruct M.
Qed.

Theorem ring_slots l : Forall (allowed may_call) l -> (length (filter (spends spend) l) <= N.to_nat cap)%nat ->
  ~ racing (fun a b => clash a b /\ exists c w, a = ACell c w /\ care c = true) (accesses (wlog (wrun rside rconsuming (rcode bits cap) l))).
Proof.
  intros A L. refine (budget_races care rside rconsuming (rcode bits cap) J J' _ _ idle idle Qt Qr 0 0 _ I I _ may_call spend (N.to_nat cap) _ _ l A L).
  - intros n v k g h H. apply H.
  - intros n v k v' k' g h h' (H1 & H2 & _) H. split; auto.
  - split; [simpl; lia|]. split; [simpl; lia|]. split; [|split; [|split]; intros; reflexivity || lia].
    split; [lia|]. split; [lia|]. exists (V false false false false false false 0 0). rewrite encv_0. split; auto.
    split; [split; cbn; [lia|apply N.neq_0_lt_0, N.pow_nonzero; discriminate]|]. cbn [vcur vlen]. destruct (0 =? cap); auto.
  - intros n v k g h (_ & _ & H & _). split; [exists h; exact H|exact I].
  - intros n o M So B m v k g h (H1 & H2 & H3) _. exists g.
    assert (Hm : g <= N.of_nat m /\ N.of_nat m <= cap /\ (spend o = true -> g < N.of_nat m)).
    { unfold m. destruct (spend o); [specialize (B eq_refl)|]; repeat split; intros; try discriminate; lia. }
    destruct Hm as (M1 & M2 & M3). split; [split; auto|]. split; [intros x; auto|]. now apply tx_wp.
  - intros o M So v k g h H _. exists h. split; auto. split; [apply kqr|]. now apply rx_wp.
Qed.
End Slots.
