(** The lifetime of a ring channel's shared block: as long as the two calls that end the
    halves do not overlap, the second one frees it, once, after the last access. *)
Require Import NArith List Bool Lia.
Require Import Verif.Spsc Verif.Ring Verif.RingSpec Verif.SpscWp.
Import ListNotations.
Open Scope N_scope.

(** One half: it has set HALF; it has found HALF set and has to free; it has freed; its
    last call is in progress. *)
Record LG := mkLG { lh : bool; lsec : bool; lfr : bool; lc : bool }.

Definition safe4 (m : mem) (a : acc) : Prop := freed m = false.
Definition ok4 (b : over) : bool := negb (x_over b).

Record J4 (m : mem) (b : over) (g h : LG) : Prop := {
  l_half : has (st m) HALF = lh g || lh h;
  l_cls : lh h = true -> has (st m) CLOSED = true;
  l_freed : freed m = lfr g || lfr h;
  l_xt : x_tx b = lc g;
  l_xr : x_rx b = lc h;
  l_x : lc g && lc h = false;
  l_fs : lfr g = true -> lsec g = true;
  l_fs' : lfr h = true -> lsec h = true;
  l_st : lsec g = true -> lh g = true /\ lh h = true /\ lc h = false /\ lsec h = false;
  l_sr : lsec h = true -> lh h = true /\ lh g = true /\ lc g = false /\ lsec g = false;
  l_one : lh g = true -> lh h = true -> lsec g = true \/ lsec h = true }.
Definition J4r (m : mem) (b : over) (h g : LG) : Prop := J4 m b g h.

Definition idle4 (gone : bool) (g : LG) : Prop := lh g = gone /\ lc g = false /\ lsec g = lfr g.

Lemma has_bit s i : has s (2 ^ i) = N.testbit s i.
Proof.
  unfold has. destruct (N.testbit s i) eqn:E.
  - destruct (N.eqb_spec (N.land s (2 ^ i)) 0) as [F|F]; [|reflexivity].
    assert (N.testbit (N.land s (2 ^ i)) i = true) as T by (rewrite N.land_spec, E, N.pow2_bits_true; reflexivity).
    rewrite F, N.bits_0 in T. discriminate.
  - destruct (N.eqb_spec (N.land s (2 ^ i)) 0) as [F|F]; [reflexivity|]. exfalso. apply F.
    apply N.bits_inj. intros j. rewrite N.land_spec, N.pow2_bits_eqb, N.bits_0.
    destruct (N.eqb_spec i j); [subst; now rewrite E|apply andb_false_r].
Qed.

Section Life.
  Variables bits cap : N.
  Hypothesis Hbits : 6 <= bits.

  Notation wpt := (wp TX rconsuming xstep ok4 safe4 J4 idle4).
  Notation wpr := (wp RX rconsuming xstep ok4 safe4 J4r idle4).

  (** Programs that leave the HALF flag alone, do not clear CLOSED and do not free. *)
  Definition keeps (f : N -> N) : Prop :=
    forall s, has (f s) HALF = has s HALF /\ (has s CLOSED = true -> has (f s) CLOSED = true).
  Fixpoint quiet (p : prog rres) : Prop :=
    match p with
    | Done _ => True
    | Load _ k => forall s, quiet (k s)
    | Rmw _ _ _ f k => keeps f /\ forall s, quiet (k s)
    | Take _ k | Peek _ k => forall s, quiet (k s)
    | Write _ _ k | Wake _ k | DropW _ k | DropV _ k => quiet k
    | Free _ => False
    end.

  Lemma J4_mem m m' b g h : J4 m b g h -> st m' = st m -> freed m' = freed m -> J4 m' b g h.
  Proof. intros [] E1 E2. constructor; rewrite ?E1, ?E2; auto. Qed.
  Lemma J4_keeps m b g h f : keeps f -> J4 m b g h -> J4 (set_st (touch m) (f (st m))) b g h.
  Proof. intros K []. destruct (K (st m)) as [K1 K2]. constructor; cbn; rewrite ?K1; auto. Qed.
  Ltac same HJ := apply (J4_mem _ _ _ _ _ HJ); cbn; auto.
  Lemma J4_take m b g h c : J4 m b g h -> J4 (fst (take m c)) b g h.
  Proof. intros HJ. same HJ; unfold take; cbn; destruct (cells m c); reflexivity. Qed.
  Lemma J4_peek m b g h c : J4 m b g h -> J4 (fst (peek m c)) b g h.
  Proof. intros HJ. same HJ; unfold peek; cbn; destruct (cells m c); reflexivity. Qed.

  Lemma x_same o r b : rconsuming o = false -> xstep b (ERet o r) = b.
  Proof. destruct o; try discriminate; reflexivity. Qed.
  Lemma x_inv o b : rconsuming o = false -> xstep b (EInv o) = b.
  Proof. destruct o; try discriminate; reflexivity. Qed.

  Definition live : LG := mkLG false false false false.
  Lemma quiet_tx o : rconsuming o = false -> forall p, quiet p -> wpt o p live.
  Proof.
    intros C. assert (forall m b h, J4 m b live h -> freed m = false) as F.
    { intros m b h []. rewrite l_freed0. cbn in *. destruct (lfr h) eqn:E; [|reflexivity].
      destruct (l_sr0 (l_fs'0 eq_refl)) as (_ & ? & _). discriminate. }
    induction p as [r|ra k IH|ra rc old f k IH|c v k IH|c k IH|c k IH|w k IH|w k IH|v k IH|k IH]; cbn [quiet]; intros Q.
    - intros m b h HJ _. exists live. rewrite x_same, C by assumption. split; [exact HJ|now repeat split].
    - intros m b h HJ. split; [now apply (F m b h)|]. intros _. exists live. split; [same HJ|apply IH, Q].
    - destruct Q as [Q1 Q2]. split; intros m b h HJ; [split; [now apply (F m b h)|]|]; intros _; [same HJ|].
      exists live. split; [now apply (J4_keeps m b _ _ f)|]. apply IH, Q2.
    - intros m b h HJ. split; [now apply (F m b h)|]. intros _. exists live. split; [same HJ|apply IH, Q].
    - intros m b h HJ. split; [now apply (F m b h)|]. intros _. exists live. split; [now apply J4_take|apply IH, Q].
    - intros m b h HJ. split; [now apply (F m b h)|]. intros _. exists live. split; [now apply J4_peek|apply IH, Q].
    - intros m b h HJ _. exists live. split; [exact HJ|apply IH, Q].
    - intros m b h HJ _. exists live. split; [exact HJ|apply IH, Q].
    - intros m b h HJ _. exists live. split; [exact HJ|apply IH, Q].
    - contradiction.
  Qed.
  Lemma quiet_rx o : rconsuming o = false -> forall p, quiet p -> wpr o p live.
  Proof.
    intros C. assert (forall m b h, J4r m b live h -> freed m = false) as F.
    { intros m b h []. rewrite l_freed0. cbn in *. destruct (lfr h) eqn:E; [|reflexivity].
      destruct (l_st0 (l_fs0 eq_refl)) as (_ & ? & _). discriminate. }
    induction p as [r|ra k IH|ra rc old f k IH|c v k IH|c k IH|c k IH|w k IH|w k IH|v k IH|k IH]; cbn [quiet]; intros Q.
    - intros m b h HJ _. exists live. rewrite x_same, C by assumption. split; [exact HJ|now repeat split].
    - intros m b h HJ. split; [now apply (F m b h)|]. intros _. exists live. split; [same HJ|apply IH, Q].
    - destruct Q as [Q1 Q2]. split; intros m b h HJ; [split; [now apply (F m b h)|]|]; intros _; [same HJ|].
      exists live. split; [now apply (J4_keeps m b _ _ f)|]. apply IH, Q2.
    - intros m b h HJ. split; [now apply (F m b h)|]. intros _. exists live. split; [same HJ|apply IH, Q].
    - intros m b h HJ. split; [now apply (F m b h)|]. intros _. exists live. split; [now apply J4_take|apply IH, Q].
    - intros m b h HJ. split; [now apply (F m b h)|]. intros _. exists live. split; [now apply J4_peek|apply IH, Q].
    - intros m b h HJ _. exists live. split; [exact HJ|apply IH, Q].
    - intros m b h HJ _. exists live. split; [exact HJ|apply IH, Q].
    - intros m b h HJ _. exists live. split; [exact HJ|apply IH, Q].
    - contradiction.
  Qed.

  (** ** The end of a half. *)
  (** Programs that free once if [sec]. *)
  Fixpoint frees (sec : bool) (p : prog rres) : Prop :=
    match p with
    | Done _ => sec = false
    | Take _ k | Peek _ k => forall s, frees sec (k s)
    | Write _ _ k | Wake _ k | DropW _ k | DropV _ k => frees sec k
    | Free (Done _) => sec = true
    | _ => False
    end.
  Definition fin (sec fr : bool) : LG := mkLG true sec fr true.
  Lemma done_tx o r sec : rside o = TX -> rconsuming o = true -> wpt o (Done r) (fin sec sec).
  Proof.
    intros S C m b h HJ _. exists (mkLG true sec sec false). rewrite C. split; [|now repeat split].
    destruct o; try discriminate; destruct HJ; constructor; cbn in *; auto; intros F; destruct (l_sr0 F) as (? & ? & ? & ?); auto; discriminate.
  Qed.
  Lemma done_rx o r sec : rside o = RX -> rconsuming o = true -> wpr o (Done r) (fin sec sec).
  Proof.
    intros S C m b h HJ _. exists (mkLG true sec sec false). rewrite C. split; [|now repeat split].
    destruct o; try discriminate; destruct HJ; constructor; cbn in *; auto; try apply andb_false_r;
      intros F; destruct (l_st0 F) as (? & ? & ? & ?); auto; discriminate.
  Qed.
  Lemma frees_tx o : rside o = TX -> rconsuming o = true -> forall sec p, frees sec p -> wpt o p (fin sec false).
  Proof.
    intros S C sec. assert (forall m b h, J4 m b (fin sec false) h -> freed m = false) as F.
    { intros m b h []. rewrite l_freed0. cbn in *. destruct (lfr h) eqn:E; [|reflexivity].
      destruct (l_sr0 (l_fs'0 eq_refl)) as (_ & _ & ? & _). discriminate. }
    induction p as [r|ra k IH|ra rc old f k IH|c v k IH|c k IH|c k IH|w k IH|w k IH|v k IH|k IH]; cbn [frees]; intros Q; try contradiction.
    - subst. now apply done_tx.
    - intros m b h HJ. split; [now apply (F m b h)|]. intros _. exists (fin sec false). split; [same HJ|apply IH, Q].
    - intros m b h HJ. split; [now apply (F m b h)|]. intros _. exists (fin sec false). split; [now apply J4_take|apply IH, Q].
    - intros m b h HJ. split; [now apply (F m b h)|]. intros _. exists (fin sec false). split; [now apply J4_peek|apply IH, Q].
    - intros m b h HJ _. exists (fin sec false). split; [exact HJ|apply IH, Q].
    - intros m b h HJ _. exists (fin sec false). split; [exact HJ|apply IH, Q].
    - intros m b h HJ _. exists (fin sec false). split; [exact HJ|apply IH, Q].
    - destruct k; try contradiction. subst. intros m b h HJ. split; [now apply (F m b h)|].
      exists (fin true true). split; [|now apply done_tx]. destruct HJ. constructor; cbn in *; auto.
  Qed.
  Lemma frees_rx o : rside o = RX -> rconsuming o = true -> forall sec p, frees sec p -> wpr o p (fin sec false).
  Proof.
    intros S C sec. assert (forall m b h, J4r m b (fin sec false) h -> freed m = false) as F.
    { intros m b h []. rewrite l_freed0. cbn in *. destruct (lfr h) eqn:E; [|reflexivity].
      destruct (l_st0 (l_fs0 eq_refl)) as (_ & _ & ? & _). discriminate. }
    induction p as [r|ra k IH|ra rc old f k IH|c v k IH|c k IH|c k IH|w k IH|w k IH|v k IH|k IH]; cbn [frees]; intros Q; try contradiction.
    - subst. now apply done_rx.
    - intros m b h HJ. split; [now apply (F m b h)|]. intros _. exists (fin sec false). split; [same HJ|apply IH, Q].
    - intros m b h HJ. split; [now apply (F m b h)|]. intros _. exists (fin sec false). split; [now apply J4_take|apply IH, Q].
    - intros m b h HJ. split; [now apply (F m b h)|]. intros _. exists (fin sec false). split; [now apply J4_peek|apply IH, Q].
    - intros m b h HJ _. exists (fin sec false). split; [exact HJ|apply IH, Q].
    - intros m b h HJ _. exists (fin sec false). split; [exact HJ|apply IH, Q].
    - intros m b h HJ _. exists (fin sec false). split; [exact HJ|apply IH, Q].
    - destruct k; try contradiction. subst. intros m b h HJ. split; [now apply (F m b h)|].
      exists (fin true true). split; [|now apply done_rx]. destruct HJ. constructor; cbn in *; auto. now rewrite orb_true_r.
  Qed.

  (** The read-modify-write that sets HALF. *)
  Definition ending : LG := mkLG false false false true.
  Lemma J4_not_freed m b h : J4 m b ending h -> freed m = false.
  Proof.
    intros []. rewrite l_freed0. cbn in *. destruct (lfr h) eqn:E; [|reflexivity].
    destruct (l_sr0 (l_fs'0 eq_refl)) as (_ & ? & _). discriminate.
  Qed.
  Lemma J4_not_freed_r m b h : J4r m b ending h -> freed m = false.
  Proof.
    intros []. rewrite l_freed0. cbn in *. destruct (lfr h) eqn:E; [|reflexivity].
    destruct (l_st0 (l_fs0 eq_refl)) as (_ & ? & _). discriminate.
  Qed.
  Definition ends (f : N -> N) : Prop := forall s, has (f s) HALF = true.
  Lemma end_tx {oa oc} o old f k : rside o = TX -> rconsuming o = true -> ends f ->
    (forall s, has s CLOSED = true -> has (f s) CLOSED = true) ->
    (forall s, (has s HALF = true -> has s CLOSED = true) -> frees (has s HALF) (k s)) -> wpt o (Rmw oa oc old f k) ending.
  Proof.
    intros S C Hf Hc Hk. split; intros m b h HJ.
    - split; [now apply (J4_not_freed m b h)|]. intros _. same HJ.
    - intros _. exists (fin (has (st m) HALF) false).
      split; [|apply frees_tx; auto; apply Hk; destruct HJ; cbn in *; now rewrite l_half0].
      destruct HJ. cbn in *. constructor; cbn; auto.
      + intros F. discriminate.
      + rewrite l_half0. intros E. repeat split; auto. destruct (lsec h) eqn:Es; [|reflexivity].
        destruct (l_sr0 eq_refl) as (_ & ? & _). discriminate.
      + intros E. destruct (l_sr0 E) as (_ & ? & _). discriminate.
      + intros _ E. rewrite l_half0. now left.
  Qed.
  Lemma end_rx {oa oc} o old f k : rside o = RX -> rconsuming o = true -> ends f -> (forall s, has (f s) CLOSED = true) ->
    (forall s, frees (has s HALF) (k s)) -> wpr o (Rmw oa oc old f k) ending.
  Proof.
    intros S C Hf Hc Hk. split; intros m b h HJ.
    - split; [now apply (J4_not_freed_r m b h)|]. intros _. same HJ.
    - intros _. exists (fin (has (st m) HALF) false). split; [|apply frees_rx; auto].
      destruct HJ. cbn in *. rewrite orb_false_r in l_half0. constructor; cbn; auto.
      + rewrite Hf. symmetry. apply orb_true_r.
      + intros F. discriminate.
      + intros E. destruct (l_st0 E) as (_ & ? & _). discriminate.
      + rewrite l_half0. intros E. repeat split; auto.
        * rewrite andb_true_r in l_x0. exact l_x0.
        * destruct (lsec h) eqn:Es; [|reflexivity]. destruct (l_st0 eq_refl) as (_ & ? & _). discriminate.
      + intros E _. rewrite l_half0. now right.
  Qed.
  Lemma end_write o c v p : (wpt o p ending) -> wpt o (Write c v p) ending.
  Proof.
    intros K m b h HJ. split; [now apply (J4_not_freed m b h)|]. intros _. exists ending. split; [same HJ|exact K].
  Qed.

  (** ** Flags. *)
  Lemma k_comp f g : keeps f -> keeps g -> keeps (fun s => f (g s)).
  Proof. intros F G s. destruct (F (g s)) as [F1 F2], (G s) as [G1 G2]. split; [now rewrite F1|auto]. Qed.
  Lemma k_lor x : N.testbit x 5 = false -> keeps (fun s => N.lor s x).
  Proof.
    intros E s. change HALF with (2 ^ 5). change CLOSED with (2 ^ 4). rewrite !has_bit, !N.lor_spec, E, orb_false_r.
    split; [reflexivity|]. now intros ->.
  Qed.
  Lemma k_ldiff x : N.testbit x 5 = false -> N.testbit x 4 = false -> keeps (fun s => N.ldiff s x).
  Proof.
    intros E E' s. change HALF with (2 ^ 5). change CLOSED with (2 ^ 4). rewrite !has_bit, !N.ldiff_spec, E, E', !andb_true_r. auto.
  Qed.
  Lemma bit_claim s l i : i < 6 -> N.testbit (claim_next bits cap s l) i = N.testbit s i.
  Proof.
    intros Hi. unfold claim_next. rewrite !N.lor_spec, N.land_spec.
    rewrite (N.shiftl_spec_low _ PARAM_BITS i) by (unfold PARAM_BITS; lia).
    rewrite (N.shiftl_spec_low _ (PARAM_BITS + COUNT_BITS bits) i) by (unfold PARAM_BITS; lia).
    rewrite N.ones_spec_low by (unfold PARAM_BITS; lia). now rewrite andb_true_r, !orb_false_r.
  Qed.
  Lemma claim_keeps s l : has (claim_next bits cap s l) HALF = has s HALF /\
    (has s CLOSED = true -> has (claim_next bits cap s l) CLOSED = true).
  Proof. change HALF with (2 ^ 5). change CLOSED with (2 ^ 4). now rewrite !has_bit, !bit_claim. Qed.
  Lemma k_unless : keeps (claim_next_unless_empty bits cap).
  Proof. intros s. unfold claim_next_unless_empty. cbv zeta. destruct (0 <? get_length bits s); [apply claim_keeps|auto]. Qed.
  Lemma k_next : keeps (next_claim bits cap).
  Proof. apply (k_comp (fun s => N.ldiff s ERR)); [now apply k_ldiff|apply k_unless]. Qed.
  Lemma k_full : keeps (claim_next_if_full bits cap).
  Proof. intros s. unfold claim_next_if_full. cbv zeta. destruct (_ && _); [apply claim_keeps|auto]. Qed.
  Lemma k_add n : keeps (fun s => add_length bits s n).
  Proof.
    intros s. unfold add_length. destruct (negb (has s CLOSED)) eqn:E; [|auto].
    apply negb_true_iff in E. split; [|congruence]. change HALF with (2 ^ 5). rewrite !has_bit.
    rewrite N.mod_pow2_bits_low by lia.
    rewrite N.shiftl_mul_pow2, N.pow_add_r.
    replace (n * (2 ^ PARAM_BITS * 2 ^ COUNT_BITS bits)) with (n * 2 ^ COUNT_BITS bits * 2 ^ PARAM_BITS) by ring.
    rewrite <- (N.mod_pow2_bits_low (s + _) PARAM_BITS 5) by reflexivity.
    rewrite N.mod_add by now apply N.pow_nonzero. now rewrite N.mod_pow2_bits_low by reflexivity.
  Qed.
  Lemma k_ready : keeps set_ready_waker.
  Proof. apply (k_comp (fun s => N.lor s READY)); [now apply k_lor|now apply (k_ldiff FLUSH)]. Qed.
  Lemma k_flush : keeps set_flush_waker.
  Proof. apply (k_comp (fun s => N.lor s FLUSH)); [now apply k_lor|now apply (k_ldiff READY)]. Qed.
  Lemma k_pclose : keeps set_close_waker.
  Proof. apply (k_comp (fun s => N.lor s FLUSH)); [now apply k_lor|now apply (k_lor READY)]. Qed.

  (** ** Programs. *)
  Ltac qt := repeat match goal with
    | |- quiet (if ?b then _ else _) => destruct b
    | |- quiet (Rmw _ _ _ _ _) => split
    | |- quiet _ => cbn [quiet]
    | |- keeps _ => first [apply k_add|apply k_full|apply k_next|now apply k_lor]
    | |- forall _, _ => intros ?
    | |- _ /\ _ => split
    | |- True => exact I
    end.
  Lemma q_try v : quiet (try_send bits cap v).
  Proof. unfold try_send, try_send_then. cbv zeta. qt. Qed.
  Lemma q_start v : quiet (start_send bits cap v).
  Proof. unfold start_send, try_send_then. cbv zeta. qt. Qed.
  Lemma q_store v i o s : quiet (over_store bits v i o s).
  Proof. unfold over_store. qt. Qed.
  Lemma q_claimed v s : quiet (over_claimed bits cap v s).
  Proof.
    unfold over_claimed. cbv zeta. destruct (has s CLOSED); [exact I|].
    destruct (_ =? _); cbn [quiet]; intros; apply q_store.
  Qed.
  Lemma q_over v : quiet (send_overwrite bits cap v).
  Proof.
    unfold send_overwrite. cbn [quiet]. intros s. destruct (_ =? _); [|apply q_claimed].
    split; [apply k_full|]. intros ?. apply q_claimed.
  Qed.
  Lemma q_is : quiet is_canceled.
  Proof. unfold is_canceled. qt. Qed.
  Lemma q_register w s mark c r : keeps mark -> quiet (register w s mark c r).
  Proof. intros M. unfold register. cbv zeta. destruct (negb _); cbn [quiet]; (split; [exact M|]); qt. Qed.
  Lemma q_ready w : quiet (poll_ready bits cap w).
  Proof.
    unfold poll_ready. cbn [quiet]. intros s. destruct (has s CLOSED); [exact I|].
    destruct (_ <? _); [exact I|]. destruct (negb _); [|exact I]. apply q_register, k_ready.
  Qed.
  Lemma q_flush w : quiet (poll_flush bits w).
  Proof.
    unfold poll_flush. cbn [quiet]. intros s. destruct (has s CLOSED); [exact I|].
    destruct (_ =? _); [exact I|]. destruct (negb _); [|exact I]. apply q_register, k_flush.
  Qed.
  Lemma q_pclose w : quiet (poll_close w).
  Proof.
    unfold poll_close. cbn [quiet]. intros s. destruct (has s CLOSED); [exact I|].
    destruct (negb _); [|exact I]. apply q_register, k_pclose.
  Qed.
  Lemma q_close : quiet close.
  Proof. unfold close. qt. Qed.
  Lemma q_take s l : quiet (take_value bits cap s l).
  Proof.
    unfold take_value. cbv zeta. set (sw := if has_ready_waker s then _ else _).
    assert (forall s', quiet (if sw && negb (has s' HALF)
      then Peek CTxW (fun w => Wake w (Take (CBuf (get_cursor bits s)) (fun v => Done (RVal v))))
      else Take (CBuf (get_cursor bits s)) (fun v => Done (RVal v)))) as K by (intros s'; qt).
    destruct (negb _); [|apply K]. split; [|exact K].
    apply k_lor. now destruct sw, (has s ERR).
  Qed.
  Lemma q_try_next : quiet (try_next bits cap).
  Proof.
    unfold try_next. cbv zeta. split; [apply k_next|]. intros s. destruct (0 <? _); [apply q_take|]. qt.
  Qed.
  Lemma q_poll_next w : quiet (poll_next bits cap w).
  Proof.
    unfold poll_next. cbv zeta. split; [apply k_next|]. intros s. destruct (0 <? _); [apply q_take|].
    destruct (has s ERR); [qt|]. destruct (has s HALF || has s CLOSED); [qt|]. destruct (negb _); [|qt].
    cbn [quiet]. split; [apply (k_comp (fun s => N.lor s RXW)); [now apply k_lor|apply k_next]|]. intros s'.
    match goal with |- quiet (if has s' HALF then Take CRxW (fun w => DropW w ?p) else ?p) => assert (quiet p) as K end.
    { destruct (0 <? _); [apply q_take|]. qt. }
    destruct (has s' HALF); [|exact K]. cbn [quiet]. intros _. exact K.
  Qed.
  Lemma q_term : quiet (is_terminated bits).
  Proof. unfold is_terminated. qt. Qed.

  Lemma ends_lor x : N.testbit x 5 = true -> ends (fun s => N.lor s x).
  Proof. intros E s. change HALF with (2 ^ 5). rewrite has_bit, N.lor_spec, E. apply orb_true_r. Qed.

  Lemma wp_send_err v : wpt (SendErr v) (send_err v) ending.
  Proof.
    unfold send_err. apply end_write, end_tx; try reflexivity.
    - intros s. now apply (ends_lor HALF).
    - intros s. change CLOSED with (2 ^ 4). rewrite !has_bit, !N.lor_spec. now intros ->.
    - intros s Hc. cbv zeta.
      set (rest := if has s CLOSED then _ else _). assert (frees (has s HALF) rest) as K.
      { unfold rest. destruct (has s CLOSED); cbn.
        - intros ?. now destruct (has s HALF).
        - destruct (has s HALF); [|reflexivity]. discriminate (Hc eq_refl). }
      clearbody rest. destruct (has s RXW); [|exact K]. cbn [frees]. intros ?. now destruct (negb _).
  Qed.
  Lemma wp_drop_tx : wpt DropTx drop_tx ending.
  Proof.
    unfold drop_tx. apply end_tx; try reflexivity.
    - now apply (ends_lor HALF).
    - intros s. change CLOSED with (2 ^ 4). rewrite !has_bit, !N.lor_spec. now intros ->.
    - intros s _. cbv zeta. destruct (has s HALF), (has s RXW); cbn; auto.
  Qed.
  Lemma frees_values sec k cur : forall n i, frees sec k -> frees sec (drop_values cap n cur i k).
  Proof. induction n as [|n IH]; intros i K; cbn [drop_values frees]; [exact K|]. intros ?. now apply IH. Qed.
  Lemma wp_drop_rx : wpr DropRx (drop_rx bits cap) ending.
  Proof.
    unfold drop_rx. apply end_rx; try reflexivity.
    - intros s. now apply (ends_lor HALF).
    - intros s. change CLOSED with (2 ^ 4). rewrite !has_bit, !N.lor_spec. cbn. now rewrite orb_true_r.
    - intros s. cbv zeta. apply frees_values. destruct (negb _ && _), (has s HALF), (has s ERR); cbn; auto.
  Qed.

  Lemma ok4_sticky b e : ok4 (xstep b e) = true -> ok4 b = true.
  Proof.
    unfold ok4. destruct (x_over b) eqn:E; [|reflexivity]. intros K. exfalso. revert K.
    destruct e as [[]|[] ?|[] ?|[] ?|[] ?|[]|[]]; cbn; rewrite E; discriminate.
  Qed.
  Theorem sys_life atomics sched :
    sys_ok rconsuming over0 xstep ok4 safe4 J4 idle4 idle4 (rrun bits cap atomics sched).
  Proof.
    unfold rrun. apply sys_ok_run with (g0 := live) (h0 := live).
    - apply ok4_sticky.
    - constructor; cbn; auto; discriminate.
    - now repeat split.
    - now repeat split.
    - intros o S m b g h HJ Hi Ok. destruct g as [h1 s1 f1 c1]. destruct Hi as (E1 & E2 & E3). cbn in E1, E2, E3. subst.
      assert (f1 = false) as -> by (destruct f1; [|reflexivity]; destruct HJ; destruct (l_st0 eq_refl); discriminate).
      destruct (rconsuming o) eqn:C.
      + exists ending. split; [|destruct o; try discriminate; [apply wp_send_err|apply wp_drop_tx]].
        unfold ok4 in Ok. apply negb_true_iff in Ok.
        assert (lc h = false /\ xstep b (EInv o) = Over true (x_rx b) (x_over b || x_rx b)) as (X & ->).
        { destruct HJ. destruct o; try discriminate; cbn in Ok; apply orb_false_iff in Ok as [_ Ok]; (split; [congruence|reflexivity]). }
        destruct HJ. constructor; cbn in *; auto. intros F. destruct (l_sr0 F) as (_ & ? & _). discriminate.
      + exists live. rewrite x_inv by assumption. split; [exact HJ|].
        apply quiet_tx; [exact C|]. destruct o; try discriminate; cbn [rcode];
          auto using q_try, q_start, q_over, q_is, q_ready, q_flush, q_pclose.
    - intros o S m b g h HJ Hi Ok. destruct h as [h1 s1 f1 c1]. destruct Hi as (E1 & E2 & E3). cbn in E1, E2, E3. subst.
      assert (f1 = false) as -> by (destruct f1; [|reflexivity]; destruct HJ; destruct (l_sr0 eq_refl); discriminate).
      destruct (rconsuming o) eqn:C.
      + exists ending. split; [|destruct o; try discriminate; apply wp_drop_rx].
        unfold ok4 in Ok. apply negb_true_iff in Ok.
        assert (lc g = false /\ xstep b (EInv o) = Over (x_tx b) true (x_over b || x_tx b)) as (X & ->).
        { destruct HJ. destruct o; try discriminate; cbn in Ok; apply orb_false_iff in Ok as [_ Ok]; (split; [congruence|reflexivity]). }
        destruct HJ. constructor; cbn in *; auto; [now rewrite X|]. intros F. destruct (l_st0 F) as (_ & ? & _). discriminate.
      + exists live. rewrite x_inv by assumption. split; [exact HJ|].
        apply quiet_rx; [exact C|]. destruct o; try discriminate; cbn [rcode];
          auto using q_close, q_try_next, q_poll_next, q_term.
  Qed.
End Life.
