(** The sender's methods preserve the invariant of [PulseProofs]. *)
Require Import NArith List Bool Lia.
Require Import Verif.Spsc Verif.SpscProofs Verif.Pulse Verif.PulseSpec Verif.PulseProofs.
Import ListNotations.
Open Scope N_scope.

Ltac tstart :=
  match goal with g : TG |- _ => destruct g as [w p1 s1 v1 s2 o1 pn nl z pw d1 c1 n1 ttx1 tsp1] end;
  intros Hi; unfold tidle in Hi; cbn in *;
  fwd; match goal with H : match ?x with _ => _ end |- _ => let T := type of H in change (Keep T) in H end;
  subst; clr; cbn [wp].

Ltac tdone_ := unfold tidle; cbn; unfold Keep in *; repeat split; auto.




Lemma wp_send_err cap v g : tidle false g ->
  wp TX pconsuming (ostep cap) (J cap) tidle (SendErr v) (send_err v)
   (mkT (tw g) TAlive false (Some v) None false false false (tcz g) None false true false TxNo SpNo).
Proof.
  tstart.
  jopen. next (mkT w (TWr v) false (Some v) None false false false z None false true false TxNo SpNo).
  split; [jopen; jj|]. jopen.
  autorewrite with enc. destruct rcl_; cbn [negb].
  - (* closed *)
    exists (mkT w (TTail (if wbit rw_ then TkDrop else TkNo) None (DTake v) rh_) rh_ (Some v) None false false false true None false true false TxNo SpNo).
    split. { destruct rh_, rw_; cbn [wbit orb]; absurd_; jj. }
    autorewrite with enc. destruct (wbit rw_), rh_; cbn [orb]; clr; cbn [wp]; jopen.
    1,2: destruct rw_; absurd_; cbn in *; tk_.
    1: next (mkT w (TTail TkNo None (DTake v) true) true (Some v) None false false false true None false true false TxNo SpNo); jopen;
       next (mkT w (TTail TkNo None (DTake v) true) true (Some v) None false false false true None false true false TxNo SpNo); jopen.
    2: next (mkT w (TTail TkNo None (DTake v) false) false (Some v) None false false false true None false true false TxNo SpNo); jopen;
       next (mkT w (TTail TkNo None (DTake v) false) false (Some v) None false false false true None false true false TxNo SpNo); jopen.
    all: tk_.
    1,3: next (mkT w (TTail TkNo None (DHold v) true) true (Some v) None false false false true None false true false TxNo SpNo); jopen;
         next (mkT w (TTail TkNo None (DHold v) false) true (Some v) None false false false true None false true false TxNo SpNo); jopen;
         exists (mkT w (TTail TkNo None (DBack v) false) true (Some v) None false false false true None true false false TxNo SpNo);
         (split; [jj|tdone_; right; eauto]).
    all: next (mkT w (TTail TkNo None (DHold v) false) false (Some v) None false false false true None false true false TxNo SpNo); jopen;
         exists (mkT w (TTail TkNo None (DBack v) false) false (Some v) None false false false true None true false false TxNo SpNo);
         (split; [jj|tdone_; right; eauto]).
  - (* open *)
    exists (mkT w (TTail (if wbit rw_ then TkWake else TkNo) None DNo false) false (Some v) (Some v) false false true z None false true false TxNo SpNo).
    split. { destruct rh_, rw_, rd_; cbn [wbit orb]; absurd_; jj. }
    autorewrite with enc. destruct (wbit rw_); cbn [orb]; clr; cbn [wp]; jopen.
    + destruct rw_; absurd_; cbn in *; tk_.
      next (mkT w (TTail TkNo (Some w0) DNo false) false (Some v) (Some v) false false true z None false true false TxNo SpNo); jopen.
      next (mkT w (TTail TkNo None DNo false) false (Some v) (Some v) false false true z None false true false TxNo SpNo); jopen.
      exists (mkT w (TTail TkNo None DNo false) false (Some v) (Some v) true false true z None true false false TxNo SpNo).
      split; [jj|tdone_].
    + exists (mkT w (TTail TkNo None DNo false) false (Some v) (Some v) true false true z None true false false TxNo SpNo).
      split; [jj|tdone_].
Qed.

Lemma wp_drop_tx cap g : tidle false g ->
  wp TX pconsuming (ostep cap) (J cap) tidle DropTx drop_tx
   (mkT (tw g) TAlive false None None false false false (tcz g) None false true false TxNo SpNo).
Proof.
  tstart.
  split; [jopen; jj|]. jopen. autorewrite with enc.
  exists (mkT w (TTail (if wbit rw_ then (if rh_ then TkDrop else TkWake) else TkNo) None DNo rh_) rh_ None None false false false z None false true false TxNo SpNo).
  split. { destruct rh_, rw_, rcl_; cbn [wbit orb]; absurd_; jj. }
  destruct (wbit rw_), rh_; cbn [orb negb]; clr; cbn [wp]; jopen.
  - destruct rw_; absurd_; cbn in *; tk_.
    next (mkT w (TTail TkNo None DNo true) true None None false false false z None false true false TxNo SpNo); jopen.
    next (mkT w (TTail TkNo None DNo true) true None None false false false z None false true false TxNo SpNo); jopen.
    next (mkT w (TTail TkNo None DNo false) true None None false false false z None false true false TxNo SpNo); jopen.
    exists (mkT w (TTail TkNo None DNo false) true None None false false false z None true false false TxNo SpNo).
    split; [jj|tdone_].
  - destruct rw_; absurd_; cbn in *; tk_.
    next (mkT w (TTail TkNo (Some w0) DNo false) false None None false false false z None false true false TxNo SpNo); jopen.
    next (mkT w (TTail TkNo None DNo false) false None None false false false z None false true false TxNo SpNo); jopen.
    exists (mkT w (TTail TkNo None DNo false) false None None false false false z None true false false TxNo SpNo).
    split; [jj|tdone_].
  - next (mkT w (TTail TkNo None DNo false) true None None false false false z None false true false TxNo SpNo); jopen.
    exists (mkT w (TTail TkNo None DNo false) true None None false false false z None true false false TxNo SpNo).
    split; [jj|tdone_].
  - exists (mkT w (TTail TkNo None DNo false) false None None false false false z None true false false TxNo SpNo).
    split; [jj|tdone_].
Qed.

Lemma wp_is_canceled cap g : tidle false g ->
  wp TX pconsuming (ostep cap) (J cap) tidle IsCanceled is_canceled
   (mkT (tw g) TAlive false None None false (tpnd g) false (tcz g) None false false false TxNo SpNo).
Proof.
  tstart. jopen. autorewrite with enc.
  exists (mkT w TAlive false None None false pn (negb rcl_) (z || rcl_) None false false false TxNo SpNo).
  split. { destruct rcl_; jj. }
  destruct rcl_; cbn [orb negb]; clr; jopen.
  - exists (mkT w TAlive false None None false pn false true None false false false TxNo SpNo). rewrite orb_true_r in *. split; [jj|tdone_].
  - exists (mkT w TAlive false None None false pn true z None false false false TxNo SpNo). rewrite orb_false_r in *. split; [jj|tdone_].
Qed.

Lemma wp_poll_canceled cap v g : tidle false g ->
  wp TX pconsuming (ostep cap) (J cap) tidle (PollCanceled v) (poll_canceled v)
   (mkT (tw g) TAlive false None None false false false (tcz g) (Some v) false false false TxNo SpNo).
Proof.
  tstart. jopen. autorewrite with enc.
  destruct rcl_.
  { next (mkT w TAlive false None None false false false true (Some v) false false false TxNo SpNo). jopen.
    exists (mkT w TAlive false None None false false false true None false false false TxNo SpNo). split; [destruct w; jj|tdone_]. }
  destruct w as [|w|w|w|]; cbn [wbit negb]; unfold Keep in *; try contradiction; absurd_.
  - next (mkT WNone TAlive false None None false false true z (Some v) false false false TxNo SpNo). jopen.
    next (mkT (WWritten v) TAlive false None None false false true z (Some v) false false false TxNo SpNo).
    split; [jopen; jj|]. jopen. autorewrite with enc. destruct rcl_.
    + next (mkT (WBack v) TAlive false None None false false true true (Some v) false false false TxNo SpNo). jopen. tk_.
      next (mkT WDone TAlive false None None false false true true (Some v) false false false TxNo SpNo). jopen.
      next (mkT WDone TAlive false None None false false true true (Some v) false false false TxNo SpNo). jopen.
      exists (mkT WDone TAlive false None None false false true true None false false false TxNo SpNo). split; [jj|tdone_].
    + next (mkT (WStored v) TAlive false None None false true true z (Some v) false false true TxNo SpNo). jopen.
      exists (mkT (WStored v) TAlive false None None false true true z None false false false TxNo SpNo). split; [jj|tdone_].
  - next (mkT (WStored w) TAlive false None None false true true z (Some v) false false false TxNo SpNo). jopen.
    exists (mkT (WStored w) TAlive false None None false true true z None false false false TxNo SpNo). split; [jj|tdone_].
Qed.

Ltac jjn := constructor; cbn; rewrite ?N.eqb_refl; cbn; autorewrite with enc; fin; try wr_; dbg; fail.

Lemma wp_notify cap o w pn z (c r : bool) d h n t n1 :
  Keep (match w with WWritten _ | WBack _ => False | _ => True end) ->
  (o = Send n1 \/ o = SatSend n1) ->
  wp TX pconsuming (ostep cap) (J cap) tidle o (notify (enc t r d c h n))
    (mkT w TAlive false None None false pn (negb c) (z || c) None false false false (TxDone false n1)
       (if c then SpNo else if r then SpPeek else SpNo)).
Proof.
  intros Hw Ho. unfold notify. autorewrite with enc.
  assert (Hc : pconsuming o = false) by (destruct Ho as [-> | ->]; reflexivity).
  destruct c; cbn [wp negb]; rewrite ?orb_true_r, ?orb_false_r, ?Hc.
  - jopen. exists (mkT w TAlive false None None false pn false true None false false false TxNo SpNo).
    destruct Ho as [-> | ->]; (split; [jjn|tdone_]).
  - destruct r; cbn [wp]; rewrite ?Hc.
    + jopen. destruct rw_ as [|w0|w0|w0|]; try contradiction. unfold peek; cbn.
      match goal with H : ?ce ?c = _ |- context [match ?ce ?c with _ => _ end] => rewrite H; cbn end.
      exists (mkT w TAlive false None None false pn true z None false false false (TxDone false n1) (SpWake w0)).
      split; [jj|]. assert (Ko : Keep (o = Send n1 \/ o = SatSend n1)) by exact Ho.
      cbn [wp]. clr. jopen.
      exists (mkT w TAlive false None None false pn true z None false false false (TxDone false n1) SpNo).
      split; [jj|]. clr. jopen.
      exists (mkT w TAlive false None None false pn true z None false false false TxNo SpNo).
      destruct Ko as [-> | ->]; (split; [jjn|tdone_]).
    + jopen. exists (mkT w TAlive false None None false pn true z None false false false TxNo SpNo).
      destruct Ho as [-> | ->]; (split; [jjn|tdone_]).
Qed.

Section Counter.
  Variable bits : N.
  Hypothesis Hb : Keep (5 < bits).
  Notation cap := (CAPACITY bits).

  Lemma wp_send n g : tidle false g ->
    wp TX pconsuming (ostep cap) (J cap) tidle (Send n) (send bits n)
     (mkT (tw g) TAlive false None None false (tpnd g) false (tcz g) None false false false (TxInv false n) SpNo).
  Proof.
    tstart. pose proof (cap_pos bits Hb) as Hc1. unfold send. destruct (N.ltb_spec (cap - 1) n) as [Hn|Hn]; cbn [wp].
    - jopen. exists (mkT w TAlive false None None false pn false z None false false false TxNo SpNo).
      split; [|tdone_].
      assert (E : cap <=? np_ + n = true) by (apply N.leb_le; lia). constructor; cbn; rewrite ?N.eqb_refl; cbn; try rewrite E; fin.
    - split; [jopen; jj|]. jopen. rewrite (checked_enc bits Hb).
      destruct (np_ + n <? cap) eqn:E.
      + exists (mkT w TAlive false None None false pn (negb rcl_) (z || rcl_) None false false false (TxDone false n)
                 (if rcl_ then SpNo else if wbit rw_ then SpPeek else SpNo)).
        split; [|apply wp_notify; [assumption|auto]].
        destruct rcl_, rw_; cbn [wbit]; absurd_; constructor; cbn; rewrite ?E; try (apply N.ltb_lt in E); fin; dbg.
      + exists (mkT w TAlive false None None false pn false z None false false false (TxDone true n) SpNo).
        split; [constructor; cbn; rewrite ?E; cbn; fin; dbg|].
        cbn [wp]. clr. jopen. exists (mkT w TAlive false None None false pn false z None false false false TxNo SpNo).
        split; [jjn|tdone_].
  Qed.

  Lemma wp_saturating_send n g : tidle false g ->
    wp TX pconsuming (ostep cap) (J cap) tidle (SatSend n) (saturating_send bits n)
     (mkT (tw g) TAlive false None None false (tpnd g) false (tcz g) None false false false (TxInv true n) SpNo).
  Proof.
    tstart. unfold saturating_send. pose proof (cap_pos bits Hb) as Hc1.
    replace (if cap - 1 <? n then N.shiftl (cap - 1) PARAM_BITS else N.shiftl n PARAM_BITS)
      with (N.shiftl (N.min n (cap - 1)) PARAM_BITS)
      by (destruct (N.ltb_spec (cap - 1) n); f_equal; lia).
    split; [jopen; jj|]. assert (Kc : Keep (1 < cap)) by exact Hc1. jopen.
    assert (E : (match checked_add bits (enc (wbit w) (wbit rw_) false rcl_ rh_ np_) (N.shiftl (N.min n (cap - 1)) PARAM_BITS) with
           | Some s' => s' | None => N.lor (enc (wbit w) (wbit rw_) false rcl_ rh_ np_) (N.shiftl (cap - 1) PARAM_BITS) end)
         = enc (wbit w) (wbit rw_) false rcl_ rh_ (N.min (np_ + n) (cap - 1))).
    { rewrite (checked_enc bits Hb). destruct (N.ltb_spec (np_ + N.min n (cap - 1)) cap).
      - f_equal. lia.
      - rewrite saturate_enc by assumption. f_equal. lia. }
    exists (mkT w TAlive false None None false pn (negb rcl_) (z || rcl_) None false false false (TxDone false n)
                 (if rcl_ then SpNo else if wbit rw_ then SpPeek else SpNo)).
    split; [|apply wp_notify; [assumption|auto]].
    destruct rcl_, rw_; cbn [wbit] in *; absurd_; (constructor; cbn; [rewrite E; reflexivity | fin ..]; try lia; dbg).
  Qed.
End Counter.
