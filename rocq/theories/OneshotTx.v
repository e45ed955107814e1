(** The sender's methods preserve the invariant of [OneshotProofs]. *)
Require Import NArith List Bool Lia.
Require Import Verif.Spsc Verif.SpscProofs Verif.Oneshot Verif.OneshotSpec Verif.OneshotProofs.
Import ListNotations.
Open Scope N_scope.

Ltac tstart :=
  match goal with g : TG |- _ => destruct g as [w p1 s1 v1 s2 o1 pn nl z pw d1 c1 n1] end;
  intros Hi; unfold tidle in Hi; cbn in *;
  fwd; match goal with H : match ?x with _ => _ end |- _ => let T := type of H in change (Keep T) in H end;
  subst; clr; cbn [wp].

Ltac tdone_ := unfold tidle; cbn; unfold Keep in *; repeat split; auto.




Lemma wp_send v g : tidle false g ->
  wp TX oconsuming ostep J tidle (Send v) (send v)
   (mkT (tw g) TAlive false (Some v) None false false false (tcz g) None false true false).
Proof.
  tstart.
  jopen. next (mkT w (TWr v) false (Some v) None false false false z None false true false).
  split; [jopen; jj|]. jopen.
  autorewrite with enc. destruct rcl_; cbn [negb].
  - (* closed *)
    exists (mkT w (TTail (if wbit rw_ then TkDrop else TkNo) None (DTake v) rh_) rh_ (Some v) None false false false true None false true false).
    split. { destruct rh_, rw_; cbn [wbit orb]; absurd_; jj. }
    autorewrite with enc. destruct (wbit rw_), rh_; cbn [orb]; clr; cbn [wp]; jopen.
    1,2: destruct rw_; absurd_; cbn in *; tk_.
    1: next (mkT w (TTail TkNo None (DTake v) true) true (Some v) None false false false true None false true false); jopen;
       next (mkT w (TTail TkNo None (DTake v) true) true (Some v) None false false false true None false true false); jopen.
    2: next (mkT w (TTail TkNo None (DTake v) false) false (Some v) None false false false true None false true false); jopen;
       next (mkT w (TTail TkNo None (DTake v) false) false (Some v) None false false false true None false true false); jopen.
    all: tk_.
    1,3: next (mkT w (TTail TkNo None (DHold v) true) true (Some v) None false false false true None false true false); jopen;
         next (mkT w (TTail TkNo None (DHold v) false) true (Some v) None false false false true None false true false); jopen;
         exists (mkT w (TTail TkNo None (DBack v) false) true (Some v) None false false false true None true false false);
         (split; [jj|tdone_; right; eauto]).
    all: next (mkT w (TTail TkNo None (DHold v) false) false (Some v) None false false false true None false true false); jopen;
         exists (mkT w (TTail TkNo None (DBack v) false) false (Some v) None false false false true None true false false);
         (split; [jj|tdone_; right; eauto]).
  - (* open *)
    exists (mkT w (TTail (if wbit rw_ then TkWake else TkNo) None DNo false) false (Some v) (Some v) false false true z None false true false).
    split. { destruct rh_, rw_, rd_; cbn [wbit orb]; absurd_; jj. }
    autorewrite with enc. destruct (wbit rw_); cbn [orb]; clr; cbn [wp]; jopen.
    + destruct rw_; absurd_; cbn in *; tk_.
      next (mkT w (TTail TkNo (Some w0) DNo false) false (Some v) (Some v) false false true z None false true false); jopen.
      next (mkT w (TTail TkNo None DNo false) false (Some v) (Some v) false false true z None false true false); jopen.
      exists (mkT w (TTail TkNo None DNo false) false (Some v) (Some v) true false true z None true false false).
      split; [jj|tdone_].
    + exists (mkT w (TTail TkNo None DNo false) false (Some v) (Some v) true false true z None true false false).
      split; [jj|tdone_].
Qed.

Lemma wp_drop_tx g : tidle false g ->
  wp TX oconsuming ostep J tidle DropTx drop_tx
   (mkT (tw g) TAlive false None None false false false (tcz g) None false true false).
Proof.
  tstart.
  split; [jopen; jj|]. jopen. autorewrite with enc.
  exists (mkT w (TTail (if wbit rw_ then (if rh_ then TkDrop else TkWake) else TkNo) None DNo rh_) rh_ None None false false false z None false true false).
  split. { destruct rh_, rw_, rcl_; cbn [wbit orb]; absurd_; jj. }
  destruct (wbit rw_), rh_; cbn [orb negb]; clr; cbn [wp]; jopen.
  - destruct rw_; absurd_; cbn in *; tk_.
    next (mkT w (TTail TkNo None DNo true) true None None false false false z None false true false); jopen.
    next (mkT w (TTail TkNo None DNo true) true None None false false false z None false true false); jopen.
    next (mkT w (TTail TkNo None DNo false) true None None false false false z None false true false); jopen.
    exists (mkT w (TTail TkNo None DNo false) true None None false false false z None true false false).
    split; [jj|tdone_].
  - destruct rw_; absurd_; cbn in *; tk_.
    next (mkT w (TTail TkNo (Some w0) DNo false) false None None false false false z None false true false); jopen.
    next (mkT w (TTail TkNo None DNo false) false None None false false false z None false true false); jopen.
    exists (mkT w (TTail TkNo None DNo false) false None None false false false z None true false false).
    split; [jj|tdone_].
  - next (mkT w (TTail TkNo None DNo false) true None None false false false z None false true false); jopen.
    exists (mkT w (TTail TkNo None DNo false) true None None false false false z None true false false).
    split; [jj|tdone_].
  - exists (mkT w (TTail TkNo None DNo false) false None None false false false z None true false false).
    split; [jj|tdone_].
Qed.

Lemma wp_is_canceled g : tidle false g ->
  wp TX oconsuming ostep J tidle IsCanceled is_canceled
   (mkT (tw g) TAlive false None None false (tpnd g) false (tcz g) None false false false).
Proof.
  tstart. jopen. autorewrite with enc.
  exists (mkT w TAlive false None None false pn (negb rcl_) (z || rcl_) None false false false).
  split. { destruct rcl_; jj. }
  destruct rcl_; cbn [orb negb]; clr; jopen.
  - exists (mkT w TAlive false None None false pn false true None false false false). rewrite orb_true_r in *. split; [jj|tdone_].
  - exists (mkT w TAlive false None None false pn true z None false false false). rewrite orb_false_r in *. split; [jj|tdone_].
Qed.

Lemma wp_poll_canceled v g : tidle false g ->
  wp TX oconsuming ostep J tidle (PollCanceled v) (poll_canceled v)
   (mkT (tw g) TAlive false None None false false false (tcz g) (Some v) false false false).
Proof.
  tstart. jopen. autorewrite with enc.
  destruct rcl_.
  { next (mkT w TAlive false None None false false false true (Some v) false false false). jopen.
    exists (mkT w TAlive false None None false false false true None false false false). split; [destruct w; jj|tdone_]. }
  destruct w as [|w|w|w|]; cbn [wbit negb]; unfold Keep in *; try contradiction; absurd_.
  - next (mkT WNone TAlive false None None false false true z (Some v) false false false). jopen.
    next (mkT (WWritten v) TAlive false None None false false true z (Some v) false false false).
    split; [jopen; jj|]. jopen. autorewrite with enc. destruct rcl_.
    + next (mkT (WBack v) TAlive false None None false false true true (Some v) false false false). jopen. tk_.
      next (mkT WDone TAlive false None None false false true true (Some v) false false false). jopen.
      next (mkT WDone TAlive false None None false false true true (Some v) false false false). jopen.
      exists (mkT WDone TAlive false None None false false true true None false false false). split; [jj|tdone_].
    + next (mkT (WStored v) TAlive false None None false true true z (Some v) false false true). jopen.
      exists (mkT (WStored v) TAlive false None None false true true z None false false false). split; [jj|tdone_].
  - next (mkT (WStored w) TAlive false None None false true true z (Some v) false false false). jopen.
    exists (mkT (WStored w) TAlive false None None false true true z None false false false). split; [jj|tdone_].
Qed.
