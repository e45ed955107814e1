(** What the users of a oneshot channel can rely on, in terms of calls, results,
    wakeups and destroyed values only.  Each observer below is a fold over the history;
    nothing here refers to the shared state of the channel. *)
Require Import NArith List Bool.
Require Import Verif.Spsc Verif.Oneshot.
Import ListNotations.
Open Scope N_scope.

Notation oev := (ev oop ores).

Definition is_recv (o : oop) : bool := match o with TryRecv | Poll _ => true | _ => false end.
Definition is_nil {A} (l : list A) : bool := match l with [] => true | _ => false end.

(** ** Where values go. *)
Record vals := Vals {
  v_sent : list N;   (* passed to send *)
  v_got : list N;    (* received *)
  v_back : list N;   (* returned by a failing send *)
  v_dead : list N;   (* destroyed by the channel *)
  v_ok : bool;       (* send has returned Ok *)
  v_due : bool;      (* the receiving call in progress started after send had returned
                        Ok and nothing had been received *)
  v_miss : bool;     (* such a call did not obtain a value *)
  v_term : bool;     (* is_terminated has returned true *)
  v_after : bool     (* a value was received after that *)
}.
Definition vals0 := Vals [] [] [] [] false false false false false.
Definition vstep (b : vals) (e : oev) : vals :=
  let 'Vals sent got back dead ok due miss term after := b in
  match e with
  | EInv (Send v) => Vals (sent ++ [v]) got back dead ok due miss term after
  | ERet (Send _) ROk => Vals sent got back dead true due miss term after
  | ERet (Send _) (RErr v) => Vals sent got (back ++ [v]) dead ok due miss term after
  | EInv o =>
      if is_recv o then Vals sent got back dead ok (ok && is_nil got) miss term after else b
  | ERet _ (RVal v) => Vals sent (got ++ [v]) back dead ok false miss term (after || term)
  | ERet IsTerminated (RBool true) => Vals sent got back dead ok due miss true after
  | ERet o _ =>
      if is_recv o then Vals sent got back dead ok false (miss || due) term after else b
  | EDropV _ v => Vals sent got back (dead ++ [v]) ok due miss term after
  | _ => b
  end.

(** ** Waking the receiver. *)
Record rwake := Rwake {
  k_done : bool;         (* send or the sender's destructor has returned *)
  k_pw : option N;       (* waker of the poll in progress *)
  k_reg : option N;      (* waker of the first poll that returned Pending *)
  k_pend : bool;         (* the last poll returned Pending; not closed or dropped since *)
  k_woken : bool;        (* the registered waker was woken since the last poll started *)
  k_late : bool;         (* the poll or try_recv in progress started after
                            [k_done] or after close had returned *)
  k_badp : bool;         (* such a call returned Pending or None, or a call returned something
                            that is no result of receiving *)
  k_begun : bool;        (* the sender's destructor or close has been called, or a value
                            has been received *)
  k_spur : bool;         (* Canceled was reported before that *)
  k_closed : bool        (* close has returned *)
}.
Definition rwake0 := Rwake false None None false false false false false false false.
Definition first (a b : option N) : option N := match a with Some _ => a | None => b end.
Definition is_waker (w : N) (o : option N) : bool :=
  match o with Some w' => w =? w' | None => false end.

Definition kstep (b : rwake) (e : oev) : rwake :=
  let 'Rwake done pw reg pend woken late badp begun spur closed := b in
  match e with
  | EInv (Poll w) => Rwake done (Some w) reg false false (done || closed) badp begun spur closed
  | EInv Close => Rwake done pw reg false woken late badp true spur closed
  | EInv DropRx => Rwake done pw reg false woken late badp begun spur closed
  | EInv DropTx => Rwake done pw reg pend woken late badp true spur closed
  | ERet (Send _) _ | ERet DropTx _ => Rwake true pw reg pend woken late badp begun spur closed
  | ERet (Poll w) RPending => Rwake done None (first reg (Some w)) true woken false (badp || late) begun spur closed
  | ERet (Poll w) RCanceled => Rwake done None reg pend woken false badp begun (spur || negb begun) closed
  | ERet (Poll w) (RVal _) => Rwake done None reg pend woken false badp true spur closed
  | ERet (Poll w) _ => Rwake done None reg pend woken false true begun spur closed
  | ERet Close _ => Rwake done pw reg pend woken late badp begun spur true
  | EInv TryRecv => Rwake done pw reg pend woken (done || closed) badp begun spur closed
  | ERet TryRecv RNone => Rwake done pw reg pend woken false (badp || late) begun spur closed
  | ERet TryRecv RCanceled => Rwake done pw reg pend woken false badp begun (spur || negb begun) closed
  | ERet TryRecv (RVal _) => Rwake done pw reg pend woken false badp true spur closed
  | ERet TryRecv _ => Rwake done pw reg pend woken false true begun spur closed
  | EWake TX w => Rwake done pw reg pend (woken || is_waker w (first reg pw)) late badp begun spur closed
  | _ => b
  end.

(** ** Telling the sender about cancellation. *)
Record cwake := Cwake {
  c_closed : bool;       (* close or the receiver's destructor has returned *)
  c_pw : option N;       (* waker of the poll_canceled in progress *)
  c_reg : option N;      (* waker of the first poll_canceled that returned Pending *)
  c_pend : bool;         (* the last poll_canceled returned Pending; sender still there *)
  c_woken : bool;        (* the registered waker was woken since the last poll_canceled started *)
  c_late : bool;         (* the sender's call in progress started after [c_closed] *)
  c_bad : bool;          (* such a call did not report cancellation *)
  c_begun : bool;        (* close or the receiver's destructor has been called *)
  c_spur : bool          (* cancellation was reported before that *)
}.
Definition cwake0 := Cwake false None None false false false false false false.
Definition cstep (b : cwake) (e : oev) : cwake :=
  let 'Cwake closed pw reg pend woken late bad begun spur := b in
  match e with
  | EInv (PollCanceled w) => Cwake closed (Some w) reg false false closed bad begun spur
  | EInv IsCanceled => Cwake closed pw reg pend woken closed bad begun spur
  | EInv (Send _) => Cwake closed pw reg false woken closed bad begun spur
  | EInv DropTx => Cwake closed pw reg false woken late bad begun spur
  | EInv Close | EInv DropRx => Cwake closed pw reg pend woken late bad true spur
  | ERet Close _ | ERet DropRx _ => Cwake true pw reg pend woken late bad begun spur
  | ERet (PollCanceled w) RPending => Cwake closed None (first reg (Some w)) true woken false (bad || late) begun spur
  | ERet (PollCanceled w) _ => Cwake closed None reg pend woken false bad begun (spur || negb begun)
  | ERet IsCanceled (RBool false) => Cwake closed pw reg pend woken false (bad || late) begun spur
  | ERet IsCanceled _ => Cwake closed pw reg pend woken false bad begun (spur || negb begun)
  | ERet (Send _) ROk => Cwake closed pw reg pend woken false (bad || late) begun spur
  | ERet (Send _) _ => Cwake closed pw reg pend woken false bad begun (spur || negb begun)
  | EWake RX w => Cwake closed pw reg pend (woken || is_waker w (first reg pw)) late bad begun spur
  | _ => b
  end.

(** ** Overlap of the calls that consume the two halves. *)
Record over := Over { x_tx : bool; x_rx : bool; x_over : bool }.
Definition over0 := Over false false false.
Definition xstep (b : over) (e : oev) : over :=
  match e with
  | EInv (Send _) | EInv DropTx => Over true (x_rx b) (x_over b || x_rx b)
  | EInv DropRx => Over (x_tx b) true (x_over b || x_tx b)
  | ERet (Send _) _ | ERet DropTx _ => Over false (x_rx b) (x_over b)
  | ERet DropRx _ => Over (x_tx b) false (x_over b)
  | _ => b
  end.

Definition values (l : list oev) : vals := fold_left vstep l vals0.
Definition receiver_wakeups (l : list oev) : rwake := fold_left kstep l rwake0.
Definition sender_wakeups (l : list oev) : cwake := fold_left cstep l cwake0.
(** A call consuming one half was in progress when the call consuming the other half
    started. *)
Definition ends_overlap (l : list oev) : bool := x_over (fold_left xstep l over0).
