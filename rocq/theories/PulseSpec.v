(** What the users of a pulse channel can rely on, in terms of calls, results, wakeups
    and destroyed values.  Each observer below is a fold over the history; nothing here
    refers to the shared state of the channel. *)
Require Import NArith List Bool.
Require Import Verif.Spsc Verif.Pulse.
Import ListNotations.
Open Scope N_scope.

Notation pev := (ev pop pres).

Definition is_recv (o : pop) : bool := match o with TryNext | PollNext _ => true | _ => false end.
Definition is_nil {A} (l : list A) : bool := match l with [] => true | _ => false end.
Definition first (a b : option N) : option N := match a with Some _ => a | None => b end.
Definition is_waker (w : N) (o : option N) : bool :=
  match o with Some w' => w =? w' | None => false end.

(** ** An atomic counter holding at most [cap - 1] pulses.

    Every call that sends or receives pulses takes effect at one moment between its
    start and its return. *)
Inductive txs :=
| TxNo                       (* no call sending pulses is in progress *)
| TxInv (sat : bool) (n : N) (* it has not taken effect *)
| TxDone (full : bool) (n : N). (* it has taken effect; [full]: nothing was added *)
Definition busy (t : txs) : bool := match t with TxNo => false | _ => true end.
Record counter := Counter {
  n_pend : N;        (* pulses in the counter *)
  n_tx : txs;
  n_rx : bool;       (* a receiving call is in progress *)
  n_taken : N;       (* the pulses it has taken *)
  n_begun : bool;    (* close or the receiver's destructor has been called *)
  n_bad : bool       (* a result does not fit *)
}.
Definition counter0 := Counter 0 TxNo false 0 false false.
Definition nstep (cap : N) (b : counter) (e : pev) : counter :=
  let 'Counter pend tx rx taken begun bad := b in
  match e with
  | EInv (Send n) => Counter pend (TxInv false n) rx taken begun (bad || busy tx)
  | EInv (SatSend n) => Counter pend (TxInv true n) rx taken begun (bad || busy tx)
  | ESync TX =>
      match tx with
      | TxInv false n =>
          if pend + n <? cap then Counter (pend + n) (TxDone false n) rx taken begun bad
          else Counter pend (TxDone true n) rx taken begun bad
      | TxInv true n => Counter (N.min (pend + n) (cap - 1)) (TxDone false n) rx taken begun bad
      | _ => b
      end
  | ERet (Send m) r | ERet (SatSend m) r =>
      let ok := match tx, r with
                | TxDone false n, ROk => n =? m
                | TxDone false n, RClosed => (n =? m) && begun
                | TxDone true n, RFull => n =? m
                | TxInv false n, RFull => (n =? m) && (cap <=? pend + n)
                | _, _ => false
                end in
      Counter pend TxNo rx taken begun (bad || negb ok)
  | EInv TryNext | EInv (PollNext _) => Counter pend tx true 0 begun (bad || rx)
  | ESync RX =>
      if rx then Counter 0 tx rx (taken + pend) begun (bad || negb (taken =? 0) && negb (pend =? 0)) else b
  | ERet TryNext r | ERet (PollNext _) r =>
      let ok := match r with RVal n => (n =? taken) && negb (taken =? 0) | _ => taken =? 0 end in
      Counter pend tx false 0 begun (bad || negb ok)
  | EInv Close | EInv DropRx => Counter pend tx rx taken true bad
  | _ => b
  end.

(** ** Where the final error goes. *)
Record vals := Vals {
  v_sent : list N;   (* passed to send_err *)
  v_got : list N;    (* received *)
  v_back : list N;   (* returned by a failing send_err *)
  v_dead : list N;   (* destroyed by the channel *)
  v_ok : bool;       (* send_err has returned Ok *)
  v_due : bool;      (* the receiving call in progress started after send_err had
                        returned Ok and the error had not been received *)
  v_miss : bool;     (* such a call reported neither pulses nor the error *)
  v_begun : bool;    (* close has been called *)
  v_end : bool;      (* the error was received, or the end of the stream was reported
                        before [v_begun] *)
  v_after : bool     (* pulses or an error were received after that *)
}.
Definition vals0 := Vals [] [] [] [] false false false false false false.
Definition vstep (b : vals) (e : pev) : vals :=
  let 'Vals sent got back dead ok due miss begun end_ after := b in
  match e with
  | EInv (SendErr v) => Vals (sent ++ [v]) got back dead ok due miss begun end_ after
  | ERet (SendErr _) ROk => Vals sent got back dead true due miss begun end_ after
  | ERet (SendErr _) (RBack v) => Vals sent got (back ++ [v]) dead ok due miss begun end_ after
  | EInv Close => Vals sent got back dead ok due miss true end_ after
  | EInv o =>
      if is_recv o then Vals sent got back dead ok (ok && is_nil got) miss begun end_ after else b
  | ERet _ (RError v) => Vals sent (got ++ [v]) back dead ok false miss begun true (after || end_)
  | ERet _ (RVal _) => Vals sent got back dead ok false miss begun end_ (after || end_)
  | ERet IsTerminated (RBool true) => Vals sent got back dead ok due miss begun (end_ || negb begun) after
  | ERet o r =>
      if is_recv o then
        Vals sent got back dead ok false (miss || due) begun
          (end_ || match r with REnd => negb begun | _ => false end) after
      else b
  | EDropV _ v => Vals sent got back (dead ++ [v]) ok due miss begun end_ after
  | _ => b
  end.

(** ** Waking the receiver. *)
Record rwake := Rwake {
  k_done : bool;         (* send_err or the sender's destructor has returned *)
  k_ws : list N;         (* the wakers passed to poll_next so far *)
  k_pend : bool;         (* the last poll_next returned Pending; not closed or dropped since *)
  k_woken : bool;        (* one of [k_ws] was woken since the last poll_next started *)
  k_late : bool;         (* the receiving call in progress started after [k_done] or
                            after close had returned *)
  k_badp : bool;         (* such a call returned Pending or Empty *)
  k_begun : bool;        (* send_err, the sender's destructor or close has been called *)
  k_spur : bool;         (* the end of the stream was reported before that *)
  k_closed : bool        (* close has returned *)
}.
Definition rwake0 := Rwake false [] false false false false false false false.
Definition kstep (b : rwake) (e : pev) : rwake :=
  let 'Rwake done ws pend woken late badp begun spur closed := b in
  match e with
  | EInv (PollNext w) => Rwake done (w :: ws) false false (done || closed) badp begun spur closed
  | EInv TryNext => Rwake done ws pend woken (done || closed) badp begun spur closed
  | EInv Close => Rwake done ws false woken late badp true spur closed
  | ERet Close _ => Rwake done ws pend woken late badp begun spur true
  | EInv DropRx => Rwake done ws false woken late badp begun spur closed
  | EInv (SendErr _) | EInv DropTx => Rwake done ws pend woken late badp true spur closed
  | ERet (SendErr _) _ | ERet DropTx _ => Rwake true ws pend woken late badp begun spur closed
  | ERet (PollNext w) RPending => Rwake done ws true woken false (badp || late) begun spur closed
  | ERet (PollNext w) REnd => Rwake done ws pend woken false badp begun (spur || negb begun) closed
  | ERet (PollNext w) _ => Rwake done ws pend woken false badp begun spur closed
  | ERet TryNext REmpty => Rwake done ws pend woken false (badp || late) begun spur closed
  | ERet TryNext REnd => Rwake done ws pend woken false badp begun (spur || negb begun) closed
  | ERet TryNext _ => Rwake done ws pend woken false badp begun spur closed
  | EWake TX w => Rwake done ws pend (woken || existsb (N.eqb w) ws) late badp begun spur closed
  | _ => b
  end.

(** ** Telling the sender about cancellation. *)
Record cwake := Cwake {
  c_closed : bool;       (* close or the receiver's destructor has returned *)
  c_pw : option N;       (* waker of the poll_canceled in progress *)
  c_reg : option N;      (* waker of the first poll_canceled that returned Pending *)
  c_pend : bool;         (* the last poll_canceled returned Pending; sender still there *)
  c_woken : bool;        (* the registered waker was woken since the last poll_canceled started *)
  c_late : bool;         (* the sender's call in progress started after [c_closed] *)
  c_bad : bool;          (* such a call did not report cancellation (or a full counter) *)
  c_begun : bool;        (* close or the receiver's destructor has been called *)
  c_spur : bool          (* cancellation was reported before that *)
}.
Definition cwake0 := Cwake false None None false false false false false false.
Definition cstep (b : cwake) (e : pev) : cwake :=
  let 'Cwake closed pw reg pend woken late bad begun spur := b in
  match e with
  | EInv (PollCanceled w) => Cwake closed (Some w) reg false false closed bad begun spur
  | EInv IsCanceled | EInv (Send _) | EInv (SatSend _) => Cwake closed pw reg pend woken closed bad begun spur
  | EInv (SendErr _) => Cwake closed pw reg false woken closed bad begun spur
  | EInv DropTx => Cwake closed pw reg false woken late bad begun spur
  | EInv Close | EInv DropRx => Cwake closed pw reg pend woken late bad true spur
  | ERet Close _ | ERet DropRx _ => Cwake true pw reg pend woken late bad begun spur
  | ERet (PollCanceled w) RPending => Cwake closed None (first reg (Some w)) true woken false (bad || late) begun spur
  | ERet (PollCanceled w) _ => Cwake closed None reg pend woken false bad begun (spur || negb begun)
  | ERet IsCanceled (RBool false) | ERet (Send _) ROk | ERet (SatSend _) ROk | ERet (SendErr _) ROk =>
      Cwake closed pw reg pend woken false (bad || late) begun spur
  | ERet IsCanceled _ | ERet (SendErr _) _ | ERet (Send _) RClosed | ERet (SatSend _) RClosed =>
      Cwake closed pw reg pend woken false bad begun (spur || negb begun)
  | ERet (Send _) _ | ERet (SatSend _) _ => Cwake closed pw reg pend woken false bad begun spur
  | EWake RX w => Cwake closed pw reg pend (woken || is_waker w (first reg pw)) late bad begun spur
  | _ => b
  end.

(** ** Overlap of the calls that consume the two halves. *)
Record over := Over { x_tx : bool; x_rx : bool; x_over : bool }.
Definition over0 := Over false false false.
Definition xstep (b : over) (e : pev) : over :=
  match e with
  | EInv (SendErr _) | EInv DropTx => Over true (x_rx b) (x_over b || x_rx b)
  | EInv DropRx => Over (x_tx b) true (x_over b || x_tx b)
  | ERet (SendErr _) _ | ERet DropTx _ => Over false (x_rx b) (x_over b)
  | ERet DropRx _ => Over (x_tx b) false (x_over b)
  | _ => b
  end.

Definition pulse_counter (cap : N) (l : list pev) : counter := fold_left (nstep cap) l counter0.
Definition errors (l : list pev) : vals := fold_left vstep l vals0.
Definition receiver_wakeups (l : list pev) : rwake := fold_left kstep l rwake0.
Definition sender_wakeups (l : list pev) : cwake := fold_left cstep l cwake0.
(** A call consuming one half was in progress when the call consuming the other half
    started. *)
Definition ends_overlap (l : list pev) : bool := x_over (fold_left xstep l over0).
