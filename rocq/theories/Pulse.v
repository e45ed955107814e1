(** Model of the pulse channel: every method of both halves.
    Source: /repo/src/sync/spsc/pulse/.

    [w] is [usize::BITS] (any width above 5). *)
Require Import NArith List Bool.
Require Import Verif.Spsc.
Import ListNotations.
Open Scope N_scope.

(** mod.rs lines 65-76. *)
Definition TXW : N := 1.
Definition RXW : N := 2.
Definition ERR : N := 4.
Definition CLOSED : N := 8.
Definition HALF : N := 16.
Definition PARAM_BITS : N := 5.

Inductive pop :=
| Send (n : N)          (* Sender::send *)
| SatSend (n : N)       (* Sender::saturating_send *)
| SendErr (v : N)       (* Sender::send_err *)
| PollCanceled (w : N)  (* Sender::poll_canceled with waker [w] *)
| IsCanceled            (* Sender::is_canceled *)
| DropTx                (* Drop for Sender *)
| Close                 (* Receiver::close *)
| TryNext               (* Receiver::try_next *)
| PollNext (w : N)      (* Receiver::poll_next with waker [w] *)
| IsTerminated          (* Receiver::is_terminated *)
| DropRx.               (* Drop for Receiver *)

Inductive pres :=
| ROk                   (* Ok(()) *)
| RFull                 (* Err(SendError::Full) *)
| RClosed               (* Err(SendError::Canceled) *)
| RBack (v : N)         (* Err(err) of send_err *)
| RUnit
| RBool (b : bool)
| RPending
| RReady                (* Ready(()) of poll_canceled *)
| REmpty                (* Err(TryNextError::Empty) *)
| REnd                  (* Err(TryNextError::Canceled), Ready(None) *)
| RVal (n : N)          (* pulses are received *)
| RError (v : N).       (* the final error is received *)

Definition pside (o : pop) : side :=
  match o with Send _ | SatSend _ | SendErr _ | PollCanceled _ | IsCanceled | DropTx => TX | _ => RX end.
Definition pconsuming (o : pop) : bool :=
  match o with SendErr _ | DropTx | DropRx => true | _ => false end.

Section Width.
  Variable w : N.

  (** mod.rs line 63. *)
  Definition CAPACITY : N := 2 ^ (w - PARAM_BITS).

  (** [usize::checked_add]. *)
  Definition checked_add (a b : N) : option N := if a + b <? 2 ^ w then Some (a + b) else None.

  (** sender.rs lines 65-71 and 91-97. *)
  Definition notify (s : N) : prog pres :=
    if has s CLOSED then Done RClosed
    else if has s RXW then Peek CRxW (fun k => Wake k (Done ROk))
    else Done ROk.

  (** sender.rs lines 53-73. *)
  Definition send (pulses : N) : prog pres :=
    if CAPACITY - 1 <? pulses then Done RFull
    else
      let pulses := N.shiftl pulses PARAM_BITS in
      Rmw Acquire Acquire None (fun s => match checked_add s pulses with Some s' => s' | None => s end)
        (fun s => match checked_add s pulses with
                  | None => Done RFull
                  | Some _ => notify s
                  end).

  (** sender.rs lines 81-99. *)
  Definition saturating_send (pulses : N) : prog pres :=
    let pulses := if CAPACITY - 1 <? pulses then N.shiftl (CAPACITY - 1) PARAM_BITS
                  else N.shiftl pulses PARAM_BITS in
    Rmw Acquire Acquire None (fun s => match checked_add s pulses with
                       | Some s' => s'
                       | None => N.lor s (N.shiftl (CAPACITY - 1) PARAM_BITS)
                       end)
      notify.

  (** sender.rs lines 110-133. *)
  Definition send_err (v : N) : prog pres :=
    Write CErr v (Rmw Acquire AcqRel None
      (fun s => N.lor (N.lor s (if negb (has s CLOSED) then ERR else 0)) HALF)
      (fun s =>
         let rest :=
           if has s CLOSED then
             Take CErr (fun v => if has s HALF then Free (Done (RBack v)) else Done (RBack v))
           else Done ROk in
         if has s RXW then
           Take CRxW (fun k => if negb (has s CLOSED) then Wake k rest else DropW k rest)
         else rest)).

  (** sender.rs lines 147-164. *)
  Definition poll_canceled (k : N) : prog pres :=
    Load Relaxed (fun s =>
      if has s CLOSED then Done RReady
      else if negb (has s TXW) then
        Write CTxW k (Rmw Relaxed Release (Some s) (fun s => N.lor s TXW) (fun s =>
          if has s CLOSED then Take CTxW (fun k => DropW k (Done RReady))
          else Done RPending))
      else Done RPending).

  (** sender.rs lines 183-188. *)
  Definition is_canceled : prog pres := Load Relaxed (fun s => Done (RBool (has s CLOSED))).

  (** sender.rs lines 210-227. *)
  Definition drop_tx : prog pres :=
    Rmw Relaxed Acquire None (fun s => N.lor s HALF) (fun s =>
      let rest := if has s HALF then Free (Done RUnit) else Done RUnit in
      if has s RXW then
        Take CRxW (fun k => if negb (has s HALF) then Wake k (Done RUnit) else DropW k rest)
      else rest).

  (** receiver.rs lines 43-53. *)
  Definition close : prog pres :=
    Rmw Relaxed Acquire None (fun s => N.lor s CLOSED) (fun s =>
      if negb (has s CLOSED) && has s TXW then
        Take CTxW (fun k => if negb (has s HALF) then Wake k (Done RUnit) else DropW k (Done RUnit))
      else Done RUnit).

  (** receiver.rs lines 69-70, 109-111, 127-128. *)
  Definition params (s : N) : N := N.ldiff (N.land s (N.ones PARAM_BITS)) ERR.
  Definition count (s : N) : N := N.shiftr s PARAM_BITS.

  (** receiver.rs lines 71-76, 112-117, 133-138. *)
  Definition pulses (s : N) : prog pres :=
    if has s ERR then Rmw Relaxed Relaxed (Some s) (fun s => N.lor s ERR) (fun _ => Done (RVal (count s)))
    else Done (RVal (count s)).

  (** receiver.rs lines 65-85. *)
  Definition try_next : prog pres :=
    Rmw Relaxed Acquire None params (fun s =>
      if negb (count s =? 0) then pulses s
      else if has s ERR then Take CErr (fun v => Done (RError v))
      else if has s HALF || has s CLOSED then Done REnd
      else Done REmpty).

  (** receiver.rs lines 107-148. *)
  Definition poll_next (k : N) : prog pres :=
    Rmw Relaxed Acquire None params (fun s =>
      if negb (count s =? 0) then pulses s
      else if has s ERR then Take CErr (fun v => Done (RError v))
      else if has s HALF || has s CLOSED then Done REnd
      else if negb (has s RXW) then
        Write CRxW k (Rmw Acquire AcqRel (Some s) (fun s => N.lor (params s) RXW) (fun s =>
          let rest :=
            if negb (count s =? 0) then pulses s
            else if has s HALF then
              if has s ERR then Take CErr (fun v => Done (RError v)) else Done REnd
            else Done RPending in
          if has s HALF then Take CRxW (fun k => DropW k rest) else rest))
      else Done RPending).

  (** receiver.rs lines 153-160. *)
  Definition is_terminated : prog pres :=
    Load Relaxed (fun s => Done (RBool ((has s HALF || has s CLOSED) && negb (has s ERR) && (count s =? 0)))).

  (** receiver.rs lines 163-184. *)
  Definition drop_rx : prog pres :=
    Rmw Relaxed Acquire None (fun s => N.lor (N.lor s CLOSED) HALF) (fun s =>
      let free_ := if has s HALF then Free (Done RUnit) else Done RUnit in
      let waker :=
        if negb (has s CLOSED) && has s TXW then
          Take CTxW (fun k => if negb (has s HALF) then Wake k (Done RUnit) else DropW k free_)
        else free_ in
      if has s ERR then Take CErr (fun v => DropV v waker) else waker).

  Definition pcode (o : pop) : prog pres :=
    match o with
    | Send n => send n
    | SatSend n => saturating_send n
    | SendErr v => send_err v
    | PollCanceled k => poll_canceled k
    | IsCanceled => is_canceled
    | DropTx => drop_tx
    | Close => close
    | TryNext => try_next
    | PollNext k => poll_next k
    | IsTerminated => is_terminated
    | DropRx => drop_rx
    end.

  (** A channel used from its creation (mod.rs:55-60, 99-107). *)
  Definition prun (atomics : bool) (sched : list (act pop)) : sys pop pres :=
    run pside pconsuming pcode atomics sys0 sched.
End Width.
