(** Model of the ring channel.

    Source: /repo/src/sync/spsc/ring/mod.rs, sender.rs, receiver.rs.

    Parameters: [bits], the width of [usize]; [cap], the capacity of the channel.
    [is_connected_to], [Debug] and the layout computation of [Shared::new] are not
    modelled.  Additions to the state word wrap around as in release builds (debug
    builds panic). *)
Require Import NArith List Bool.
Require Import Verif.Spsc.
Import ListNotations.
Open Scope N_scope.

(** mod.rs lines 72-86. *)
Definition READY : N := 1.
Definition FLUSH : N := 2.
Definition RXW : N := 4.
Definition ERR : N := 8.
Definition CLOSED : N := 16.
Definition HALF : N := 32.
Definition PARAM_BITS : N := 6.

(** The methods of the two halves. *)
Inductive rop :=
| TrySend (v : N)       (* Sender::try_send *)
| StartSend (v : N)     (* Sink::start_send *)
| SendOver (v : N)      (* Sender::send_overwrite *)
| SendErr (v : N)       (* Sender::send_err *)
| IsCanceled            (* Sender::is_canceled *)
| PollReady (w : N)     (* Sink::poll_ready *)
| PollFlush (w : N)     (* Sink::poll_flush *)
| PollClose (w : N)     (* Sink::poll_close *)
| DropTx
| Close                 (* Receiver::close *)
| TryNext               (* Receiver::try_next *)
| PollNext (w : N)      (* Stream::poll_next *)
| IsTerminated          (* FusedStream::is_terminated *)
| DropRx.

Inductive rres :=
| ROk
| RFull (v : N)               (* Err(TrySendError { Full, value }) *)
| RClosed (v : N)             (* Err(TrySendError { Canceled, value }) *)
| RSinkFull                   (* start_send: Err(SendError::Full) *)
| RSinkClosed                 (* start_send, polls: Err(SendError::Canceled) *)
| ROver (o : option N)        (* send_overwrite: Ok(overwritten) *)
| RNot (v : N) (o : option N) (* send_overwrite: Err((value, overwritten)) *)
| RBack (v : N)               (* send_err: Err(err) *)
| RUnit
| RBool (b : bool)
| RPending
| RReady                      (* polls of the sender: Ready(Ok(())) *)
| REmpty                      (* Err(TryNextError::Empty) *)
| REnd                        (* Err(TryNextError::Canceled), Ready(None) *)
| RVal (v : N)                (* a value is received *)
| RError (v : N).             (* the final error is received *)

Definition rside (o : rop) : side :=
  match o with Close | TryNext | PollNext _ | IsTerminated | DropRx => RX | _ => TX end.
Definition rconsuming (o : rop) : bool :=
  match o with SendErr _ | DropTx | DropRx => true | _ => false end.

(** mod.rs lines 130-156. *)
Definition has_waker (s : N) : bool := has s READY || has s FLUSH.
Definition has_ready_waker (s : N) : bool := has s READY && negb (has s FLUSH).
Definition has_flush_waker (s : N) : bool := negb (has s READY) && has s FLUSH.
Definition has_close_waker (s : N) : bool := has s READY && has s FLUSH.
Definition set_ready_waker (s : N) : N := N.lor (N.ldiff s FLUSH) READY.
Definition set_flush_waker (s : N) : N := N.lor (N.ldiff s READY) FLUSH.
Definition set_close_waker (s : N) : N := N.lor (N.lor s READY) FLUSH.

(** mod.rs lines 166-169. *)
Definition add_cursor (cursor addition capacity : N) : N :=
  let c := cursor + addition in if capacity <=? c then c - capacity else c.

Section Channel.
  Variables bits cap : N.

  (** mod.rs lines 70, 79, 87. *)
  Definition COUNT_BITS : N := N.shiftr (bits - PARAM_BITS) 1.
  Definition MAX_CAPACITY : N := N.shiftl 1 COUNT_BITS.

  (** mod.rs lines 158-164. *)
  Definition get_length (s : N) : N := N.shiftr s (PARAM_BITS + COUNT_BITS).
  Definition get_cursor (s : N) : N := N.land (N.shiftr s PARAM_BITS) (N.ones COUNT_BITS).

  (** mod.rs lines 185-189. *)
  Definition claim_next (s length : N) : N :=
    N.lor (N.lor (N.land s (N.ones PARAM_BITS))
                 (N.shiftl (add_cursor (get_cursor s) 1 cap) PARAM_BITS))
          (N.shiftl (length - 1) (PARAM_BITS + COUNT_BITS)).
  (** mod.rs lines 171-174. *)
  Definition claim_next_unless_empty (s : N) : N :=
    let length := get_length s in if 0 <? length then claim_next s length else s.
  (** mod.rs lines 176-183. *)
  Definition claim_next_if_full (s : N) : N :=
    let length := get_length s in
    if negb (has s CLOSED) && (length =? cap) then claim_next s length else s.
  (** mod.rs lines 191-193. *)
  Definition add_length (s addition : N) : N :=
    if negb (has s CLOSED) then (s + N.shiftl addition (PARAM_BITS + COUNT_BITS)) mod 2 ^ bits else s.

  (** sender.rs lines 48-67; [k] continues with the result. *)
  Definition try_send_then (v : N) (k : rres -> prog rres) : prog rres :=
    Load Relaxed (fun s =>
      let length := get_length s in
      if length =? cap then k (RFull v)
      else
        let index := add_cursor (get_cursor s) length cap in
        Write (CBuf index) v (Rmw Acquire AcqRel (Some s) (fun s => add_length s 1) (fun s =>
          if has s CLOSED then Take (CBuf index) (fun v => k (RClosed v))
          else if has s RXW then Peek CRxW (fun w => Wake w (k ROk))
          else k ROk))).
  Definition try_send (v : N) : prog rres := try_send_then v (fun r => Done r).

  (** sender.rs lines 221-223; the value of the error is destroyed. *)
  Definition start_send (v : N) : prog rres :=
    try_send_then v (fun r =>
      match r with
      | RFull v => DropV v (Done RSinkFull)
      | RClosed v => DropV v (Done RSinkClosed)
      | r => Done r
      end).

  (** sender.rs lines 106-115. *)
  Definition over_store (v index : N) (overwritten : option N) (s : N) : prog rres :=
    Write (CBuf index) v (Rmw Acquire AcqRel (Some s) (fun s => add_length s 1) (fun s =>
      if has s CLOSED then Take (CBuf index) (fun v => Done (RNot v overwritten))
      else if has s RXW then Peek CRxW (fun w => Wake w (Done (ROver overwritten)))
      else Done (ROver overwritten))).
  (** sender.rs lines 96-105. *)
  Definition over_claimed (v s : N) : prog rres :=
    let length := get_length s in
    if has s CLOSED then Done (RNot v None)
    else
      let index := get_cursor s in
      if length =? cap then Take (CBuf index) (fun o => over_store v index (Some o) s)
      else over_store v (add_cursor index length cap) None s.
  (** sender.rs lines 86-95. *)
  Definition send_overwrite (v : N) : prog rres :=
    Load Relaxed (fun s =>
      if get_length s =? cap then Rmw Relaxed Relaxed (Some s) claim_next_if_full (fun s => over_claimed v s)
      else over_claimed v s).

  (** sender.rs lines 128-151. *)
  Definition send_err (v : N) : prog rres :=
    Write CErr v (Rmw Acquire AcqRel None
      (fun s => N.lor (N.lor s (if negb (has s CLOSED) then ERR else 0)) HALF)
      (fun s =>
         let rest :=
           if has s CLOSED then
             Take CErr (fun v => if has s HALF then Free (Done (RBack v)) else Done (RBack v))
           else Done ROk in
         if has s RXW then
           Take CRxW (fun w => if negb (has s CLOSED) then Wake w rest else DropW w rest)
         else rest)).

  (** sender.rs lines 156-161. *)
  Definition is_canceled : prog rres := Load Relaxed (fun s => Done (RBool (has s CLOSED))).

  (** Common part of sender.rs lines 200-214, 235-249 and 262-273: register a waker
      unless there is one, mark what it waits for, look again. *)
  Definition register (w s : N) (mark : N -> N) (canceled : rres) (ready : N -> bool) : prog rres :=
    let write_waker := negb (has_waker s) in
    let rest :=
      Rmw Relaxed Release (Some s) mark (fun s =>
        if has s CLOSED then
          if write_waker then Take CTxW (fun w => DropW w (Done canceled)) else Done canceled
        else if ready s then Done RReady
        else Done RPending) in
    if write_waker then Write CTxW w rest else rest.

  (** sender.rs lines 190-218. *)
  Definition poll_ready (w : N) : prog rres :=
    Load Relaxed (fun s =>
      if has s CLOSED then Done RSinkClosed
      else if get_length s <? cap then Done RReady
      else if negb (has_ready_waker s) then
        register w s set_ready_waker RSinkClosed (fun s => get_length s <? cap)
      else Done RPending).
  (** sender.rs lines 225-253. *)
  Definition poll_flush (w : N) : prog rres :=
    Load Relaxed (fun s =>
      if has s CLOSED then Done RSinkClosed
      else if get_length s =? 0 then Done RReady
      else if negb (has_flush_waker s) then
        register w s set_flush_waker RSinkClosed (fun s => get_length s =? 0)
      else Done RPending).
  (** sender.rs lines 255-277. *)
  Definition poll_close (w : N) : prog rres :=
    Load Relaxed (fun s =>
      if has s CLOSED then Done RReady
      else if negb (has_close_waker s) then
        register w s set_close_waker RReady (fun _ => false)
      else Done RPending).

  (** sender.rs lines 280-297. *)
  Definition drop_tx : prog rres :=
    Rmw Relaxed Acquire None (fun s => N.lor s HALF) (fun s =>
      let rest := if has s HALF then Free (Done RUnit) else Done RUnit in
      if has s RXW then
        Take CRxW (fun w => if negb (has s HALF) then Wake w (Done RUnit) else DropW w rest)
      else rest).

  (** receiver.rs lines 43-53. *)
  Definition close : prog rres :=
    Rmw Relaxed Acquire None (fun s => N.lor s CLOSED) (fun s =>
      if negb (has s CLOSED) && has_waker s then
        Take CTxW (fun w => if negb (has s HALF) then Wake w (Done RUnit) else DropW w (Done RUnit))
      else Done RUnit).

  (** receiver.rs lines 83-108. *)
  Definition take_value (s length : N) : prog rres :=
    let index := get_cursor s in
    let should_wake :=
      if has_ready_waker s then length =? cap
      else if has_flush_waker s then length =? 1
      else false in
    let set_flags := N.lor (if should_wake then N.lor READY FLUSH else 0)
                           (if has s ERR then ERR else 0) in
    let read := Take (CBuf index) (fun v => Done (RVal v)) in
    let wake (s : N) :=
      if should_wake && negb (has s HALF) then Peek CTxW (fun w => Wake w read) else read in
    if negb (set_flags =? 0) then Rmw Relaxed Acquire (Some s) (fun s => N.lor s set_flags) wake
    else wake s.

  (** receiver.rs lines 66-68, 136-138. *)
  Definition next_claim (s : N) : N := N.ldiff (claim_next_unless_empty s) ERR.

  (** receiver.rs lines 64-81. *)
  Definition try_next : prog rres :=
    Rmw Relaxed Acquire None next_claim (fun s =>
      let length := get_length s in
      if 0 <? length then take_value s length
      else if has s ERR then Take CErr (fun v => Done (RError v))
      else if has s HALF || has s CLOSED then Done REnd
      else Done REmpty).

  (** receiver.rs lines 134-170. *)
  Definition poll_next (w : N) : prog rres :=
    Rmw Relaxed Acquire None next_claim (fun s =>
      let length := get_length s in
      if 0 <? length then take_value s length
      else if has s ERR then Take CErr (fun v => Done (RError v))
      else if has s HALF || has s CLOSED then Done REnd
      else if negb (has s RXW) then
        Write CRxW w (Rmw Acquire AcqRel (Some s) (fun s => N.lor (next_claim s) RXW) (fun s =>
          let length := get_length s in
          let rest :=
            if 0 <? length then take_value s length
            else if has s HALF then
              if has s ERR then Take CErr (fun v => Done (RError v)) else Done REnd
            else Done RPending in
          if has s HALF then Take CRxW (fun w => DropW w rest) else rest))
      else Done RPending).

  (** receiver.rs lines 175-182. *)
  Definition is_terminated : prog rres :=
    Load Relaxed (fun s => Done (RBool
      ((has s HALF || has s CLOSED) && negb (has s ERR) && (get_length s =? 0)))).

  (** receiver.rs lines 193-196: [n] more values, the next one being number [i]. *)
  Fixpoint drop_values (n : nat) (cursor i : N) (k : prog rres) : prog rres :=
    match n with
    | O => k
    | S n => Take (CBuf (add_cursor cursor i cap)) (fun v => DropV v (drop_values n cursor (i + 1) k))
    end.

  (** receiver.rs lines 185-212. *)
  Definition drop_rx : prog rres :=
    Rmw Relaxed Acquire None (fun s => N.lor (N.lor (N.shiftr (N.shiftl s COUNT_BITS mod 2 ^ bits) COUNT_BITS) CLOSED) HALF)
      (fun s =>
         let free_ := if has s HALF then Free (Done RUnit) else Done RUnit in
         let waker :=
           if negb (has s CLOSED) && has_waker s then
             Take CTxW (fun w => if negb (has s HALF) then Wake w (Done RUnit) else DropW w free_)
           else free_ in
         drop_values (N.to_nat (get_length s)) (get_cursor s) 0
           (if has s ERR then Take CErr (fun v => DropV v waker) else waker)).

  Definition rcode (o : rop) : prog rres :=
    match o with
    | TrySend v => try_send v
    | StartSend v => start_send v
    | SendOver v => send_overwrite v
    | SendErr v => send_err v
    | IsCanceled => is_canceled
    | PollReady w => poll_ready w
    | PollFlush w => poll_flush w
    | PollClose w => poll_close w
    | DropTx => drop_tx
    | Close => close
    | TryNext => try_next
    | PollNext w => poll_next w
    | IsTerminated => is_terminated
    | DropRx => drop_rx
    end.

  (** A channel used from its creation (mod.rs lines 61-67, 116-128). *)
  Definition rrun (atomics : bool) (sched : list (act rop)) : sys rop rres :=
    run rside rconsuming rcode atomics sys0 sched.
End Channel.
