(** Model of the oneshot channel: every method of both halves.
    Source: /repo/src/sync/spsc/oneshot/. *)
Require Import NArith List Bool.
Require Import Verif.Spsc.
Import ListNotations.
Open Scope N_scope.

(** mod.rs lines 52-62. *)
Definition TXW : N := 1.
Definition RXW : N := 2.
Definition DATA : N := 4.
Definition CLOSED : N := 8.
Definition HALF : N := 16.

Inductive oop :=
| Send (v : N)          (* Sender::send *)
| PollCanceled (w : N)  (* Sender::poll_canceled with waker [w] *)
| IsCanceled            (* Sender::is_canceled *)
| DropTx                (* Drop for Sender *)
| Close                 (* Receiver::close *)
| TryRecv               (* Receiver::try_recv *)
| Poll (w : N)          (* Receiver::poll with waker [w] *)
| IsTerminated          (* Receiver::is_terminated *)
| DropRx.               (* Drop for Receiver *)

Inductive ores :=
| ROk                   (* Ok(()) *)
| RErr (v : N)          (* Err(value) *)
| RUnit
| RBool (b : bool)
| RPending
| RReady                (* Ready(()) of poll_canceled *)
| RNone                 (* Ok(None) of try_recv *)
| RVal (v : N)          (* a value is received *)
| RCanceled.            (* Err(Canceled) *)

Definition oside (o : oop) : side :=
  match o with Send _ | PollCanceled _ | IsCanceled | DropTx => TX | _ => RX end.
Definition oconsuming (o : oop) : bool :=
  match o with Send _ | DropTx | DropRx => true | _ => false end.

(** sender.rs lines 43-66. *)
Definition send (v : N) : prog ores :=
  Write (CBuf 0) v (Rmw Acquire AcqRel None
    (fun s => N.lor (N.lor s (if negb (has s CLOSED) then DATA else 0)) HALF)
    (fun s =>
       let rest :=
         if has s CLOSED then
           Take (CBuf 0) (fun v => if has s HALF then Free (Done (RErr v)) else Done (RErr v))
         else Done ROk in
       if has s RXW then
         Take CRxW (fun w => if negb (has s CLOSED) then Wake w rest else DropW w rest)
       else rest)).

(** sender.rs lines 80-97. *)
Definition poll_canceled (w : N) : prog ores :=
  Load Relaxed (fun s =>
    if has s CLOSED then Done RReady
    else if negb (has s TXW) then
      Write CTxW w (Rmw Relaxed Release (Some s) (fun s => N.lor s TXW) (fun s =>
        if has s CLOSED then Take CTxW (fun w => DropW w (Done RReady))
        else Done RPending))
    else Done RPending).

(** sender.rs lines 116-121. *)
Definition is_canceled : prog ores := Load Relaxed (fun s => Done (RBool (has s CLOSED))).

(** sender.rs lines 143-160. *)
Definition drop_tx : prog ores :=
  Rmw Relaxed Acquire None (fun s => N.lor s HALF) (fun s =>
    let rest := if has s HALF then Free (Done RUnit) else Done RUnit in
    if has s RXW then
      Take CRxW (fun w => if negb (has s HALF) then Wake w (Done RUnit) else DropW w rest)
    else rest).

(** receiver.rs lines 36-46. *)
Definition close : prog ores :=
  Rmw Relaxed Acquire None (fun s => N.lor s CLOSED) (fun s =>
    if negb (has s CLOSED) && has s TXW then
      Take CTxW (fun w => if negb (has s HALF) then Wake w (Done RUnit) else DropW w (Done RUnit))
    else Done RUnit).

(** receiver.rs lines 56-68. *)
Definition try_recv : prog ores :=
  Rmw Relaxed Acquire None (fun s => N.ldiff s DATA) (fun s =>
    if has s DATA then Take (CBuf 0) (fun v => Done (RVal v))
    else if has s HALF || has s CLOSED then Done RCanceled
    else Done RNone).

(** receiver.rs lines 90-114. *)
Definition poll (w : N) : prog ores :=
  Rmw Relaxed Acquire None (fun s => N.ldiff s DATA) (fun s =>
    if has s DATA then Take (CBuf 0) (fun v => Done (RVal v))
    else if has s HALF || has s CLOSED then Done RCanceled
    else if negb (has s RXW) then
      Write CRxW w (Rmw Acquire AcqRel (Some s) (fun s => N.lor (N.ldiff s DATA) RXW) (fun s =>
        if has s HALF then
          Take CRxW (fun w => DropW w
            (if has s DATA then Take (CBuf 0) (fun v => Done (RVal v)) else Done RCanceled))
        else Done RPending))
    else Done RPending).

(** receiver.rs lines 119-124. *)
Definition is_terminated : prog ores :=
  Load Relaxed (fun s => Done (RBool ((has s HALF || has s CLOSED) && negb (has s DATA)))).

(** receiver.rs lines 127-148. *)
Definition drop_rx : prog ores :=
  Rmw Relaxed Acquire None (fun s => N.lor (N.lor s CLOSED) HALF) (fun s =>
    let free_ := if has s HALF then Free (Done RUnit) else Done RUnit in
    let waker :=
      if negb (has s CLOSED) && has s TXW then
        Take CTxW (fun w => if negb (has s HALF) then Wake w (Done RUnit) else DropW w free_)
      else free_ in
    if has s DATA then Take (CBuf 0) (fun v => DropV v waker) else waker).

Definition ocode (o : oop) : prog ores :=
  match o with
  | Send v => send v
  | PollCanceled w => poll_canceled w
  | IsCanceled => is_canceled
  | DropTx => drop_tx
  | Close => close
  | TryRecv => try_recv
  | Poll w => poll w
  | IsTerminated => is_terminated
  | DropRx => drop_rx
  end.

(** A channel used from its creation (mod.rs:45-50, 85-93). *)
Definition orun (atomics : bool) (sched : list (act oop)) : sys oop ores :=
  run oside oconsuming ocode atomics sys0 sched.
