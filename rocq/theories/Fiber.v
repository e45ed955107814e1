(** Model of the fibers that drive a channel from a thread: add_future, the ring streams
    and the pulse streams.

    Source: /repo/src/fib/future.rs, stream_ring.rs, stream_pulse.rs.

    Every such method creates a channel, adds a generator owning the sending half to the
    fiber chain of a thread, and returns an owner of the receiving half.  The generator
    runs a loop; one turn of the loop is written below as a tree of its observable
    actions, mirroring the Rust statement by statement.  The accesses of the channel
    methods interleave with the receiver's as in [Spsc].

    The user's fiber and the overflow handler are arbitrary: what they answer is part of
    the schedule.  Simplifications: they do not panic; destroying a value that is no
    longer needed is not an event; the chain resumes the generator until it completes
    (see C24) and not after. *)
Require Import NArith List Bool.
Require Import Verif.Spsc.
Require Verif.Oneshot Verif.Ring Verif.Pulse.
Import ListNotations.
Open Scope N_scope.

(** [FiberState], fib/mod.rs lines 240-245. *)
Inductive out (Y C : Type) := Yielded (y : Y) | Complete (c : C).
Arguments Yielded {Y C}. Arguments Complete {Y C}.

(** One turn of the generator's loop. *)
Inductive gtree (O R Y C : Type) :=
| GCall (o : O) (k : R -> gtree O R Y C)          (* a method of the sending half *)
| GResume (k : out Y C -> gtree O R Y C)          (* resume the user's fiber *)
| GOver (v : N) (k : option N -> gtree O R Y C)   (* the overflow handler: Ok or an error *)
| GYield                                          (* yield, then the next turn *)
| GEnd.                                           (* the generator completes *)
Arguments GCall {O R Y C}. Arguments GResume {O R Y C}. Arguments GOver {O R Y C}.
Arguments GYield {O R Y C}. Arguments GEnd {O R Y C}.

Inductive fev (O R Y C : Type) :=
| FRun                       (* the thread resumes the generator *)
| FResume                    (* the generator resumes the fiber *)
| FOut (o : out Y C)         (* the fiber answers *)
| FOver (v : N)              (* the overflow handler is called *)
| FOverRet (e : option N)    (* it answers *)
| FYield                     (* the generator yields *)
| FEnd                       (* the generator completes, and is removed *)
| FCh (e : ev O R).          (* an event of the channel *)
Arguments FRun {O R Y C}. Arguments FResume {O R Y C}. Arguments FOut {O R Y C}.
Arguments FOver {O R Y C}. Arguments FOverRet {O R Y C}. Arguments FYield {O R Y C}.
Arguments FEnd {O R Y C}. Arguments FCh {O R Y C}.

Section Machine.
  Context {O R Y C : Type}.
  Variable side_of : O -> side.
  Variable consuming : O -> bool.
  Variable code : O -> prog R.
  Variable atomics : bool.
  Variable api : O -> bool.              (* what the owner of the receiving half can call *)
  Variable body : gtree O R Y C.

  Inductive gen :=
  | Susp                                 (* not started, or at the yield *)
  | At (t : gtree O R Y C)
  | InCall (k : R -> gtree O R Y C)      (* inside a method of the sending half *)
  | InFib (k : out Y C -> gtree O R Y C) (* inside the fiber *)
  | InOver (k : option N -> gtree O R Y C)
  | Ended.

  Record fst_ := Fst { fch : sys O R; fgen : gen; flog : list (fev O R Y C) }.
  Definition fst0 : fst_ := Fst sys0 Susp [].

  Inductive fact :=
  | ARun                     (* the thread runs its fiber chain *)
  | AGo                      (* the generator takes its next action *)
  | AOut (o : out Y C)       (* the fiber answers *)
  | AOver (e : option N)     (* the overflow handler answers *)
  | ATx (spur : bool)        (* the method the generator has called makes one access *)
  | ARx (o : O)              (* the owner of the receiving half calls a method *)
  | ARxStep (spur : bool).

  (** A step of the channel, its events being added to the history. *)
  Definition chan (s : fst_) (a : act O) (g : gen) : fst_ :=
    let x := step side_of consuming code atomics (fch s) a in
    Fst x g (flog s ++ map FCh (skipn (length (slog (fch s))) (slog x))).
  Definition tell (s : fst_) (e : fev O R Y C) (g : gen) : fst_ :=
    Fst (fch s) g (flog s ++ [e]).

  Definition fstep (s : fst_) (a : fact) : fst_ :=
    match a, fgen s with
    | ARun, Susp => tell s FRun (At body)
    | AGo, At (GCall o k) => chan s (Call o) (InCall k)
    | AGo, At (GResume k) => tell s FResume (InFib k)
    | AGo, At (GOver v k) => tell s (FOver v) (InOver k)
    | AGo, At GYield => tell s FYield Susp
    | AGo, At GEnd => tell s FEnd Ended
    | AOut o, InFib k => tell s (FOut o) (At (k o))
    | AOver e, InOver k => tell s (FOverRet e) (At (k e))
    | ATx spur, InCall k =>
        match stx (fch s) with
        | Run _ (Done r) => chan s (Step TX spur) (At (k r))
        | Run _ _ => chan s (Step TX spur) (InCall k)
        | _ => s
        end
    | ARx o, g =>
        match side_of o with
        | RX => if api o then chan s (Call o) g else s
        | TX => s
        end
    | ARxStep spur, g => chan s (Step RX spur) g
    | _, _ => s
    end.

  Fixpoint frun (s : fst_) (sched : list fact) : fst_ :=
    match sched with [] => s | a :: r => frun (fstep s a) r end.
End Machine.
Arguments gen : clear implicits.
Arguments fst_ : clear implicits.
Arguments fact : clear implicits.

(** ** add_future: future.rs lines 90-106.  [tx] is a capture of the generator: leaving
    the loop destroys it, unless [send] has consumed it.  A value returned by [send] is
    destroyed. *)
Definition future_body : gtree Oneshot.oop Oneshot.ores unit N :=
  GCall Oneshot.IsCanceled (fun r =>
    match r with
    | Oneshot.RBool true => GCall Oneshot.DropTx (fun _ => GEnd)
    | _ =>
        GResume (fun o =>
          match o with
          | Yielded _ => GYield
          | Complete v => GCall (Oneshot.Send v) (fun _ => GEnd)
          end)
    end).

(** FiberFuture: future.rs lines 30-32, 38-44; the receiver itself is private. *)
Definition future_api (o : Oneshot.oop) : bool :=
  match o with Oneshot.Poll _ | Oneshot.Close | Oneshot.DropRx => true | _ => false end.
Inductive fpoll := FPending | FReady (v : N) | FUnreachable.
(** future.rs lines 38-44; [None]: not a result of [Receiver::poll]. *)
Definition future_poll (r : Oneshot.ores) : option fpoll :=
  match r with
  | Oneshot.RPending => Some FPending
  | Oneshot.RVal v => Some (FReady v)
  | Oneshot.RCanceled => Some FUnreachable
  | _ => None
  end.

Definition future_run (atomics : bool) (sched : list (fact Oneshot.oop unit N)) :=
  frun Oneshot.oside Oneshot.oconsuming Oneshot.ocode atomics future_api future_body fst0 sched.

(** ** Streams of values.

    The yielded type is [Option<T>]; the completion after [map], [Result<Option<T>, E>],
    is [inl] of an option or [inr] of an error.  [sat]: the overflow handler is
    [|_| Ok(())] (stream_ring.rs lines 84, 105). *)
Definition overflow {O R Y C} (sat : bool) (v : N) (k : option N -> gtree O R Y C) : gtree O R Y C :=
  if sat then k None else GOver v k.
Definition ring_tree := gtree Ring.rop Ring.rres (option N) (option N + N).
Definition ring_break : ring_tree := GCall Ring.DropTx (fun _ => GEnd).
Definition ring_fail (e : N) : ring_tree := GCall (Ring.SendErr e) (fun _ => GEnd).

(** stream_ring.rs lines 259-300. *)
Definition ring_body (sat : bool) : ring_tree :=
  GCall Ring.IsCanceled (fun r =>
    match r with
    | Ring.RBool true => ring_break
    | _ =>
        GResume (fun o =>
          match o with
          | Yielded None => GYield
          | Yielded (Some v) =>
              GCall (Ring.TrySend v) (fun r =>
                match r with
                | Ring.RClosed _ => ring_break
                | Ring.RFull v =>
                    overflow sat v (fun a => match a with None => GYield | Some e => ring_fail e end)
                | _ => GYield
                end)
          | Complete (inl None) => ring_break
          | Complete (inl (Some v)) =>
              GCall (Ring.TrySend v) (fun r =>
                match r with
                | Ring.RFull v =>
                    overflow sat v (fun a => match a with None => ring_break | Some e => ring_fail e end)
                | _ => ring_break
                end)
          | Complete (inr e) => ring_fail e
          end)
    end).

(** stream_ring.rs lines 320-344. *)
Definition ring_over_body : ring_tree :=
  GCall Ring.IsCanceled (fun r =>
    match r with
    | Ring.RBool true => ring_break
    | _ =>
        GResume (fun o =>
          match o with
          | Yielded None => GYield
          | Yielded (Some v) =>
              GCall (Ring.SendOver v) (fun r =>
                match r with Ring.RNot _ _ => ring_break | _ => GYield end)
          | Complete (inl None) => ring_break
          | Complete (inl (Some v)) => GCall (Ring.SendOver v) (fun _ => ring_break)
          | Complete (inr e) => ring_fail e
          end)
    end).

(** FiberStreamRing, TryFiberStreamRing: stream_ring.rs lines 27-69. *)
Definition ring_api (o : Ring.rop) : bool :=
  match o with Ring.PollNext _ | Ring.Close | Ring.DropRx => true | _ => false end.

(** The three ways to add a ring stream. *)
Inductive ring_kind := Overwriting | Saturating | Handled.
Definition ring_stream (k : ring_kind) : ring_tree :=
  match k with
  | Overwriting => ring_over_body
  | Saturating => ring_body true
  | Handled => ring_body false
  end.
Definition ring_run (bits cap : N) (atomics : bool) (k : ring_kind) (sched : list (fact Ring.rop (option N) (option N + N))) :=
  frun Ring.rside Ring.rconsuming (Ring.rcode bits cap) atomics ring_api (ring_stream k) fst0 sched.

(** ** Streams of pulses: stream_pulse.rs lines 147-186.  The overflow handler takes no
    argument; the event carries the number of pulses that did not fit.  [sat]: lines 78
    and 92. *)
Definition pulse_tree := gtree Pulse.pop Pulse.pres (option N) (option N + N).
Definition pulse_break : pulse_tree := GCall Pulse.DropTx (fun _ => GEnd).
Definition pulse_fail (e : N) : pulse_tree := GCall (Pulse.SendErr e) (fun _ => GEnd).
Definition pulse_body (sat : bool) : pulse_tree :=
  GCall Pulse.IsCanceled (fun r =>
    match r with
    | Pulse.RBool true => pulse_break
    | _ =>
        GResume (fun o =>
          match o with
          | Yielded None => GYield
          | Yielded (Some n) =>
              GCall (Pulse.Send n) (fun r =>
                match r with
                | Pulse.RClosed => pulse_break
                | Pulse.RFull =>
                    overflow sat n (fun a => match a with None => GYield | Some e => pulse_fail e end)
                | _ => GYield
                end)
          | Complete (inl None) => pulse_break
          | Complete (inl (Some n)) =>
              GCall (Pulse.Send n) (fun r =>
                match r with
                | Pulse.RFull =>
                    overflow sat n (fun a => match a with None => pulse_break | Some e => pulse_fail e end)
                | _ => pulse_break
                end)
          | Complete (inr e) => pulse_fail e
          end)
    end).
Definition pulse_api (o : Pulse.pop) : bool :=
  match o with Pulse.PollNext _ | Pulse.Close | Pulse.DropRx => true | _ => false end.
Definition pulse_run (bits : N) (atomics : bool) (sat : bool) (sched : list (fact Pulse.pop (option N) (option N + N))) :=
  frun Pulse.pside Pulse.pconsuming (Pulse.pcode bits) atomics pulse_api (pulse_body sat) fst0 sched.
