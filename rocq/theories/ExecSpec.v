(** What an executor does with its fibers and futures.  Independent of the code: functions
    over observable events. *)
Require Import NArith List Bool.
From Verif Require Import DrainSpec.
Import ListNotations.
Open Scope N_scope.

(** The fibers of a thread are named by their nodes [x]; a node may be reused after [EOut]. *)
Inductive xev :=
| XD (e : devent)                 (* the chain: additions, visits, removals, thread runs *)
| XMake (t : nat) (x : N) (w : bool)
                                  (* context [t] calls the factory and makes the fiber [x]; [w]: it is
                                     to wake up the thread afterwards *)
| XWake (t : nat) (x : N)         (* context [t] wakes up the thread on behalf of the fiber [x] *)
| XPoll (x : N)                   (* the fiber's closure, generator or future is called *)
| XPend (x : N)                   (* it has yielded, is pending *)
| XReady (x : N) (ok : bool)      (* it has completed, is ready; [ok]: not with an error *)
| XDrop (x : N)                   (* it is destroyed *)
| XErr (e : N)                    (* panic: root future error *)
| XDead.                          (* panic: resumed after completion *)

(** The life of a fiber. *)
Inductive life :=
| LNone          (* there is none *)
| LMade
| LWaits         (* in the chain *)
| LPolled
| LPended
| LReady
| LFailed
| LDone.         (* completed and destroyed, still in the chain *)

Definition life1 (x : N) (s : life) (e : xev) : option life :=
  let when y (r : option life) := if y =? x then r else Some s in
  match e with
  | XMake _ y _ => when y match s with LNone => Some LMade | _ => None end
  | XD (EAdd y) => when y match s with LMade => Some LWaits | _ => None end
  | XPoll y => when y match s with LWaits => Some LPolled | _ => None end
  | XPend y => when y match s with LPolled => Some LPended | _ => None end
  | XD (EVisit y false) => when y match s with LPended => Some LWaits | _ => None end
  | XReady y true => when y match s with LPolled => Some LReady | _ => None end
  | XReady y false => when y match s with LPolled => Some LFailed | _ => None end
  | XDrop y => when y match s with LReady => Some LDone | _ => None end
  | XD (EVisit y true) => when y match s with LDone => Some LDone | _ => None end
  | XD (EOut y) => when y match s with LDone => Some LNone | _ => None end
  | XD EStart | XD EEnd | XWake _ _ | XErr _ | XDead => Some s
  end.
Fixpoint lives (x : N) (s : life) (l : list xev) : option life :=
  match l with [] => Some s | e :: l => match life1 x s e with Some s' => lives x s' l | None => None end end.

(** What a context that adds fibers does: each is made, added, and then the thread is woken up
    if and only if this was asked for. *)
Inductive adding :=
| WIdle
| WAdding (x : N) (w : bool)
| WOwes (x : N).
Definition wake1 (t : nat) (s : adding) (e : xev) : option adding :=
  match e with
  | XMake u x w =>
      if Nat.eqb u t then match s with WIdle => Some (WAdding x w) | _ => None end else Some s
  | XD (EAdd y) =>
      match s with
      | WAdding x w => Some (if y =? x then (if w then WOwes x else WIdle) else s)
      | _ => Some s
      end
  | XWake u x =>
      if Nat.eqb u t
      then match s with WOwes y => if x =? y then Some WIdle else None | _ => None end
      else Some s
  | _ => Some s
  end.
Fixpoint wakes (t : nat) (s : adding) (l : list xev) : option adding :=
  match l with [] => Some s | e :: l => match wake1 t s e with Some s' => wakes t s' l | None => None end end.

(** What the thread does: one call at a time, inside a run. *)
Definition call1 (c : option N) (e : xev) : option (option N) :=
  let mine x r := match c with Some y => if x =? y then Some r else None | None => None end in
  match e with
  | XPoll x => match c with None => Some (Some x) | Some _ => None end
  | XPend x | XReady x _ | XDrop x => mine x c
  | XD (EVisit x _) => mine x None
  | XD EStart | XD EEnd | XD (EOut _) => match c with None => Some None | Some _ => None end
  | XD (EAdd _) | XMake _ _ _ | XWake _ _ | XErr _ | XDead => Some c
  end.
Fixpoint calls (c : option N) (l : list xev) : option (option N) :=
  match l with [] => Some c | e :: l => match call1 c e with Some c' => calls c' l | None => None end end.

(** The events of the chain. *)
Fixpoint chain_of (l : list xev) : list devent :=
  match l with [] => [] | XD e :: l => e :: chain_of l | _ :: l => chain_of l end.
(** The fibers that are called, in order. *)
Fixpoint polled (l : list xev) : list N :=
  match l with [] => [] | XPoll x :: l => x :: polled l | _ :: l => polled l end.
