(** Thread-local storage: what the code of a thread may rely on.  Independent of the code. *)
Require Import NArith List.
Import ListNotations.
Open Scope N_scope.

Inductive tev :=
| EIn (i : N)              (* code of thread [i] begins *)
| EOut                     (* it has returned *)
| EIrq | EIret             (* the same of a handler outside of the pool *)
| ELocal (r : option N).   (* local_checked returns the storage of a thread, or [None] *)

(** The code in progress, the latest first; [None]: outside of the pool. *)
Definition inside (l : list tev) : list (option N) :=
  fold_left (fun r e => match e with
    | EIn i => Some i :: r
    | EIrq => None :: r
    | EOut | EIret => tl r
    | ELocal _ => r end) l [].
(** The thread whose code runs, or is interrupted by what runs. *)
Fixpoint nearest (r : list (option N)) : option N :=
  match r with [] => None | Some i :: _ => Some i | None :: r => nearest r end.

(** With fibers: *)
Inductive fev :=
| FEv (e : tev)                    (* as above *)
| FMake (i : N) (r : option N)     (* a fiber that refers to a storage is made for the thread [i] *)
| FUse (r : option N).             (* a fiber that refers to a storage is resumed *)
Definition plain (l : list fev) : list tev := flat_map (fun e => match e with FEv e => [e] | _ => [] end) l.
