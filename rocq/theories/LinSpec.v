(** Linearizability for an arbitrary sequential object: every operation is invoked,
    takes effect at one instant between invocation and return, and returns the
    result of that effect.  Independent of the code. *)
Require Import List Arith.
From Verif Require Import AtomicSpec.
Import ListNotations.

Section Lin.
Context {S O R : Type}.
Variable ap : O -> S -> S * R.

Inductive lvis := LCall (t : nat) (o : O) | LReturn (t : nat) (r : R).

Inductive lstat := LIdle | LPend (o : O) | LDone (r : R).

Record lstate := LState { lobj : S; lth : nat -> lstat }.

Inductive lexec (s0 : S) : list lvis -> lstate -> Prop :=
| lx_init : lexec s0 [] (LState s0 (fun _ => LIdle))
| lx_call tr s t o :
    lexec s0 tr s -> lth s t = LIdle ->
    lexec s0 (tr ++ [LCall t o]) (LState (lobj s) (upd (lth s) t (LPend o)))
| lx_effect tr s t o :
    lexec s0 tr s -> lth s t = LPend o ->
    lexec s0 tr (LState (fst (ap o (lobj s))) (upd (lth s) t (LDone (snd (ap o (lobj s))))))
| lx_return tr s t r :
    lexec s0 tr s -> lth s t = LDone r ->
    lexec s0 (tr ++ [LReturn t r]) (LState (lobj s) (upd (lth s) t LIdle)).

(** [tr] is a history of the object started in [s0]; [s] is a possible final state. *)
Definition linearizable (s0 : S) (tr : list lvis) (s : S) : Prop :=
  exists a, lexec s0 tr a /\ lobj a = s.

End Lin.

Arguments lvis : clear implicits.
Arguments lstat : clear implicits.
Arguments lstate : clear implicits.
