(** What a mutex does with the wakers that it stores, as functions of the wakers it cloned and of the history.
    Independent of the code. *)
Require Import NArith List Bool.
From Verif Require Import MutexSpec.
Import ListNotations.
Open Scope N_scope.

(** How often waker [w] was cloned. *)
Definition copies (w : N) (l : list N) : nat := length (filter (N.eqb w) l).
(** How often a clone of [w] was woken, which consumes it, or destroyed. *)
Definition uses (w : N) (l : list mev) : nat :=
  length (filter (fun e => match e with EWake k | EDropW k => w =? k | _ => false end) l).
