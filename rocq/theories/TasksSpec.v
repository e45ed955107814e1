(** Histories of a software-managed thread that runs futures: events of the scheduler and of the
    thread's fibers in one order. *)
Require Import NArith List.
From Verif Require Import SoftSpec ExecSpec.
Import ListNotations.

Inductive tev := TS (e : sev) | TX (e : xev).
Fixpoint soft_of (l : list tev) : list sev :=
  match l with [] => [] | TS e :: l => e :: soft_of l | TX _ :: l => soft_of l end.
Fixpoint exec_of (l : list tev) : list xev :=
  match l with [] => [] | TX e :: l => e :: exec_of l | TS _ :: l => exec_of l end.
