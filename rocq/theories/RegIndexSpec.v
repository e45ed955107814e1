(** Which registers an index of register tokens should have. *)
Require Import List Bool Arith.
From Verif Require Import RegIndex.
Import ListNotations.

Definition holds (cfgs : list cfg) : Prop := forall k, In k cfgs -> here k = true.
(** An entry of a call: a register without an exclamation mark in a block whose conditions hold. *)
Definition entry (cs : list call) (g : regdef) : Prop :=
  exists c b, In c cs /\ In b (c_blocks c) /\ holds (b_cfgs b) /\ In g (b_regs b) /\ g_skip g = false.
(** A register is declared: it has an entry whose conditions hold in the crate with the declaration. *)
Definition declared (cs : list call) (n : nat) : Prop :=
  exists g, entry cs g /\ holds (g_cfgs g) /\ g_name g = n.

(** Calls that extend one another; the first one extends nothing. *)
Fixpoint linked (prev : option nat) (cs : list call) : Prop :=
  match cs with
  | [] => True
  | c :: r => c_prev c = prev /\ linked (Some (c_name c)) r
  end.
(** [chain] is [c] with the calls it extends, in a program [cs] in which macros have distinct names
    and other calls may extend the same ones. *)
Definition program (cs chain : list call) (c : call) : Prop :=
  NoDup (map c_name cs) /\ incl (chain ++ [c]) cs /\ NoDup (chain ++ [c]) /\ linked None (chain ++ [c]).

(** The conditions of registers mean the same in both crates. *)
Definition same_crate (cs : list call) : Prop :=
  forall g k, entry cs g -> In k (g_cfgs g) -> there k = here k.
(** Entries of the same register have conditions that all hold, or all do not. *)
Definition agree (cs : list call) : Prop :=
  forall g g', entry cs g -> entry cs g' -> g_name g = g_name g' -> holds (g_cfgs g) -> holds (g_cfgs g').
