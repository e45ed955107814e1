(** Who runs, and how often: schedules of the contexts of HeapUse.v.

    A turn is one step of the context that runs, which returns if it has nothing else to do; or anything else:
    interrupts, their ends, calls, reads and writes. *)
Require Import List Arith NArith.
From Verif Require Import LinSpec Heap HeapConc HeapUseSpec HeapUse.
Import ListNotations.
Open Scope nat_scope.

Inductive turn := Own | Other (l : ulabel).
Definition labels (t : turn) : list ulabel := match t with Own => [ULStep; ULRet] | Other l => [l] end.

Section Turns.
Variable ws : nat.
Variable base : N.
Variable cfg : list pcfg.

Definition play (s : ustate) (ts : list turn) : ustate * list uevent := urun ws base cfg s (flat_map labels ts).
(** The turns of context [d]: it runs if all others below it are interrupted and none is above. *)
Definition runs (d : nat) (s : ustate) : bool := Nat.eqb (length (hfs (uh s))) (S d).
Fixpoint turns (d : nat) (s : ustate) (ts : list turn) : nat :=
  match ts with
  | [] => 0
  | t :: r => (match t with Own => if runs d s then 1 else 0 | Other _ => 0 end) + turns d (fst (play s [t])) r
  end.
End Turns.

(** The size of the largest blocks. *)
Definition largest (cfg : list pcfg) : N := fold_right (fun '(_, z, _) m => N.max z m) 0%N cfg.
(** What a request may take: nine steps in each pool; a step for each byte filled and copied; nine to give the old
    block back. *)
Definition allowance (cfg : list pcfg) (r : ureq) : nat :=
  9 * length cfg + 1 + (if zeroes r then N.to_nat (largest cfg) + 1 else 0)
  + match old_of r with Some _ => N.to_nat (keeps r) + 10 | None => 0 end.
