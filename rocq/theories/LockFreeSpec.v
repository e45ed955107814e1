(** What it means that operations of pools and lists make progress, over the runs of
    [Treiber.v]. *)
Require Import NArith List Bool.
From Verif Require Import AtomicSpec LinSpec Treiber.
Import ListNotations.

(** A context is inside an operation that has not taken effect. *)
Definition busy (c : thr) : bool := match c with TIdle | TDone _ => false | _ => true end.
(** A step with which an operation of some context takes effect: after it that operation has a result and can return. *)
Definition finishes (size edge : N) (s : tstate) (l : tlabel) : Prop :=
  exists t r, busy (th s t) = true /\ th (fst (tstep size edge s l)) t = TDone r.
(** The steps of context [t], none of which fails spuriously. *)
Fixpoint steps_of (t : nat) (ls : list tlabel) : nat :=
  match ls with
  | [] => 0
  | LStep t' false :: r => (if Nat.eqb t' t then 1 else 0) + steps_of t r
  | _ :: r => steps_of t r
  end%nat.
Definition no_spurious (t : nat) (ls : list tlabel) : Prop := ~ In (LStep t true) ls.

(** Context 1 as an interrupt of context 0: each of its operations runs from the call to the return while context 0
    stands still.  [None] is a step of context 0. *)
Definition interrupt (o : top) : list tlabel := [LInv 1 o; LStep 1 false; LStep 1 false; LStep 1 false; LRet 1].
Definition as_interrupts (ks : list (option top)) : list tlabel :=
  concat (map (fun k => match k with None => [LStep 0 false] | Some o => interrupt o end) ks).
