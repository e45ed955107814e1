(** Vocabulary for "a pool that reports exhaustion is exhausted", in terms of the log of calls and
    returns. *)
Require Import NArith List Bool.
From Verif Require Import AtomicSpec LinSpec Treiber.
Import ListNotations.
Open Scope N_scope.

(** The contexts with a call in progress after the log [tr]. *)
Fixpoint busy (b : nat -> bool) (tr : list (lvis top tres)) : nat -> bool :=
  match tr with
  | [] => b
  | LCall t _ :: r => busy (upd b t true) r
  | LReturn t _ :: r => busy (upd b t false) r
  end.

(** The blocks in use after the log [tr]: returned by an allocation, and since then not passed to a
    deallocation. *)
Fixpoint used (u : list N) (tr : list (lvis top tres)) : list N :=
  match tr with
  | [] => u
  | LCall _ (OPush x) :: r => used (remove1 x u) r
  | LReturn _ (RNode x) :: r => used (u ++ [x]) r
  | _ :: r => used u r
  end.

Definition of_ctx (t : nat) (e : lvis top tres) : bool :=
  match e with LCall t' _ | LReturn t' _ => Nat.eqb t' t end.

(** After the log [tr], the pool of [count] blocks may be exhausted in the eyes of context [d]: each
    block is in use, or another call in progress has it, gives it back or gets it. *)
Definition exhausted_for (d count : nat) (tr : list (lvis top tres)) : Prop :=
  exists ts, NoDup ts /\ (forall t, In t ts -> t <> d /\ busy (fun _ => false) tr t = true) /\
    (count <= length (nodup N.eq_dec (used [] tr)) + length ts)%nat.

(** Only allocations and deallocations, and no node is released behind the pool's back. *)
Definition pool_op (o : top) : Prop := o <> OPop.
Definition pool_label (lb : tlabel) : Prop :=
  match lb with LInv _ o => pool_op o | LFree _ => False | _ => True end.
Definition pool_slabel (lb : slabel) : Prop :=
  match lb with SLInv o => pool_op o | SLFree _ => False | _ => True end.

(** The context [d] is about to return after the log [tr] of the schedule [ls]; at an instant since its
    call, the pool may have been exhausted.  Instants are prefixes of the schedule; [run] gives their
    logs. *)
Definition exhausted_during {L} (run : list L -> list (lvis top tres)) (ls : list L) (d count : nat)
  (tr : list (lvis top tres)) : Prop :=
  exists p q tr2, ls = p ++ q /\ tr = run p ++ tr2 /\
    busy (fun _ => false) (run p) d = true /\ (forall e, In e tr2 -> of_ctx d e = false) /\
    exhausted_for d count (run p).
