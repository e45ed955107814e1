(** Vocabulary for the heap shared by contexts: the live allocations, read off the calls and returns. *)
Require Import NArith List Bool.
From Verif Require Import AtomicSpec LinSpec Heap HeapSpec HeapConc.
Import ListNotations.
Open Scope N_scope.

(** [pend]: the size asked for by the call in progress of each context.  An allocation lives from the
    return that hands it out to the call that gives it back. *)
Fixpoint live_of (pend : nat -> N) (l : list blk) (tr : list (lvis hop hres)) : list blk :=
  match tr with
  | [] => l
  | LCall t (HAlloc size _) :: r => live_of (upd pend t size) l r
  | LCall _ (HDealloc ptr size) :: r =>
      live_of pend (match release ptr size l with Some l' => l' | None => l end) r
  | LReturn t (HBlock x len) :: r => live_of pend (l ++ [Blk x len (pend t) (fun _ => None)]) r
  | LReturn _ _ :: r => live_of pend l r
  end.

Definition result_of (r : hres) : option (N * N) :=
  match r with HBlock x len => Some (x, len) | _ => None end.

(** The size asked for by the last allocation of each context. *)
Fixpoint pend_of (pend : nat -> N) (tr : list (lvis hop hres)) : nat -> N :=
  match tr with
  | [] => pend
  | LCall t (HAlloc size _) :: r => pend_of (upd pend t size) r
  | _ :: r => pend_of pend r
  end.

(** The contexts with a call in progress after the log [tr]. *)
Fixpoint hbusy (b : nat -> bool) (tr : list (lvis hop hres)) : nat -> bool :=
  match tr with
  | [] => b
  | LCall t _ :: r => hbusy (upd b t true) r
  | LReturn t _ :: r => hbusy (upd b t false) r
  end.
Definition hof (t : nat) (e : lvis hop hres) : bool :=
  match e with LCall t' _ | LReturn t' _ => Nat.eqb t' t end.

(** After the log [tr], the blocks of the pools [ps] may be exhausted in the eyes of context [d]: each is in
    use, or another call in progress has it, gives it back or gets it. *)
Definition blocks_of (ps : list pcfg) : N := fold_right (fun c n => snd c + n) 0 ps.
Definition used_of (live : list blk) (ps : list pcfg) : N := fold_right (fun c n => in_use live c + n) 0 ps.
Definition exhausted_for (ps : list pcfg) (d : nat) (tr : list (lvis hop hres)) : Prop :=
  exists ts, NoDup ts /\ (forall t, In t ts -> t <> d /\ hbusy (fun _ => false) tr t = true) /\
    blocks_of ps <= used_of (live_of (fun _ => 0) [] tr) ps + N.of_nat (length ts).

(** The context [d] is about to return after the log [tr] of the schedule [ls]; at an instant since its
    call, [P] held of the log.  Instants are prefixes of the schedule; [run] gives their logs. *)
Definition during (run : list hlabel -> list (lvis hop hres)) (ls : list hlabel) (d : nat)
  (tr : list (lvis hop hres)) (P : list (lvis hop hres) -> Prop) : Prop :=
  exists p q tr2, ls = p ++ q /\ tr = run p ++ tr2 /\
    hbusy (fun _ => false) (run p) d = true /\ (forall e, In e tr2 -> hof d e = false) /\ P (run p).

(** The pools with blocks large enough. *)
Definition fitting (cfg : list pcfg) (size : N) : list pcfg :=
  filter (fun c => size <=? snd (fst c)) cfg.
