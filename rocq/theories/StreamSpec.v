(** Observations on debug stream histories, and what trace payloads mean.
    Independent of the buffer management. *)
Require Import NArith List Bool.
From Verif Require Import Stream.
Import ListNotations.
Open Scope N_scope.

Fixpoint starts (tr : list sevent) : list frame :=
  match tr with [] => [] | SStart f :: r => f :: starts r | _ :: r => starts r end.
(** Transactions that returned, successful or not. *)
Fixpoint outcomes (tr : list sevent) : list frame :=
  match tr with [] => [] | SWrote f :: r | SFailed f :: r => f :: outcomes r | _ :: r => outcomes r end.
Fixpoint wrote (tr : list sevent) : list frame :=
  match tr with [] => [] | SWrote f :: r => f :: wrote r | _ :: r => wrote r end.
Fixpoint got (tr : list sevent) : list frame :=
  match tr with [] => [] | SRead f :: r => f :: got r | _ :: r => got r end.

(** The [n] bytes of memory at [a]. *)
Definition bytes_at (m : N -> N) (a n : N) : list N :=
  map (fun i => m (a + N.of_nat i)) (seq 0 (N.to_nat n)).

(** Reading a trace payload: the operation code is byte [ws - 4], followed by
    little-endian words. *)
Fixpoint le_val (bs : list N) : N :=
  match bs with [] => 0 | b :: r => b + 256 * le_val r end.
Definition word (ws : nat) (bs : list N) (i : nat) : N := le_val (firstn ws (skipn (i * ws) bs)).
Definition parse (ws : nat) (payload : list N) : option heap_op :=
  let sizes := skipn (ws - 3) payload in
  match nth_error payload (ws - 4) with
  | Some 0 => Some (HAlloc (word ws sizes 0))
  | Some 1 => Some (HDealloc (word ws sizes 0))
  | Some 2 => Some (HGrow (word ws sizes 0) (word ws sizes 1))
  | Some 3 => Some (HShrink (word ws sizes 0) (word ws sizes 1))
  | _ => None
  end.
Definition sizes_ok (ws : nat) (o : heap_op) : Prop :=
  match o with
  | HAlloc n | HDealloc n => n < 256 ^ N.of_nat ws
  | HGrow o n | HShrink o n => o < 256 ^ N.of_nat ws /\ n < 256 ^ N.of_nat ws
  end.
