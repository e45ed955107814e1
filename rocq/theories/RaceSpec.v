(** Data races as in WeakSpec.v, for any number of contexts, several atomic locations and
    plain stores to them.  Independent of the code. *)
Require Import NArith List Bool Arith.
From Verif Require Import Spsc WeakSpec.
Import ListNotations.
Open Scope nat_scope.

(** A location: a block of memory and a field of it. *)
Definition loc := (nat * nat)%type.

(** The values of an atomic location are numbered in the order in which they are written;
    number 0 is the initial one. *)
Inductive maccess :=
| MRead (a : loc) (o : ord) (n : nat)     (* value [n] of an atomic location is read *)
| MUpd (a : loc) (o : ord) (n : nat)      (* value [n] is read and value [n + 1] written *)
| MStore (a : loc) (o : ord) (n : nat)    (* value [n] is written *)
| MCell (a : loc) (w : bool)              (* not atomic; [w]: written or moved out *)
| MFree (b : nat).                        (* the block is freed *)

(** An execution: accesses with the contexts that make them, for each context in program order. *)
Definition mexec := list (nat * maccess).

Definition writes (x : maccess) (a : loc) (o : ord) (n : nat) : Prop := (exists m, x = MUpd a o m /\ n = S m) \/ x = MStore a o n.
Definition reads (x : maccess) (a : loc) (o : ord) (n : nat) : Prop := x = MRead a o n \/ x = MUpd a o n.

(** [i] releases, [j] acquires and reads a value of the release sequence of [i]: the one that
    [i] writes, or a later one if all in between are read-modify-writes. *)
Definition msyncs (l : mexec) (i j : nat) : Prop :=
  exists c x d y a o n o' m, nth_error l i = Some (c, x) /\ writes x a o n /\ releases o = true /\
    nth_error l j = Some (d, y) /\ reads y a o' m /\ acquires o' = true /\ n <= m /\
    forall k, n < k <= m -> exists q e o'', nth_error l q = Some (e, MUpd a o'' (k - 1)).

Inductive mhb (l : mexec) : nat -> nat -> Prop :=
| mhb_po i j c x y : i < j -> nth_error l i = Some (c, x) -> nth_error l j = Some (c, y) -> mhb l i j
| mhb_sw i j : msyncs l i j -> mhb l i j
| mhb_trans i j k : mhb l i j -> mhb l j k -> mhb l i k.

Definition block (x : maccess) : nat :=
  match x with MRead a _ _ | MUpd a _ _ | MStore a _ _ | MCell a _ => fst a | MFree b => b end.
(** Two accesses that must not happen concurrently: to the same cell, one of them writing;
    to a block that is freed. *)
Definition mclash (x y : maccess) : Prop :=
  match x, y with
  | MCell a w, MCell b v => a = b /\ (w = true \/ v = true)
  | MFree b, _ => b = block y
  | _, MFree b => b = block x
  | _, _ => False
  end.
Definition unordered (l : mexec) (i j : nat) : Prop := i <> j /\ ~ mhb l i j /\ ~ mhb l j i.
