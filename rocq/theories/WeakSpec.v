(** Data races, as the memory model of Rust (that of C++20) defines them, for two contexts
    that share one atomic word and some non-atomic cells.  Independent of the code. *)
Require Import List Bool Arith.
From Verif Require Import Spsc.
Import ListNotations.

(** An access to the shared block.  The values of the word are numbered in the order in
    which they are written; all writes but the first are read-modify-writes. *)
Inductive access :=
| ARead (r : ord) (n : nat)       (* value number [n] is read *)
| AUpd (c : ord) (n : nat)        (* value [n] is read and value [n + 1] written *)
| ACell (c : cell) (w : bool)     (* a cell is accessed; [w]: written or moved out *)
| AFree.                          (* the block is freed *)

Definition acquires (o : ord) : bool := match o with Acquire | AcqRel => true | _ => false end.
Definition releases (o : ord) : bool := match o with Release | AcqRel => true | _ => false end.

(** An execution: the accesses of both sides.  The accesses of one side are in program order. *)
Definition exec := list (side * access).

(** Access [i] releases, and [j] acquires, reading a value of the release sequence of [i]:
    the value [i] writes and all later ones. *)
Definition syncs (l : exec) (i j : nat) : Prop :=
  exists s o n s' o' m, nth_error l i = Some (s, AUpd o n) /\ releases o = true /\
    (nth_error l j = Some (s', ARead o' m) \/ nth_error l j = Some (s', AUpd o' m)) /\ acquires o' = true /\ n < m.

Inductive hb (l : exec) : nat -> nat -> Prop :=
| hb_po i j s a b : i < j -> nth_error l i = Some (s, a) -> nth_error l j = Some (s, b) -> hb l i j
| hb_sw i j : syncs l i j -> hb l i j
| hb_trans i j k : hb l i j -> hb l j k -> hb l i k.

(** Two accesses that must not happen concurrently. *)
Definition clash (a b : access) : Prop :=
  match a, b with ACell c w, ACell d v => c = d /\ (w = true \/ v = true) | _, _ => False end.
(** Freeing must not happen concurrently with anything. *)
Definition clash_free (a b : access) : Prop := a = AFree \/ b = AFree.

Definition racing (clash : access -> access -> Prop) (l : exec) : Prop :=
  exists i j s t a b, i <> j /\ nth_error l i = Some (s, a) /\ nth_error l j = Some (t, b) /\ clash a b /\ ~ hb l i j /\ ~ hb l j i.
