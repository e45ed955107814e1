(** Model of the inventory.

    Source: /repo/src/inventory.rs.

    The counter [C] is part of the type and tokens are zero-sized, so nothing is left of
    them at run time; what the model computes is which programs the compiler accepts:
    an operation that does not type-check, or uses a moved or borrowed value, gives
    [None].  Any number of inventories of one item type; tokens of one item type are
    interchangeable.  [Token::new] is unsafe and not modelled. *)
Require Import NArith List Bool.
From Verif Require Import InventorySpec.
Import ListNotations.
Open Scope N_scope.

Inductive imode :=
| MNone        (* not created yet *)
| MOwned
| MGuard       (* borrowed by a guard *)
| MDead.       (* moved into [free] or dropped *)
Record ist := Ist {
  imode_of : N -> imode;
  cnt : N -> N;            (* lines 214-222: the counter in the type *)
  held : list N;           (* the tokens the program owns *)
  next : N;
  ilog : list iev
}.
Definition iinit : ist := Ist (fun _ => MNone) (fun _ => 0) [] 0 [].

Definition set_mode (s : ist) (j : N) (m : imode) : ist :=
  Ist (fun i => if i =? j then m else imode_of s i) (cnt s) (held s) (next s) (ilog s).
Definition set_cnt (s : ist) (j c : N) : ist :=
  Ist (imode_of s) (fun i => if i =? j then c else cnt s i) (held s) (next s) (ilog s).
Definition set_held (s : ist) (h : list N) (n : N) : ist := Ist (imode_of s) (cnt s) h n (ilog s).
Definition ilogs (s : ist) (e : list iev) : ist := Ist (imode_of s) (cnt s) (held s) (next s) (ilog s ++ e).

Definition owned (s : ist) (j : N) : bool := match imode_of s j with MOwned => true | _ => false end.
Definition in_guard (s : ist) (j : N) : bool := match imode_of s j with MGuard => true | _ => false end.
Fixpoint distinct (l : list N) : bool :=
  match l with [] => true | t :: r => negb (member t r) && distinct r end.
Fixpoint fresh_tokens (n : nat) (from : N) : list N :=
  match n with O => [] | S n => from :: fresh_tokens n (from + 1) end.

Inductive iop :=
| New (j : N)                    (* lines 252-254: [Inventory<T, U0>] *)
| Setup (j : N)                  (* the driver's own method on the item (lines 350-364) *)
| Share (j : N) (n : nat)        (* lines 302-311: [share1] ... [share8] *)
| Merge (j : N) (ts : list N)    (* lines 317-325: [merge1] ... [merge8] *)
| Ref (j : N)                    (* lines 287-289, in a guard lines 383-385 *)
| Guard (j : N)                  (* lines 267-273 *)
| DropGuard (j : N)              (* lines 404-409 *)
| Forget (j : N)                 (* a guard is leaked *)
| Teardown (j : N)               (* lines 277-279 *)
| Free (j : N)                   (* lines 258-260 *)
| DropToken (t : N)
| DropInv (j : N).               (* no destructor *)

Definition istep (s : ist) (o : iop) : option ist :=
  match o with
  | New j =>
      match imode_of s j with
      | MNone => Some (ilogs (set_cnt (set_mode s j MOwned) j 0) [ENew j])
      | _ => None
      end
  | Setup j => if owned s j then Some (ilogs s [ESetup j]) else None
  | Share j n =>
      if owned s j && Nat.leb 1 n && Nat.leb n 8 then
        let ts := fresh_tokens n (next s) in
        Some (ilogs (set_held (set_cnt s j (cnt s j + N.of_nat n)) (held s ++ ts) (next s + N.of_nat n)) [EShare j ts])
      else None
  | Merge j ts =>
      (* [Diff<C, n>: Unsigned]: the subtraction does not underflow *)
      let n := N.of_nat (length ts) in
      if owned s j && (1 <=? n) && (n <=? 8) && (n <=? cnt s j) && distinct ts && forallb (fun t => member t (held s)) ts then
        Some (ilogs (set_held (set_cnt s j (cnt s j - n)) (filter (fun t => negb (member t ts)) (held s)) (next s)) [EMerge j ts])
      else None
  | Ref j => if owned s j || in_guard s j then Some (ilogs s [ERef j]) else None
  | Guard j => if owned s j && (cnt s j =? 0) then Some (ilogs (set_mode s j MGuard) [EGuard j]) else None
  | DropGuard j => if in_guard s j then Some (ilogs (set_mode s j MOwned) [EDown j; EUnguard j]) else None
  | Forget j => if in_guard s j then Some (ilogs (set_mode s j MOwned) [ELeak j]) else None
  | Teardown j => if owned s j && (cnt s j =? 0) then Some (ilogs s [EDown j]) else None
  | Free j => if owned s j && (cnt s j =? 0) then Some (ilogs (set_mode s j MDead) [EFree j]) else None
  | DropToken t => if member t (held s) then Some (set_held s (filter (fun t' => negb (t' =? t)) (held s)) (next s)) else None
  | DropInv j => if owned s j then Some (set_mode s j MDead) else None
  end.
Fixpoint irun (s : ist) (l : list iop) : option ist :=
  match l with
  | [] => Some s
  | o :: r => match istep s o with Some s' => irun s' r | None => None end
  end.
