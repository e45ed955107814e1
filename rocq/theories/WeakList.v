(** The linked list on a weak memory: any number of contexts push, one drains.  As in Weak.v:
    hardware atomics, the orderings of the source, loads of the head may return old values.

    Simplifications: nodes get fresh addresses; the filter accesses the value of the node and
    decides arbitrarily; the node is freed as soon as it is cut out; non-atomic
    accesses behave as if they were ordered. *)
Require Import NArith List Bool Arith.
From Verif Require Import Spsc WeakSpec RaceSpec Weak.
Import ListNotations.
Open Scope nat_scope.

(** Node [x] is block [x + 1]. *)
Definition head : loc := (0, 0).
Definition next_of (x : nat) : loc := (S x, 0).
Definition value_of (x : nat) : loc := (S x, 1).

(** Where a push is; src/sync/linked_list.rs lines 120-122 and 146-151, with
    [load_modify_atomic!] of src/atomic_macros.rs lines 27-47 and 75-87. *)
Inductive pst :=
| PIdle
| PVal (x : nat)                         (* the value is about to be written *)
| PLoad (x : nat)
| PNext (x : nat) (v : option nat)       (* line 148 *)
| PCas (x : nat) (v : option nat).

(** Where the drain is; lines 301-315, 449-461 and 469-483.  With the field [prev] it is kept
    whether [cut_out] found that node by walking from the head (lines 454-457). *)
Inductive dst :=
| DIdle
| DNext (prev : option (nat * bool)) (curr : nat)                          (* line 471 *)
| DFilter (prev : option (nat * bool)) (curr : nat) (next : option nat)    (* line 472 *)
| DHead (curr : nat) (next : option nat)                          (* line 451, first load *)
| DCas (curr : nat) (next : option nat)                           (* lines 451-453 *)
| DWalk (p : option nat) (curr : nat) (next : option nat)         (* lines 455-457 *)
| DSet (p : nat) (walked : bool) (curr : nat) (next : option nat)                 (* line 459 *)
| DFree (prev : option (nat * bool)) (curr : nat) (next : option nat).

Record lsys := Lsys {
  hist : list (option nat);            (* the values of the head, the latest first *)
  nodes : nat;                         (* so many nodes exist *)
  nexts : nat -> option nat;
  push : nat -> pst;                   (* per context *)
  pseen : nat -> nat;                  (* the latest value of the head a context has seen *)
  drain : dst;                         (* context 0 *)
  (* the accesses; [true]: those of [cut_out] to nodes found by walking from the head *)
  llog : list (nat * maccess * bool)
}.
Definition lsys0 : lsys := Lsys [None] 0 (fun _ => None) (fun _ => PIdle) (fun _ => 0) DIdle [].

Definition upd_ {A} (f : nat -> A) (c : nat) (a : A) : nat -> A := fun d => if d =? c then a else f d.
Definition eqo (a b : option nat) : bool :=
  match a, b with Some x, Some y => x =? y | None, None => true | _, _ => false end.

(** As [pick] and [value] in Weak.v. *)
Definition lpick (s : lsys) (c back : nat) : nat := Nat.max (pseen s c) (length (hist s) - 1 - back).
Definition lvalue (s : lsys) (n : nat) : option nat := nth (length (hist s) - 1 - n) (hist s) None.

Inductive lact :=
| LPush (c : nat)                             (* context [c] calls push *)
| LStep (c : nat) (spur : bool) (back : nat)  (* and goes on with it *)
| LDrain (back : nat)                         (* context 0 begins to drain *)
| LGo (b spur : bool) (back : nat).           (* and goes on; [b]: the filter says so *)

Definition after_ (prev : option (nat * bool)) (next : option nat) : dst :=
  match next with Some y => DNext prev y | None => DIdle end.

Definition lstep (s : lsys) (a : lact) : lsys :=
  let 'Lsys h k nx pu se dr lg := s in
  match a with
  | LPush c =>
      match pu c with PIdle => Lsys h (S k) nx (upd_ pu c (PVal k)) se dr lg | _ => s end
  | LStep c spur back =>
      let n := lpick s c back in
      let v := lvalue s n in
      match pu c with
      | PIdle => s
      | PVal x => Lsys h k nx (upd_ pu c (PLoad x)) se dr (lg ++ [(c, MCell (value_of x) true, false)])
      | PLoad x => Lsys h k nx (upd_ pu c (PNext x v)) (upd_ se c n) dr (lg ++ [(c, MRead head Relaxed n, false)])
      | PNext x w => Lsys h k (upd_ nx x w) (upd_ pu c (PCas x w)) se dr (lg ++ [(c, MCell (next_of x) true, false)])
      | PCas x w =>
          if spur || negb (eqo v w) || negb (n =? length h - 1) then
            Lsys h k nx (upd_ pu c (PNext x v)) (upd_ se c n) dr (lg ++ [(c, MRead head Relaxed n, false)])
          else Lsys (Some x :: h) k nx (upd_ pu c PIdle) (upd_ se c (S n)) dr (lg ++ [(c, MUpd head Release n, false)])
      end
  | LDrain back =>
      match dr with
      | DIdle =>
          let n := lpick s 0 back in
          Lsys h k nx pu (upd_ se 0 n) (after_ None (lvalue s n)) (lg ++ [(0, MRead head Acquire n, false)])
      | _ => s
      end
  | LGo b spur back =>
      let n := lpick s 0 back in
      let v := lvalue s n in
      match dr with
      | DIdle => s
      | DNext prev curr => Lsys h k nx pu se (DFilter prev curr (nx curr)) (lg ++ [(0, MCell (next_of curr) false, false)])
      | DFilter prev curr next =>
          Lsys h k nx pu se
            (if b then match prev with Some (p, t) => DSet p t curr next | None => DHead curr next end
             else after_ (Some (curr, false)) next)
            (lg ++ [(0, MCell (value_of curr) true, false)])
      | DHead curr next =>
          Lsys h k nx pu (upd_ se 0 n) (if eqo v (Some curr) then DCas curr next else DWalk v curr next)
            (lg ++ [(0, MRead head Relaxed n, false)])
      | DCas curr next =>
          if spur || negb (eqo v (Some curr)) || negb (n =? length h - 1) then
            Lsys h k nx pu (upd_ se 0 n) (if eqo v (Some curr) then DCas curr next else DWalk v curr next)
              (lg ++ [(0, MRead head Relaxed n, false)])
          else Lsys (next :: h) k nx pu (upd_ se 0 (S n)) (DFree None curr next) (lg ++ [(0, MUpd head Relaxed n, false)])
      | DWalk (Some p) curr next =>
          Lsys h k nx pu se (if eqo (nx p) (Some curr) then DSet p true curr next else DWalk (nx p) curr next)
            (lg ++ [(0, MCell (next_of p) false, true)])
      | DWalk None _ _ => s            (* the code would follow a null pointer *)
      | DSet p t curr next => Lsys h k (upd_ nx p next) pu se (DFree (Some (p, t)) curr next) (lg ++ [(0, MCell (next_of p) true, t)])
      | DFree prev curr next => Lsys h k nx pu se (after_ prev next) (lg ++ [(0, MFree (S curr), false)])
      end
  end.
Definition lrun (l : list lact) : lsys := fold_left lstep l lsys0.
