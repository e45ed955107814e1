(** The mutex on a weak memory: any number of contexts, the orderings of the source.  As in
    WeakList.v: hardware atomics.

    Source: /repo/src/sync/mutex.rs lines 121-127 ([try_lock]), 157-175 ([unlock]), 281-301 (the
    guard).

    Only the lock word is modelled with its values.  All that [lock], [poll], [unlock] and the
    destructors do to the waiters are arbitrary accesses to other memory ([MOther]), made at any
    time; so this covers all orders in which these functions call [try_lock] and [unlock].
    Guards may be sent to other contexts ([Send], line 74), through memory that is written with
    release and read with acquire.
    Simplifications: non-atomic accesses behave as if they were ordered. *)
Require Import NArith List Bool Arith.
From Verif Require Import Spsc WeakSpec RaceSpec.
Import ListNotations.
Open Scope nat_scope.

(** The mutex is block 0; the memory through which guard number [k] is sent is block [2 k + 1]. *)
Definition locked : loc := (0, 0).
Definition data : loc := (0, 1).
Definition chan (k : nat) : loc := (S (k + k), 0).

(** Where the guard is. *)
Inductive guard := GNone | GAt (c : nat) | GSent (k : nat).

Record msys := Msys {
  lhist : list bool;      (* the values of the lock word, the latest first *)
  where_ : guard;
  sent : nat;
  mlog : mexec
}.
Definition msys0 : msys := Msys [false] GNone 0 [].

Inductive mact :=
| MTry (c : nat)               (* try_lock *)
| MData (c : nat) (w : bool)   (* through the guard *)
| MUnlock (c : nat)            (* line 171 *)
| MGive (c : nat)
| MTake (c : nat)
| MOther (c : nat) (x : maccess).

(** Memory other than the lock word, the data and the memory for sending guards. *)
Definition other (x : maccess) : bool :=
  match x with
  | MFree b => negb (b =? 0) && Nat.even b
  | MRead a _ _ | MUpd a _ _ | MStore a _ _ | MCell a _ =>
      if fst a =? 0 then 2 <=? snd a else Nat.even (fst a)
  end.

Definition mstep (s : msys) (a : mact) : msys :=
  let 'Msys h g k lg := s in
  match a with
  | MTry c =>
      (* line 122: the swap reads the latest value *)
      Msys (true :: h) (match h with false :: _ => GAt c | _ => g end) k
        (lg ++ [(c, MUpd locked Acquire (length h - 1))])
  | MData c w =>
      match g with
      | GAt d => if d =? c then Msys h g k (lg ++ [(c, MCell data w)]) else s
      | _ => s
      end
  | MUnlock c =>
      match g with
      | GAt d => if d =? c then Msys (false :: h) GNone k (lg ++ [(c, MStore locked Release (length h))]) else s
      | _ => s
      end
  | MGive c =>
      match g with
      | GAt d => if d =? c then Msys h (GSent k) (S k) (lg ++ [(c, MStore (chan k) Release 1)]) else s
      | _ => s
      end
  | MTake c =>
      match g with GSent j => Msys h (GAt c) k (lg ++ [(c, MRead (chan j) Acquire 1)]) | _ => s end
  | MOther c x => if other x then Msys h g k (lg ++ [(c, x)]) else s
  end.
Definition mrun (l : list mact) : msys := fold_left mstep l msys0.
