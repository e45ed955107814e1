(** A memory pool on a weak memory: any number of contexts allocate, use and free blocks.  As in
    WeakList.v: hardware atomics, the orderings of the source, loads may return old values.

    Source: /repo/src/heap/pool.rs lines 60-96, with /repo/src/atomic_macros.rs lines 27-101.

    Blocks may be sent to other contexts, through memory that is written with release and read
    with acquire.
    Simplifications: blocks are numbered instead of having addresses; non-atomic accesses behave
    as if they were ordered. *)
Require Import NArith List Bool Arith.
From Verif Require Import Spsc WeakSpec RaceSpec.
Import ListNotations.
Open Scope nat_scope.

(** Block [x] of the pool is memory block [2 x + 2]; its first word holds the link while it is
    free.  Memory for sending: blocks [2 k + 1]. *)
Definition free_ : loc := (0, 0).
Definition uninit : loc := (0, 1).
Definition mem (x f : nat) : loc := (S (S (x + x)), f).
Definition link_of (x : nat) : loc := mem x 0.
Definition chan (k : nat) : loc := (S (k + k), 0).

(** Where a context is. *)
Inductive pos :=
| QIdle
| QFree0                                (* line 84: loading *)
| QRead (v : option nat)                (* lines 84-87 *)
| QCas (v : nat) (next : option nat)
| QUninit                               (* line 92: loading *)
| QBump (u : nat)
| QPut0 (x : nat)                       (* line 76: loading *)
| QLink (x : nat) (v : option nat)      (* line 78 *)
| QPut (x : nat) (v : option nat).

(** Who has a block. *)
Inductive holder := HNone | HAt (c : nat) | HSent (k : nat).

Record psys := Psys {
  fhist : list (option nat);            (* the values of [free], the latest first *)
  issued : nat;                         (* [uninit], as a number of blocks; its value number, too *)
  links : nat -> option nat;
  at_ : nat -> pos;
  fseen : nat -> nat;                   (* the latest value of [free] a context has seen *)
  useen : nat -> nat;
  hold : nat -> holder;
  psent : nat;
  dup : bool;                           (* a block has been allocated that somebody had, or that is none *)
  plog : list (nat * maccess * bool)    (* [true]: reads of links by [allocate] *)
}.
Definition psys0 : psys := Psys [None] 0 (fun _ => None) (fun _ => QIdle) (fun _ => 0) (fun _ => 0) (fun _ => HNone) 0 false [].

Definition upd_ {A} (f : nat -> A) (c : nat) (a : A) : nat -> A := fun d => if d =? c then a else f d.
Definition eqo (a b : option nat) : bool :=
  match a, b with Some x, Some y => x =? y | None, None => true | _, _ => false end.
Definition is_free (h : holder) : bool := match h with HNone => true | _ => false end.

Inductive pact :=
| PAlloc (c : nat)
| PFree (c x : nat)
| PStep (c : nat) (spur : bool) (back : nat)
| PUse (c x f : nat) (w : bool) (g : option nat)   (* the owner accesses its block; [g]: what it writes,
                                            should it be read as a link *)
| PGive (c x : nat)
| PTake (c x : nat).

Definition pstep (count : nat) (s : psys) (a : pact) : psys :=
  let 'Psys h u lk q fs us ho k dp lg := s in
  match a with
  | PAlloc c => match q c with QIdle => Psys h u lk (upd_ q c QFree0) fs us ho k dp lg | _ => s end
  | PFree c x =>
      match q c, ho x with
      | QIdle, HAt d => if d =? c then Psys h u lk (upd_ q c (QPut0 x)) fs us ho k dp lg else s
      | _, _ => s
      end
  | PStep c spur back =>
      let n := Nat.max (fs c) (length h - 1 - back) in
      let v := nth (length h - 1 - n) h None in
      let m := Nat.max (us c) (u - back) in
      match q c with
      | QIdle => s
      | QFree0 => Psys h u lk (upd_ q c (QRead v)) (upd_ fs c n) us ho k dp (lg ++ [(c, MRead free_ Acquire n, false)])
      | QRead None => Psys h u lk (upd_ q c QUninit) fs us ho k dp lg
      | QRead (Some x) => Psys h u lk (upd_ q c (QCas x (lk x))) fs us ho k dp (lg ++ [(c, MCell (link_of x) false, true)])
      | QCas x next =>
          if spur || negb (eqo v (Some x)) || negb (n =? length h - 1) then
            Psys h u lk (upd_ q c (QRead v)) (upd_ fs c n) us ho k dp (lg ++ [(c, MRead free_ Acquire n, false)])
          else
            Psys (next :: h) u lk (upd_ q c QIdle) (upd_ fs c (S n)) us (upd_ ho x (HAt c)) k (dp || negb (is_free (ho x)) || (u <=? x))
              (lg ++ [(c, MUpd free_ AcqRel n, false)])
      | QUninit => Psys h u lk (upd_ q c (QBump m)) fs (upd_ us c m) ho k dp (lg ++ [(c, MRead uninit Relaxed m, false)])
      | QBump b =>
          if b =? count then Psys h u lk (upd_ q c QIdle) fs us ho k dp lg
          else if spur || negb (m =? b) || negb (m =? u) then
            Psys h u lk (upd_ q c (QBump m)) fs (upd_ us c m) ho k dp (lg ++ [(c, MRead uninit Relaxed m, false)])
          else
            Psys h (S u) lk (upd_ q c QIdle) fs (upd_ us c (S u)) (upd_ ho u (HAt c)) k (dp || negb (is_free (ho u)))
              (lg ++ [(c, MUpd uninit Relaxed m, false)])
      | QPut0 x => Psys h u lk (upd_ q c (QLink x v)) (upd_ fs c n) us ho k dp (lg ++ [(c, MRead free_ Acquire n, false)])
      | QLink x w => Psys h u (upd_ lk x w) (upd_ q c (QPut x w)) fs us ho k dp (lg ++ [(c, MCell (link_of x) true, false)])
      | QPut x w =>
          if spur || negb (eqo v w) || negb (n =? length h - 1) then
            Psys h u lk (upd_ q c (QLink x v)) (upd_ fs c n) us ho k dp (lg ++ [(c, MRead free_ Acquire n, false)])
          else
            Psys (Some x :: h) u lk (upd_ q c QIdle) (upd_ fs c (S n)) us (upd_ ho x HNone) k dp
              (lg ++ [(c, MUpd free_ AcqRel n, false)])
      end
  | PUse c x f w g =>
      match q c, ho x with
      | QIdle, HAt d =>
          if d =? c then
            Psys h u (if w && (f =? 0) then upd_ lk x g else lk) q fs us ho k dp (lg ++ [(c, MCell (mem x f) w, false)])
          else s
      | _, _ => s
      end
  | PGive c x =>
      match q c, ho x with
      | QIdle, HAt d =>
          if d =? c then Psys h u lk q fs us (upd_ ho x (HSent k)) (S k) dp (lg ++ [(c, MStore (chan k) Release 1, false)]) else s
      | _, _ => s
      end
  | PTake c x =>
      match q c, ho x with
      | QIdle, HSent j => Psys h u lk q fs us (upd_ ho x (HAt c)) k dp (lg ++ [(c, MRead (chan j) Acquire 1, false)])
      | _, _ => s
      end
  end.
Definition prun (count : nat) (l : list pact) : psys := fold_left (pstep count) l psys0.
