(** Sequential model of the linked list with element values and heap-allocated
    nodes.

    Source: /repo/src/sync/linked_list.rs.  The concurrent behaviour of the same
    code is modelled in [Treiber] and [Drain].

    A node is a heap cell holding the value and the link.  Reading, writing or
    freeing a cell that is not allocated is an error ([None]).  Loops carry fuel;
    running out of fuel is also [None], and the theorems show enough fuel exists.
    Simplification: atomic accesses are plain accesses (no other context). *)
Require Import NArith List Bool.
From Verif Require Import Treiber.
Import ListNotations.
Open Scope N_scope.

Section LinkedList.
Context {A : Type}.
(** The allocator: given the allocated addresses, picks another one. *)
Variable al : list N -> N.

Record ls := Ls { lhead : N; lcell : N -> option (A * N); lused : list N }.

Definition cset (f : N -> option (A * N)) (a : N) (v : option (A * N)) : N -> option (A * N) :=
  fun a' => if a' =? a then v else f a'.

Notation "'do' p <- e ; f" := (match e with Some p => f | None => None end)
  (at level 200, p pattern, e at level 100, f at level 200).

(** [Box::from_raw(node).value]: frees the node, returns its value. *)
Definition unbox (s : ls) (a : N) : option (ls * A) :=
  do c <- lcell s a;
  Some (Ls (lhead s) (cset (lcell s) a None) (remove1 a (lused s)), fst c).

(** Writing the link of a node. *)
Definition set_next (s : ls) (a n : N) : option ls :=
  do c <- lcell s a; Some (Ls (lhead s) (cset (lcell s) a (Some (fst c, n))) (lused s)).
Definition set_value (s : ls) (a : N) (v : A) : option ls :=
  do c <- lcell s a; Some (Ls (lhead s) (cset (lcell s) a (Some (v, snd c))) (lused s)).
Definition set_head (s : ls) (n : N) : ls := Ls n (lcell s) (lused s).
Definition get_next (s : ls) (a : N) : option N := do c <- lcell s a; Some (snd c).

(** Line 78 [new]. *)
Definition lnew : ls := Ls 0 (fun _ => None) [].

(** Lines 99-101 [is_empty]. *)
Definition is_empty (s : ls) : bool := lhead s =? 0.

(** Lines 120-122 [push], 146-151 [push_raw]. *)
Definition push (s : ls) (v : A) : option ls :=
  let a := al (lused s) in
  let s1 := Ls (lhead s) (cset (lcell s) a (Some (v, 0))) (a :: lused s) in
  do s2 <- set_next s1 a (lhead s1);
  Some (set_head s2 a).

(** Lines 173-175 [pop], 203-208 [pop_raw]. *)
Definition pop (s : ls) : option (ls * option A) :=
  if lhead s =? 0 then Some (s, None)
  else do n <- get_next s (lhead s);
       do r <- unbox (set_head s n) (lhead s);
       Some (fst r, Some (snd r)).

(** Lines 329-335 [extend], 344-351 [from_iter] (from an empty list). *)
Fixpoint extend (s : ls) (vs : list A) : option ls :=
  match vs with [] => Some s | v :: r => do s' <- push s v; extend s' r end.

(** Lines 393-401 [IterRaw::next]; 383-385 [IterMut::next]: the item is a node. *)
Definition iter_next (s : ls) (curr : N) : option (option (N * N)) :=
  if curr =? 0 then Some None
  else do n <- get_next s curr; Some (Some (curr, n)).

(** A loop over [iter_mut] (lines 234-237, 246-248): [f] sees and replaces each
    value. *)
Fixpoint iter_loop (fuel : nat) (s : ls) (f : A -> A) (curr : N) : option (ls * list A) :=
  match fuel with
  | O => None
  | S fuel =>
      do r <- iter_next s curr;
      match r with
      | None => Some (s, [])
      | Some (a, n) =>
          do c <- lcell s a;
          do s1 <- set_value s a (f (fst c));
          do r <- iter_loop fuel s1 f n;
          Some (fst r, fst c :: snd r)
      end
  end.
Definition iter_mut (fuel : nat) (s : ls) (f : A -> A) := iter_loop fuel s f (lhead s).

(** Lines 366-375 [IntoIter::next]. *)
Definition into_next (s : ls) : option (ls * option A) :=
  let curr := lhead s in
  if curr =? 0 then Some (s, None)
  else do n <- get_next s curr;
       do r <- unbox (set_head s n) curr;
       Some (fst r, Some (snd r)).

Fixpoint into_loop (n : nat) (s : ls) : option (ls * list A) :=
  match n with
  | O => Some (s, [])
  | S n =>
      do r <- into_next s;
      match snd r with
      | None => Some (fst r, [])
      | Some v => do r2 <- into_loop n (fst r); Some (fst r2, v :: snd r2)
      end
  end.

(** Lines 318-327 [drop]; returns the dropped values. *)
Fixpoint drop_loop (fuel : nat) (s : ls) (curr : N) : option (ls * list A) :=
  match fuel with
  | O => None
  | S fuel =>
      if curr =? 0 then Some (s, [])
      else do n <- get_next s curr;
           do r <- unbox s curr;
           do r2 <- drop_loop fuel (fst r) n;
           Some (fst r2, snd r :: snd r2)
  end.
Definition ldrop (fuel : nat) (s : ls) := drop_loop fuel s (lhead s).

(** ** [drain_filter] *)

(** The filter may mutate the element and keep state: its answer and the new value
    depend on all values seen so far, oldest first. *)
Definition dfilter := list A -> A -> bool * A.

(** Lines 449-460 [cut_out]; [walk] is the loop 455-457. *)
Fixpoint walk (fuel : nat) (s : ls) (p c : N) : option N :=
  match fuel with
  | O => None
  | S fuel => do n <- get_next s p; if n =? c then Some p else walk fuel s n c
  end.

Definition cut_out (fuel : nat) (s : ls) (p c n : N) : option (ls * N) :=
  if p =? 0 then
    if lhead s =? c then Some (set_head s n, p)
    else do p' <- walk fuel s (lhead s) c;
         do s' <- set_next s p' n; Some (s', p')
  else do s' <- set_next s p n; Some (s', p).

(** Lines 469-482 [DrainFilterRaw::next]; iterator state: [prev], [curr] and the
    values seen. *)
Record dr := Dr { dprev : N; dcurr : N; dseen : list A }.

Fixpoint drain_next (fuel : nat) (f : dfilter) (s : ls) (d : dr) : option (ls * dr * option N) :=
  match fuel with
  | O => None
  | S fuel =>
      if dcurr d =? 0 then Some (s, d, None)
      else
        do n <- get_next s (dcurr d);
        do c <- lcell s (dcurr d);
        let (b, v) := f (dseen d) (fst c) in
        do s1 <- set_value s (dcurr d) v;
        let seen := dseen d ++ [fst c] in
        if b then
          do r <- cut_out fuel s1 (dprev d) (dcurr d) n;
          Some (fst r, Dr (snd r) n seen, Some (dcurr d))
        else drain_next fuel f s1 (Dr (dcurr d) n seen)
  end.

(** Lines 309-314. *)
Definition drain_start (s : ls) : dr := Dr 0 (lhead s) [].

(** Lines 423-425 [DrainFilter::next], called at most [n] times. *)
Fixpoint drain_take (fuel n : nat) (f : dfilter) (s : ls) (d : dr) : option (ls * dr * list A) :=
  match n with
  | O => Some (s, d, [])
  | S n =>
      do r <- drain_next fuel f s d;
      let '(s1, d1, x) := r in
      match x with
      | None => Some (s1, d1, [])
      | Some a =>
          do u <- unbox s1 a;
          do r2 <- drain_take fuel n f (fst u) d1;
          let '(s2, d2, l) := r2 in Some (s2, d2, snd u :: l)
      end
  end.

(** Calling [next] [n] times, then dropping the iterator (lines 434-436, a loop
    until [None]; [fuel] bounds it).  Returns what the caller got and what was
    dropped. *)
Definition drain_filter (fuel n : nat) (f : dfilter) (s : ls) : option (ls * list A * list A) :=
  do r <- drain_take fuel n f s (drain_start s);
  let '(s1, d1, l1) := r in
  do r2 <- drain_take fuel fuel f s1 d1;
  let '(s2, d2, l2) := r2 in
  do r3 <- drain_next fuel f s2 d2;   (* the final call, returning [None] *)
  match r3 with (s3, _, None) => Some (s3, l1, l2) | _ => None end.

(** ** Operation sequences *)

Inductive lop :=
| LPush (v : A) | LPop | LIsEmpty | LExtend (vs : list A) | LIterMut (f : A -> A)
| LDrain (n : nat) (f : dfilter).

Inductive lres :=
| LUnit | LOpt (v : option A) | LBool (b : bool) | LList (l : list A) | LDrained (got dropped : list A).

Definition lop_run (fuel : nat) (s : ls) (o : lop) : option (ls * lres) :=
  match o with
  | LPush v => do s' <- push s v; Some (s', LUnit)
  | LPop => do r <- pop s; Some (fst r, LOpt (snd r))
  | LIsEmpty => Some (s, LBool (is_empty s))
  | LExtend vs => do s' <- extend s vs; Some (s', LUnit)
  | LIterMut f => do r <- iter_mut fuel s f; Some (fst r, LList (snd r))
  | LDrain n f => do r <- drain_filter fuel n f s; let '(s', g, d) := r in Some (s', LDrained g d)
  end.

Fixpoint lops_run (fuel : nat) (s : ls) (os : list lop) : option (ls * list lres) :=
  match os with
  | [] => Some (s, [])
  | o :: r =>
      do x <- lop_run fuel s o;
      do y <- lops_run fuel (fst x) r;
      Some (fst y, snd x :: snd y)
  end.

End LinkedList.
Arguments ls : clear implicits.
Arguments lop : clear implicits.
Arguments lres : clear implicits.
