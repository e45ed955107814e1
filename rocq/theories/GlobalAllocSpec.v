(** What a program expects of its global allocator: each allocation is an array of its own. *)
Require Import NArith List Bool.
From Verif Require Import Heap GlobalAlloc Stream.
Import ListNotations.
Open Scope N_scope.

(** The bytes of an array; [None]: not initialised. *)
Definition array := list (option N).
Definition arrays := list (option array).

Definition live_array (s : arrays) (k : nat) : option array :=
  match nth_error s k with Some (Some a) => Some a | _ => None end.
Fixpoint replace {A} (l : list A) (k : nat) (x : A) : list A :=
  match l, k with
  | [], _ => []
  | _ :: r, O => x :: r
  | y :: r, S k' => y :: replace r k' x
  end.
(** [a] with the size [n]: the bytes that it had, then uninitialised ones. *)
Definition resize (a : array) (n : nat) : array := firstn n a ++ repeat None (n - length a).

(** What an operation with the result [r] makes of the arrays; [None]: this may not happen. *)
Definition expected (s : arrays) (o : gop) (r : gres) : option arrays :=
  match o, r with
  | GAlloc z size _, GOk => if size =? 0 then None else Some (s ++ [Some (repeat (if z then Some 0 else None) (N.to_nat size))])
  | GAlloc z size _, GNull => if size =? 0 then None else Some (s ++ [None])
  | GAlloc z size _, GBad => if size =? 0 then Some s else None
  | GDealloc k, GOk => match live_array s k with Some _ => Some (replace s k None) | None => None end
  | GDealloc k, GBad => match live_array s k with Some _ => None | None => Some s end
  | GRealloc k new, GOk =>
      match live_array s k with
      | Some a => if new =? 0 then None else Some (replace s k (Some (resize a (N.to_nat new))))
      | None => None
      end
  | GRealloc k new, GNull =>
      match live_array s k with Some _ => if new =? 0 then None else Some s | None => None end
  | GRealloc k new, GBad =>
      match live_array s k with Some _ => if new =? 0 then Some s else None | None => Some s end
  | GStore k off v, GOk =>
      match live_array s k with
      | Some a => if off <? N.of_nat (length a) then Some (replace s k (Some (replace a (N.to_nat off) (Some v)))) else None
      | None => None
      end
  | GLoad k off, GVal v =>
      match live_array s k with
      | Some a => match nth_error a (N.to_nat off) with
                  | Some (Some w) => if v =? w then Some s else None
                  | Some None => Some s
                  | None => None
                  end
      | None => None
      end
  | GStore k off _, GBad | GLoad k off, GBad =>
      match live_array s k with
      | Some a => if off <? N.of_nat (length a) then None else Some s
      | None => Some s
      end
  | _, _ => None
  end.
Fixpoint as_expected (s : arrays) (os : list gop) (rs : list gres) : option arrays :=
  match os, rs with
  | [], [] => Some s
  | o :: os', r :: rs' => match expected s o r with Some s' => as_expected s' os' rs' | None => None end
  | _, _ => None
  end.

(** The number of allocations in the pool [c]. *)
Definition inside (c : pcfg) (o : option own) : bool :=
  let '(a, s, n) := c in
  match o with Some b => (a <=? o_ptr b) && (o_ptr b <? a + s * n) | None => false end.
Definition count (l : list (option own)) (c : pcfg) : N := N.of_nat (length (filter (inside c) l)).

(** The bytes in use. *)
Definition bytes (l : list (option own)) : N :=
  fold_right (fun o n => match o with Some b => o_size b + n | None => n end) 0 l.
(** What a reader of the trace adds up. *)
Definition added (o : heap_op) : N := match o with HAlloc n | HGrow _ n | HShrink _ n => n | HDealloc _ => 0 end.
Definition removed (o : heap_op) : N := match o with HAlloc _ => 0 | HDealloc n | HGrow n _ | HShrink n _ => n end.
Fixpoint total (f : heap_op -> N) (l : list heap_op) : N := match l with [] => 0 | o :: r => f o + total f r end.
(** The sizes of the requests that failed. *)
Fixpoint failed (os : list gop) (rs : list gres) : N :=
  match os, rs with
  | GAlloc _ n _ :: os', GNull :: rs' | GRealloc _ n :: os', GNull :: rs' => n + failed os' rs'
  | _ :: os', _ :: rs' => failed os' rs'
  | _, _ => 0
  end.
Definition requested (o : gop) : N := match o with GAlloc _ n _ | GRealloc _ n => n | _ => 0 end.
