(** The heap as the global allocator of a program.

    Source: /repo/macros/src/heap.rs lines 313-334 ([def_global_alloc]), on Heap.v.  The generated implementation has
    [alloc] and [dealloc] only; [alloc_zeroed] and [realloc] are the provided methods of [core::alloc::GlobalAlloc]
    (Rust's library, not in /repo).

    Addresses are [N]; the null pointer is 0.  A call runs to completion (see HeapConc.v for interrupts).  The traces of
    the calls ([enable_trace_stream]) are collected as the calls of Stream.v. *)
Require Import NArith List Bool.
From Verif Require Import Heap Stream.
Import ListNotations.
Open Scope N_scope.

Section WordSize.
Variable ws : nat.

(** Lines 317-322. *)
Definition g_alloc (h : heap) (size align : N) : N * heap :=
  match heap_allocate ws h size align with
  | (Some (a, _), h') => (a, h')
  | (None, h') => (0, h')
  end.
(** Lines 324-331. *)
Definition g_dealloc (h : heap) (ptr size : N) : heap := heap_deallocate ws h ptr size.
(** [GlobalAlloc::alloc_zeroed]: the memory asked for is zeroed, not the whole block. *)
Definition g_alloc_zeroed (h : heap) (size align : N) : N * heap :=
  let (a, h') := g_alloc h size align in
  if a =? 0 then (a, h') else (a, Heap (h_base h') (h_pools h') (zero_bytes (h_mem h') a size)).
(** [GlobalAlloc::realloc]. *)
Definition g_realloc (h : heap) (ptr size align new : N) : N * heap :=
  let (a, h') := g_alloc h new align in
  if a =? 0 then (a, h')
  else (a, g_dealloc (Heap (h_base h') (h_pools h') (copy_bytes (h_mem h') ptr a (N.min size new))) ptr size).

(** ** A program *)
(** What it keeps of an allocation. *)
Record own := Own { o_ptr : N; o_size : N; o_align : N }.
(** Allocations are numbered in the order of the requests; [k] is such a number. *)
Inductive gop :=
| GAlloc (zeroed : bool) (size align : N)
| GDealloc (k : nat)
| GRealloc (k : nat) (new : N)
| GStore (k : nat) (off v : N)
| GLoad (k : nat) (off : N).
Inductive gres := GOk | GNull | GVal (v : N) | GBad.

Definition gstate := (heap * list (option own))%type.
Definition owned (l : list (option own)) (k : nat) : option own :=
  match nth_error l k with Some (Some o) => Some o | _ => None end.

(** One operation; those that the contract of [GlobalAlloc] (or of memory) forbids do nothing.  The last component:
    the calls that are traced (lines 215 and 242, of [Allocator], called by lines 319 and 326). *)
Definition gstep (s : gstate) (o : gop) : gstate * gres * list alloc_call :=
  let (h, l) := s in
  match o with
  | GAlloc z size align =>
      if size =? 0 then (s, GBad, [])
      else let (a, h') := (if z then g_alloc_zeroed else g_alloc) h size align in
           if a =? 0 then (h', l ++ [None], GNull, [CGlobalAlloc size])
           else (h', l ++ [Some (Own a size align)], GOk, [CGlobalAlloc size])
  | GDealloc k =>
      match owned l k with
      | Some b => (g_dealloc h (o_ptr b) (o_size b), set_nth l k None, GOk, [CGlobalDealloc (o_size b)])
      | None => (s, GBad, [])
      end
  | GRealloc k new =>
      match owned l k with
      | Some b =>
          if new =? 0 then (s, GBad, [])
          else let (a, h') := g_realloc h (o_ptr b) (o_size b) (o_align b) new in
               if a =? 0 then (h', l, GNull, [CGlobalAlloc new])
               else (h', set_nth l k (Some (Own a new (o_align b))), GOk, [CGlobalAlloc new; CGlobalDealloc (o_size b)])
      | None => (s, GBad, [])
      end
  | GStore k off v =>
      match owned l k with
      | Some b => if off <? o_size b then (Heap (h_base h) (h_pools h) (mset (h_mem h) (o_ptr b + off) v), l, GOk, [])
                  else (s, GBad, [])
      | None => (s, GBad, [])
      end
  | GLoad k off =>
      match owned l k with
      | Some b => if off <? o_size b then (s, GVal (h_mem h (o_ptr b + off)), []) else (s, GBad, [])
      | None => (s, GBad, [])
      end
  end.

Fixpoint grun (s : gstate) (os : list gop) : gstate * list gres * list alloc_call :=
  match os with
  | [] => (s, [], [])
  | o :: r =>
      let '(s1, x, t) := gstep s o in
      let '(s2, xs, ts) := grun s1 r in
      (s2, x :: xs, t ++ ts)
  end.
End WordSize.
