(** Model of the heap allocator.

    Source: /repo/src/heap/pool.rs, /repo/src/heap/mod.rs lines 87-176,
    /repo/macros/src/heap.rs lines 205-334 (the generated [Allocator] forwards to
    these functions).

    Addresses and sizes are [N]; memory is a map from addresses to bytes.  The
    pointer width is [ws] bytes; pointers are stored in little-endian order.
    This file is the sequential model: each call runs to completion (see Treiber.v
    for concurrent use of one pool).  Address arithmetic is not wrapped: the
    configurations considered fit into the address space. *)
Require Import NArith List Bool.
Import ListNotations.
Open Scope N_scope.

Definition mem := N -> N.

Definition mset (m : mem) (a v : N) : mem := fun a' => if a' =? a then v else m a'.

(** Reading a pointer-sized word of [k] bytes at [a]. *)
Fixpoint read_word (k : nat) (m : mem) (a : N) : N :=
  match k with
  | O => 0
  | S k' => m a + 256 * read_word k' m (a + 1)
  end.

(** Writing a pointer-sized word. *)
Fixpoint write_word (k : nat) (m : mem) (a v : N) : mem :=
  match k with
  | O => m
  | S k' => mset (write_word k' m (a + 1) (v / 256)) a (v mod 256)
  end.

(** [ptr.write_bytes(0, len)] (heap/mod.rs:108). *)
Definition zero_bytes (m : mem) (a len : N) : mem :=
  fun x => if (a <=? x) && (x <? a + len) then 0 else m x.

(** [ptr::copy_nonoverlapping(src, dst, len)] (heap/mod.rs:136, 154, 172). *)
Definition copy_bytes (m : mem) (src dst len : N) : mem :=
  fun x => if (dst <=? x) && (x <? dst + len) then m (x - dst + src) else m x.

(** pool.rs:20-29 [struct Pool]. *)
Record pool := Pool { p_size : N; p_edge : N; p_free : N; p_uninit : N }.

(** pool.rs:37-44 [Pool::new]. *)
Definition pool_new (address size count : N) : pool :=
  Pool size (address + size * count) 0 address.

Section WordSize.
Variable ws : nat.

(** pool.rs:83-89 [allocate_free]; the closure reads the link from the block. *)
Definition allocate_free (m : mem) (p : pool) : option N * pool :=
  if p_free p =? 0 then (None, p)
  else (Some (p_free p),
        Pool (p_size p) (p_edge p) (read_word ws m (p_free p)) (p_uninit p)).

(** pool.rs:91-96 [allocate_uninit]. *)
Definition allocate_uninit (p : pool) : option N * pool :=
  if p_uninit p =? p_edge p then (None, p)
  else (Some (p_uninit p),
        Pool (p_size p) (p_edge p) (p_free p) (p_uninit p + p_size p)).

(** pool.rs:60-64 [Pool::allocate]. *)
Definition pool_allocate (m : mem) (p : pool) : option N * pool :=
  match allocate_free m p with
  | (Some a, p') => (Some a, p')
  | (None, p') => allocate_uninit p'
  end.

(** pool.rs:75-81 [Pool::deallocate]: the closure stores the current head in the
    first word of the block, and the block becomes the head. *)
Definition pool_deallocate (m : mem) (p : pool) (ptr : N) : mem * pool :=
  (write_word ws m ptr (p_free p),
   Pool (p_size p) (p_edge p) ptr (p_uninit p)).

(** pool.rs:109-121 [binary_search].  [None] is an out-of-bounds access or running
    out of fuel; [binary_search] starts with enough fuel (see HeapProofs.v). *)
Fixpoint bsearch (fuel : nat) (ps : list pool) (f : pool -> bool) (left right : nat)
  : option nat :=
  match fuel with
  | O => None
  | S fuel' =>
      if Nat.ltb left right then
        let middle := (left + Nat.div2 (right - left))%nat in
        match nth_error ps middle with
        | None => None
        | Some p =>
            if f p then bsearch fuel' ps f left middle
            else bsearch fuel' ps f (S middle) right
        end
      else Some left
  end.

Definition binary_search (ps : list pool) (f : pool -> bool) : option nat :=
  bsearch (S (length ps)) ps f 0 (length ps).

(** pool.rs:99-102 [pool_range_by_layout]: the start of the range (the end is the
    number of pools).  The alignment of the layout is not consulted. *)
Definition pool_range_by_layout (ps : list pool) (size : N) : option nat :=
  binary_search ps (fun p => size <=? p_size p).

(** pool.rs:104-107 [pool_by_ptr]. *)
Definition pool_by_ptr (ps : list pool) (base ptr : N) : option nat :=
  match binary_search ps (fun p => ptr <? p_edge p) with
  | None => None
  | Some i =>
      if Nat.ltb i (length ps) && (Nat.ltb 0 i || (base <=? ptr)) then Some i else None
  end.

(** The heap: generated metadata (macros/src/heap.rs:141-146) and memory. *)
Record heap := Heap { h_base : N; h_pools : list pool; h_mem : mem }.

Fixpoint set_nth {A} (l : list A) (k : nat) (x : A) : list A :=
  match l, k with
  | [], _ => []
  | _ :: l', O => x :: l'
  | y :: l', S k' => y :: set_nth l' k' x
  end.

(** heap/mod.rs:94-100: the loop over the pools [i..len]. *)
Fixpoint alloc_loop (m : mem) (ps : list pool) (i : nat) (n : nat)
  : option (N * N) * list pool :=
  match n with
  | O => (None, ps)
  | S n' =>
      match nth_error ps i with
      | None => (None, ps)
      | Some p =>
          match pool_allocate m p with
          | (Some a, p') => (Some (a, p_size p), set_nth ps i p')
          | (None, p') => alloc_loop m (set_nth ps i p') (S i) n'
          end
      end
  end.

(** heap/mod.rs:90-101 [allocate]; the result is address and length.
    [layout.dangling()] is the alignment as an address. *)
Definition heap_allocate (h : heap) (size align : N) : option (N * N) * heap :=
  if size =? 0 then (Some (align, 0), h)
  else match pool_range_by_layout (h_pools h) size with
       | None => (None, h)
       | Some first =>
           let (r, ps) := alloc_loop (h_mem h) (h_pools h) first (length (h_pools h) - first) in
           (r, Heap (h_base h) ps (h_mem h))
       end.

(** heap/mod.rs:106-110 [allocate_zeroed]. *)
Definition heap_allocate_zeroed (h : heap) (size align : N) : option (N * N) * heap :=
  match heap_allocate h size align with
  | (Some (a, len), h') =>
      (Some (a, len), Heap (h_base h') (h_pools h') (zero_bytes (h_mem h') a len))
  | (None, h') => (None, h')
  end.

(** heap/mod.rs:115-122 [deallocate]. *)
Definition heap_deallocate (h : heap) (ptr size : N) : heap :=
  if size =? 0 then h
  else match pool_by_ptr (h_pools h) (h_base h) ptr with
       | None => h
       | Some i =>
           match nth_error (h_pools h) i with
           | None => h
           | Some p =>
               let (m, p') := pool_deallocate (h_mem h) p ptr in
               Heap (h_base h) (set_nth (h_pools h) i p') m
           end
       end.

(** heap/mod.rs:127-140 [grow], 145-158 [grow_zeroed], 163-176 [shrink]: they
    differ in the allocation function and the number of bytes copied. *)
Definition heap_move (alloc : heap -> N -> N -> option (N * N) * heap)
  (h : heap) (ptr old_size new_size new_align ncopy : N) : option (N * N) * heap :=
  match alloc h new_size new_align with
  | (None, h') => (None, h')
  | (Some (a, len), h') =>
      let h2 := Heap (h_base h') (h_pools h') (copy_bytes (h_mem h') ptr a ncopy) in
      (Some (a, len), heap_deallocate h2 ptr old_size)
  end.

Definition heap_grow (h : heap) (ptr old_size new_size new_align : N) :=
  heap_move heap_allocate h ptr old_size new_size new_align old_size.

Definition heap_grow_zeroed (h : heap) (ptr old_size new_size new_align : N) :=
  heap_move heap_allocate_zeroed h ptr old_size new_size new_align old_size.

Definition heap_shrink (h : heap) (ptr old_size new_size new_align : N) :=
  heap_move heap_allocate h ptr old_size new_size new_align new_size.

(** ** A client of the allocator *)

(** What the client knows about one of its allocations: address, length, requested
    size, and the bytes it may rely on. *)
Record blk := Blk { b_ptr : N; b_len : N; b_req : N; b_data : N -> option N }.

(** Requests of the client.  [k] selects one of its live allocations; [sz] is the
    size in the layout passed back. *)
Inductive req :=
| QAlloc (size align : N) (zeroed : bool)
| QDealloc (k : nat) (sz : N)
| QGrow (k : nat) (sz new align : N) (zeroed : bool)
| QShrink (k : nat) (sz new align : N)
| QWrite (k : nat) (off v : N).

Fixpoint del_nth {A} (l : list A) (k : nat) : list A :=
  match l, k with
  | [], _ => []
  | _ :: l', O => l'
  | x :: l', S k' => x :: del_nth l' k'
  end.

(** A layout size fits an allocation if it is between the requested size and the
    returned length (contract of [core::alloc::Allocator]). *)
Definition fits_blk (b : blk) (sz : N) : bool := (b_req b <=? sz) && (sz <=? b_len b).

(** The bytes the client may rely on after each operation. *)
Definition fresh_data (zeroed : bool) : N -> option N :=
  fun _ => if zeroed then Some 0 else None.
Definition moved_data (b : blk) (n : N) (zeroed : bool) : N -> option N :=
  fun off => if off <? n then b_data b off else if zeroed then Some 0 else None.
Definition written_data (b : blk) (off v : N) : N -> option N :=
  fun o => if o =? off then Some v else b_data b o.

(** One request executed on the heap; requests violating the allocator contract do
    nothing.  The third component is the answer given to the client. *)
Definition client_step (s : heap * list blk) (q : req)
  : heap * list blk * option (option (N * N)) :=
  let (h, live) := s in
  match q with
  | QAlloc size align zeroed =>
      match (if zeroed then heap_allocate_zeroed else heap_allocate) h size align with
      | (Some (a, len), h') => (h', live ++ [Blk a len size (fresh_data zeroed)], Some (Some (a, len)))
      | (None, h') => (h', live, Some None)
      end
  | QDealloc k sz =>
      match nth_error live k with
      | Some b => if fits_blk b sz then (heap_deallocate h (b_ptr b) sz, del_nth live k, None)
                  else (h, live, None)
      | None => (h, live, None)
      end
  | QGrow k sz new align zeroed =>
      match nth_error live k with
      | Some b =>
          if fits_blk b sz && (sz <=? new) then
            match (if zeroed then heap_grow_zeroed else heap_grow) h (b_ptr b) sz new align with
            | (Some (a, len), h') =>
                (h', del_nth live k ++ [Blk a len new (moved_data b sz zeroed)], Some (Some (a, len)))
            | (None, h') => (h', live, Some None)
            end
          else (h, live, None)
      | None => (h, live, None)
      end
  | QShrink k sz new align =>
      match nth_error live k with
      | Some b =>
          if fits_blk b sz && (new <=? sz) then
            match heap_shrink h (b_ptr b) sz new align with
            | (Some (a, len), h') =>
                (h', del_nth live k ++ [Blk a len new (moved_data b new false)], Some (Some (a, len)))
            | (None, h') => (h', live, Some None)
            end
          else (h, live, None)
      | None => (h, live, None)
      end
  | QWrite k off v =>
      match nth_error live k with
      | Some b =>
          if off <? b_len b then
            (Heap (h_base h) (h_pools h) (mset (h_mem h) (b_ptr b + off) v),
             set_nth live k (Blk (b_ptr b) (b_len b) (b_req b) (written_data b off v)), None)
          else (h, live, None)
      | None => (h, live, None)
      end
  end.

Definition client_run (s : heap * list blk) (qs : list req) : heap * list blk :=
  fold_left (fun s q => fst (client_step s q)) qs s.

End WordSize.

(** Pool configuration: address, block size, block count (set by drone-ld). *)
Definition pcfg := (N * N * N)%type.

Definition heap_new (base : N) (cfg : list pcfg) (m : mem) : heap :=
  Heap base (map (fun '(a, s, c) => pool_new a s c) cfg) m.
