(** Vocabulary for the heap properties.  Nothing here mentions free lists or
    bump pointers: only the pool configuration and the client's live allocations. *)
Require Import NArith List Bool.
From Verif Require Import Heap.
Import ListNotations.
Open Scope N_scope.

Definition monotone (ps : list pool) (f : pool -> bool) : Prop :=
  forall i j p q, nth_error ps i = Some p -> nth_error ps j = Some q ->
    (i <= j)%nat -> f p = true -> f q = true.

Definition partition_point (ps : list pool) (f : pool -> bool) (i : nat) : Prop :=
  (i <= length ps)%nat /\
  (forall j p, nth_error ps j = Some p -> (j < i)%nat -> f p = false) /\
  (forall j p, nth_error ps j = Some p -> (i <= j)%nat -> f p = true).

(** A well-formed configuration: pools in ascending address order from [base],
    with ascending block sizes, each block able to hold a pointer, within the
    address space of [ws]-byte pointers; address zero is not part of the heap. *)
Fixpoint wf_from (ws : nat) (lo smin : N) (cfg : list pcfg) : Prop :=
  match cfg with
  | [] => True
  | (a, s, c) :: r =>
      lo <= a /\ smin <= s /\ N.of_nat ws <= s /\ 0 < s /\
      a + s * c < 256 ^ N.of_nat ws /\ wf_from ws (a + s * c) s r
  end.

Definition wf_cfg (ws : nat) (base : N) (cfg : list pcfg) : Prop :=
  0 < base /\ wf_from ws base 0 cfg.

(** [x] is the address of a block of pool [i] of the configuration. *)
Definition slot (cfg : list pcfg) (i : nat) (j x : N) : Prop :=
  exists a s c, nth_error cfg i = Some (a, s, c) /\ j < c /\ x = a + s * j.

(** Live allocations with memory lying in [lo, hi). *)
Definition in_pool (lo hi : N) (b : blk) : bool :=
  (0 <? b_len b) && (lo <=? b_ptr b) && (b_ptr b <? hi).

Definition used_in (lo hi : N) (live : list blk) : list N :=
  map b_ptr (filter (in_pool lo hi) live).

(** The number of blocks of pool [i] in use, as seen by the client. *)
Definition in_use (live : list blk) (c : pcfg) : N :=
  let '(a, s, n) := c in N.of_nat (length (used_in a (a + s * n) live)).

Definition full (live : list blk) (c : pcfg) : Prop := in_use live c = snd c.

(** The specification of an allocation, in terms of the configuration and the live
    allocations only. *)
Definition alloc_result (cfg : list pcfg) (live : list blk) (size align : N) (r : option (N * N)) : Prop :=
  match r with
  | None => 0 < size /\
      forall i a s n, nth_error cfg i = Some (a, s, n) -> size <= s -> full live (a, s, n)
  | Some (x, len) =>
      (size = 0 /\ len = 0 /\ x = align) \/
      (0 < size /\ exists i a n, nth_error cfg i = Some (a, len, n) /\ size <= len /\
         (exists j, slot cfg i j x) /\ in_use live (a, len, n) < n /\
         forall i' a' s' n', (i' < i)%nat -> nth_error cfg i' = Some (a', s', n') ->
           size <= s' -> full live (a', s', n'))
  end.

(** How many blocks pool [i] hands out before it is exhausted. *)
Fixpoint obtainable (ws fuel : nat) (m : mem) (p : pool) : N :=
  match fuel with
  | O => 0
  | S f => match pool_allocate ws m p with
           | (Some _, p') => 1 + obtainable ws f m p'
           | (None, _) => 0
           end
  end.

