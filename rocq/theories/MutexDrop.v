(** Model of the destructor of a mutex, and of the clones of wakers that a run makes.

    Source: /repo/src/sync/mutex.rs lines 190, 239-245 ([Drop for Waiter]),
    /repo/src/sync/linked_list.rs lines 318-327 ([Drop for LinkedList]).
    A mutex has no destructor of its own; its field [waiters] is dropped, with the mutex owned, so that no call is in
    progress.  Lock futures and guards that still exist have been forgotten by their owners.
    Simplification: the data is dropped elsewhere. *)
Require Import NArith List Bool.
From Verif Require Import AtomicSpec Treiber DrainSpec Drain MutexSpec Mutex.
Import ListNotations.
Open Scope N_scope.

(** mutex.rs:240-244, then the memory of the node is freed (linked_list.rs:323). *)
Definition drop_node (s : mst) (x : N) : mst :=
  let s := visit s x in
  let s := if tk s x then s else let (s, w) := read_wk s x in emit s (EDropW w) in
  let m := dsh (dr s) in
  inc_gen (set_dr s (DrState (Shm (hd m) (nx m) (un m) (held m) (dead m ++ [x]) (fault m)) (dth (dr s)) (dpo (dr s)))) x.

(** linked_list.rs:321-325; [n] bounds the number of rounds. *)
Fixpoint drop_list (n : nat) (s : mst) (c : N) : mst :=
  match n with
  | O => s
  | S n =>
      if c =? 0 then s
      else let next := nx (dsh (dr s)) c in drop_list n (drop_node (visit s c) c) next
  end.
(** linked_list.rs:320. *)
Definition drop_mutex (n : nat) (s : mst) : mst := drop_list n s (hd (dsh (dr s))).

(** mutex.rs:190: the waker that step [a] clones. *)
Definition clones (atomics : bool) (s : mst) (a : mact) : list N :=
  match a with
  | Step t _ _ =>
      match ctx s t, ctx (mstep atomics s a) t with CAlloc _ w, CPush _ _ _ => [w] | _, _ => [] end
  | _ => []
  end.
Fixpoint cloned (atomics : bool) (s : mst) (l : list mact) : list N :=
  match l with [] => [] | a :: r => clones atomics s a ++ cloned atomics (mstep atomics s a) r end.
