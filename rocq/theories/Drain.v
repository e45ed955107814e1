(** Model of draining the linked list concurrently with pushes, in both builds, at
    the granularity of single accesses to shared memory.

    Source: /repo/src/sync/linked_list.rs lines 120-151 ([push], [push_raw]),
    301-315 ([drain_filter_raw]), 430-437 (drop of the iterator), 439-483
    ([is_end], [cut_out], [next]); /repo/src/fib/chain.rs lines 37-39 ([add]),
    82-104 ([drain], [filter], [delete]), 140-161; /repo/src/thr/mod.rs lines
    147-149 ([resume]).

    Shared memory and ownership are as in [Treiber].  The filter is arbitrary: its
    answer comes from the schedule, and whatever it does to the list (adding
    elements) is done by pushing contexts in the meantime.
    Simplifications: the two reads of one link in lines 455-456 are one step;
    sequentially consistent memory. *)
Require Import NArith List Bool.
From Verif Require Import AtomicSpec Treiber DrainSpec.
Import ListNotations.
Open Scope N_scope.

(** The position of the draining context. [p] is [prev], [c] is [curr], [n] the
    [next] read on line 471. *)
Inductive dpos :=
| DIdle
| DNext (p c : N)         (* line 470 *)
| DFilter (p c n : N)     (* line 472, calling the filter *)
| DCut (p c n : N)        (* line 450 *)
| DCas (c n : N)          (* line 451, after loading [head = curr] *)
| DWalk (p c n : N)       (* line 455 *)
| DWrite (p c n : N)      (* line 459 *)
| DOut (p n x : N).       (* line 476: [x] is returned *)

(** Positions of pushing contexts are those of [Treiber.thr]. *)
Record drstate := DrState { dsh : shm; dth : nat -> thr; dpo : dpos }.

Inductive dlabel :=
| ACall (t : nat) (x : N)             (* context [t] calls push_raw on its node [x] *)
| AStep (t : nat) (spur : bool)       (* one access of context [t] *)
| ARet (t : nat)
| APush (x : N)                       (* push_raw in the critical-section build: one step *)
| AWrite (x v : N)                    (* the owner writes to its node *)
| AFree (x : N)                       (* the owner frees its node *)
| AReuse (x : N)                      (* the memory of a freed node is allocated again *)
| DStart                              (* lines 309-314 *)
| DStep (spur : bool)                 (* one access of the draining context *)
| DCutCs                              (* line 451 in the critical-section build *)
| DAnswer (b : bool).                 (* the filter returns *)

Definition dtouch (s : shm) (x : N) : shm :=
  Shm (hd s) (nx s) (un s) (held s) (dead s) (fault s || (x =? 0) || mem_N x (dead s)).
Definition reuse (s : shm) (x : N) : shm :=
  Shm (hd s) (nx s) (un s) (held s ++ [x]) (filter (fun y => negb (y =? x)) (dead s)) (fault s).
(** chain.rs:101-103, 116-118: the fiber is destroyed and its node freed. *)
Definition bury (s : shm) (x : N) : shm :=
  Shm (hd s) (nx s) (un s) (held s) (dead s ++ [x]) (fault s).

(** One access of the draining context; [fib]: the list is a fiber chain, so that
    nodes leaving it are destroyed instead of being handed to the caller. *)
Definition daccess (fib : bool) (s : shm) (d : dpos) (spur : bool) : shm * dpos * list devent :=
  match d with
  | DIdle => (s, d, [])
  | DNext p c => if c =? 0 then (s, DIdle, [EEnd]) else (dtouch s c, DFilter p c (nx s c), [])
  | DFilter _ _ _ => (s, d, [])
  | DCut p c n =>
      if p =? 0
      then (s, if hd s =? c then DCas c n else DWalk (hd s) c n, [])
      else (set_nx (dtouch s p) p n, DOut p n c, [])
  | DCas c n =>
      if negb spur && (hd s =? c) then (set_hd s n, DOut 0 n c, [])
      else (s, if hd s =? c then DCas c n else DWalk (hd s) c n, [])
  | DWalk p c n => (dtouch s p, if nx s p =? c then DWrite p c n else DWalk (nx s p) c n, [])
  | DWrite p c n => (set_nx (dtouch s p) p n, DOut p n c, [])
  | DOut p n x => (if fib then bury s x else give_held s x, DNext p n, [EOut x])
  end.

Definition drstep (fib : bool) (s : drstate) (l : dlabel) : drstate * list devent :=
  match l with
  | ACall t x =>
      match dth s t with
      | TIdle =>
          if mem_N x (held (dsh s))
          then (DrState (take_held (dsh s) x) (upd (dth s) t (TPush0 x)) (dpo s), [])
          else (s, [])
      | _ => (s, [])
      end
  | AStep t spur =>
      match dth s t with
      | TPush0 _ | TPush1 _ _ =>
          let (m, c) := taccess 1 0 (dsh s) (dth s t) spur in
          (DrState m (upd (dth s) t c) (dpo s), [])
      | TPush2 x cur =>
          let (m, c) := taccess 1 0 (dsh s) (dth s t) spur in
          (DrState m (upd (dth s) t c) (dpo s),
           if negb spur && (hd (dsh s) =? cur) then [EAdd x] else [])
      | _ => (s, [])
      end
  | ARet t =>
      match dth s t with
      | TDone _ => (DrState (dsh s) (upd (dth s) t TIdle) (dpo s), [])
      | _ => (s, [])
      end
  | APush x =>
      if mem_N x (held (dsh s))
      then (DrState (set_hd (set_nx (take_held (dsh s) x) x (hd (dsh s))) x) (dth s) (dpo s), [EAdd x])
      else (s, [])
  | AWrite x v =>
      if mem_N x (held (dsh s)) then (DrState (set_nx (dsh s) x v) (dth s) (dpo s), []) else (s, [])
  | AFree x =>
      if mem_N x (held (dsh s)) then (DrState (kill_held (dsh s) x) (dth s) (dpo s), []) else (s, [])
  | AReuse x =>
      if mem_N x (dead (dsh s)) && negb (x =? 0)
      then (DrState (reuse (dsh s) x) (dth s) (dpo s), []) else (s, [])
  | DStart =>
      match dpo s with
      | DIdle => (DrState (dsh s) (dth s) (DNext 0 (hd (dsh s))), [EStart])
      | _ => (s, [])
      end
  | DStep spur =>
      let '(m, d, e) := daccess fib (dsh s) (dpo s) spur in (DrState m (dth s) d, e)
  | DCutCs =>
      match dpo s with
      | DCut p c n =>
          if p =? 0
          then if hd (dsh s) =? c then (DrState (set_hd (dsh s) n) (dth s) (DOut 0 n c), [])
               else (DrState (dsh s) (dth s) (DWalk (hd (dsh s)) c n), [])
          else (s, [])
      | _ => (s, [])
      end
  | DAnswer b =>
      match dpo s with
      | DFilter p c n =>
          (DrState (dsh s) (dth s) (if b then DCut p c n else DNext c n), [EVisit c b])
      | _ => (s, [])
      end
  end.

Fixpoint drrun (fib : bool) (s : drstate) (ls : list dlabel) : drstate * list devent :=
  match ls with
  | [] => (s, [])
  | l :: ls' =>
      let (s1, e1) := drstep fib s l in
      let (s2, e2) := drrun fib s1 ls' in
      (s2, e1 ++ e2)
  end.

(** An empty list; callers own [nodes]. *)
Definition drinit (nodes : list N) (link : N -> N) : drstate :=
  DrState (Shm 0 link 0 nodes [] false) (fun _ => TIdle) DIdle.
