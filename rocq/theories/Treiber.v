(** Model of the lock-free intrusive stack used by the memory pool and the linked
    list, with any number of contexts, at the granularity of single accesses to
    shared memory.

    Source: /repo/src/heap/pool.rs lines 60-96 ([allocate], [deallocate],
    [allocate_free], [allocate_uninit]), /repo/src/sync/linked_list.rs lines
    120-208 ([push], [push_raw], [pop], [pop_raw]), /repo/src/atomic_macros.rs
    lines 27-101, /repo/src/sync/soft_atomic.rs lines 85-107.

    A node (block) is identified by its non-zero address; [nx] is the content of
    its link word.  [held] lists the nodes that callers own: returned by
    [allocate]/[pop_raw] and not yet passed to [deallocate]/[push_raw] (initially
    any nodes created by callers).  Owners may overwrite the link word of a node
    they own (it is user memory), and may free it.
    Simplifications: sequentially consistent memory; [size * count] of a pool does
    not overflow. *)
Require Import NArith List Bool.
From Verif Require Import AtomicSpec LinSpec.
Import ListNotations.
Open Scope N_scope.

(** Operations on the shared structure. *)
Inductive top :=
| OPush (x : N)      (* push_raw / deallocate *)
| OPop               (* pop_raw *)
| OAlloc.            (* allocate: pop from the free list, else bump *)

Inductive tres := RPushed | RNode (x : N) | RNone.

(** * Shared memory *)

Record shm := Shm {
  hd : N;              (* [LinkedList::head] / [Pool::free] *)
  nx : N -> N;         (* link words *)
  un : N;              (* [Pool::uninit] *)
  held : list N;
  dead : list N;       (* freed by their owners *)
  fault : bool         (* a link of a freed node has been read *)
}.

Definition nset (f : N -> N) (a v : N) : N -> N := fun a' => if a' =? a then v else f a'.

Fixpoint mem_N (x : N) (l : list N) : bool :=
  match l with [] => false | y :: r => (x =? y) || mem_N x r end.

Fixpoint remove1 (x : N) (l : list N) : list N :=
  match l with [] => [] | y :: r => if x =? y then r else y :: remove1 x r end.

Definition set_hd (s : shm) (v : N) := Shm v (nx s) (un s) (held s) (dead s) (fault s).
Definition set_nx (s : shm) (x v : N) := Shm (hd s) (nset (nx s) x v) (un s) (held s) (dead s) (fault s).
Definition set_un (s : shm) (v : N) := Shm (hd s) (nx s) v (held s) (dead s) (fault s).
Definition take_held (s : shm) (x : N) := Shm (hd s) (nx s) (un s) (remove1 x (held s)) (dead s) (fault s).
Definition give_held (s : shm) (x : N) := Shm (hd s) (nx s) (un s) (held s ++ [x]) (dead s) (fault s).
Definition kill_held (s : shm) (x : N) := Shm (hd s) (nx s) (un s) (remove1 x (held s)) (dead s ++ [x]) (fault s).
(** Reading the link of a node; reading the link of a freed node is a fault. *)
Definition touch (s : shm) (x : N) := Shm (hd s) (nx s) (un s) (held s) (dead s) (fault s || mem_N x (dead s)).

(** * Hardware build *)

Section Machine.
(** Block size and end address of the pool (pool.rs:20-29). *)
Variables size edge : N.

Inductive thr :=
| TIdle
| TPush0 (x : N)
| TPush1 (x cur : N)          (* [curr] loaded *)
| TPush2 (x cur : N)          (* link written, before compare-exchange *)
| TPop0 (al : bool)           (* [al]: part of [allocate] *)
| TPop1 (al : bool) (cur : N)
| TPop2 (al : bool) (cur nxt : N)
| TBump0
| TBump1 (u : N)
| TDone (r : tres).

(** One access of a context; [spur] is a spurious compare-exchange failure. *)
Definition taccess (s : shm) (th : thr) (spur : bool) : shm * thr :=
  match th with
  | TIdle | TDone _ => (s, th)
  (* load_modify_atomic: atomic_macros.rs:83, then the loop 35-45;
     closures: pool.rs:76-80, linked_list.rs:147-150 *)
  | TPush0 x => (s, TPush1 x (hd s))
  | TPush1 x cur => (set_nx s x cur, TPush2 x cur)
  | TPush2 x cur =>
      if negb spur && (hd s =? cur) then (set_hd s x, TDone RPushed)
      else (s, TPush1 x (hd s))
  (* load_try_modify_atomic: atomic_macros.rs:97, then the loop 57-71;
     closures: pool.rs:84-87, linked_list.rs:204-206 *)
  | TPop0 al => (s, TPop1 al (hd s))
  | TPop1 al cur =>
      if cur =? 0 then (s, if al then TBump0 else TDone RNone)
      else (touch s cur, TPop2 al cur (nx s cur))
  | TPop2 al cur nxt =>
      if negb spur && (hd s =? cur) then (set_hd s nxt, TDone (RNode cur))
      else (s, TPop1 al (hd s))
  (* pool.rs:92-94 *)
  | TBump0 => (s, TBump1 (un s))
  | TBump1 u =>
      if u =? edge then (s, TDone RNone)
      else if negb spur && (un s =? u) then (set_un s (u + size), TDone (RNode u))
      else (s, TBump1 (un s))
  end.

Record tstate := TState { sh : shm; th : nat -> thr }.

Inductive tlabel :=
| LInv (t : nat) (o : top)
| LStep (t : nat) (spur : bool)
| LRet (t : nat)
| LWrite (x v : N)      (* the owner of [x] writes to it *)
| LFree (x : N).        (* the owner of [x] frees it *)

Definition begin (o : top) : thr :=
  match o with OPush x => TPush0 x | OPop => TPop0 false | OAlloc => TPop0 true end.

(** Pushing requires ownership of the node, which is given up at the call. *)
Definition may_call (s : shm) (o : top) : bool :=
  match o with OPush x => mem_N x (held s) | _ => true end.
Definition on_call (s : shm) (o : top) : shm :=
  match o with OPush x => take_held s x | _ => s end.
Definition on_return (s : shm) (r : tres) : shm :=
  match r with RNode x => give_held s x | _ => s end.

(** One step; a label that is not enabled does nothing. *)
Definition tstep (s : tstate) (l : tlabel) : tstate * list (lvis top tres) :=
  match l with
  | LInv t o =>
      match th s t with
      | TIdle =>
          if may_call (sh s) o
          then (TState (on_call (sh s) o) (upd (th s) t (begin o)), [LCall t o])
          else (s, [])
      | _ => (s, [])
      end
  | LStep t spur =>
      let (m, c) := taccess (sh s) (th s t) spur in (TState m (upd (th s) t c), [])
  | LRet t =>
      match th s t with
      | TDone r => (TState (on_return (sh s) r) (upd (th s) t TIdle), [LReturn t r])
      | _ => (s, [])
      end
  | LWrite x v =>
      if mem_N x (held (sh s)) then (TState (set_nx (sh s) x v) (th s), []) else (s, [])
  | LFree x =>
      if mem_N x (held (sh s)) then (TState (kill_held (sh s) x) (th s), []) else (s, [])
  end.

Fixpoint trun (s : tstate) (ls : list tlabel) : tstate * list (lvis top tres) :=
  match ls with
  | [] => (s, [])
  | l :: ls' =>
      let (s1, e1) := tstep s l in
      let (s2, e2) := trun s1 ls' in
      (s2, e1 ++ e2)
  end.

(** * Critical-section build *)

(** Phases of an operation: the critical section is pause (interrupts off), load,
    closure (which accesses the link), store, restore (soft_atomic.rs:85-107). *)
Inductive sfr :=
| FIdle
| FBegin (o : top)
| FPaused (sv : bool) (o : top)
| FLoaded (sv : bool) (o : top) (cur : N)
| FComp (sv : bool) (o : top) (cur new : N)    (* closure done, before the store *)
| FStored (sv : bool) (r : tres)               (* before interrupts are restored *)
| FToBump (sv : bool)                          (* free list empty, before restoring *)
| FBump0                                       (* between the critical sections *)
| FBump1 (sv : bool)
| FBump2 (sv : bool) (u : N)
| FDone (r : tres).

Definition saccess (s : shm) (ie : bool) (f : sfr) : shm * bool * sfr :=
  match f with
  | FIdle | FDone _ => (s, ie, f)
  | FBegin o => (s, false, FPaused ie o)
  | FPaused sv o => (s, ie, FLoaded sv o (hd s))
  | FLoaded sv o cur =>
      match o with
      | OPush x => (set_nx s x cur, ie, FComp sv o cur x)
      | OPop | OAlloc =>
          if cur =? 0 then (s, ie, match o with OAlloc => FToBump sv | _ => FStored sv RNone end)
          else (touch s cur, ie, FComp sv o cur (nx s cur))
      end
  | FComp sv o cur new =>
      (set_hd s new, ie, FStored sv (match o with OPush _ => RPushed | _ => RNode cur end))
  | FStored sv r => (s, sv, FDone r)
  | FToBump sv => (s, sv, FBump0)
  | FBump0 => (s, false, FBump1 ie)
  | FBump1 sv => (s, ie, FBump2 sv (un s))
  | FBump2 sv u =>
      if u =? edge then (s, ie, FStored sv RNone)
      else (set_un s (u + size), ie, FStored sv (RNode u))
  end.

(** Contexts form a stack, running one first; context at depth [d] has identity
    [d].  A new context starts (an interrupt is taken) only with interrupts
    enabled. *)
Record sstate := SState { ssh : shm; sie : bool; sfs : list sfr }.

Inductive slabel :=
| SLInv (o : top) | SLStep | SLRet | SLIrq | SLIret | SLWrite (x v : N) | SLFree (x : N).

Definition sstep (s : sstate) (l : slabel) : sstate * list (lvis top tres) :=
  match sfs s with
  | [] => (s, [])
  | f :: rest =>
      let d := length rest in
      match l with
      | SLInv o =>
          match f with
          | FIdle =>
              if may_call (ssh s) o
              then (SState (on_call (ssh s) o) (sie s) (FBegin o :: rest), [LCall d o])
              else (s, [])
          | _ => (s, [])
          end
      | SLStep =>
          let '(m, ie, f') := saccess (ssh s) (sie s) f in (SState m ie (f' :: rest), [])
      | SLRet =>
          match f with
          | FDone r => (SState (on_return (ssh s) r) (sie s) (FIdle :: rest), [LReturn d r])
          | _ => (s, [])
          end
      | SLIrq => if sie s then (SState (ssh s) (sie s) (FIdle :: f :: rest), []) else (s, [])
      | SLIret =>
          match f, rest with
          | FIdle, _ :: _ => (SState (ssh s) (sie s) rest, [])
          | _, _ => (s, [])
          end
      | SLWrite x v =>
          if mem_N x (held (ssh s)) then (SState (set_nx (ssh s) x v) (sie s) (f :: rest), [])
          else (s, [])
      | SLFree x =>
          if mem_N x (held (ssh s)) then (SState (kill_held (ssh s) x) (sie s) (f :: rest), [])
          else (s, [])
      end
  end.

Fixpoint srun (s : sstate) (ls : list slabel) : sstate * list (lvis top tres) :=
  match ls with
  | [] => (s, [])
  | l :: ls' =>
      let (s1, e1) := sstep s l in
      let (s2, e2) := srun s1 ls' in
      (s2, e1 ++ e2)
  end.

End Machine.

(** Initial states: a pool of [count] blocks at [a] (pool.rs:37-44), or an empty
    list with [nodes] owned by callers. *)
Definition shm_init (a : N) (nodes : list N) (link : N -> N) : shm :=
  Shm 0 link a nodes [] false.
Definition tinit (m : shm) : tstate := TState m (fun _ => TIdle).
Definition sinit (m : shm) (ie : bool) : sstate := SState m ie [FIdle].

(** * Specification objects *)

(** The sequential stack. *)
Definition stack_ap (o : top) (l : list N) : list N * tres :=
  match o with
  | OPush x => (x :: l, RPushed)
  | OPop | OAlloc => match l with [] => ([], RNone) | x :: r => (r, RNode x) end
  end.

Fixpoint blocks (a size : N) (count : nat) : list N :=
  match count with O => [] | S n => a :: blocks (a + size) size n end.
