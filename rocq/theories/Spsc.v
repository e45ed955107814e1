(** Machine for the single-producer single-consumer channels.

    Every method of the two halves is written as a [prog]: a tree of accesses to the
    shared allocation, one node per access, mirroring the Rust statement by statement.
    Two contexts, one per half, execute such programs in any interleaving of their
    accesses.

    Source: /repo/src/sync/spsc/, /repo/src/atomic_macros.rs,
    /repo/src/sync/soft_atomic.rs.

    Simplifications: sequential consistency (the [Ordering] arguments are recorded in the
    programs but have no effect here; Weak.v runs the same programs on a memory where
    they matter); payloads, errors and wakers are numbers (clones of a waker carry its number);
    waking a waker is an event (what it does is another context's business). *)
Require Import NArith List Bool.
Import ListNotations.
Open Scope N_scope.

Inductive side := TX | RX.

(** [core::sync::atomic::Ordering]. *)
Inductive ord := Relaxed | Acquire | Release | AcqRel.

(** The non-atomic [UnsafeCell<MaybeUninit<_>>] cells of a [Shared] block
    (oneshot/mod.rs:78-83, pulse/mod.rs:92-97, ring/mod.rs:103-114); the data cell of
    the oneshot is [CBuf 0]. *)
Inductive cell := CBuf (i : N) | CErr | CRxW | CTxW.
Definition cell_eqb (a b : cell) : bool :=
  match a, b with
  | CBuf i, CBuf j => i =? j
  | CErr, CErr | CRxW, CRxW | CTxW, CTxW => true
  | _, _ => false
  end.

(** The shared block.  [None] is an uninitialised (or moved-out) cell.  [uaf] records
    an access after the block was freed; [bad] records reading an uninitialised or
    moved-out cell, overwriting an initialised cell (its contents would never be
    destroyed), or freeing twice.  Both are sticky. *)
Record mem := Mem { st : N; cells : cell -> option N; freed : bool; uaf : bool; bad : bool }.
Definition mem0 : mem := Mem 0 (fun _ => None) false false false.

Definition upd (f : cell -> option N) (c : cell) (v : option N) : cell -> option N :=
  fun x => if cell_eqb x c then v else f x.

(** Any access to the block. *)
Definition touch (m : mem) : mem :=
  Mem (st m) (cells m) (freed m) (uaf m || freed m) (bad m).
Definition set_st (m : mem) (s : N) : mem := Mem s (cells m) (freed m) (uaf m) (bad m).
(** [MaybeUninit::write]. *)
Definition write (m : mem) (c : cell) (v : N) : mem :=
  let m := touch m in
  Mem (st m) (upd (cells m) c (Some v)) (freed m) (uaf m)
    (bad m || match cells m c with Some _ => true | None => false end).
(** [assume_init_read]: moves the value out. *)
Definition take (m : mem) (c : cell) : mem * N :=
  let m := touch m in
  match cells m c with
  | Some v => (Mem (st m) (upd (cells m) c None) (freed m) (uaf m) (bad m), v)
  | None => (Mem (st m) (cells m) (freed m) (uaf m) true, 0)
  end.
(** [assume_init_ref]. *)
Definition peek (m : mem) (c : cell) : mem * N :=
  let m := touch m in
  match cells m c with
  | Some v => (m, v)
  | None => (Mem (st m) (cells m) (freed m) (uaf m) true, 0)
  end.
(** [drop(Box::from_raw(ptr))]. *)
Definition free (m : mem) : mem :=
  Mem (st m) (cells m) true (uaf m) (bad m || freed m).

(** Programs; [N] values are state words, cell contents and loop indices. *)
Inductive prog (R : Type) : Type :=
| Done (r : R)
| Load (r : ord) (k : N -> prog R)                       (* load_atomic! *)
| Rmw (r c : ord) (old : option N) (f : N -> N) (k : N -> prog R)
                                                         (* [None]: load_modify_atomic!;
                                                            [Some old]: modify_atomic!; the
                                                            orderings of the load and of a
                                                            failure, and of the exchange *)
| Write (c : cell) (v : N) (k : prog R)
| Take (c : cell) (k : N -> prog R)
| Peek (c : cell) (k : N -> prog R)
| Wake (w : N) (k : prog R)
| DropW (w : N) (k : prog R)                             (* a waker goes out of scope *)
| DropV (v : N) (k : prog R)                             (* a payload or error is destroyed *)
| Free (k : prog R).
Arguments Done {R}. Arguments Load {R}. Arguments Rmw {R}. Arguments Write {R}.
Arguments Take {R}. Arguments Peek {R}. Arguments Wake {R}. Arguments DropW {R}.
Arguments DropV {R}. Arguments Free {R}.

(** What can be observed of an execution. *)
Inductive ev (O R : Type) : Type :=
| EInv (o : O)                (* a method is called *)
| ERet (o : O) (r : R)        (* it returns *)
| EWake (s : side) (w : N)    (* side [s] wakes waker [w] *)
| EDropW (s : side) (w : N)
| EDropV (s : side) (v : N)
| ESync (s : side)            (* a read-modify-write of the state word took effect *)
| EAcc (s : side).            (* any other access to the block; these two are not visible
                                 to users, they mark when a call takes effect *)
Arguments EInv {O R}. Arguments ERet {O R}. Arguments EWake {O R}.
Arguments EDropW {O R}. Arguments EDropV {O R}. Arguments ESync {O R}. Arguments EAcc {O R}.

Section Machine.
  Context {O R : Type}.
  Variable side_of : O -> side.
  Variable consuming : O -> bool.   (* takes the half by value, or is its destructor *)
  Variable code : O -> prog R.
  (** The [atomics] feature: hardware atomics, or read-modify-write with interrupts
      paused. *)
  Variable atomics : bool.

  Inductive thr := Idle | Run (o : O) (p : prog R) | Gone.

  Record sys := Sys { smem : mem; stx : thr; srx : thr; slog : list (ev O R) }.
  Definition sys0 : sys := Sys mem0 Idle Idle [].

  (** One access of a running program.  [spur]: a compare_exchange_weak fails though
      the values are equal.  atomic_macros.rs lines 27-47 and 75-87;
      soft_atomic.rs lines 85-92. *)
  Definition pstep (s : side) (o : O) (p : prog R) (m : mem) (spur : bool)
    : mem * list (ev O R) * thr :=
    match p with
    | Done r => (m, [ERet o r], if consuming o then Gone else Idle)
    | Load _ k => (touch m, [EAcc s], Run o (k (st m)))
    | Rmw r c old f k =>
        if atomics then
          match old with
          | None => (touch m, [EAcc s], Run o (Rmw r c (Some (st m)) f k))
          | Some old =>
              if spur || negb (st m =? old) then (touch m, [EAcc s], Run o (Rmw r c (Some (st m)) f k))
              else (set_st (touch m) (f old), [ESync s], Run o (k old))
          end
        else (set_st (touch m) (f (st m)), [ESync s], Run o (k (st m)))
    | Write c v k => (write m c v, [EAcc s], Run o k)
    | Take c k => let (m', v) := take m c in (m', [EAcc s], Run o (k v))
    | Peek c k => let (m', v) := peek m c in (m', [EAcc s], Run o (k v))
    | Wake w k => (m, [EWake s w], Run o k)
    | DropW w k => (m, [EDropW s w], Run o k)
    | DropV v k => (m, [EDropV s v], Run o k)
    | Free k => (free m, [], Run o k)
    end.

  Inductive act := Call (o : O) | Step (s : side) (spur : bool).

  Definition thr_of (x : sys) (s : side) : thr := match s with TX => stx x | RX => srx x end.
  Definition put (x : sys) (s : side) (m : mem) (e : list (ev O R)) (t : thr) : sys :=
    match s with
    | TX => Sys m t (srx x) (slog x ++ e)
    | RX => Sys m (stx x) t (slog x ++ e)
    end.

  (** A half is called only while it exists and has no call in progress ([&mut self],
      [self]); other actions do nothing. *)
  Definition step (x : sys) (a : act) : sys :=
    match a with
    | Call o =>
        match thr_of x (side_of o) with
        | Idle => put x (side_of o) (smem x) [EInv o] (Run o (code o))
        | _ => x
        end
    | Step s spur =>
        match thr_of x s with
        | Run o p => let '(m, e, t) := pstep s o p (smem x) spur in put x s m e t
        | _ => x
        end
    end.

  Fixpoint run (x : sys) (sched : list act) : sys :=
    match sched with [] => x | a :: r => run (step x a) r end.
End Machine.
Arguments thr : clear implicits.
Arguments sys : clear implicits.
Arguments act : clear implicits.

(** What users see of a history. *)
Definition visible {O R} (l : list (ev O R)) : list (ev O R) :=
  filter (fun e => match e with ESync _ | EAcc _ => false | _ => true end) l.

(** [state & FLAG != 0]. *)
Definition has (s b : N) : bool := negb (N.land s b =? 0).
