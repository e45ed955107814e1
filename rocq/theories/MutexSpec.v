(** What a mutex promises, as functions of the history of calls.

    Independent of the code.  A history lists calls and their results, wakes, and the
    accesses made through guards; four more events mark instants inside of calls. *)
Require Import NArith List Bool Arith.
Import ListNotations.
Open Scope N_scope.

(** Futures are numbered; wakers are numbers. *)
Inductive mop :=
| TryLock               (* Mutex::try_lock *)
| Poll (f : nat) (w : N)
| DropFut (f : nat)     (* Drop for MutexLockFuture *)
| DropGuard.            (* Drop for MutexGuard *)

Inductive mres :=
| RNone                 (* try_lock: None *)
| RGuard                (* a guard is returned: Some(guard), Ready(guard) *)
| RPending
| RUnit.

Inductive mev :=
| EInv (o : mop)
| ERet (o : mop) (r : mres)
| EGet (v : N)          (* the data is read through a guard *)
| ESet (v : N)          (* the data is written through a guard *)
| EWake (w : N)
| EDropW (w : N)        (* a waker is destroyed without being woken *)
| EFail (f : nat)       (* inside a call on future [f]: an attempt to lock fails *)
| EAcq (f : nat)        (* inside the destructor of [f]: the lock is taken; its release begins *)
| ERel                  (* the lock becomes free *)
| ENotify (f : nat).    (* a release decides to wake future [f] *)

(** ** Mutual exclusion *)

(** The guards in existence. *)
Definition gstep (n : nat) (e : mev) : nat :=
  match e with
  | ERet _ RGuard => S n
  | EInv DropGuard => pred n
  | _ => n
  end.
Definition guards (l : list mev) : nat := fold_left gstep l O.

(** ** The data *)

(** [d_val]: the value left by the last write; [d_bad]: a read returned something
    else, or there was an access without a guard or with several in existence. *)
Record dat := Dat { d_val : N; d_n : nat; d_bad : bool }.
Definition dstep (d : dat) (e : mev) : dat :=
  match e with
  | EGet v => Dat (d_val d) (d_n d) (d_bad d || negb (v =? d_val d) || negb (d_n d =? 1)%nat)
  | ESet v => Dat v (d_n d) (d_bad d || negb (d_n d =? 1)%nat)
  | _ => Dat (d_val d) (gstep (d_n d) e) (d_bad d)
  end.
Definition data (v : N) (l : list mev) : dat := fold_left dstep l (Dat v O false).

(** ** Wakeups of one future *)

(** [u_wait]: the last call on it was a poll that returned Pending.  [u_ws]: the wakers
    passed to its polls.  [u_woken]: one of them was woken since the last poll began. *)
Record futobs := Futobs { u_wait : bool; u_ws : list N; u_woken : bool }.
Definition ustep (f : nat) (u : futobs) (e : mev) : futobs :=
  match e with
  | EInv (Poll f' w) => if (f' =? f)%nat then Futobs false (w :: u_ws u) false else u
  | EInv (DropFut f') => if (f' =? f)%nat then Futobs false (u_ws u) (u_woken u) else u
  | ERet (Poll f' _) RPending => if (f' =? f)%nat then Futobs true (u_ws u) (u_woken u) else u
  | EWake w => Futobs (u_wait u) (u_ws u) (u_woken u || existsb (N.eqb w) (u_ws u))
  | _ => u
  end.
Definition future (f : nat) (l : list mev) : futobs := fold_left (ustep f) l (Futobs false [] false).

(** ** Conditions on histories *)

(** [o_rel]: a guard is being released (the lock is not free yet).  [o_poll]: the futures
    being polled.  [o_not]: the futures that were notified; a future stays so until it
    returns a guard, returns from a poll that began after the notification, or is
    destroyed.  [o_late]: those notified during the poll in progress.  [o_drop]: the
    futures being destroyed.  [o_fail]: a future failed to lock during a release.
    [o_stale]: a release began while some future was notified or being destroyed (other
    than the one whose destructor is the releaser), or a destructor began during a
    release. *)
Record obs := Obs { o_rel : bool; o_poll : list nat; o_not : list nat; o_late : list nat;
                    o_drop : list nat; o_fail : bool; o_stale : bool }.
Definition without (f : nat) (l : list nat) : list nat := filter (fun g => negb (g =? f)%nat) l.
Definition nonempty (l : list nat) : bool := match l with [] => false | _ => true end.
Definition among (f : nat) (l : list nat) : bool := existsb (Nat.eqb f) l.
Definition ostep (s : obs) (e : mev) : obs :=
  match e with
  | EInv DropGuard =>
      Obs true (o_poll s) (o_not s) (o_late s) (o_drop s) (o_fail s)
        (o_stale s || nonempty (o_not s) || nonempty (o_drop s))
  | EAcq f =>
      Obs true (o_poll s) (o_not s) (o_late s) (o_drop s) (o_fail s)
        (o_stale s || nonempty (without f (o_not s)) || nonempty (without f (o_drop s)))
  | ERel => Obs false (o_poll s) (o_not s) (o_late s) (o_drop s) (o_fail s) (o_stale s)
  | EInv (Poll f _) => Obs (o_rel s) (f :: o_poll s) (o_not s) (o_late s) (o_drop s) (o_fail s) (o_stale s)
  | EInv (DropFut f) =>
      Obs (o_rel s) (o_poll s) (o_not s) (o_late s) (f :: o_drop s) (o_fail s) (o_stale s || o_rel s)
  | ENotify f =>
      Obs (o_rel s) (o_poll s) (f :: o_not s) (if among f (o_poll s) then f :: o_late s else o_late s)
        (o_drop s) (o_fail s) (o_stale s)
  | ERet (Poll f _) r =>
      Obs (o_rel s) (without f (o_poll s))
        (match r with
         | RPending => if among f (o_late s) then o_not s else without f (o_not s)
         | _ => without f (o_not s)
         end)
        (without f (o_late s)) (o_drop s) (o_fail s) (o_stale s)
  | ERet (DropFut f) _ =>
      Obs (o_rel s) (o_poll s) (without f (o_not s)) (o_late s) (without f (o_drop s)) (o_fail s) (o_stale s)
  | EFail _ => Obs (o_rel s) (o_poll s) (o_not s) (o_late s) (o_drop s) (o_fail s || o_rel s) (o_stale s)
  | _ => s
  end.
Definition order (l : list mev) : obs := fold_left ostep l (Obs false [] [] [] [] false false).
