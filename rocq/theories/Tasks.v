(** The executor on a software-managed thread: Exec.v as the body of thread [me] of Soft.v.

    Source: /repo/src/thr/mod.rs lines 147-149 ([resume] drains the fiber chain), /repo/src/thr/exec.rs
    lines 30-38 ([exec_factory]: add, then wake up), /repo/src/thr/soft/mod.rs lines 203-213 and
    /repo/src/thr/soft/wake.rs ([wakeup], wakers: set_pending).

    One core: the drain goes on only while the thread is on top of the stack of Soft.v.  All else that
    thread bodies and handlers do is arbitrary, also inside of futures: calls of the scheduler
    (wakers are such calls), adding fibers.  A panic stops everything.
    Simplifications: those of Soft.v and Exec.v; the fibers of the other threads are left out. *)
Require Import NArith List Bool.
From Verif Require Import SoftSpec Soft AtomicSpec Treiber DrainSpec Drain ExecSpec Exec TasksSpec.
Import ListNotations.
Open Scope N_scope.

Record tst := Tst {
  ts : sst;
  tx : xst;
  tbad : bool;            (* the body was entered while draining: not modelled further *)
  tlog : list tev
}.

Inductive tact := TSoft (a : sact) | TExec (a : xact).

(** What user code is on top of the stack: a handler, or the body of a thread. *)
Definition top_user (s : sst) : bool :=
  match stk s with (FIrq | FLoop _ _ _ (RBody _ _ _)) :: _ => true | _ => false end.
Definition top_body (s : sst) (me : N) : bool :=
  match stk s with FLoop _ _ _ (RBody i _ _) :: _ => i =? me | _ => false end.
Definition at_rest (d : drstate) : bool := match dpo d with DIdle => true | _ => false end.

(** Both parts with the events they have logged. *)
Definition by_soft (s : tst) (s' : sst) : tst :=
  Tst s' (tx s) (tbad s) (tlog s ++ map TS (skipn (length (slog (ts s))) (slog s'))).
Definition by_exec (s : tst) (x' : xst) : tst :=
  Tst (ts s) x' (tbad s) (tlog s ++ map TX (skipn (length (xlog (tx s))) (xlog x'))).

Section Build.
Variable count : N.
Variable atomics : bool.
Variable me : N.

Definition tsoft (s : tst) (a : sact) : tst :=
  let s' := by_soft s (Soft.sstep count atomics (ts s) a) in
  match stk (ts s), a with
  | FLoop _ _ _ (RCall i _ _) :: _, Go _ =>
      (* thr/mod.rs lines 147-149 *)
      if i =? me then
        if at_rest (xd (tx s)) then by_exec s' (Exec.xstep (tx s') (XSys DStart))
        else Tst (ts s') (tx s') true (tlog s')
      else s'
  | FLoop _ _ _ (RBody i _ _) :: _, Do Return =>
      (* the body returns after the drain *)
      if (i =? me) && negb (at_rest (xd (tx s))) then s else s'
  | _, _ => s'
  end.

Definition texec (s : tst) (a : xact) : tst :=
  let s' := by_exec s (Exec.xstep (tx s) a) in
  match a with
  | XSys DStart => s
  | XSys (DStep _ | DCutCs) | XBegin | XEnd _ => if top_body (ts s) me then s' else s
  | XWakeup t =>
      (* thr/exec.rs line 37, thr/soft/mod.rs line 206 *)
      match top_user (ts s), dth (xd (tx s)) t, xwake (tx s) t with
      | true, TIdle, Some _ => by_soft s' (Soft.sstep count atomics (ts s') (Do (SetPending me)))
      | _, _, _ => s
      end
  | _ => if top_user (ts s) then s' else s
  end.

Definition tstep (s : tst) (a : tact) : tst :=
  if xstop (tx s) || tbad s then s
  else match a with TSoft a => tsoft s a | TExec a => texec s a end.
Definition tinit (nodes : list N) (link : N -> N) : tst := Tst Soft.sinit (xinit nodes link) false [].
Definition trun (nodes : list N) (link : N -> N) (l : list tact) : tst := fold_left tstep l (tinit nodes link).
End Build.
