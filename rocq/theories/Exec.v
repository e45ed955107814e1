(** Model of the executor and of the fibers it is made of, on the fiber chain of Drain.v.

    Source: /repo/src/thr/exec.rs, /repo/src/fib/closure.rs, /repo/src/fib/generator.rs,
    /repo/src/thr/mod.rs lines 194-213.

    One thread; any number of contexts add fibers to it, also while it runs.  What
    closures, generators and futures answer is arbitrary and comes from the schedule; what
    they do in the meantime is done by the other contexts.  A panic stops everything.
    [XDrop]: the captured state of the closure, generator or future is destroyed; for
    [FiberOnce] and generators this happens as part of the call that completes, for [FiberFn] on
    closure.rs line 41. *)
Require Import NArith List Bool.
From Verif Require Import AtomicSpec Treiber DrainSpec Drain ExecSpec.
Import ListNotations.
Open Scope N_scope.

Inductive fkind := KFn | KOnce | KGen | KExec.
(** closure.rs lines 9-11 and 16-19: the [Option] is [Some] ([alive]); generator.rs lines 9-11:
    the generator has not returned; for [KExec] the closure is the one on exec.rs lines 70-76,
    which owns the future. *)
Record fiber := Fiber { kind : fkind; alive : bool }.

(** What user code answers: it yields or is pending; it returns or is ready, with an error or
    without. *)
Inductive answer := Again | Finish (err : option N).

Record xst := Xst {
  xd : drstate;                   (* the chain *)
  xfib : N -> fiber;              (* the fiber in a node *)
  xcall : bool;                   (* user code is being called *)
  xwake : nat -> option N;        (* contexts that are in [exec_factory] and will call [wakeup] *)
  xstop : bool;                   (* panicked *)
  xlog : list xev
}.

Definition set_fib (f : N -> fiber) (x : N) (a : fiber) : N -> fiber := fun y => if y =? x then a else f y.

Inductive xact :=
| XSys (l : dlabel)                            (* accesses to the chain *)
| XAdd (t : nat) (x : N) (k : fkind) (cs wake : bool)
| XWakeup (t : nat)
| XBegin                                       (* the fiber visited is advanced *)
| XEnd (a : answer).                           (* user code returns *)

(** Actions of the chain that do not create or advance fibers. *)
Definition sys (l : dlabel) : bool :=
  match l with ACall _ _ | APush _ | DAnswer _ => false | _ => true end.

(** closure.rs lines 35-47 and 75-81, generator.rs lines 22-25: may the fiber be resumed?
    [FiberOnce] takes the closure out before calling it (line 76).  Resuming a generator that has
    returned panics as well. *)
Definition begin_ (f : fiber) : option fiber :=
  if alive f then Some (Fiber (kind f) (match kind f with KOnce => false | _ => true end)) else None.
(** The call returns.  closure.rs lines 39-43, 58-63, 90-94, generator.rs lines 34-39, exec.rs
    lines 70-76 with [terminate], lines 94-136: the fiber, whether it has completed, and the
    error to panic with.  [Finish None] also stands for [()]. *)
Definition end_ (f : fiber) (a : answer) : fiber * bool * option N :=
  match kind f, a with
  | KOnce, _ => (f, true, None)
  | (KFn | KGen), Again => (f, false, None)
  | (KFn | KGen), Finish _ => (Fiber (kind f) false, true, None)
  | KExec, Again => (f, false, None)
  | KExec, Finish None => (Fiber KExec false, true, None)
  | KExec, Finish (Some e) => (f, true, Some e)
  end.

Definition xstep (s : xst) (a : xact) : xst :=
  let 'Xst d f c w st lg := s in
  if st then s else
  match a with
  | XSys l =>
      if sys l then let (d', e) := drstep true d l in Xst d' f c w st (lg ++ map XD e) else s
  | XAdd t x k cs wake =>
      (* closure.rs lines 132, 147, 157, generator.rs lines 73, 86, exec.rs lines 68-77: the
         factory is called; thr/mod.rs lines 200, 212, chain.rs lines 37-39: the fiber is
         allocated and added; [cs]: the critical-section build *)
      match dth d t, w t with
      | TIdle, None =>
          if mem_N x (held (dsh d)) then
            let (d', e) := drstep true d (if cs then APush x else ACall t x) in
            let wk := match k with KExec => wake | _ => false end in
            Xst d' (set_fib f x (Fiber k true)) c (upd w t (if wk then Some x else None)) st
              (lg ++ XMake t x wk :: map XD e)
          else s
      | _, _ => s
      end
  | XWakeup t =>
      (* exec.rs line 37 *)
      match dth d t, w t with
      | TIdle, Some x => Xst d f c (upd w t None) st (lg ++ [XWake t x])
      | _, _ => s
      end
  | XBegin =>
      match dpo d, c with
      | DFilter _ x _, false =>
          match begin_ (f x) with
          | Some a => Xst d (set_fib f x a) true w st (lg ++ [XPoll x])
          | None => Xst d f c w true (lg ++ [XDead])
          end
      | _, _ => s
      end
  | XEnd a =>
      match dpo d, c with
      | DFilter _ x _, true =>
          let '(fx, b, err) := end_ (f x) a in
          match err with
          | Some e => Xst d f c w true (lg ++ [XReady x false; XErr e])
          | None =>
              let (d', e) := drstep true d (DAnswer b) in
              Xst d' (set_fib f x fx) false w st
                (lg ++ (if b then [XReady x true; XDrop x] else [XPend x]) ++ map XD e)
          end
      | _, _ => s
      end
  end.

(** An empty chain; [nodes]: the memory available for fibers. *)
Definition xinit (nodes : list N) (link : N -> N) : xst :=
  Xst (drinit nodes link) (fun _ => Fiber KFn false) false (fun _ => None) false [].
Definition xrun (nodes : list N) (link : N -> N) (l : list xact) : xst := fold_left xstep l (xinit nodes link).
