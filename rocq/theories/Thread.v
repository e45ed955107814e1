(** Model of [Thread::call] and [Thread::local_checked].

    Source: /repo/src/thr/mod.rs.

    One core with nested interrupts, as in Soft.v: a stack of frames, only the top one
    makes steps.  Whoever runs may run any thread (a hard or soft thread scheduler), any
    number of times, nested.  The fibers of a thread (line 148) are arbitrary code. *)
Require Import NArith List Bool.
From Verif Require Import ThreadSpec.
Import ListNotations.
Open Scope N_scope.

Inductive tframe :=
| TIrq                            (* code outside of the pool *)
| TLoad (i : N)                   (* line 160 *)
| TStore (i preempted : N)        (* line 161 *)
| TBody (i preempted : N)         (* line 162 *)
| TRestore (preempted : N).       (* line 163 *)

Record tst := Tst {
  current : N;                    (* [Thread::current], a [u16] *)
  tstk : list tframe;
  tlog : list tev
}.
Definition tset (s : tst) (c : N) (l : list tframe) (e : list tev) : tst := Tst c l (tlog s ++ e).

(** Lines 133-139. *)
Definition local_checked (s : tst) : option N := if current s =? 0 then None else Some (current s - 1).

Section Pool.
Variable count : N.               (* line 94: [COUNT], a [u16] *)

Inductive tact :=
| TInt                            (* an interrupt *)
| TCall (i : N)                   (* line 158, by the code on top *)
| TLocal                          (* line 133 *)
| TRet                            (* the code on top returns *)
| TGo.                            (* a step of [call] *)

Definition tstep (s : tst) (a : tact) : tst :=
  match a, tstk s with
  | TInt, r => tset s (current s) (TIrq :: r) [EIrq]
  | TCall i, (TIrq | TBody _ _) :: _ => if i <? count then tset s (current s) (TLoad i :: tstk s) [] else s
  | TLocal, (TIrq | TBody _ _) :: _ => tset s (current s) (tstk s) [ELocal (local_checked s)]
  | TRet, TIrq :: r => tset s (current s) r [EIret]
  | TRet, TBody _ p :: r => tset s (current s) (TRestore p :: r) []
  | TGo, TLoad i :: r => tset s (current s) (TStore i (current s) :: r) []
  | TGo, TStore i p :: r => tset s ((i + 1) mod 2 ^ 16) (TBody i p :: r) [EIn i]
  | TGo, TRestore p :: r => tset s p r [EOut]
  | _, _ => s
  end.
Definition trun (s : tst) (l : list tact) : tst := fold_left tstep l s.
End Pool.

(** macros/src/thr_pool.rs lines 263-264. *)
Definition tinit : tst := Tst 0 [] [].

(** ** Fibers made by a factory *)

Record fst_ := Fst {
  fthr : tst;
  fibs : list (N * option N);     (* the fibers: their thread and the storage they refer to *)
  flog : list fev
}.
Inductive fact :=
| FThr (a : tact)                 (* as above *)
| FAdd (i : N)                    (* lines 207-213, by the code on top *)
| FResume (k : nat).              (* line 148: the thread on top resumes one of its fibers *)

(** [FAdd]: the factory is called by the caller, before the fiber is added to the chain of
    the thread [i] (line 212).  The factory considered here asks for the thread-local
    storage; it captures nothing, so it is [Send], as line 209 demands.  The fiber keeps
    the reference, so it need not be [Send], and uses it whenever it is resumed.  Fibers
    are never removed here, and are resumed in any order. *)
Definition ffstep (count : N) (s : fst_) (a : fact) : fst_ :=
  match a with
  | FThr a =>
      let t := tstep count (fthr s) a in
      Fst t (fibs s) (flog s ++ map FEv (skipn (length (tlog (fthr s))) (tlog t)))
  | FAdd i =>
      match tstk (fthr s) with
      | (TIrq | TBody _ _) :: _ =>
          if i <? count then
            let r := local_checked (fthr s) in
            Fst (fthr s) (fibs s ++ [(i, r)]) (flog s ++ [FMake i r])
          else s
      | _ => s
      end
  | FResume k =>
      match tstk (fthr s) with
      | TBody i _ :: _ =>
          match nth_error (fibs s) k with
          | Some (j, r) => if j =? i then Fst (fthr s) (fibs s) (flog s ++ [FUse r]) else s
          | None => s
          end
      | _ => s
      end
  end.
Definition ffrun (count : N) (l : list fact) : fst_ := fold_left (ffstep count) l (Fst tinit [] []).
