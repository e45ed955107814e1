(** Model of the two implementations of atomic words.

    Source: /repo/src/atomic_macros.rs (both builds),
    /repo/src/sync/soft_atomic.rs lines 66-107,
    /repo/src/platform/interrputs.rs lines 35-105,
    /repo/src/reg/atomic.rs lines 88-198, /repo/src/reg/soft_atomic.rs lines 86-185.

    Simplification: memory is sequentially consistent; the Ordering arguments
    are not modelled. *)
Require Import NArith List Bool Arith.
From Verif Require Import AtomicSpec.
Import ListNotations.

(** * Hardware build: compare-exchange loops *)

Inductive cthread :=
| CIdle
| CBegin (o : op)            (* invoked, no access yet *)
| CHave (o : op) (old : N)   (* in the loop with [$old] *)
| CDone (r : res).

Record cstate := CState { cw : N; cth : nat -> cthread }.

(** [compare_exchange_weak(old, new)]: [spur] makes it fail spuriously.
    The failure value is the actual word (core::sync::atomic). *)
Definition cas_weak (w old new : N) (spur : bool) : N * option N :=
  if negb spur && N.eqb w old then (new, None) else (w, Some w).

(** One shared-memory access of a context that has an operation in progress.
    atomic_macros.rs: load_atomic 7-10, store_atomic 20-23, modify_atomic 34-45,
    try_modify_atomic 56-71, load_modify_atomic 81-85,
    load_try_modify_atomic 95-99, swap_atomic 109-112, fetch_or/and 122-125,
    135-138.  reg/atomic.rs:99-107, 115-123, 139-147 is the same loop as
    load_modify_atomic with the result ignored. *)
Definition caccess (w : N) (th : cthread) (spur : bool) : N * cthread :=
  match th with
  | CIdle => (w, CIdle)
  | CDone r => (w, CDone r)
  | CBegin o =>
      match o with
      | Load => (w, CDone (RVal w))
      | Store v => (v, CDone RUnit)
      | Swap v => (v, CDone (RVal w))
      | Fetch f => (f w, CDone (RVal w))
      | Modify f => (w, CHave o w)
      | ModifyFrom held f => (w, CHave o held)
      | TryModify f => (w, CHave o w)
      end
  | CHave o old =>
      match o with
      | Modify f | ModifyFrom _ f =>
          match cas_weak w old (f old) spur with
          | (w', None) => (w', CDone (RVal old))
          | (w', Some cur) => (w', CHave o cur)
          end
      | TryModify f =>
          match f old with
          | Some new =>
              match cas_weak w old new spur with
              | (w', None) => (w', CDone (ROk old))
              | (w', Some cur) => (w', CHave o cur)
              end
          | None => (w, CDone (RErr old))
          end
      | _ => (w, th)
      end
  end.

(** Scheduler choices. *)
Inductive clabel :=
| CInv (t : nat) (o : op)
| CStep (t : nat) (spur : bool)
| CRet (t : nat).

(** One step; a label that is not enabled does nothing. *)
Definition cstep (s : cstate) (l : clabel) : cstate * list vis :=
  match l with
  | CInv t o =>
      match cth s t with
      | CIdle => (CState (cw s) (upd (cth s) t (CBegin o)), [Inv t o])
      | _ => (s, [])
      end
  | CStep t spur =>
      let (w', th') := caccess (cw s) (cth s t) spur in
      (CState w' (upd (cth s) t th'), [])
  | CRet t =>
      match cth s t with
      | CDone r => (CState (cw s) (upd (cth s) t CIdle), [Ret t r])
      | _ => (s, [])
      end
  end.

Fixpoint crun (s : cstate) (ls : list clabel) : cstate * list vis :=
  match ls with
  | [] => (s, [])
  | l :: ls' =>
      let (s1, e1) := cstep s l in
      let (s2, e2) := crun s1 ls' in
      (s2, e1 ++ e2)
  end.

Definition cinit (w : N) : cstate := CState w (fun _ => CIdle).

(** * Critical-section build: preempting contexts on one core *)

Inductive sframe :=
| SIdle
| SBegin (o : op)
| SPaused (save : bool) (o : op)                 (* interrupts disabled *)
| SLoaded (save : bool) (o : op) (old : N)       (* after [self.load()] *)
| SStored (save : bool) (r : res)                (* before the handle is dropped *)
| SDone (r : res).

(** [sie] is the interrupt enable state, [stk] the contexts, innermost (running)
    first.  The context at depth [d] (outermost 0) has identity [d]. *)
Record sstate := SState { sw : N; sie : bool; stk : list sframe }.

(** The next access of the running context.
    soft_atomic.rs: load 67-69 and store 73-75 are single word accesses without a
    critical section; swap 79-81, modify 85-92 and try_modify 97-107 run
    pause; load; (store); restore.  reg/soft_atomic.rs:96-98, 106-110, 125-134
    are the same sequence. *)
Definition saccess (w : N) (ie : bool) (f : sframe) : N * bool * sframe :=
  match f with
  | SIdle => (w, ie, SIdle)
  | SDone r => (w, ie, SDone r)
  | SBegin o =>
      match o with
      | Load => (w, ie, SDone (RVal w))
      | Store v => (v, ie, SDone RUnit)
      | _ => (w, false, SPaused ie o)
      end
  | SPaused sv o => (w, ie, SLoaded sv o w)
  | SLoaded sv o old =>
      match o with
      | Swap v => (v, ie, SStored sv (RVal old))
      | Fetch f | Modify f | ModifyFrom _ f => (f old, ie, SStored sv (RVal old))
      | TryModify f =>
          match f old with
          | Some new => (new, ie, SStored sv (ROk old))
          | None => (w, ie, SStored sv (RErr old))
          end
      | Load => (w, ie, SStored sv (RVal old))
      | Store v => (v, ie, SStored sv RUnit)
      end
  | SStored sv r => (w, sv, SDone r)
  end.

Inductive slabel :=
| SLInv (o : op)
| SLStep
| SLRet
| SLIrq        (* an interrupt is taken: a new context preempts *)
| SLIret.      (* the running handler returns *)

(** One step; a label that is not enabled does nothing. *)
Definition sstep (s : sstate) (l : slabel) : sstate * list vis :=
  match stk s with
  | [] => (s, [])
  | f :: rest =>
      let d := length rest in
      match l with
      | SLInv o =>
          match f with
          | SIdle => (SState (sw s) (sie s) (SBegin o :: rest), [Inv d o])
          | _ => (s, [])
          end
      | SLStep =>
          let '(w', ie', f') := saccess (sw s) (sie s) f in
          (SState w' ie' (f' :: rest), [])
      | SLRet =>
          match f with
          | SDone r => (SState (sw s) (sie s) (SIdle :: rest), [Ret d r])
          | _ => (s, [])
          end
      | SLIrq =>
          if sie s then (SState (sw s) (sie s) (SIdle :: f :: rest), []) else (s, [])
      | SLIret =>
          match f, rest with
          | SIdle, _ :: _ => (SState (sw s) (sie s) rest, [])
          | _, _ => (s, [])
          end
      end
  end.

Fixpoint srun (s : sstate) (ls : list slabel) : sstate * list vis :=
  match ls with
  | [] => (s, [])
  | l :: ls' =>
      let (s1, e1) := sstep s l in
      let (s2, e2) := srun s1 ls' in
      (s2, e1 ++ e2)
  end.

(** One thread-mode context, interrupts in state [ie]. *)
Definition sinit (w : N) (ie : bool) : sstate := SState w ie [SIdle].

(** * Critical sections *)

(** A program using closures passed to [Interrupts::paused]; [CObs] stands for
    any code, at which the interrupt state is observed. *)
Inductive cs_prog :=
| CObs
| CSeq (p q : cs_prog)
| CPaused (body : cs_prog).

(** interrputs.rs:61-68 [pause], 91-94 [paused], 97-105 [drop]: [paused] saves the
    state, disables, runs the closure and restores.  The result is the final
    interrupt-enable state and the list of observations (nesting depth, enabled). *)
Fixpoint cs_exec (p : cs_prog) (depth : nat) (ie : bool) : bool * list (nat * bool) :=
  match p with
  | CObs => (ie, [(depth, ie)])
  | CSeq p q =>
      let (ie1, o1) := cs_exec p depth ie in
      let (ie2, o2) := cs_exec q depth ie1 in
      (ie2, o1 ++ o2)
  | CPaused b =>
      let save := ie in
      let (_, o) := cs_exec b (S depth) false in
      (save, o)
  end.

(** First-class handles: [HPause] creates a handle, [HDrop k] drops the [k]-th
    oldest live handle.  interrputs.rs:61-68, 97-105. *)
Inductive hop := HPause | HDrop (k : nat).

Fixpoint remove_nth {A} (k : nat) (l : list A) : list A :=
  match k, l with
  | _, [] => []
  | O, _ :: l' => l'
  | S k', x :: l' => x :: remove_nth k' l'
  end.

Definition hstep (s : bool * list bool) (o : hop) : bool * list bool :=
  let (ie, hs) := s in
  match o with
  | HPause => (false, hs ++ [ie])
  | HDrop k =>
      match nth_error hs k with
      | Some save => (save, remove_nth k hs)
      | None => s
      end
  end.

Definition hrun (s : bool * list bool) (os : list hop) := fold_left hstep os s.
