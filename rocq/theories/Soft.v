(** Model of the software-managed threads.

    Source: /repo/src/thr/soft/mod.rs.

    One core with nested interrupts: the code in progress is a stack of frames, only the
    top one makes steps, one access to shared memory each, and at any moment an
    interrupt handler may be pushed.  Thread bodies and handlers are arbitrary: between
    steps they may call any of the functions, or return.  Simplifications: sequentially
    consistent memory; in the critical-section build an atomic operation is one step;
    [Thread::call] (thr/mod.rs) is modelled in Thread.v. *)
Require Import NArith List Bool.
From Verif Require Import SoftSpec.
Import ListNotations.
Open Scope N_scope.

(** Line 8. *)
Definition PRIORITY_LEVELS : N := 27.
(** Line 27. *)
Definition COL_BITS : N := 5.

(** Lines 15-17. *)
Definition row_size (count : N) : N :=
  N.shiftr count COL_BITS + (if 0 <? N.land count (N.shiftl 1 COL_BITS - 1) then 1 else 0).
(** Lines 11-13. *)
Definition pending_size (count : N) : N := 1 + row_size count * PRIORITY_LEVELS.
(** Lines 19-21. *)
Definition cell_idx (count thr_idx priority : N) : N :=
  1 + row_size count * (PRIORITY_LEVELS - 1 - priority) + N.shiftr thr_idx COL_BITS.
(** Lines 23-25. *)
Definition pending_bit (thr_idx : N) : N := N.shiftl 1 (N.land thr_idx (N.shiftl 1 COL_BITS - 1)).

(** Lines 323-325; [u32]. *)
Definition cursor_set_priority (cursor priority : N) : N :=
  N.lor (N.land cursor (N.ones PRIORITY_LEVELS)) (N.shiftl priority PRIORITY_LEVELS mod 2 ^ 32).
(** Lines 308-319: the loop, counting down from [n].  The case of [0] is not reached
    (the Rust code would underflow). *)
Fixpoint find_priority (n : nat) (cursor prev : N) : option N :=
  match n with
  | O => None
  | S m =>
      if N.of_nat n =? prev then None
      else if negb (N.land cursor (N.shiftl 1 (N.of_nat n - 1)) =? 0) then Some (N.of_nat n)
      else find_priority m cursor prev
  end.
(** Lines 308-319: the priority found and the new header. *)
Definition cursor_find_priority (cursor priority prev : N) : option (N * N) :=
  match find_priority (N.to_nat priority) cursor prev with
  | Some p => Some (p, N.ldiff (cursor_set_priority cursor p) (N.shiftl 1 (p - 1)))
  | None => None
  end.

(** Positions in the loop of [preempt]. *)
Inductive lpos :=
| RLoad (thr_idx : N)                      (* line 234 *)
| RBit (thr_idx bit cell : N)              (* line 243 *)
| RMod (thr_idx bit cell : N)              (* line 244 *)
| RCall (thr_idx bit cell : N)             (* line 247: before the body *)
| RBody (thr_idx bit cell : N)             (* line 247: in the body *)
| RNext                                    (* line 272 *)
| RNextC (cursor : N).                     (* line 272, in the loop of modify_atomic! *)

Inductive frame :=
| FIrq                                     (* a handler or the main program *)
| FEnd (e : sev)                           (* a function returns *)
| FPrio (i : N) (auto : bool)              (* line 109; [auto]: called by set_pending *)
| FCell (i p : N) (auto : bool)            (* line 293 *)
| FHead (i p : N) (auto : bool)            (* line 294 *)
| FStart                                   (* line 221 *)
| FStartC (cursor : N)                     (* line 221, in the loop of try_modify_atomic! *)
| FLoop (ptr priority prev : N) (q : lpos)
| FClr (i : N) | FClrC (i p : N)           (* lines 162, 299 *)
| FIs (i : N) | FIsC (i p : N).            (* lines 174, 303 *)

Record sst := Sst {
  pm : N -> N;            (* [pending]: index 0 is the header *)
  pr : N -> N;            (* the priorities of the threads *)
  stk : list frame;       (* the latest first *)
  oob : bool;             (* memory outside of [pending] was accessed *)
  slog : list sev
}.

Definition set_stk (s : sst) (l : list frame) : sst := Sst (pm s) (pr s) l (oob s) (slog s).
Definition semit (s : sst) (e : sev) : sst := Sst (pm s) (pr s) (stk s) (oob s) (slog s ++ [e]).
Definition put (s : sst) (c w : N) : sst :=
  Sst (fun d => if d =? c then w else pm s d) (pr s) (stk s) (oob s) (slog s).
Definition set_pr (s : sst) (i p : N) : sst :=
  Sst (pm s) (fun j => if j =? i then p else pr s j) (stk s) (oob s) (slog s).

Section Build.
Variable count : N.          (* [Thread::COUNT], a [u16] *)
Variable atomics : bool.     (* whether the hardware has atomic operations *)

(** The element [c] of [pending] is accessed. *)
Definition access (s : sst) (c : N) : sst :=
  Sst (pm s) (pr s) (stk s) (oob s || (pending_size count <=? c)) (slog s).

(** Lines 250-257: after a bit. *)
Definition after_bit (ptr pri prev thr_idx bit cell : N) : frame :=
  let thr_idx := (thr_idx + 1) mod 2 ^ 16 in
  if thr_idx =? count then FLoop ptr pri prev RNext
  else
    let bit := N.shiftl bit 1 mod 2 ^ 32 in
    if bit =? 0 then FLoop (ptr + 1) pri prev (RLoad thr_idx)
    else FLoop ptr pri prev (RBit thr_idx bit cell).

(** Line 221: the closure on the header [c]: the priority found, the previous one, the
    new header. *)
Definition start_new (c : N) : option (N * N * N) :=
  let prev := N.shiftr c PRIORITY_LEVELS in
  match cursor_find_priority c PRIORITY_LEVELS prev with
  | Some (p, c') => Some (p, prev, c')
  | None => None
  end.
(** Lines 221-228, 131: the header has been replaced. *)
Definition started (p prev : N) : frame :=
  FLoop (1 + row_size count * (PRIORITY_LEVELS - p)) p prev (RLoad 0).

(** Lines 272-276: the next priority and the new header. *)
Definition next_new (c pri prev : N) : N * N :=
  match cursor_find_priority c (pri - 1) prev with
  | Some x => x
  | None => (prev, cursor_set_priority c prev)
  end.
(** Lines 277-284: the header has been replaced; the loop goes on or returns. *)
Definition nexted (s : sst) (ptr pri prev : N) (r : list frame) (c : N) : sst :=
  let (p, c') := next_new c pri prev in
  let s := put s 0 c' in
  if p =? prev then semit (set_stk s r) EBack
  else semit (set_stk s (FLoop (ptr + row_size count * (pri - p)) p prev (RLoad 0) :: r)) (ENext (p - 1)).

(** A step of a loop of [preempt] (lines 129-134, 231-285); [r]: the frames below it. *)
Definition lstep (s : sst) (ptr pri prev : N) (q : lpos) (r : list frame) (spur : bool) : sst :=
  let at_ q := FLoop ptr pri prev q in
  match q with
  | RLoad thr_idx =>
      let s := access s ptr in
      if pm s ptr =? 0 then
        let thr_idx := (thr_idx + N.shiftl 1 COL_BITS) mod 2 ^ 16 in
        if count <=? thr_idx then set_stk s (at_ RNext :: r)
        else set_stk s (FLoop (ptr + 1) pri prev (RLoad thr_idx) :: r)
      else set_stk s (at_ (RBit thr_idx 1 (pm s ptr)) :: r)
  | RBit thr_idx bit cell =>
      if negb (N.land cell bit =? 0) then set_stk s (at_ (RMod thr_idx bit cell) :: r)
      else set_stk s (after_bit ptr pri prev thr_idx bit cell :: r)
  | RMod thr_idx bit cell =>
      let s := access s ptr in
      let w := pm s ptr in
      if atomics && ((negb (w =? cell)) || spur) then set_stk s (at_ (RMod thr_idx bit w) :: r)
      else
        semit (set_stk (put s ptr (N.ldiff w bit)) (at_ (RCall thr_idx bit w) :: r)) (ETake thr_idx (pri - 1))
  | RCall thr_idx bit cell =>
      semit (set_stk s (at_ (RBody thr_idx bit cell) :: r)) (EResume thr_idx (pri - 1))
  | RBody _ _ _ => s
  | RNext =>
      let s := access s 0 in
      if atomics then set_stk s (at_ (RNextC (pm s 0)) :: r) else nexted s ptr pri prev r (pm s 0)
  | RNextC c =>
      let s := access s 0 in
      if (pm s 0 =? c) && negb spur then nexted s ptr pri prev r c
      else set_stk s (at_ (RNextC (pm s 0)) :: r)
  end.

(** One step of the frame on top.  [spur]: a compare_exchange_weak fails spuriously. *)
Definition fstep (s : sst) (spur : bool) : sst :=
  match stk s with
  | [] => s
  | f :: r =>
      match f with
      | FIrq => s
      | FEnd e => semit (set_stk s r) e
      | FPrio i auto => set_stk s (FCell i (pr s i) auto :: r)
      | FCell i p auto =>
          let c := cell_idx count i p in
          let s := access s c in
          let w := pm s c in
          let s := semit (put s c (N.lor w (pending_bit i))) (EPend i p) in
          if N.land w (pending_bit i) =? 0 then set_stk s (FHead i p auto :: r)
          else set_stk s (FEnd (if auto then EWoken i else EWill i false) :: r)
      | FHead i p auto =>
          let s := access s 0 in
          let w := pm s 0 in
          let s := semit (put s 0 (N.lor w (N.shiftl 1 p))) (EMark i p) in
          if N.shiftr w PRIORITY_LEVELS <? p + 1 then
            if auto then set_stk s (FStart :: FEnd (EWoken i) :: r)
            else set_stk s (FEnd (EWill i true) :: r)
          else set_stk s (FEnd (if auto then EWoken i else EWill i false) :: r)
      | FStart =>
          let s := access s 0 in
          match start_new (pm s 0) with
          | None => set_stk s r
          | Some (p, prev, c') =>
              if atomics then set_stk s (FStartC (pm s 0) :: r)
              else semit (set_stk (put s 0 c') (started p prev :: r)) (ESel (p - 1))
          end
      | FStartC c =>
          let s := access s 0 in
          if (pm s 0 =? c) && negb spur then
            match start_new c with
            | None => set_stk s r
            | Some (p, prev, c') => semit (set_stk (put s 0 c') (started p prev :: r)) (ESel (p - 1))
            end
          else
            match start_new (pm s 0) with
            | None => set_stk s r
            | Some _ => set_stk s (FStartC (pm s 0) :: r)
            end
      | FLoop ptr pri prev q => lstep s ptr pri prev q r spur
      | FClr i => set_stk s (FClrC i (pr s i) :: r)
      | FClrC i p =>
          let c := cell_idx count i p in
          let s := access s c in
          semit (set_stk (put s c (N.ldiff (pm s c) (pending_bit i))) r) (EClear i p)
      | FIs i => set_stk s (FIsC i (pr s i) :: r)
      | FIsC i p =>
          let c := cell_idx count i p in
          let s := access s c in
          semit (set_stk s r) (EIs i p (negb (N.land (pm s c) (pending_bit i) =? 0)))
      end
  end.

(** What a thread body or a handler does. *)
Inductive sop :=
| SetPending (i : N)            (* lines 88-92, 148-150; wake.rs lines 18-20 *)
| WillPreempt (i : N)           (* lines 104-117 *)
| Preempt                       (* lines 121-137 *)
| ClearPending (i : N)          (* lines 154-162 *)
| IsPending (i : N)             (* lines 166-174 *)
| SetPriority (i p : N)         (* lines 189-192 *)
| Return.

Definition opstep (s : sst) (o : sop) : sst :=
  match stk s with
  | (FIrq | FLoop _ _ _ (RBody _ _ _)) :: _ =>
      match o with
      | SetPending i => if i <? count then semit (set_stk s (FPrio i true :: stk s)) (EWake i) else s
      | WillPreempt i => if i <? count then semit (set_stk s (FPrio i false :: stk s)) (EWake i) else s
      | Preempt => set_stk s (FStart :: stk s)
      | ClearPending i => if i <? count then set_stk s (FClr i :: stk s) else s
      | IsPending i => if i <? count then set_stk s (FIs i :: stk s) else s
      | SetPriority i p =>      (* line 190: a panic changes nothing *)
          if (i <? count) && (p <? PRIORITY_LEVELS) then semit (set_pr s i p) (EPrio i p) else s
      | Return =>
          match stk s with
          | FLoop ptr pri prev (RBody thr_idx bit cell) :: r =>
              semit (set_stk s (after_bit ptr pri prev thr_idx bit cell :: r)) (EDone thr_idx)
          | _ :: r => set_stk s r
          | [] => s
          end
      end
  | _ => s
  end.

Inductive sact :=
| Irq                     (* an interrupt *)
| Do (o : sop)            (* by the frame on top *)
| Go (spur : bool).

Definition sstep (s : sst) (a : sact) : sst :=
  match a with
  | Irq => set_stk s (FIrq :: stk s)
  | Do o => opstep s o
  | Go spur => fstep s spur
  end.
Fixpoint srun (s : sst) (l : list sact) : sst :=
  match l with [] => s | a :: r => srun (sstep s a) r end.
End Build.

(** macros/src/thr_soft.rs lines 169-171, 211-216: everything is 0. *)
Definition sinit : sst := Sst (fun _ => 0) (fun _ => 0) [] false [].
