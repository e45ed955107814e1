(** Model of the mutex: any number of contexts, guards and lock futures, at the
    granularity of single accesses to shared memory.

    Source: /repo/src/sync/mutex.rs; the list of waiters is that of [Drain]
    (/repo/src/sync/linked_list.rs), which this model runs step by step.

    Guards and futures are not tied to contexts.  A waker is a number.
    Simplifications: sequentially consistent memory; in the critical-section build an
    atomic operation is one step (see Atomics.v). [lock] (line 134) only creates a
    future: future [f] exists from the start, without a waiter. *)
Require Import NArith List Bool.
From Verif Require Import AtomicSpec Treiber DrainSpec Drain MutexSpec.
Import ListNotations.
Open Scope N_scope.

(** A future: whether it is borrowed by a call, and its field [waiter] (line 62): the
    address of a node, with the number of times the node had been freed when the
    pointer was made. *)
Inductive fstate :=
| FLive (busy : bool) (w : option (N * nat))
| FGone.

(** Positions in [unlock]. *)
Inductive upos :=
| UStart                            (* line 161 *)
| UDrain                            (* in [drain_filter_raw]; the position is [dpo] *)
| UDead (x : N)                     (* line 162: Drop for Waiter, line 241 *)
| UFree (x : N)                     (* line 162: the node is freed *)
| UHead                             (* line 163: [iter_raw] *)
| UIter (c : N)                     (* line 163: [IterRaw::next] *)
| USwap (c n : N)                   (* lines 164, 221 *)
| URead (c n : N)                   (* line 224 *)
| UStore (w : option N)             (* line 170 *)
| UWake (w : N).                    (* line 172 *)

(** Positions of contexts. *)
Inductive pos :=
| CIdle
| CTry                              (* line 122 *)
| CPoll1 (f : nat) (w : N)          (* line 183 *)
| CCheck (f : nat) (w : N)          (* line 189 *)
| CAlloc (f : nat) (w : N)          (* lines 190-191 *)
| CPush (f : nat) (w x : N)         (* line 192 *)
| CPoll2 (f : nat) (w : N)          (* line 193 *)
| CTake (f : nat) (w x : N) (g : nat)    (* lines 185, 195; 221 *)
| CTakeR (f : nat) (w x : N) (g : nat)   (* line 224; the waker is destroyed *)
| CDrop (f : nat)                   (* lines 209-210; 221 *)
| CDropR (f : nat) (x : N) (g : nat)     (* line 224; the waker is destroyed *)
| CDropTry (f : nat)                (* lines 213, 122 *)
| CRel (o : mop) (u : upos)         (* [unlock], called by [o] *)
| CRet (o : mop) (r : mres).

Record mst := Mst {
  lk : bool;                (* [locked] *)
  dt : N;                   (* [data] *)
  gd : nat;                 (* the guards in existence *)
  dr : drstate;             (* [waiters]: the memory of the nodes, positions in list methods *)
  tk : N -> bool;           (* [taken] of the nodes *)
  wk : N -> option N;       (* [waker] of the nodes; [None]: moved out *)
  gen : N -> nat;           (* how often the node was freed *)
  ow : N -> nat;            (* for the event [ENotify]: the future that made the node *)
  fu : nat -> fstate;
  ctx : nat -> pos;
  uaf : bool;               (* a freed node was used through the pointer of a future *)
  bad : bool;               (* a moved-out waker was read; line 198 was reached *)
  log : list mev
}.

Definition setx {A} (f : N -> A) (x : N) (v : A) : N -> A := fun y => if y =? x then v else f y.

Definition goto (s : mst) (t : nat) (p : pos) : mst :=
  Mst (lk s) (dt s) (gd s) (dr s) (tk s) (wk s) (gen s) (ow s) (fu s) (upd (ctx s) t p) (uaf s) (bad s) (log s).
Definition emit (s : mst) (e : mev) : mst :=
  Mst (lk s) (dt s) (gd s) (dr s) (tk s) (wk s) (gen s) (ow s) (fu s) (ctx s) (uaf s) (bad s) (log s ++ [e]).
Definition set_lk (s : mst) (b : bool) : mst :=
  Mst b (dt s) (gd s) (dr s) (tk s) (wk s) (gen s) (ow s) (fu s) (ctx s) (uaf s) (bad s) (log s).
Definition set_dt (s : mst) (v : N) : mst :=
  Mst (lk s) v (gd s) (dr s) (tk s) (wk s) (gen s) (ow s) (fu s) (ctx s) (uaf s) (bad s) (log s).
Definition set_gd (s : mst) (n : nat) : mst :=
  Mst (lk s) (dt s) n (dr s) (tk s) (wk s) (gen s) (ow s) (fu s) (ctx s) (uaf s) (bad s) (log s).
Definition set_dr (s : mst) (d : drstate) : mst :=
  Mst (lk s) (dt s) (gd s) d (tk s) (wk s) (gen s) (ow s) (fu s) (ctx s) (uaf s) (bad s) (log s).
Definition set_tk (s : mst) (x : N) (b : bool) : mst :=
  Mst (lk s) (dt s) (gd s) (dr s) (setx (tk s) x b) (wk s) (gen s) (ow s) (fu s) (ctx s) (uaf s) (bad s) (log s).
Definition set_wk (s : mst) (x : N) (w : option N) : mst :=
  Mst (lk s) (dt s) (gd s) (dr s) (tk s) (setx (wk s) x w) (gen s) (ow s) (fu s) (ctx s) (uaf s) (bad s) (log s).
Definition inc_gen (s : mst) (x : N) : mst :=
  Mst (lk s) (dt s) (gd s) (dr s) (tk s) (wk s) (setx (gen s) x (S (gen s x))) (ow s) (fu s) (ctx s) (uaf s) (bad s) (log s).
Definition set_ow (s : mst) (x : N) (f : nat) : mst :=
  Mst (lk s) (dt s) (gd s) (dr s) (tk s) (wk s) (gen s) (setx (ow s) x f) (fu s) (ctx s) (uaf s) (bad s) (log s).
Definition set_fu (s : mst) (f : nat) (v : fstate) : mst :=
  Mst (lk s) (dt s) (gd s) (dr s) (tk s) (wk s) (gen s) (ow s) (upd (fu s) f v) (ctx s) (uaf s) (bad s) (log s).
Definition set_bad (s : mst) (b : bool) : mst :=
  Mst (lk s) (dt s) (gd s) (dr s) (tk s) (wk s) (gen s) (ow s) (fu s) (ctx s) (uaf s) (bad s || b) (log s).
(** A node is used through a pointer made when it had been freed [g] times. *)
Definition use (s : mst) (x : N) (g : nat) : mst :=
  Mst (lk s) (dt s) (gd s) (dr s) (tk s) (wk s) (gen s) (ow s) (fu s) (ctx s)
    (uaf s || negb (Nat.eqb (gen s x) g)) (bad s) (log s).
(** A node is used by [unlock]. *)
Definition visit (s : mst) (x : N) : mst :=
  set_dr s (DrState (dtouch (dsh (dr s)) x) (dth (dr s)) (dpo (dr s))).

Definition waiter (s : mst) (f : nat) : option (N * nat) :=
  match fu s f with FLive _ w => w | FGone => None end.

(** Line 224: [assume_init_read]. *)
Definition read_wk (s : mst) (x : N) : mst * N :=
  match wk s x with
  | Some w => (set_wk s x None, w)
  | None => (set_bad s true, 0)
  end.

(** One access of the list code. *)
Definition list_step (s : mst) (l : dlabel) : mst := set_dr s (fst (drstep false (dr s) l)).

(** Whether the hardware has atomic operations. *)
Section Build.
Variable atomics : bool.

(** One access of [unlock] (lines 157-175) in context [t], called by [o]. *)
Definition ustep (s : mst) (t : nat) (o : mop) (u : upos) (spur : bool) : mst :=
  match u with
  | UStart => goto (list_step s DStart) t (CRel o UDrain)
  | UDrain =>
      match dpo (dr s) with
      | DFilter _ c _ =>                                (* line 161, 229 *)
          list_step (visit s c) (DAnswer (tk s c))
      | DCut p _ _ =>
          if negb atomics && (p =? 0) then list_step s DCutCs else list_step s (DStep spur)
      | DOut _ _ x => goto (list_step s (DStep spur)) t (CRel o (UDead x))
      | _ =>
          let s := list_step s (DStep spur) in
          match dpo (dr s) with DIdle => goto s t (CRel o UHead) | _ => s end
      end
  | UDead x =>
      if tk s x then goto (visit s x) t (CRel o (UFree x))
      else let (s, w) := read_wk (visit s x) x in emit (goto s t (CRel o (UFree x))) (EDropW w)
  | UFree x => goto (inc_gen (list_step s (AFree x)) x) t (CRel o UDrain)
  | UHead => goto s t (CRel o (UIter (hd (dsh (dr s)))))
  | UIter c =>
      if c =? 0 then goto s t (CRel o (UStore None))
      else goto (visit s c) t (CRel o (USwap c (nx (dsh (dr s)) c)))
  | USwap c n =>
      let s' := set_tk (visit s c) c true in
      if tk s c then goto s' t (CRel o (UIter n))
      else emit (goto s' t (CRel o (URead c n))) (ENotify (ow s c))
  | URead c n => let (s, w) := read_wk (visit s c) c in goto s t (CRel o (UStore (Some w)))
  | UStore w =>
      emit (goto (set_lk s false) t
              (match w with Some w => CRel o (UWake w) | None => CRet o RUnit end)) ERel
  | UWake w => emit (goto s t (CRet o RUnit)) (EWake w)
  end.

(** The lock has been taken by a poll of [f] (lines 184-187, 194-200). *)
Definition locked (s : mst) (t : nat) (f : nat) (w : N) : mst :=
  let s' := set_lk s true in
  match fu s f with
  | FLive b (Some (x, g)) => goto (set_fu s' f (FLive b None)) t (CTake f w x g)
  | _ => goto s' t (CRet (Poll f w) RGuard)
  end.

(** One access of context [t].  [spur]: a compare_exchange_weak fails spuriously; [x]:
    the address that the allocator returns. *)
Definition cstep (s : mst) (t : nat) (spur : bool) (x : N) : mst :=
  match ctx s t with
  | CIdle => s
  | CTry => if lk s then goto s t (CRet TryLock RNone) else goto (set_lk s true) t (CRet TryLock RGuard)
  | CPoll1 f w =>
      if lk s then emit (goto s t (CCheck f w)) (EFail f) else locked s t f w
  | CCheck f w =>
      match waiter s f with
      | None => goto s t (CAlloc f w)
      | Some (y, g) =>
          goto (use s y g) t (if tk s y then CAlloc f w else CRet (Poll f w) RPending)
      end
  | CAlloc f w =>
      if mem_N x (dead (dsh (dr s))) && negb (x =? 0)
      then
        let s := set_fu (set_ow (set_wk (set_tk (list_step s (AReuse x)) x false) x (Some w)) x f)
                   f (FLive true (Some (x, gen s x))) in
        goto (if atomics then list_step s (ACall t x) else s) t (CPush f w x)
      else s
  | CPush f w y =>
      if atomics then
        let s := list_step s (AStep t spur) in
        match dth (dr s) t with
        | TDone _ => goto (list_step s (ARet t)) t (CPoll2 f w)
        | _ => s
        end
      else goto (list_step s (APush y)) t (CPoll2 f w)
  | CPoll2 f w =>
      if lk s then emit (goto s t (CRet (Poll f w) RPending)) (EFail f)
      else
        match waiter s f with
        | None => locked (set_bad s true) t f w
        | Some _ => locked s t f w
        end
  | CTake f w y g =>
      goto (set_tk (use s y g) y true) t (if tk s y then CRet (Poll f w) RGuard else CTakeR f w y g)
  | CTakeR f w y g =>
      let (s, k) := read_wk (use s y g) y in emit (goto s t (CRet (Poll f w) RGuard)) (EDropW k)
  | CDrop f =>
      match waiter s f with
      | None => goto s t (CRet (DropFut f) RUnit)
      | Some (y, g) =>                     (* the field is not read again *)
          goto (set_fu (set_tk (use s y g) y true) f (FLive true None)) t
            (if tk s y then CDropTry f else CDropR f y g)
      end
  | CDropR f y g =>
      let (s, k) := read_wk (use s y g) y in emit (goto s t (CRet (DropFut f) RUnit)) (EDropW k)
  | CDropTry f =>
      if lk s then emit (goto s t (CRet (DropFut f) RUnit)) (EFail f)
      else emit (goto (set_lk s true) t (CRel (DropFut f) UStart)) (EAcq f)
  | CRel o u => ustep s t o u spur
  | CRet o r =>
      let s := emit (goto s t CIdle) (ERet o r) in
      let s :=
        match o with
        | Poll f _ => match fu s f with FLive _ w => set_fu s f (FLive false w) | FGone => s end
        | DropFut f => set_fu s f FGone
        | _ => s
        end in
      match r with RGuard => set_gd s (S (gd s)) | _ => s end
  end.

Inductive mact :=
| Call (t : nat) (o : mop)
| Step (t : nat) (spur : bool) (x : N)
| Get                         (* [Deref] of a guard *)
| Set_ (v : N).               (* [DerefMut] of a guard *)

(** A context without a call in progress makes a call.  A future is used by one call at
    a time ([&mut self]); a guard is dropped once. *)
Definition mcall (s : mst) (t : nat) (o : mop) : mst :=
  match ctx s t with
  | CIdle =>
      match o with
      | TryLock => emit (goto s t CTry) (EInv o)
      | Poll f w =>
          match fu s f with
          | FLive false p => emit (goto (set_fu s f (FLive true p)) t (CPoll1 f w)) (EInv o)
          | _ => s
          end
      | DropFut f =>
          match fu s f with
          | FLive false p => emit (goto (set_fu s f (FLive true p)) t (CDrop f)) (EInv o)
          | _ => s
          end
      | DropGuard =>
          match gd s with
          | O => s
          | S n => emit (goto (set_gd s n) t (CRel DropGuard UStart)) (EInv o)
          end
      end
  | _ => s
  end.

Definition mstep (s : mst) (a : mact) : mst :=
  match a with
  | Call t o => mcall s t o
  | Step t spur x => cstep s t spur x
  | Get => match gd s with O => s | _ => emit s (EGet (dt s)) end
  | Set_ v => match gd s with O => s | _ => emit (set_dt s v) (ESet v) end
  end.

Fixpoint mrun (s : mst) (l : list mact) : mst :=
  match l with [] => s | a :: r => mrun (mstep s a) r end.
End Build.

(** A new mutex with data [v] (lines 90-96); the allocator may use the addresses
    [addrs]. *)
Definition minit (v : N) (addrs : list N) (link : N -> N) : mst :=
  Mst false v O (DrState (Shm 0 link 0 [] addrs false) (fun _ => TIdle) DIdle)
    (fun _ => false) (fun _ => None) (fun _ => O) (fun _ => O)
    (fun _ => FLive false None) (fun _ => CIdle) false false [].
