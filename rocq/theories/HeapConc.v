(** Model of the whole heap used by any number of contexts, critical-section build.

    Source: /repo/src/heap/mod.rs lines 90-101 ([allocate]) and 115-122 ([deallocate]),
    /repo/src/heap/pool.rs lines 60-121, /repo/src/sync/soft_atomic.rs lines 85-107.

    The pools are those of Treiber.v, each with the link words of its own blocks (the pools of a
    configuration do not overlap).  The block size and the edge of a pool never change (pool.rs lines 21-24),
    so the searches of pool.rs lines 99-121, which read nothing else, are those of Heap.v and take no step.
    Contexts form a stack as in Treiber.v; the one at depth [d] has identity [d].
    [grow] and [shrink] (mod.rs lines 127-176), which are an allocation, a copy by the owner of both blocks, and
    a deallocation, are in HeapUse.v. *)
Require Import NArith List Bool Arith.
From Verif Require Import AtomicSpec LinSpec Treiber Heap.
Import ListNotations.
Open Scope N_scope.

Inductive hop := HAlloc (size align : N) | HDealloc (ptr size : N).
Inductive hres := HBlock (ptr len : N) | HFail | HFreed.

(** The owner passes back a size that fits the allocation. *)
Fixpoint release (ptr sz : N) (l : list blk) : option (list blk) :=
  match l with
  | [] => None
  | b :: r => if (b_ptr b =? ptr) && fits_blk b sz then Some r else option_map (cons b) (release ptr sz r)
  end.

Section Conc.
Variable base : N.
Variable cfg : list pcfg.

(** macros/src/heap.rs lines 141-146. *)
Definition pools : list pool := map (fun '(a, s, c) => pool_new a s c) cfg.
Definition psize (i : nat) : N := p_size (nth i pools (Pool 0 0 0 0)).
Definition pedge (i : nat) : N := p_edge (nth i pools (Pool 0 0 0 0)).

(** Where a context is: outside, inside an operation of pool [i], or about to return without having
    visited a pool. *)
Inductive hfr :=
| HIdle
| HIn (o : hop) (i : nat) (f : sfr)
| HDone (o : hop) (r : hres).

Record hstate := HState {
  hp : nat -> shm;
  hie : bool;
  hfs : list hfr;
  hlive : list blk       (* what the callers own *)
}.

(** mod.rs lines 91-96 and 116-120. *)
Definition hstart (o : hop) : hfr :=
  match o with
  | HAlloc size align =>
      if size =? 0 then HDone o (HBlock align 0)
      else match pool_range_by_layout pools size with
           | Some i => if Nat.ltb i (length pools) then HIn o i (FBegin OAlloc) else HDone o HFail
           | None => HDone o HFail
           end
  | HDealloc ptr size =>
      if size =? 0 then HDone o HFreed
      else match pool_by_ptr pools base ptr with
           | Some i => HIn o i (FBegin (OPush ptr))
           | None => HDone o HFreed
           end
  end.

(** The owner gives the block up at the call. *)
Definition hcall (s : hstate) (o : hop) : option hstate :=
  match o with
  | HAlloc _ _ => Some s
  | HDealloc ptr size =>
      match release ptr size (hlive s) with
      | None => None
      | Some l =>
          Some (HState (match hstart o with
                        | HIn _ i _ => upd (hp s) i (take_held (hp s i) ptr)
                        | _ => hp s
                        end) (hie s) (hfs s) l)
      end
  end.

(** mod.rs lines 94-100: what the operation returns, unless the loop goes on with the next pool. *)
Definition hret (o : hop) (i : nat) (r : tres) : option hres :=
  match r with
  | RNode x => Some (HBlock x (psize i))
  | RPushed => Some HFreed
  | RNone => if Nat.ltb (S i) (length pools) then None else Some HFail
  end.

Definition own_ (o : hop) (r : hres) (l : list blk) : list blk :=
  match o, r with
  | HAlloc size _, HBlock x len => l ++ [Blk x len size (fun _ => None)]
  | _, _ => l
  end.

Inductive hlabel := HLInv (o : hop) | HLStep | HLRet | HLIrq | HLIret | HLWrite (x v : N).

(** One step; a label that is not enabled does nothing. *)
Definition hstep (s : hstate) (l : hlabel) : hstate * list (lvis hop hres) :=
  match hfs s with
  | [] => (s, [])
  | f :: rest =>
      let d := length rest in
      match l with
      | HLInv o =>
          match f, hcall s o with
          | HIdle, Some s' => (HState (hp s') (hie s') (hstart o :: rest) (hlive s'), [LCall d o])
          | _, _ => (s, [])
          end
      | HLStep =>
          match f with
          | HIn o i (FDone RNone) =>
              if Nat.ltb (S i) (length pools)
              then (HState (hp s) (hie s) (HIn o (S i) (FBegin OAlloc) :: rest) (hlive s), [])
              else (s, [])
          | HIn o i g =>
              let '(m, ie, g') := saccess (psize i) (pedge i) (hp s i) (hie s) g in
              (HState (upd (hp s) i m) ie (HIn o i g' :: rest) (hlive s), [])
          | _ => (s, [])
          end
      | HLRet =>
          match f with
          | HDone o r => (HState (hp s) (hie s) (HIdle :: rest) (own_ o r (hlive s)), [LReturn d r])
          | HIn o i (FDone r) =>
              match hret o i r with
              | Some h =>
                  (HState (upd (hp s) i (on_return (hp s i) r)) (hie s) (HIdle :: rest) (own_ o h (hlive s)),
                   [LReturn d h])
              | None => (s, [])
              end
          | _ => (s, [])
          end
      | HLIrq => if hie s then (HState (hp s) (hie s) (HIdle :: f :: rest) (hlive s), []) else (s, [])
      | HLIret =>
          match f, rest with
          | HIdle, _ :: _ => (HState (hp s) (hie s) rest (hlive s), [])
          | _, _ => (s, [])
          end
      (* the owner of a block writes to its first word *)
      | HLWrite x v =>
          (HState (fun i => if mem_N x (held (hp s i)) then set_nx (hp s i) x v else hp s i) (hie s) (hfs s) (hlive s), [])
      end
  end.

Fixpoint hrun (s : hstate) (ls : list hlabel) : hstate * list (lvis hop hres) :=
  match ls with
  | [] => (s, [])
  | l :: ls' =>
      let (s1, e1) := hstep s l in
      let (s2, e2) := hrun s1 ls' in
      (s2, e1 ++ e2)
  end.

(** Pool.rs lines 37-44. *)
Definition hinit (link : nat -> N -> N) (ie : bool) : hstate :=
  HState (fun i => shm_init (p_uninit (nth i pools (Pool 0 0 0 0))) [] (link i)) ie [HIdle] [].

End Conc.
