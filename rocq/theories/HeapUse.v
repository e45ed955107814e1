(** The contents of allocated memory, while contexts that interrupt one another use the heap; critical-section build.

    Source: /repo/src/heap/mod.rs lines 90-176: [allocate], [allocate_zeroed], [deallocate], [grow], [grow_zeroed],
    [shrink]; /repo/src/heap/pool.rs lines 76-80 (the link that is written into a block given back).

    Calls to the pools are those of HeapConc.v.  Here is the memory itself, by bytes: the owners of blocks read and
    write it, lines 108, 137, 155, 173 fill and copy it a byte at a time and may be interrupted at any of them, and
    the first word of a block that is given back becomes a link.  A write of an owner to the first word is told to
    HeapConc.v, whose links are words.

    Simplifications: a block belongs to the program as a whole (any context may use it), but not while [grow] or
    [shrink] has it; the [deallocate] of an empty old allocation, which does nothing (lines 116-118), takes no step. *)
Require Import NArith List Bool Arith.
From Verif Require Import AtomicSpec LinSpec Treiber Heap HeapConc HeapUseSpec.
Import ListNotations.
Open Scope N_scope.

(** Where a context is within [allocate_zeroed], [grow] or [shrink]. *)
Inductive ufr :=
| UPlain                                   (* not, or in [deallocate] *)
| UGet (r : ureq)                          (* in [allocate] *)
| UZero (r : ureq) (q len k : N)           (* line 108: [k] bytes are written *)
| UCopy (r : ureq) (q len k : N)           (* lines 137, 155, 173: [k] bytes are copied *)
| UFree (r : ureq) (q len : N).            (* in [deallocate] of the old block *)

Record ustate := U { uh : hstate; umem : N -> N; ufs : list ufr }.

Definition size_of (r : ureq) : N := match r with RNew _ s _ | RGrow _ _ _ s _ | RShrink _ _ s _ => s end.
Definition align_of (r : ureq) : N := match r with RNew _ _ a | RGrow _ _ _ _ a | RShrink _ _ _ a => a end.
Definition old_size (r : ureq) : N := match r with RNew _ _ _ => 0 | RGrow _ _ o _ _ | RShrink _ o _ _ => o end.

(** The blocks the call has, by address. *)
Definition news (q len : N) : list N := if len =? 0 then [] else [q].
Definition olds (r : ureq) : list N := match old_of r with Some p => if old_size r =? 0 then [] else [p] | None => [] end.
Definition has (u : ufr) : list N :=
  match u with
  | UPlain => []
  | UGet r => olds r
  | UZero r q len _ | UCopy r q len _ => news q len ++ olds r
  | UFree _ q len => news q len
  end.
Definition lent (l : list ufr) : list N := concat (map has l).

Definition bput (m : N -> N) (a v : N) : N -> N := fun b => if b =? a then v else m b.

Section Use.
Variable ws : nat.     (* bytes of a word *)
Variable base : N.
Variable cfg : list pcfg.

Definition wput (m : N -> N) (x v : N) : N -> N :=
  fun a => if (x <=? a) && (a <? x + N.of_nat ws) then v / 256 ^ (a - x) mod 256 else m a.
Fixpoint wsum (n : nat) (m : N -> N) (x : N) : N :=
  match n with O => 0 | S n => m x + 256 * wsum n m (x + 1) end.
Definition wget (m : N -> N) (x : N) : N := wsum ws m x.

(** A byte in the block at [x] is written. *)
Definition poke (s : ustate) (x a v : N) : ustate :=
  let m := bput (umem s) a v in
  U (fst (hstep base cfg (uh s) (HLWrite x (wget m x)))) m (ufs s).

(** The block of the callers in which [a] lies. *)
Definition mine (s : ustate) (a : N) : option blk :=
  find (fun b => (b_ptr b <=? a) && (a <? b_ptr b + b_len b) && negb (mem_N (b_ptr b) (lent (ufs s)))) (hlive (uh s)).

(** The caller passes a block it has, with a size that fits. *)
Definition req_ok (s : ustate) (r : ureq) : bool :=
  match r with
  | RNew _ _ _ => true
  | RGrow _ p o n _ | RShrink p o n _ =>
      ((o =? 0) || negb (mem_N p (lent (ufs s)))) &&
      (match release p o (hlive (uh s)) with Some _ => true | None => false end) &&
      (match r with RShrink _ _ _ _ => n <=? o | _ => o <=? n end)
  end.

Definition set_top (l : list ufr) (u : ufr) : list ufr := match l with [] => [] | _ :: r => u :: r end.

(** What follows the allocation. *)
Definition copying (r : ureq) (q len : N) : ufr * list (option (N * N)) :=
  match old_of r with Some _ => (UCopy r q len 0, []) | None => (UPlain, [Some (q, len)]) end.
Definition got (r : ureq) (o : hres) : ufr * list (option (N * N)) :=
  match o with
  | HBlock q len => if zeroes r then (UZero r q len 0, []) else copying r q len
  | _ => (UPlain, [None])
  end.

(** A step of a pool; a link is written into the block that is given back. *)
Definition linked (f : hfr) (m : N -> N) : N -> N :=
  match f with HIn _ _ (FLoaded _ (OPush x) cur) => wput m x cur | _ => m end.

Inductive ulabel :=
| ULReq (r : ureq) | ULGive (ptr size : N) | ULStep | ULRet | ULIrq | ULIret | ULWrite (a v : N) | ULRead (a : N).

(** One step; a label that is not enabled does nothing. *)
Definition ustep (s : ustate) (l : ulabel) : ustate * list uevent :=
  match hfs (uh s), ufs s with
  | f :: frest, u :: urest =>
      let d := length frest in
      match l with
      | ULReq r =>
          match f, u with
          | HIdle, UPlain =>
              if req_ok s r then
                (U (fst (hstep base cfg (uh s) (HLInv (HAlloc (size_of r) (align_of r))))) (umem s) (UGet r :: urest), [UCall d r])
              else (s, [])
          | _, _ => (s, [])
          end
      | ULGive ptr size =>
          match f, u with
          | HIdle, UPlain =>
              if (size =? 0) || negb (mem_N ptr (lent (ufs s))) then
                match hstep base cfg (uh s) (HLInv (HDealloc ptr size)) with
                | (h, _ :: _) => (U h (umem s) (ufs s), [UGive d ptr size])
                | (_, []) => (s, [])
                end
              else (s, [])
          | _, _ => (s, [])
          end
      | ULStep =>
          match f, u with
          | HIn _ _ _, _ => (U (fst (hstep base cfg (uh s) HLStep)) (linked f (umem s)) (ufs s), [])
          | HIdle, UZero r q len k =>
              if k <? len then
                let s' := poke s q (q + k) 0 in (U (uh s') (umem s') (UZero r q len (k + 1) :: urest), [])
              else
                let (u', e) := copying r q len in (U (uh s) (umem s) (u' :: urest), map (UBack d) e)
          | HIdle, UCopy r q len k =>
              match old_of r with
              | None => (s, [])
              | Some p =>
                  if k <? keeps r then
                    let s' := poke s q (q + k) (umem s (p + k)) in (U (uh s') (umem s') (UCopy r q len (k + 1) :: urest), [])
                  else if old_size r =? 0 then (U (uh s) (umem s) (UPlain :: urest), [UBack d (Some (q, len))])
                  else
                    match hstep base cfg (uh s) (HLInv (HDealloc p (old_size r))) with
                    | (h, _ :: _) => (U h (umem s) (UFree r q len :: urest), [])
                    | (_, []) => (s, [])
                    end
              end
          | _, _ => (s, [])
          end
      | ULRet =>
          match hstep base cfg (uh s) HLRet with
          | (h, [LReturn _ o]) =>
              match u with
              | UPlain => (U h (umem s) (ufs s), [UGiven d])
              | UGet r => let (u', e) := got r o in (U h (umem s) (u' :: urest), map (UBack d) e)
              | UFree r q len => (U h (umem s) (UPlain :: urest), [UBack d (Some (q, len))])
              | _ => (s, [])
              end
          | _ => (s, [])
          end
      | ULIrq => if hie (uh s) then (U (fst (hstep base cfg (uh s) HLIrq)) (umem s) (UPlain :: ufs s), []) else (s, [])
      | ULIret =>
          match f, u, frest with
          | HIdle, UPlain, _ :: _ => (U (fst (hstep base cfg (uh s) HLIret)) (umem s) urest, [])
          | _, _, _ => (s, [])
          end
      | ULWrite a v =>
          match mine s a with
          | Some b => (poke s (b_ptr b) a v, [UWrote a v])
          | None => (s, [])
          end
      | ULRead a =>
          match mine s a with
          | Some _ => (s, [URead a (umem s a)])
          | None => (s, [])
          end
      end
  | _, _ => (s, [])
  end.

Fixpoint urun (s : ustate) (ls : list ulabel) : ustate * list uevent :=
  match ls with
  | [] => (s, [])
  | l :: r => let (s1, e1) := ustep s l in let (s2, e2) := urun s1 r in (s2, e1 ++ e2)
  end.

(** A fresh heap in a memory with any contents. *)
Definition uinit (m : N -> N) (ie : bool) : ustate := U (hinit cfg (fun _ x => wget m x) ie) m [UPlain].
End Use.
