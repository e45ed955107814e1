(** Model of the handlers that end in a reset: a context prints its message, then resets the system.

    Source: /repo/src/lang_items.rs lines 5-9 [begin_panic] and 11-15 [alloc_error_handler], on the
    printing contexts of Print.v.  From the panic on only the panicking context and the probe go on.
    Transactions run with interrupts paused, so none is in progress when a panic begins. *)
Require Import NArith List Bool.
From Verif Require Import Stream PrintSpec Print.
Import ListNotations.
Open Scope N_scope.

(** Line 7: eprintln!("{}", pi). *)
Definition begin_panic (info : list bytes * bool) : stmt :=
  SPrint true Stderr (IFmt [123; 125] (fun _ _ => info)).
(** Line 13: eprintln!("memory allocation of {} bytes failed", layout.size()). *)
Definition alloc_text : bytes :=
  [109; 101; 109; 111; 114; 121; 32; 97; 108; 108; 111; 99; 97; 116; 105; 111; 110; 32; 111; 102; 32;
   123; 125; 32; 98; 121; 116; 101; 115; 32; 102; 97; 105; 108; 101; 100].
Definition alloc_error_handler (size : list bytes) : stmt :=
  SPrint true Stderr (IFmt alloc_text (fun _ _ => (size, true))).

(** One step of context [p]: the next step of its transaction, or the next transaction, or the next call;
    [None] when it has nothing left but to reset (lines 8 and 14). *)
Definition own (s : psys) (p : N) : option plabel :=
  match pend s p with
  | _ :: _ => Some (match swp (pm s) with WIdle => PTry p | _ => PWrite end)
  | [] => match prog s p with [] => None | _ => Some (PStep p) end
  end.
Definition reset (s : psys) (p : N) : bool := match own s p with None => true | _ => false end.

(** A schedule says who goes on: the context or the probe. *)
Inductive who := Ctx | Probe.
Definition turn (p : N) (s : psys) (w : who) : psys :=
  match w with
  | Ctx => match own s p with Some l => pstep s l | None => s end
  | Probe => pstep s PRead
  end.
Fixpoint after (p : N) (s : psys) (sched : nat -> who) (n : nat) : psys :=
  match n with O => s | S n => turn p (after p s sched n) (sched n) end.

(** The system when context [p] panics: its program is now the handler.  Text it was about to write is
    dropped: a [Display] panics between two strings it writes. *)
Definition panic (s : psys) (p : N) (st : stmt) : option psys :=
  option_map (fun ps => Psys (pm s) (pmask s) (upd (prog s) p ps) (upd (pend s) p []) (pcur s) (plog s))
    (expand st).
