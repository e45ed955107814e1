(** Model of the printing macros, on the debug stream of Stream.v.

    Source: /repo/src/stream/macros.rs, /repo/src/stream/mod.rs lines 104-106, 128-130, 139-150,
    159-163 and 190-196.  [format_args!] and [core::fmt::Write::write_fmt] are the compiler's and the
    core library's: the format string is split into literal pieces and placeholders, and each nonempty
    piece and each string displayed by an argument is one call of [write_str].
    Simplifications: whether a format string names its arguments properly is left to the compiler;
    braces as fill characters of a placeholder are left out; that the arguments of [print!] are evaluated,
    if the stream is enabled (lines 30, 35), is not an event; one core. *)
Require Import NArith List Bool.
From Verif Require Import Stream StreamSpec PrintSpec.
Import ListNotations.
Open Scope N_scope.

(** ** [format_args!] *)
Inductive piece := PLit (s : bytes) | PArg (k : nat) (t : bytes).
Inductive fmode := FLit (acc : bytes) | FOpen (acc : bytes) | FClose (acc : bytes) | FArg (acc t : bytes).
Definition flush (acc : bytes) (ps : list piece) : list piece :=
  match acc with [] => ps | _ => PLit acc :: ps end.
Definition emit (acc : bytes) (k : nat) (t : bytes) (r : option (list piece)) : option (list piece) :=
  option_map (fun ps => flush acc (PArg k t :: ps)) r.
Fixpoint fparse (k : nat) (m : fmode) (s : bytes) : option (list piece) :=
  match s, m with
  | [], FLit acc => Some (flush acc [])
  | [], _ => None
  | b :: s, FLit acc =>
      if b =? lbrace then fparse k (FOpen acc) s
      else if b =? rbrace then fparse k (FClose acc) s
      else fparse k (FLit (acc ++ [b])) s
  | b :: s, FOpen acc =>
      if b =? lbrace then fparse k (FLit (acc ++ [b])) s
      else if b =? rbrace then emit acc k [] (fparse (S k) (FLit []) s)
      else fparse k (FArg acc [b]) s
  | b :: s, FClose acc => if b =? rbrace then fparse k (FLit (acc ++ [b])) s else None
  | b :: s, FArg acc t =>
      if b =? lbrace then None
      else if b =? rbrace then emit acc k t (fparse (S k) (FLit []) s)
      else fparse k (FArg acc (t ++ [b])) s
  end.

(** [core::fmt::write]: the calls of [write_str]. *)
Fixpoint fwrite (D : display) (ps : list piece) : list bytes :=
  match ps with
  | [] => []
  | PLit s :: ps => s :: fwrite D ps
  | PArg k t :: ps => fst (D k t) ++ if snd (D k t) then fwrite D ps else []
  end.

(** ** The macros *)

(** macros.rs lines 29-42 [print!] and 91-104 [eprint!]: the calls of [write_str] if the stream is
    enabled; [None]: does not compile. *)
Definition print_ (i : input) : option (list bytes) :=
  match i with
  | INone => None
  | ILit s _ | IVar s => Some [s]                                  (* lines 29-33, 91-95 *)
  | IFmt s D => option_map (fwrite D) (fparse 0 (FLit []) s)       (* lines 34-42, 96-104 *)
  end.
(** Lines 63-71 [println!] and 123-131 [eprintln!]; [concat!] takes literals only. *)
Definition println_ (i : input) : option (list bytes) :=
  match i with
  | INone => print_ (ILit [newline] (fun _ _ => ([], true)))
  | ILit s D => print_ (ILit (s ++ [newline]) D)
  | IVar _ => None
  | IFmt s D => print_ (IFmt (s ++ [newline]) D)
  end.

(** What a context executes. *)
Inductive prim := MEval (e : nat) | MPrint (t : target) (cs : list bytes).

(** Lines 159-182 [dbg!]: "[{}:{}]" and "[{}:{}] {} = {:#?}". *)
Definition dbg_here : bytes := [91; 123; 125; 58; 123; 125; 93].
Definition dbg_fmt : bytes := [91; 123; 125; 58; 123; 125; 93; 32; 123; 125; 32; 61; 32; 123; 58; 35; 63; 125].
Definition here_args (file line : bytes) : display :=
  fun k _ => match k with O => ([file], true) | _ => ([line], true) end.
Definition dbg_args (file line : bytes) (v : dval) : display :=
  fun k _ => match k with
    | 0%nat => ([file], true) | 1%nat => ([line], true) | 2%nat => ([dtext v], true) | _ => dshow v end.
Definition to_prim (t : target) (r : option (list bytes)) : option (list prim) :=
  option_map (fun cs => [MPrint t cs]) r.
Fixpoint dbg_vals (file line : bytes) (vals : list dval) : option (list prim) :=
  match vals with
  | [] => Some []
  | v :: vals =>
      match to_prim Stderr (println_ (IFmt dbg_fmt (dbg_args file line v))), dbg_vals file line vals with
      | Some p, Some r => Some (MEval (dexpr v) :: p ++ r)
      | _, _ => None
      end
  end.
Definition expand (s : stmt) : option (list prim) :=
  match s with
  | SPrint false t i => to_prim t (print_ i)
  | SPrint true t i => to_prim t (println_ i)
  | SDbg file line [] => to_prim Stderr (println_ (IFmt dbg_here (here_args file line)))
  | SDbg file line vals => dbg_vals file line vals
  end.
Fixpoint expand_all (l : list stmt) : option (list prim) :=
  match l with
  | [] => Some []
  | s :: l => match expand s, expand_all l with Some p, Some r => Some (p ++ r) | _, _ => None end
  end.

(** ** [write_str], [write_fmt]: the transactions *)

(** mod.rs lines 159-163 and 190-196, with runtime.rs lines 28-37. *)
Definition chunk_frames (st : N) (bs : bytes) : list frame :=
  match write_bytes (S (length bs)) 0 (N.of_nat (length bs)) with
  | Some ts => map (fun t => (st, map (fun i => nth (N.to_nat (fst t + N.of_nat i)) bs 0) (seq 0 (N.to_nat (snd t))))) ts
  | None => []
  end.
Definition call_frames (t : target) (cs : list bytes) : list frame :=
  flat_map (chunk_frames (stream_of t)) cs.

(** ** Contexts printing: each runs its program; a transaction runs with interrupts paused
    (runtime.rs line 46) and is tried again when it fails (lines 45-63).  Any context can go on whenever no
    transaction is in progress. *)
Record psys := Psys {
  pm : ssys;
  pmask : N;
  prog : N -> list prim;
  pend : N -> list frame;          (* transactions left of the current call *)
  pcur : N;                        (* whose transaction is in progress *)
  plog : list pev
}.
Definition upd {A} (f : N -> A) (c : N) (v : A) : N -> A := fun x => if x =? c then v else f x.
Inductive plabel := PMask (m : N) | PStep (c : N) | PTry (c : N) | PWrite | PRead.

Fixpoint reads (tr : list sevent) : list pev :=
  match tr with [] => [] | SRead f :: tr => EvRead f :: reads tr | _ :: tr => reads tr end.

Definition pstep (s : psys) (l : plabel) : psys :=
  match l with
  | PMask m => Psys (pm s) m (prog s) (pend s) (pcur s) (plog s ++ [EvMask m])
  | PStep c =>
      match pend s c, prog s c with
      | [], MEval e :: r =>
          Psys (pm s) (pmask s) (upd (prog s) c r) (pend s) (pcur s) (plog s ++ [EvEval c e])
      | [], MPrint t cs :: r =>
          (* [is_enabled], then [write_str] or [write_fmt] *)
          let on := is_enabled (pmask s) (stream_of t) in
          Psys (pm s) (pmask s) (upd (prog s) c r)
            (upd (pend s) c (if on then call_frames t cs else [])) (pcur s)
            (plog s ++ [EvCall c (stream_of t) on])
      | _, _ => s
      end
  | PTry c =>
      match swp (pm s), pend s c with
      | WIdle, f :: _ => Psys (fst (sstep (pm s) (LWrite f))) (pmask s) (prog s) (pend s) c (plog s)
      | _, _ => s
      end
  | PWrite =>
      let (x, tr) := sstep (pm s) LW in
      match tr with
      | [SWrote f] =>
          Psys x (pmask s) (prog s) (upd (pend s) (pcur s) (tl (pend s (pcur s)))) (pcur s)
            (plog s ++ [EvWrote (pcur s) f])
      | _ => Psys x (pmask s) (prog s) (pend s) (pcur s) (plog s)
      end
  | PRead =>
      let (x, tr) := sstep (pm s) LR in
      Psys x (pmask s) (prog s) (pend s) (pcur s) (plog s ++ reads tr)
  end.
Definition pinit (buf : N -> N) (size mask : N) (pr : N -> list prim) : psys :=
  Psys (sinit buf size) mask pr (fun _ => []) 0 [].
Definition prun (s : psys) (ls : list plabel) : psys := fold_left pstep ls s.
