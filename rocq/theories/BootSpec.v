(** What a debug probe sees of the streams of a board over several restarts: observations on histories.
    Independent of how the runtime structures are found and kept. *)
Require Import NArith List Bool.
From Verif Require Import Stream.
Import ListNotations.
Open Scope N_scope.

(** The contents of a runtime structure: size of the buffer, cursors. *)
Record runtime := Rt { rt_size : N; rt_r : N; rt_w : N }.

Inductive bevent :=
| EReset                                      (* the board restarts, its memory is kept *)
| EBoot (k : nat) (rt : runtime) (mask : N)   (* a probe asks for this runtime at the next start of stream [k] *)
| EInit (k : nat)                             (* stream [k] is initialised *)
| EStr (k : nat) (e : sevent)                 (* what happens on stream [k] *)
| EMask (v : N)                               (* the probe enables the streams in [v] *)
| EAsk (s : N) (b : bool).                    (* is_enabled of stream number [s] *)

(** What a probe asked for since stream [k] was last initialised. *)
Definition asked1 (k : nat) (o : option (runtime * N)) (e : bevent) : option (runtime * N) :=
  match e with
  | EBoot j rt v => if Nat.eqb j k then Some (rt, v) else o
  | EInit j => if Nat.eqb j k then None else o
  | _ => o
  end.
Definition asked (k : nat) (h : list bevent) : option (runtime * N) := fold_left (asked1 k) h None.

(** The runtime a stream starts with: the one asked for, or an empty buffer of the declared size. *)
Definition begins (size : N) (o : option (runtime * N)) : runtime :=
  match o with Some (rt, _) => rt | None => Rt size 0 0 end.

(** What happened on stream [k] since it was initialised. *)
Definition session1 (k : nat) (o : option (list sevent)) (e : bevent) : option (list sevent) :=
  match e with
  | EReset => None
  | EInit j => if Nat.eqb j k then Some [] else o
  | EStr j x => if Nat.eqb j k then option_map (fun l => l ++ [x]) o else o
  | _ => o
  end.
Definition session (k : nat) (h : list bevent) : option (list sevent) := fold_left (session1 k) h None.

(** Which streams are enabled: what the probe said last, by itself or with its request; nothing after the primary
    stream is initialised without a request.  [m0]: when power is switched on. *)
Fixpoint enabled (primary : nat -> bool) (m0 : N) (rev_h : list bevent) : N :=
  match rev_h with
  | [] => m0
  | EMask v :: _ => v
  | EInit k :: r =>
      if primary k then match asked k (rev r) with Some (_, v) => v | None => 0 end else enabled primary m0 r
  | _ :: r => enabled primary m0 r
  end.
(** All answers are right. *)
Definition answers (primary : nat -> bool) (m0 : N) (h : list bevent) : Prop :=
  forall a s b c, h = a ++ EAsk s b :: c -> b = N.testbit (enabled primary m0 (rev a)) s.
(** What one would expect of a restart: nothing is enabled until the probe says so. *)
Fixpoint fresh (rev_h : list bevent) : bool :=
  match rev_h with
  | [] | EReset :: _ => true
  | EMask _ :: _ | EBoot _ _ _ :: _ => false
  | _ :: r => fresh r
  end.

(** A request that suits a buffer of [size] bytes: within the buffer, no frames in it. *)
Definition suits (size : N) (rt : runtime) : Prop :=
  0 < rt_size rt <= size /\ rt_r rt = rt_w rt /\ rt_w rt < rt_size rt.
Definition polite (size : nat -> N) (h : list bevent) : Prop :=
  forall k rt v, In (EBoot k rt v) h -> suits (size k) rt.
