(** What the users of fiber futures and fiber streams can rely on.  Each observer is a
    fold over the history of thread runs, answers of the fiber, and channel events. *)
Require Import NArith List Bool.
Require Import Verif.Spsc Verif.Fiber.
Require Verif.Oneshot Verif.OneshotSpec Verif.Ring Verif.RingSpec Verif.Pulse.
Import ListNotations.
Open Scope N_scope.

(** The channel's part of a history. *)
Definition channel {O R Y C} (l : list (fev O R Y C)) : list (ev O R) :=
  flat_map (fun e => match e with FCh e => [e] | _ => [] end) l.

(** ** How the fiber is driven. *)
Section Drive.
  Context {O R Y C : Type}.
  Variable closes : O -> bool.    (* close, or the destructor of the future or stream *)

  Record drive := Drive {
    d_in : bool;        (* the thread is running the generator *)
    d_res : bool;       (* the fiber was resumed in this run *)
    d_late : bool;      (* this run started after close or the destructor had returned *)
    d_done : bool;      (* the fiber has completed *)
    d_err : bool;       (* the overflow handler has answered with an error *)
    d_ended : bool;     (* the generator has completed *)
    d_runs : nat;       (* runs of the generator *)
    d_ys : nat;         (* times the fiber has yielded *)
    d_begun : bool;     (* close or the destructor has been called *)
    d_closed : bool;    (* and has returned *)
    d_bad : bool        (* something is wrong *)
  }.
  Definition drive0 := Drive false false false false false false 0 0 false false false.

  (** In every run the fiber is resumed once, unless close or the destructor has been
      called; never in a run that started after that call returned; never after it has
      completed.  A run in which the fiber yields ends with a yield unless the channel
      was closed or the overflow handler failed, one in which it completes ends with the
      completion of the generator.  The fiber completes in the run that follows its last
      yield. *)
  Definition dstep (d : drive) (e : fev O R Y C) : drive :=
    let 'Drive i r l dn er en ru ys bg cl bad := d in
    match e with
    | FRun => Drive true false cl dn er en (S ru) ys bg cl (bad || i || en)
    | FResume => Drive i true l dn er en ru ys bg cl (bad || negb i || r || l || dn || er || en)
    | FOut (Yielded _) => Drive i r l dn er en ru (S ys) bg cl bad
    | FOut (Complete _) => Drive i r l true er en ru ys bg cl (bad || negb (Nat.eqb ru (S ys)))
    | FOver _ => d
    | FOverRet None => d
    | FOverRet (Some _) => Drive i r l dn true en ru ys bg cl bad
    | FYield => Drive false r l dn er en ru ys bg cl (bad || negb i || negb r || l || dn || er || negb (Nat.eqb ru ys))
    | FEnd => Drive false r l dn er true ru ys bg cl (bad || negb i || negb (dn || er || bg))
    | FCh (EInv o) => Drive i r l dn er en ru ys (bg || closes o) cl bad
    | FCh (ERet o _) => Drive i r l dn er en ru ys bg (cl || closes o) bad
    | FCh _ => d
    end.
  Definition driving (l : list (fev O R Y C)) : drive := fold_left dstep l drive0.
End Drive.

(** ** Futures. *)
Notation ofev := (fev Oneshot.oop Oneshot.ores unit N).
Definition oclose (o : Oneshot.oop) : bool := match o with Oneshot.Close | Oneshot.DropRx => true | _ => false end.
Definition ois_poll (o : Oneshot.oop) : bool := match o with Oneshot.Poll _ => true | _ => false end.

(** What the fiber completed with. *)
Definition completed (l : list ofev) : list N :=
  flat_map (fun e => match e with FOut (Complete v) => [v] | _ => [] end) l.
(** What polls of the future returned. *)
Definition polled (l : list ofev) : list fpoll :=
  flat_map (fun e => match e with
    | FCh (ERet (Oneshot.Poll _) r) => match future_poll r with Some p => [p] | None => [] end
    | _ => [] end) l.
Definition ready (l : list fpoll) : list N :=
  flat_map (fun p => match p with FReady v => [v] | _ => [] end) l.

(** Polls that must be ready. *)
Record fut := Fut {
  u_comp : bool;     (* the fiber has completed *)
  u_end : bool;      (* the generator has completed *)
  u_begun : bool;    (* close or the destructor has been called *)
  u_got : bool;      (* a poll has returned Ready *)
  u_due : bool;      (* the poll in progress started after the generator had completed
                        because of the fiber's completion, the future being neither
                        closed nor used up *)
  u_miss : bool;     (* such a poll did not return Ready *)
  u_unr : bool       (* a poll took the unreachable branch although neither close nor the
                        destructor had been called and no poll had returned Ready *)
}.
Definition fut0 := Fut false false false false false false false.
Definition ustep (b : fut) (e : ofev) : fut :=
  let 'Fut co en bg got due miss unr := b in
  match e with
  | FOut (Complete _) => Fut true en bg got due miss unr
  | FEnd => Fut co true bg got due miss unr
  | FCh (EInv (Oneshot.Poll _)) => Fut co en bg got (co && en && negb bg && negb got) miss unr
  | FCh (EInv o) => Fut co en (bg || oclose o) got due miss unr
  | FCh (ERet (Oneshot.Poll _) r) =>
      match future_poll r with
      | Some (FReady _) => Fut co en bg true false miss unr
      | Some FPending => Fut co en bg got false (miss || due) unr
      | _ => Fut co en bg got false (miss || due) (unr || negb (bg || got))
      end
  | _ => b
  end.
Definition resolving (l : list ofev) : fut := fold_left ustep l fut0.

(** ** Streams of values. *)
Notation rfev := (fev Ring.rop Ring.rres (option N) (option N + N)).
Definition rclose (o : Ring.rop) : bool := match o with Ring.Close | Ring.DropRx => true | _ => false end.

(** What the fiber and the overflow handler have produced for the stream, in order:
    yielded values, the completion value, an error. *)
Definition produced {O R} (l : list (fev O R (option N) (option N + N))) : list N :=
  flat_map (fun e => match e with
    | FOut (Yielded (Some v)) | FOut (Complete (inl (Some v))) | FOut (Complete (inr v)) | FOverRet (Some v) => [v]
    | _ => [] end) l.
(** What the overflow handler was called with. *)
Definition handed {O R Y C} (l : list (fev O R Y C)) : list N :=
  flat_map (fun e => match e with FOver v => [v] | _ => [] end) l.
(** What the channel did not accept because it was full, and because it was closed. *)
Definition too_many (l : list RingSpec.rev_) : list N :=
  flat_map (fun e => match e with ERet (Ring.TrySend v) (Ring.RFull _) => [v] | _ => [] end) l.
Definition refused (l : list RingSpec.rev_) : list N :=
  flat_map (fun e => match e with
    | ERet (Ring.TrySend v) (Ring.RFull _) | ERet (Ring.TrySend v) (Ring.RClosed _)
    | ERet (Ring.SendOver v) (Ring.RNot _ _) | ERet (Ring.SendErr v) (Ring.RBack _) => [v]
    | _ => [] end) l.

(** The end of the stream. *)
Record ending := Ending {
  p_end : bool;      (* the generator has completed *)
  p_late : bool;     (* the poll in progress started after that *)
  p_miss : bool      (* such a poll returned Pending *)
}.
Definition endstep (b : ending) (e : rfev) : ending :=
  match e with
  | FEnd => Ending true (p_late b) (p_miss b)
  | FCh (EInv (Ring.PollNext _)) => Ending (p_end b) (p_end b) (p_miss b)
  | FCh (ERet (Ring.PollNext _) Ring.RPending) => Ending (p_end b) (p_late b) (p_miss b || p_late b)
  | _ => b
  end.
Definition stream_end (l : list rfev) : ending := fold_left endstep l (Ending false false false).

(** ** Streams of pulses. *)
Notation pfev := (fev Pulse.pop Pulse.pres (option N) (option N + N)).
Definition pclose (o : Pulse.pop) : bool := match o with Pulse.Close | Pulse.DropRx => true | _ => false end.

(** The numbers of pulses the fiber has yielded and completed with, and the errors. *)
Definition packs (l : list pfev) : list N :=
  flat_map (fun e => match e with
    | FOut (Yielded (Some n)) | FOut (Complete (inl (Some n))) => [n]
    | _ => [] end) l.
Definition failures (l : list pfev) : list N :=
  flat_map (fun e => match e with FOut (Complete (inr v)) | FOverRet (Some v) => [v] | _ => [] end) l.
(** The packs passed to the channel, and those that did not fit. *)
Definition sends (l : list (ev Pulse.pop Pulse.pres)) : list N :=
  flat_map (fun e => match e with ERet (Pulse.Send n) _ => [n] | _ => [] end) l.
Definition fulls (l : list (ev Pulse.pop Pulse.pres)) : list N :=
  flat_map (fun e => match e with ERet (Pulse.Send n) Pulse.RFull => [n] | _ => [] end) l.
Definition total (l : list N) : N := fold_right N.add 0 l.

(** As [endstep]. *)
Definition pendstep (b : ending) (e : pfev) : ending :=
  match e with
  | FEnd => Ending true (p_late b) (p_miss b)
  | FCh (EInv (Pulse.PollNext _)) => Ending (p_end b) (p_end b) (p_miss b)
  | FCh (ERet (Pulse.PollNext _) Pulse.RPending) => Ending (p_end b) false (p_miss b || p_late b)
  | FCh (ERet (Pulse.PollNext _) _) => Ending (p_end b) false (p_miss b)
  | _ => b
  end.
Definition pulse_end (l : list pfev) : ending := fold_left pendstep l (Ending false false false).
