(** The programs of the channels (Spsc.v) on a weak memory: several cores, hardware
    atomics, and the orderings the source gives.

    The state word has a list of values, in the order of their writes.  A load may return
    any value that is not older than one the same half has read or written before
    (coherence).  A compare-and-exchange succeeds only on the latest value; it may fail,
    spuriously or on an older value, and then reads any value a load could.  Which
    accesses of the two halves are ordered is for WeakSpec.v to say; the machine
    records them.

    Simplifications: the cells behave as if accesses to them were ordered, which is
    justified only for executions without data races; a half stays in one context; freed
    memory is not given to others; every load can be from the past but not from the
    future (no load buffering). *)
Require Import NArith List Bool.
From Verif Require Import Spsc WeakSpec.
Import ListNotations.
Open Scope N_scope.

Inductive wev (O R : Type) :=
| WEv (e : ev O R)                 (* as in Spsc.v *)
| WAcc (s : side) (a : access).    (* an access to the block *)
Arguments WEv {O R}. Arguments WAcc {O R}.

Section Machine.
  Context {O R : Type}.
  Variable side_of : O -> side.
  Variable consuming : O -> bool.
  Variable code : O -> prog R.

  (** [wseen]: the number of the latest value of the word that the half has read or written. *)
  Record wthr := Wthr { wt : thr O R; wseen : nat }.
  Record wsys := Wsys {
    whist : list N;                (* the values of the word, the latest first; not empty *)
    wcells : cell -> option N;
    wtx : wthr;
    wrx : wthr;
    wlog : list (wev O R)
  }.
  Definition wsys0 : wsys := Wsys [0] (fun _ => None) (Wthr Idle 0) (Wthr Idle 0) [].

  Definition wput (x : wsys) (s : side) (h : list N) (c : cell -> option N) (t : wthr) (e : list (wev O R)) : wsys :=
    match s with
    | TX => Wsys h c t (wrx x) (wlog x ++ e)
    | RX => Wsys h c (wtx x) t (wlog x ++ e)
    end.
  Definition wthr_of (x : wsys) (s : side) : wthr := match s with TX => wtx x | RX => wrx x end.

  (** The number of the value read, when the schedule asks for the one [back] steps before
      the latest. *)
  Definition pick (h : list N) (seen back : nat) : nat := Nat.max seen (length h - 1 - back).
  Definition value (h : list N) (n : nat) : N := nth (length h - 1 - n) h 0.

  (** One access of the half [s] running [p]; see [pstep] in Spsc.v and atomic_macros.rs
      lines 27-47 and 75-87. *)
  Definition wpstep (x : wsys) (s : side) (o : O) (p : prog R) (seen : nat) (spur : bool) (back : nat) : wsys :=
    let h := whist x in
    let c := wcells x in
    let n := pick h seen back in
    let v := value h n in
    let go p := Wthr (Run o p) seen in
    match p with
    | Done r => wput x s h c (Wthr (if consuming o then Gone else Idle) seen) [WEv (ERet o r)]
    | Load r k => wput x s h c (Wthr (Run o (k v)) n) [WAcc s (ARead r n)]
    | Rmw r cc None f k => wput x s h c (Wthr (Run o (Rmw r cc (Some v) f k)) n) [WAcc s (ARead r n)]
    | Rmw r cc (Some old) f k =>
        if spur || negb (v =? old) || negb (Nat.eqb n (length h - 1)) then
          wput x s h c (Wthr (Run o (Rmw r cc (Some v) f k)) n) [WAcc s (ARead r n)]
        else wput x s (f old :: h) c (Wthr (Run o (k old)) (S n)) [WAcc s (AUpd cc n)]
    | Write d w k => wput x s h (upd c d (Some w)) (go k) [WAcc s (ACell d true)]
    | Take d k => wput x s h (upd c d None) (go (k (match c d with Some w => w | None => 0 end))) [WAcc s (ACell d true)]
    | Peek d k => wput x s h c (go (k (match c d with Some w => w | None => 0 end))) [WAcc s (ACell d false)]
    | Wake w k => wput x s h c (go k) [WEv (EWake s w)]
    | DropW w k => wput x s h c (go k) [WEv (EDropW s w)]
    | DropV w k => wput x s h c (go k) [WEv (EDropV s w)]
    | Free k => wput x s h c (go k) [WAcc s AFree]
    end.

  Inductive wact := WCall (o : O) | WStep (s : side) (spur : bool) (back : nat).
  Definition wstep (x : wsys) (a : wact) : wsys :=
    match a with
    | WCall o =>
        match wt (wthr_of x (side_of o)) with
        | Idle => wput x (side_of o) (whist x) (wcells x)
                    (Wthr (Run o (code o)) (wseen (wthr_of x (side_of o)))) [WEv (EInv o)]
        | _ => x
        end
    | WStep s spur back =>
        match wt (wthr_of x s) with
        | Run o p => wpstep x s o p (wseen (wthr_of x s)) spur back
        | _ => x
        end
    end.
  Definition wrun (l : list wact) : wsys := fold_left wstep l wsys0.
End Machine.
Arguments wthr : clear implicits.
Arguments wsys : clear implicits.
Arguments wact : clear implicits.

Definition accesses {O R} (l : list (wev O R)) : exec :=
  flat_map (fun e => match e with WAcc s a => [(s, a)] | _ => [] end) l.
Definition calls {O R} (l : list (wev O R)) : list (ev O R) :=
  flat_map (fun e => match e with WEv e => [e] | _ => [] end) l.
