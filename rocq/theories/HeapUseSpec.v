(** What the users of a heap see of the contents of their memory: calls, returns, bytes written and read. *)
Require Import NArith List Bool Arith.
Import ListNotations.
Open Scope N_scope.

(** A request for memory: a new block, or a larger or smaller one instead of another. *)
Inductive ureq :=
| RNew (zeroed : bool) (size align : N)
| RGrow (zeroed : bool) (ptr old size align : N)
| RShrink (ptr old size align : N).

Inductive uevent :=
| UCall (d : nat) (r : ureq)               (* context [d] *)
| UBack (d : nat) (o : option (N * N))     (* address and length, or nothing *)
| UGive (d : nat) (ptr size : N)           (* deallocate is called *)
| UGiven (d : nat)
| UWrote (a v : N)
| URead (a v : N).

Definition old_of (r : ureq) : option N :=
  match r with RNew _ _ _ => None | RGrow _ p _ _ _ | RShrink p _ _ _ => Some p end.
(** The number of bytes that are kept. *)
Definition keeps (r : ureq) : N :=
  match r with RNew _ _ _ => 0 | RGrow _ _ o _ _ => o | RShrink _ _ n _ => n end.
Definition zeroes (r : ureq) : bool := match r with RNew z _ _ | RGrow z _ _ _ _ => z | RShrink _ _ _ _ => false end.

(** What is known of the contents: by address; and for the request of each context, what was in its old
    block at the call. *)
Record known := Known { now : N -> option N; then_ : nat -> ureq * (N -> option N) }.
Definition known0 : known := Known (fun _ => None) (fun _ => (RNew false 0 0, fun _ => None)).

(** The contents of a block at its return. *)
Definition handed (r : ureq) (old : N -> option N) (k : N) : option N :=
  if k <? keeps r then old k else if zeroes r then Some 0 else None.

Definition learn (s : known) (e : uevent) : known :=
  match e with
  | UCall d r =>
      Known (now s) (fun j => if Nat.eqb j d
                              then (r, match old_of r with Some p => fun k => now s (p + k) | None => fun _ => None end)
                              else then_ s j)
  | UBack d (Some (q, len)) =>
      Known (fun a => if (q <=? a) && (a <? q + len) then handed (fst (then_ s d)) (snd (then_ s d)) (a - q) else now s a)
        (then_ s)
  | UWrote a v => Known (fun b => if b =? a then Some v else now s b) (then_ s)
  | _ => s
  end.
Definition contents (h : list uevent) (a : N) : option N := now (fold_left learn h known0) a.

(** Every byte read is the one that is known to be there. *)
Definition faithful (h : list uevent) : Prop :=
  forall h1 a v h2 w, h = h1 ++ URead a v :: h2 -> contents h1 a = Some w -> v = w.
