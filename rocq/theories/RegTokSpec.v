(** What the updates of a register amount to. *)
Require Import NArith List.
Import ListNotations.

(** A completed write to the register: a store, or an update by a [modify]. *)
Inductive wev := EStore (w : N) | EUpd (f : N -> N).
Definition apply1 (v : N) (e : wev) : N := match e with EStore w => w | EUpd f => f v end.
(** The value when the writes are made one after the other, none of them in the middle of another. *)
Definition replay (v0 : N) (l : list wev) : N := fold_left apply1 l v0.
