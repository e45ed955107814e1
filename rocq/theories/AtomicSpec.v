(** Specification of an atomic word shared by any number of contexts.

    This file is independent of the code: it says what "atomic" means.  Each
    operation is invoked, takes effect at one instant, and returns. *)
Require Import NArith List Arith.
Import ListNotations.

(** Operations on a word. *)
Inductive op :=
| Load
| Store (v : N)
| Swap (v : N)
| Fetch (f : N -> N)                     (* native fetch_or / fetch_and *)
| Modify (f : N -> N)                    (* load; update loop *)
| ModifyFrom (held : N) (f : N -> N)     (* update loop starting from a value read earlier *)
| TryModify (f : N -> option N).         (* conditional update loop *)

Inductive res :=
| RUnit
| RVal (v : N)       (* the previous value *)
| ROk (v : N)        (* updated; the previous value *)
| RErr (v : N).      (* declined; the value it was declined on *)

(** The sequential meaning of an operation: new word and result. *)
Definition apply (o : op) (w : N) : N * res :=
  match o with
  | Load => (w, RVal w)
  | Store v => (v, RUnit)
  | Swap v => (v, RVal w)
  | Fetch f | Modify f | ModifyFrom _ f => (f w, RVal w)
  | TryModify f =>
      match f w with
      | Some w' => (w', ROk w)
      | None => (w, RErr w)
      end
  end.

(** Externally visible events of context [t]. *)
Inductive vis := Inv (t : nat) (o : op) | Ret (t : nat) (r : res).

Inductive astat := AIdle | APend (o : op) | ADone (r : res).

Record astate := AState { aw : N; ath : nat -> astat }.

Definition upd {A} (f : nat -> A) (t : nat) (a : A) : nat -> A :=
  fun t' => if Nat.eqb t' t then a else f t'.

(** [aexec w0 tr s]: starting with word [w0] and all contexts idle, the atomic
    word can produce the visible trace [tr] (oldest first) and reach [s]. *)
Inductive aexec (w0 : N) : list vis -> astate -> Prop :=
| ax_init : aexec w0 [] (AState w0 (fun _ => AIdle))
| ax_inv tr s t o :
    aexec w0 tr s -> ath s t = AIdle ->
    aexec w0 (tr ++ [Inv t o]) (AState (aw s) (upd (ath s) t (APend o)))
| ax_take_effect tr s t o :
    aexec w0 tr s -> ath s t = APend o ->
    aexec w0 tr (AState (fst (apply o (aw s))) (upd (ath s) t (ADone (snd (apply o (aw s))))))
| ax_ret tr s t r :
    aexec w0 tr s -> ath s t = ADone r ->
    aexec w0 (tr ++ [Ret t r]) (AState (aw s) (upd (ath s) t AIdle)).

(** A trace that an atomic word can produce, ending with word [w]. *)
Definition atomic_trace (w0 : N) (tr : list vis) (w : N) : Prop :=
  exists s, aexec w0 tr s /\ aw s = w.
