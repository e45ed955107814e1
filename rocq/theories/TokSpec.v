(** What tokens promise (src/token.rs): a token exists at most once, and the token of a mutable static is
    the only way to it.  Contexts are threads or interrupt handlers. *)
Require Import NArith List.
Import ListNotations.
Open Scope N_scope.

(** What contexts own: a token of a type, with the tokens in its fields, or a reference to a static. *)
Inductive val := Tok (t : N) (kids : list val) | Ref (i : N).

(** How many tokens of type [t] there are in a value. *)
Fixpoint occ (t : N) (v : val) : nat :=
  match v with
  | Tok u kids => (if u =? t then 1 else 0) + list_sum (map (occ t) kids)
  | Ref _ => 0
  end%nat.
Definition exist (t : N) (l : list (N * val)) : nat := list_sum (map (fun x => occ t (snd x)) l).

(** The history of the statics: a context accesses one; a context hands over a value, through which the
    listed statics can be accessed. *)
Inductive tev := EvGet (c i : N) | EvSend (c c' : N) (l : list N).

(** Who may access static [i] after [l], if [o] may at first. *)
Fixpoint owner (o i : N) (l : list tev) : N :=
  match l with
  | [] => o
  | EvSend _ c' is :: l => owner (if existsb (N.eqb i) is then c' else o) i l
  | _ :: l => owner o i l
  end.
Definition exclusive (o : N -> N) (l : list tev) : Prop :=
  forall l1 e l2, l = l1 ++ e :: l2 ->
    match e with
    | EvGet c i => owner (o i) i l1 = c
    | EvSend c _ is => forall i, In i is -> owner (o i) i l1 = c
    end.
(** A value that must not leave its context (its type is not [Send]) does not. *)
Definition stays (send : N -> bool) (l : list tev) : Prop :=
  forall i c c', send i = false -> In (EvGet c i) l -> In (EvGet c' i) l -> c = c'.
