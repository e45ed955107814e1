(** What a LIFO list is, on plain Coq lists (front first).  Independent of the
    nodes and links of the model. *)
Require Import List Bool.
From Verif Require Import LinkedList.
Import ListNotations.

Section Spec.
Context {A : Type}.

(** Elements for which the filter answers true (handed out), and the others
    (kept), in order; both as left by the filter. *)
Fixpoint split_by (f : list A -> A -> bool * A) (seen l : list A) : list A * list A :=
  match l with
  | [] => ([], [])
  | v :: r =>
      let (b, v') := f seen v in
      let (y, k) := split_by f (seen ++ [v]) r in
      if b then (v' :: y, k) else (y, v' :: k)
  end.

Definition lspec (l : list A) (o : lop A) : list A * lres A :=
  match o with
  | LPush v => (v :: l, LUnit)
  | LPop => match l with [] => ([], LOpt None) | v :: r => (r, LOpt (Some v)) end
  | LIsEmpty => (l, LBool (match l with [] => true | _ => false end))
  | LExtend vs => (rev vs ++ l, LUnit)
  | LIterMut f => (map f l, LList l)
  | LDrain n f =>
      let (y, k) := split_by f [] l in (k, LDrained (firstn n y) (skipn n y))
  end.

Fixpoint lspecs (l : list A) (os : list (lop A)) : list A * list (lres A) :=
  match os with
  | [] => (l, [])
  | o :: r => let (l1, x) := lspec l o in let (l2, xs) := lspecs l1 r in (l2, x :: xs)
  end.

End Spec.
