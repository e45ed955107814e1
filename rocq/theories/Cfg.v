(** Model of the conditional compilation of macro items.
    Source: /repo/macros-core/src/cfg_cond.rs. *)
Require Import NArith List Bool.
From Verif Require Import CfgSpec.
Import ListNotations.

(** Lines 9-14. *)
Record cond := Cond { clauses : list (list atom); inverse : bool }.

(** Lines 16-50, on an attribute of one of the accepted forms. *)
Definition parse (x : attr) : cond :=
  let l := match x with NoAttr => [] | CfgOne a => [a] | CfgAny l => l end in
  Cond (match l with [] => [] | _ => [l] end) false.

(** Derived [Default]. *)
Definition default_cond : cond := Cond [] false.
(** Lines 58-62; the asserts hold for conditions that come from [parse]. *)
Definition add_clause (c r : cond) : cond := Cond (clauses c ++ clauses r) (inverse c).
(** How the macros combine attributes (macros/src/periph_map.rs lines 325-327). *)
Definition cond_of (l : list attr) : cond := fold_left (fun c x => add_clause c (parse x)) l default_cond.

(** Lines 65-80: the generated attributes. *)
Definition attrs (c : cond) : list pred :=
  match clauses c with
  | [] => []
  | l => if inverse c then [PNotAnyAll l] else map PAny l
  end.

(** Lines 83-99; [None]: panic. *)
Definition to_dnf (c : cond) : option (list (list atom)) :=
  match clauses c with
  | [] | [[]] | [[]; []] => Some []
  | [x] | [x; []] | [[]; x] => Some (map (fun a => [a]) x)
  | [x; y] => Some (flat_map (fun a => map (fun b => [a; b]) y) x)
  | _ => None
  end.

Definition atom_eqb (a b : atom) : bool := (N.eqb (fst a) (fst b) && N.eqb (snd a) (snd b))%bool.
Fixpoint key_eqb (x y : list atom) : bool :=
  match x, y with
  | [], [] => true
  | a :: x, b :: y => atom_eqb a b && key_eqb x y
  | _, _ => false
  end.

Section Items.
Context {T : Type}.

(** Line 119: [map.entry(cond).or_default().push(item)]; the map is a list of entries in
    order of insertion. *)
Fixpoint push (m : list (list atom * list T)) (k : list atom) (x : T) : list (list atom * list T) :=
  match m with
  | [] => [(k, [x])]
  | (k', l) :: r => if key_eqb k k' then (k', l ++ [x]) :: r else (k', l) :: push r k x
  end.
(** Lines 110-122: the map and the default items. *)
Definition add_item (acc : option (list (list atom * list T) * list T)) (i : cond * T) :=
  match acc, to_dnf (fst i) with
  | Some (m, d), Some [] => Some (m, d ++ [snd i])
  | Some (m, d), Some l => Some (fold_left (fun m k => push m k (snd i)) l m, d)
  | _, _ => None
  end.
Definition collect (items : list (cond * T)) := fold_left add_item items (Some ([], [])).

(** Lines 123-132, for the entries in the order in which the map gives them. *)
Definition alternatives (m : list (list atom * list T)) (d : list T) : list (cond * list T) :=
  let result := map (fun e => (Cond [fst e] false, snd e ++ d)) m in
  result ++ [(Cond (flat_map (fun r => clauses (fst r)) result) true, d)].
End Items.
