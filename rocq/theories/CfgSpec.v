(** Conditional compilation as the user writes it: the meaning of [#[cfg(...)]]
    attributes (The Rust Reference, "Conditional compilation"). *)
Require Import NArith List Bool.
Import ListNotations.

(** [key = "value"]; a build configuration says which of them are set. *)
Definition atom : Type := N * N.
Definition config : Type := atom -> bool.

(** The forms of attribute the macros accept. *)
Inductive attr :=
| NoAttr
| CfgOne (a : atom)            (* #[cfg(a)] *)
| CfgAny (l : list atom).      (* #[cfg(any(a, b, ...))] *)
Definition attr_holds (env : config) (x : attr) : bool :=
  match x with
  | NoAttr => true
  | CfgOne a => env a
  | CfgAny l => existsb env l
  end.
(** An item with several attributes is compiled if all of them hold. *)
Definition attrs_hold (env : config) (l : list attr) : bool := forallb (attr_holds env) l.

Definition attr_atoms (x : attr) : list atom :=
  match x with NoAttr => [] | CfgOne a => [a] | CfgAny l => l end.
(** No [any()], and nothing repeated in an [any]. *)
Definition plain (x : attr) : Prop :=
  match x with CfgAny l => l <> [] /\ NoDup l | _ => True end.

(** The predicates in the generated code. *)
Inductive pred :=
| PAny (l : list atom)                      (* any(a, b, ...) *)
| PNotAnyAll (l : list (list atom)).        (* not(any(all(a, ...), ...)) *)
Definition pred_holds (env : config) (p : pred) : bool :=
  match p with
  | PAny l => existsb env l
  | PNotAnyAll l => negb (existsb (forallb env) l)
  end.
Definition preds_hold (env : config) (l : list pred) : bool := forallb (pred_holds env) l.
