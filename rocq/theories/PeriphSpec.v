(** What a peripheral should hold. *)
Require Import List Bool String Permutation.
From Verif Require Import CfgSpec.
Import ListNotations.
Open Scope string_scope.

(** A peripheral as the user declares it (src/periph.rs lines 31-58): blocks of registers; of a
    register, either all of it (no fields are given) or some of its fields. *)
Record pfield := Pfield { f_attr : attr; f_name : string }.
Record preg := Preg { r_attr : attr; r_name : string; r_fields : list pfield }.
Record pblock := Pblock { p_name : string; p_regs : list preg }.

(** What is declared: a register, or a field of a register. *)
Inductive path := PathReg (b r : string) | PathFld (b r f : string).

(** The registers and fields declared by a peripheral, whose conditions hold. *)
Definition wanted_reg (env : config) (b : string) (r : preg) : list path :=
  match r_fields r with
  | [] => if attrs_hold env [r_attr r] then [PathReg b (r_name r)] else []
  | fs => flat_map (fun f => if attrs_hold env [r_attr r; f_attr f] then [PathFld b (r_name r) (f_name f)] else []) fs
  end.
Definition wanted (env : config) (bs : list pblock) : list path :=
  flat_map (fun b => flat_map (wanted_reg env (p_name b)) (p_regs b)) bs.

(** The name of the member for it (src/periph.rs lines 65-70). *)
Definition member_name (w : path) : string :=
  match w with PathReg b r => b ++ "_" ++ r | PathFld b r f => b ++ "_" ++ r ++ "_" ++ f end.

(** Tokens: of a whole register, which has the tokens of its fields in it, or of a field; [()]. *)
Inductive val := VReg (b r : string) (fs : list string) | VFld (b r f : string) | VUnit.
(** What a token is the token of. *)
Definition token_of (v : val) : option path :=
  match v with VReg b r _ => Some (PathReg b r) | VFld b r f => Some (PathFld b r f) | VUnit => None end.
(** What the owner of a token owns: a register is owned with its fields. *)
Definition owns (v : val) : list path :=
  match v with VReg b r fs => PathReg b r :: map (PathFld b r) fs | VFld b r f => [PathFld b r f] | VUnit => [] end.

(** The conditions that a declaration mentions. *)
Definition mentions (bs : list pblock) (a : atom) : Prop :=
  exists b r, In b bs /\ In r (p_regs b) /\
    (In a (attr_atoms (r_attr r)) \/ exists f, In f (r_fields r) /\ In a (attr_atoms (f_attr f))).
(** At most one of them is set. *)
Definition one_set (env : config) (bs : list pblock) : Prop :=
  forall a b, mentions bs a -> mentions bs b -> env a = true -> env b = true -> a = b.
(** A register with a condition has no fields with conditions. *)
Definition one_level (bs : list pblock) : Prop :=
  forall b r f, In b bs -> In r (p_regs b) -> In f (r_fields r) -> r_attr r = NoAttr \/ f_attr f = NoAttr.

(** All attributes are proper ones (no [any()]). *)
Definition proper (bs : list pblock) : Prop :=
  forall b r, In b bs -> In r (p_regs b) -> plain (r_attr r) /\ forall f, In f (r_fields r) -> plain (f_attr f).

(** No register is wanted as a whole and in part. *)
Definition separate (l : list path) : Prop := forall b r f, In (PathReg b r) l -> ~ In (PathFld b r f) l.
