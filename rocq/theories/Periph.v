(** The macro that defines a singular peripheral, and the expressions that its macro expands to.

    Source: /repo/macros/src/periph_singular.rs lines 120-203; /repo/macros/src/reg.rs lines 167-203,
    349-378 (the struct of a register); /repo/macros/src/reg_tokens_inner.rs lines 64-99 (the index).

    A name is a string that is in snake case already: the conversions of [heck] are left out. The name
    of a type or module is identified with what it refers to. *)
Require Import List Bool String.
From Verif Require Import CfgSpec Cfg Names PeriphSpec.
Import ListNotations.
Open Scope string_scope.

(** macros/src/reg.rs lines 179-182: the type of the token of a field. *)
Inductive fty := FTy (f : string) | FVal_.
Definition field_ty (f : string) : fty := if f =? "val" then FVal_ else FTy f.

(** Types of members: a token of a whole register, a token of a field, [()]. *)
Inductive ty := TyReg (b r : string) | TyFld (b r : string) (t : fty) | TyUnit.
Definition type_of (v : val) : ty :=
  match v with VReg b r _ => TyReg b r | VFld b r f => TyFld b r (field_ty f) | VUnit => TyUnit end.

Definition fty_eqb (a b : fty) : bool :=
  match a, b with FTy x, FTy y => x =? y | FVal_, FVal_ => true | _, _ => false end.
Definition ty_eqb (a b : ty) : bool :=
  match a, b with
  | TyReg x y, TyReg z w => (x =? z) && (y =? w)
  | TyFld x y t, TyFld z w u => (x =? z) && (y =? w) && fty_eqb t u
  | TyUnit, TyUnit => true
  | _, _ => false
  end.

(** ** The index of register tokens, and moving tokens out of it.

    A member of the index: its name, the register, the fields of the register, and whether it has been
    moved out or which fields are left. *)
Inductive state := Whole | Part (left : list string) | Gone.
Record slot := Slot { s_name : string; s_block : string; s_reg : string; s_fields : list string; s_state : state }.
Definition index := list slot.
(** macros/src/reg_tokens.rs lines 175-193: the member of a register. *)
Definition long (b r : string) : string := b ++ "_" ++ r.
Definition slot_of (x : string * string * list string) : slot :=
  let '(b, r, fs) := x in Slot (long b r) b r fs Whole.

(** The expressions [$reg.m], [$reg.m.f], [()]. *)
Inductive place := At (m : string) | AtField (m f : string) | UnitE.

Fixpoint update (n : string) (g : slot -> option (val * slot)) (ix : index) : option (val * index) :=
  match ix with
  | [] => None
  | s :: r =>
      if s_name s =? n then option_map (fun p => (fst p, snd p :: r)) (g s)
      else option_map (fun p => (fst p, s :: snd p)) (update n g r)
  end.
(** A register can be moved when nothing in it has been. *)
Definition set_state (s : slot) (t : state) : slot := Slot (s_name s) (s_block s) (s_reg s) (s_fields s) t.
Definition move_reg (s : slot) : option (val * slot) :=
  match s_state s with
  | Whole => Some (VReg (s_block s) (s_reg s) (s_fields s), set_state s Gone)
  | _ => None
  end.
Fixpoint pick (f : string) (l : list string) : option (string * list string) :=
  match l with
  | [] => None
  | x :: r => if unkeywordize x =? f then Some (x, r) else option_map (fun p => (fst p, x :: snd p)) (pick f r)
  end.
(** A field of the struct of a register: macros/src/reg.rs lines 184-189. *)
Definition move_fld (f : string) (s : slot) : option (val * slot) :=
  match s_state s with
  | Gone => None
  | Whole => option_map (fun p => (VFld (s_block s) (s_reg s) (fst p), set_state s (Part (snd p)))) (pick f (s_fields s))
  | Part l => option_map (fun p => (VFld (s_block s) (s_reg s) (fst p), set_state s (Part (snd p)))) (pick f l)
  end.
Definition eval (p : place) (ix : index) : option (val * index) :=
  match p with
  | At m => update m move_reg ix
  | AtField m f => update m (move_fld f) ix
  | UnitE => Some (VUnit, ix)
  end.

(** A struct expression: its parts are evaluated in the order in which they are written. *)
Fixpoint eval_all (es : list (string * place)) (ix : index) : option (list (string * val) * index) :=
  match es with
  | [] => Some ([], ix)
  | (n, p) :: r =>
      match eval p ix with
      | Some (v, ix1) => option_map (fun q => ((n, v) :: fst q, snd q)) (eval_all r ix1)
      | None => None
      end
  end.
Fixpoint nodup (l : list string) : bool :=
  match l with [] => true | x :: r => negb (existsb (String.eqb x) r) && nodup r end.
Fixpoint lookup {A} (n : string) (l : list (string * A)) : option A :=
  match l with [] => None | (m, a) :: r => if m =? n then Some a else lookup n r end.
(** Each member of the struct is given once, has a value of its type, and nothing else is given. *)
Fixpoint fill (ms : list (string * ty)) (vs : list (string * val)) : option (list (string * val)) :=
  match ms with
  | [] => Some []
  | (n, t) :: r =>
      match lookup n vs with
      | Some v => if ty_eqb (type_of v) t then option_map (cons (n, v)) (fill r vs) else None
      | None => None
      end
  end.
Definition construct (ms : list (string * ty)) (es : list (string * place)) (ix : index) : option (list (string * val) * index) :=
  if nodup (map fst ms) && nodup (map fst es) && Nat.eqb (List.length ms) (List.length es) then
    match eval_all es ix with
    | Some (vs, ix') => option_map (fun p => (p, ix')) (fill ms vs)
    | None => None
    end
  else None.

(** ** [periph::singular!] *)

(** Lines 141-148, 152-169: the members of the struct, with their conditions. *)
Definition reg_members (b : string) (r : preg) : list (cond * (string * ty)) :=
  match r_fields r with
  | [] => [(parse (r_attr r), (long b (r_name r), TyReg b (r_name r)))]
  | fs => map (fun f => (cond_of [r_attr r; f_attr f], (long (long b (r_name r)) (f_name f), TyFld b (r_name r) (FTy (f_name f))))) fs
  end.
(** Lines 149-150, 170-173: the parts of the expression, with their conditions. *)
Definition reg_entries (b : string) (r : preg) : list (cond * (string * place)) :=
  match r_fields r with
  | [] => [(parse (r_attr r), (long b (r_name r), At (long b (r_name r))))]
  | fs => map (fun f => (cond_of [r_attr r; f_attr f],
                          (long (long b (r_name r)) (f_name f), AtField (long b (r_name r)) (unkeywordize (f_name f))))) fs
  end.
Definition members (bs : list pblock) := flat_map (fun b => flat_map (reg_members (p_name b)) (p_regs b)) bs.
Definition entries (bs : list pblock) := flat_map (fun b => flat_map (reg_entries (p_name b)) (p_regs b)) bs.

(** Lines 178-193: the definitions of the macro, from the entries [m] of the hash map in some order. *)
Definition macros (m : list (list atom * list (string * place))) (d : list (string * place)) : list (cond * list (string * place)) :=
  alternatives m d.
(** The program is accepted with one definition of the macro only; then the macro is called on an index. *)
Definition extract (env : config) (bs : list pblock) (g : list (cond * list (string * place))) (ix : index) : option (list (string * val) * index) :=
  match filter (fun x => preds_hold env (attrs (fst x))) g with
  | [(_, es)] => construct (map snd (filter (fun x => preds_hold env (attrs (fst x))) (members bs))) es ix
  | _ => None
  end.

(** A program that owns an index: it calls macros of peripherals, and moves tokens out by itself. The
    second component is what it has got. *)
Inductive step :=
| SPeriph (env : config) (bs : list pblock) (g : list (cond * list (string * place)))
| SMove (p : place).
Fixpoint program (l : list step) (ix : index) : option (list val * index) :=
  match l with
  | [] => Some ([], ix)
  | SPeriph env bs g :: r =>
      match extract env bs g ix with
      | Some (p, ix1) => option_map (fun q => ((map snd p ++ fst q)%list, snd q)) (program r ix1)
      | None => None
      end
  | SMove p :: r =>
      match eval p ix with
      | Some (v, ix1) => option_map (fun q => (v :: fst q, snd q)) (program r ix1)
      | None => None
      end
  end.
