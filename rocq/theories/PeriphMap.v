(** The macros that define a generic peripheral and map it to registers.

    Source: /repo/macros/src/periph.rs lines 128-832, /repo/macros/src/periph_map.rs lines 196-688.

    Names are as in Periph.v. Left out: [cfg] conditions (see Cfg.v and Periph.v for how they
    are combined); the bounds by the traits of src/reg/marker.rs; the tags, of which [Srt] stands for
    all three; a variant that is converted from another one (periph_map.rs lines 637-648), which is in RegVariants.v. *)
Require Import List Bool String.
From Verif Require Import Names PeriphSpec Periph PeriphMapSpec.
Import ListNotations.
Open Scope string_scope.

(** ** Traits, and the types that are associated with them. *)
Inductive kind := Plain | Opt | Ext.
(** A trait of a register or field; whether it has a parameter. *)
Record trait := Trait { t_key : key; t_kind : kind; t_param : bool }.

Definition opt_eqb (a b : option string) : bool :=
  match a, b with Some x, Some y => x =? y | None, None => true | _, _ => false end.
Definition pkey_eqb (a b : key) : bool :=
  match a, b with
  | KReg b r v, KReg c q w => (b =? c) && (r =? q) && opt_eqb v w
  | KFld b r v f, KFld c q w g => (b =? c) && (r =? q) && opt_eqb v w && (f =? g)
  | _, _ => false
  end.
Definition kind_eqb (a b : kind) : bool :=
  match a, b with Plain, Plain => true | Opt, Opt => true | Ext, Ext => true | _, _ => false end.
Definition trait_eqb (a b : trait) : bool := pkey_eqb (t_key a) (t_key b) && kind_eqb (t_kind a) (t_kind b) && Bool.eqb (t_param a) (t_param b).
Definition mem (t : trait) (l : list trait) : bool := existsb (trait_eqb t) l.
Fixpoint once (l : list trait) : bool := match l with [] => true | x :: r => negb (mem x r) && once r end.

Section Generic.
(** One variant of a register of the generic peripheral. *)
Variables (b r : string) (v : gvar).
Let kr := KReg b r (gv_name v).
Let kf f := KFld b r (gv_name v) (gf_name f).
(** periph.rs lines 246-463: the traits of a field. *)
Definition field_traits (f : gfield) : list trait :=
  if gf_opt f then [Trait (kf f) Opt (negb (gv_shared v)); Trait (kf f) Ext (negb (gv_shared v)); Trait (kf f) Plain false]
  else [Trait (kf f) Plain (negb (gv_shared v))].
(** Lines 251, 286, 388, 406. *)
Definition field_bound (f : gfield) : trait := Trait (kf f) (if gf_opt f then Opt else Plain) (negb (gv_shared v)).
(** Lines 464-798: the traits of a register. *)
Definition reg_traits : list trait :=
  if gv_opt v then [Trait kr Opt false; Trait kr Ext true; Trait kr Plain false]
  else [Trait kr Plain (negb (gv_shared v))].
(** What a peripheral must implement: lines 471, 633, 662-663. *)
Definition var_bounds : list trait :=
  if gv_opt v then [Trait kr Opt false]
  else if gv_shared v then map field_bound (gv_fields v)
  else Trait kr Plain true :: map field_bound (gv_fields v).
(** Lines 613-631: what the trait of an optional register requires. *)
Definition opt_bounds : list trait := if gv_opt v then map field_bound (gv_fields v) else [].
(** The members of the structs of fields, with the traits that the types are from: lines 319-330, 431-442;
    a struct without members has a marker (lines 574-612, 763-796). *)
Definition fields_struct : list (string * option trait) :=
  match gv_fields v with
  | [] => [("_marker", None)]
  | fs => map (fun f => (unkeywordize (gf_name f), Some (field_bound f))) fs
  end.
(** The members of the peripheral: lines 252-256, 389-393 for a shared register, 500-506, 664-670 for
    the first variant of another one. *)
Definition var_members (first : bool) : list (string * trait) :=
  if gv_shared v then map (fun f => (key_name (kf f), field_bound f)) (gv_fields v)
  else if first then [(key_name kr, Trait kr (if gv_opt v then Opt else Plain) (negb (gv_opt v)))]
  else [].
End Generic.

Fixpoint enum {A B} (f : bool -> A -> list B) (first : bool) (l : list A) : list B :=
  match l with [] => [] | x :: r => (f first x ++ enum f false r)%list end.
Definition per_var {B} (f : string -> string -> gvar -> bool -> list B) (g : list gblock) : list B :=
  flat_map (fun b => flat_map (fun r => enum (fun i v => f (gb_name b) (gr_name r) v i) true (gr_vars r)) (gb_regs b)) g.
Definition traits (g : list gblock) : list trait :=
  per_var (fun b r v _ => (flat_map (field_traits b r v) (gv_fields v) ++ reg_traits b r v)%list) g.
Definition bounds (g : list gblock) : list trait := per_var (fun b r v _ => var_bounds b r v) g.
Definition gmembers (g : list gblock) : list (string * trait) := per_var var_members g.
(** Lines 168-181, and the variants that must have names (lines 476-478, 675-677). *)
Definition gvars_ok (l : list gvar) : bool :=
  forallb (fun v => negb (gv_shared v && gv_opt v) &&
                    negb (Nat.ltb 1 (List.length l) && gv_shared v) &&
                    (negb (gv_opt v) || forallb gv_opt l) &&
                    (Nat.leb (List.length l) 1 || gv_shared v || forallb (fun u => match gv_name u with Some _ => true | None => false end) l)) l.
Definition generic_ok (g : list gblock) : bool := forallb (fun b => forallb (fun r => gvars_ok (gr_vars r)) (gb_regs b)) g.

Section Mapping.
(** One variant of a register in a map. *)
Variables (b bp r : string) (v : mvar).
Let kr := KReg b r (mv_name v).
Let kf f := KFld b r (mv_name v) (mf_name f).
(** periph_map.rs lines 330-448: the implementations for a field. *)
Definition field_impls (y : mbody) (f : mfield) : list (trait * option ty) :=
  let p := negb (mv_shared y) in
  match mf_path f with
  | None => [(Trait (kf f) Opt p, Some TyUnit)]
  | Some x =>
      let t := TyFld bp (mv_path y) (FTy x) in
      if mf_opt f then [(Trait (kf f) Opt p, Some t); (Trait (kf f) Ext p, Some t); (Trait (kf f) Plain false, None)]
      else [(Trait (kf f) Plain p, Some t)]
  end.
(** Lines 474-532: the implementations for a register. *)
Definition reg_impls : list (trait * option ty) :=
  match mv_body v with
  | None => [(Trait kr Opt false, Some TyUnit)]
  | Some y =>
      let t := TyReg bp (mv_path y) in
      if mv_shared y then
        if existsb (fun f => match mf_path f with Some _ => true | None => false end) (mv_fields y) then [(Trait kr Plain false, Some t)] else []
      else if mv_opt y then [(Trait kr Opt false, Some t); (Trait kr Ext true, Some t); (Trait kr Plain false, None)]
      else [(Trait kr Plain true, Some t)]
  end.
Definition var_impls : list (trait * option ty) :=
  (flat_map (fun y => flat_map (field_impls y) (mv_fields y)) (match mv_body v with Some y => [y] | None => [] end) ++ reg_impls)%list.
(** The parts of the expression of the macro: lines 340, 404-406, 483-485, 633-653. *)
Definition var_entries (first : bool) : list (string * place) :=
  match mv_body v with
  | None => if first then [(key_name kr, UnitE)] else []
  | Some y =>
      if mv_shared y then
        map (fun f => (key_name (kf f), match mf_path f with None => UnitE | Some x => AtField (long bp (mv_path y)) (unkeywordize x) end)) (mv_fields y)
      else if first then [(key_name kr, At (long bp (mv_path y)))]
      else []
  end.
End Mapping.

Definition per_mvar {B} (f : string -> string -> string -> mvar -> bool -> list B) (m : list mblock) : list B :=
  flat_map (fun b => flat_map (fun r => enum (fun i v => f (mb_name b) (mb_path b) (mr_name r) v i) true (mr_vars r)) (mb_regs b)) m.
Definition impls (m : list mblock) : list (trait * option ty) := per_mvar (fun b bp r v _ => var_impls b bp r v) m.
Definition mentries (m : list mblock) : list (string * place) := per_mvar var_entries m.

(** Lines 251-275: the errors; lines 534-544: the macro panics if another variant has no name or path. *)
Definition is_opt (v : mvar) : bool := match mv_body v with None => true | Some y => mv_opt y end.
Definition mvars_ok (l : list mvar) : bool :=
  forallb (fun v => match mv_body v with
    | None => true
    | Some y => negb (mv_shared y && mv_opt y) &&
                negb (Nat.ltb 1 (List.length l) && mv_shared y) &&
                (negb (mv_opt y) || forallb is_opt l) &&
                (Nat.leb (List.length l) 1 || mv_shared y ||
                  forallb (fun u => match mv_name u, mv_body u with Some _, Some _ => true | _, _ => false end) l)
    end) l.
Definition map_ok (m : list mblock) : bool := forallb (fun b => forallb (fun r => mvars_ok (mr_vars r)) (mb_regs b)) m.

(** The type that is associated with a trait. *)
Fixpoint assoc (t : trait) (l : list (trait * option ty)) : option ty :=
  match l with [] => None | (u, x) :: r => if trait_eqb t u then x else assoc t r end.

(** ** Taking a register apart and putting it together (lines 449-472, 570-632). *)
(** The members of the struct of a register (macros/src/reg.rs lines 184-189, 349-355). *)
Definition reg_struct (v : val) : list (string * val) :=
  match v with
  | VReg bp rp [] => [("_marker", VUnit)]
  | VReg bp rp fs => map (fun f => (unkeywordize f, VFld bp rp f)) fs
  | _ => []
  end.
Definition present (fs : list mfield) : list (string * string) :=
  flat_map (fun f => match mf_path f with Some x => [(unkeywordize (mf_name f), unkeywordize x)] | None => [] end) fs.
(** The members named in patterns and expressions of the struct of a register. *)
Definition reg_names (fs : list mfield) : list string :=
  match map snd (present fs) with [] => ["_marker"] | l => l end.
(** Those of the struct of fields, each with the variable or [()]. *)
Definition fields_names (fs : list mfield) : list (string * option string) :=
  (map (fun f => (unkeywordize (mf_name f), option_map unkeywordize (mf_path f))) fs ++
   match present fs with [] => [("_marker", None)] | _ => [] end)%list.
Definition same_names (a b : list string) : bool :=
  nodup a && nodup b && Nat.eqb (List.length a) (List.length b) && forallb (fun x => existsb (String.eqb x) b) a.
Definition bind (vars : list (string * val)) (l : list (string * option string)) : option (list (string * val)) :=
  fold_right (fun e acc => match acc, match snd e with None => Some VUnit | Some x => lookup x vars end with
                           | Some q, Some v => Some ((fst e, v) :: q) | _, _ => None end) (Some []) l.
(** The types of the members of a struct of fields. *)
Definition fields_types (i : list (trait * option ty)) (s : list (string * option trait)) : option (list (string * ty)) :=
  fold_right (fun e acc => match acc, match snd e with None => Some TyUnit | Some t => assoc t i end with
                           | Some q, Some t => Some ((fst e, t) :: q) | _, _ => None end) (Some []) s.
Definition into_fields (i : list (trait * option ty)) (s : list (string * option trait)) (fs : list mfield) (x : val) : option (list (string * val)) :=
  if same_names (reg_names fs) (map fst (reg_struct x)) && same_names (map fst (fields_names fs)) (map fst s) then
    match bind (reg_struct x) (fields_names fs), fields_types i s with
    | Some vs, Some ts => fill ts vs
    | _, _ => None
    end
  else None.
(** The struct expression of [from_fields]: the values of the variables in the order of the members. *)
Definition from_fields (s : list (string * option trait)) (fs : list mfield) (bp rp : string) (rfs : list string) (l : list (string * val)) : option val :=
  if same_names (map fst (fields_names fs)) (map fst s) && same_names (reg_names fs) (map fst (reg_struct (VReg bp rp rfs))) then
    let vars := flat_map (fun e => match snd e, lookup (fst e) l with Some x, Some v => [(x, v)] | _, _ => [] end) (fields_names fs) in
    option_map (fun p => VReg bp rp (flat_map (fun e => match snd e with VFld _ _ f => [f] | _ => [] end) p))
      (fill (map (fun e => (fst e, type_of (snd e))) (reg_struct (VReg bp rp rfs)))
            (match present fs with [] => [("_marker", VUnit)] | _ => vars end))
  else None.

(** ** The programs that are accepted. [regs] are the registers, as in Periph.v. *)
Definition reg_fields_of (regs : list (string * string * list string)) (bp rp : string) : option (list string) :=
  option_map snd (find (fun x => (fst (fst x) =? bp) && (snd (fst x) =? rp)) regs).
(** A type that exists. *)
Definition type_ok (regs : list (string * string * list string)) (t : option ty) : bool :=
  match t with
  | None | Some TyUnit => true
  | Some (TyReg b r) => match reg_fields_of regs b r with Some _ => true | None => false end
  | Some (TyFld b r t) => match reg_fields_of regs b r with Some fs => existsb (fun f => fty_eqb (field_ty f) t) fs | None => false end
  end.
(** The variant of the generic peripheral that a variant of the map is for. *)
Definition gfind (g : list gblock) (b r : string) (v : option string) : option gvar :=
  find (fun x => opt_eqb (gv_name x) v)
    (flat_map (fun gb => flat_map (fun gr => if (gb_name gb =? b) && (gr_name gr =? r) then gr_vars gr else []) (gb_regs gb)) g).
(** The implementations of lines 570-632 for a variant that is neither absent nor shared: the functions
    compile, and the trait has the same functions. *)
Definition var_fields_ok (regs : list (string * string * list string)) (g : list gblock) (i : list (trait * option ty)) (b bp r : string) (v : mvar) : bool :=
  match mv_body v with
  | None => true
  | Some y =>
      mv_shared y ||
      match gfind g b r (mv_name v), reg_fields_of regs bp (mv_path y) with
      | Some gv, Some rfs =>
          negb (gv_shared gv) &&
          same_names (map (fun f => unkeywordize (mf_name f)) (mv_fields y)) (map (fun f => unkeywordize (gf_name f)) (gv_fields gv)) &&
          match into_fields i (fields_struct b r gv) (mv_fields y) (VReg bp (mv_path y) rfs) with
          | Some l => match from_fields (fields_struct b r gv) (mv_fields y) bp (mv_path y) rfs l with Some _ => true | None => false end
          | None => false
          end
      | _, _ => false
      end
  end.
(** The bounds on the trait of an optional register, for those that are there. *)
Definition required (g : list gblock) (i : list trait) : list trait :=
  per_var (fun b r v _ => if mem (Trait (KReg b r (gv_name v)) Plain false) i then opt_bounds b r v else []) g.
Definition accepted (regs : list (string * string * list string)) (g : list gblock) (m : list mblock) : bool :=
  let i := impls m in
  generic_ok g && map_ok m && once (traits g) && once (map fst i) &&
  forallb (fun t => mem t (traits g)) (map fst i) &&
  forallb (fun t => mem t (map fst i)) (bounds g ++ required g (map fst i)) &&
  forallb (fun x => type_ok regs (snd x)) i &&
  forallb (fun x => x) (per_mvar (fun b bp r v _ => [var_fields_ok regs g i b bp r v]) m).

(** The peripheral that the macro of the map makes: periph.rs lines 811-825 (a struct without members
    has a marker), periph_map.rs lines 658-675. *)
Definition gstruct (g : list gblock) : list (string * option trait) :=
  match gmembers g with
  | [] => [("_marker", None)]
  | l => map (fun e => (fst e, Some (snd e))) l
  end.
Definition extract_map (regs : list (string * string * list string)) (g : list gblock) (m : list mblock) (ix : index) : option (list (string * val) * index) :=
  if accepted regs g m then
    match fields_types (impls m) (gstruct g) with
    | Some ms => construct ms (mentries m) ix
    | None => None
    end
  else None.
