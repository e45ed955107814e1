(** What the peripherals of a generic definition should hold. *)
Require Import List Bool String.
From Verif Require Import PeriphSpec.
Import ListNotations.
Open Scope string_scope.

(** A generic peripheral (src/periph.rs lines 141-187): blocks, registers, variants of a register (a
    register without variants has one that has no name), fields. *)
Record gfield := Gfield { gf_name : string; gf_opt : bool }.
Record gvar := Gvar { gv_name : option string; gv_shared : bool; gv_opt : bool; gv_fields : list gfield }.
Record greg := Greg { gr_name : string; gr_vars : list gvar }.
Record gblock := Gblock { gb_name : string; gb_regs : list greg }.

(** A map of it to actual registers (lines 190-232): the paths are the actual names; what is absent
    has no path. *)
Record mfield := Mfield { mf_name : string; mf_path : option string; mf_opt : bool }.
Record mbody := Mbody { mv_path : string; mv_shared : bool; mv_opt : bool; mv_fields : list mfield }.
Record mvar := Mvar { mv_name : option string; mv_body : option mbody }.
Record mreg := Mreg { mr_name : string; mr_vars : list mvar }.
Record mblock := Mblock { mb_name : string; mb_path : string; mb_regs : list mreg }.

(** A register with its variant, or a field of it, in the generic definition. *)
Inductive key := KReg (b r : string) (v : option string) | KFld (b r : string) (v : option string) (f : string).
Definition var_name (r : string) (v : option string) : string := match v with None => r | Some v => r ++ "_" ++ v end.
Definition key_name (k : key) : string :=
  match k with
  | KReg b r v => b ++ "_" ++ var_name r v
  | KFld b r v f => b ++ "_" ++ var_name r v ++ "_" ++ f
  end.

(** What a peripheral consists of: of a shared register its fields, of another one the first variant. *)
Definition reg_parts (b : string) (r : greg) : list key :=
  match gr_vars r with
  | [] => []
  | v :: _ => if gv_shared v then map (fun f => KFld b (gr_name r) (gv_name v) (gf_name f)) (gv_fields v)
              else [KReg b (gr_name r) (gv_name v)]
  end.
Definition parts (g : list gblock) : list key := flat_map (fun b => flat_map (reg_parts (gb_name b)) (gb_regs b)) g.

(** What the map says about a part: [maps m k w], where [w] is [None] if the part is absent. *)
Definition maps (m : list mblock) (k : key) (w : option path) : Prop :=
  match k with
  | KReg b r v => exists mb mr mv, In mb m /\ mb_name mb = b /\ In mr (mb_regs mb) /\ mr_name mr = r /\ In mv (mr_vars mr) /\
      mv_name mv = v /\ w = option_map (fun y => PathReg (mb_path mb) (mv_path y)) (mv_body mv)
  | KFld b r v f => exists mb mr mv y mf, In mb m /\ mb_name mb = b /\ In mr (mb_regs mb) /\ mr_name mr = r /\ In mv (mr_vars mr) /\
      mv_name mv = v /\ mv_body mv = Some y /\ In mf (mv_fields y) /\ mf_name mf = f /\
      w = option_map (fun p => PathFld (mb_path mb) (mv_path y) p) (mf_path mf)
  end.

(** ** When a map agrees with a generic definition, as its author is told (src/periph.rs lines 205-231): a
    part has the properties it was declared with; only an optional one is absent. *)
Definition agree_field (gf : gfield) (mf : mfield) : Prop :=
  mf_name mf = gf_name gf /\ (mf_path mf = None -> gf_opt gf = true) /\ (mf_path mf <> None -> mf_opt mf = gf_opt gf).
Definition agree_var (gv : gvar) (mv : mvar) : Prop :=
  mv_name mv = gv_name gv /\
  match mv_body mv with
  | None => gv_opt gv = true
  | Some y => mv_shared y = gv_shared gv /\ mv_opt y = gv_opt gv /\ Forall2 agree_field (gv_fields gv) (mv_fields y)
  end.
Definition agree_reg (gr : greg) (mr : mreg) : Prop := mr_name mr = gr_name gr /\ Forall2 agree_var (gr_vars gr) (mr_vars mr).
Definition agree_block (gb : gblock) (mb : mblock) : Prop := mb_name mb = gb_name gb /\ Forall2 agree_reg (gb_regs gb) (mb_regs mb).
Definition agrees (g : list gblock) (m : list mblock) : Prop := Forall2 agree_block g m.

(** A generic definition with distinct names ([escape]: how reserved words are changed). *)
Definition all_vars (g : list gblock) : list (string * string * gvar) :=
  flat_map (fun b => flat_map (fun r => map (fun v => (gb_name b, gr_name r, v)) (gr_vars r)) (gb_regs b)) g.
Definition proper_generic (escape : string -> string) (g : list gblock) : Prop :=
  NoDup (map (fun x => (fst x, gv_name (snd x))) (all_vars g)) /\
  (forall x, In x (all_vars g) -> NoDup (map (fun f => escape (gf_name f)) (gv_fields (snd x)))) /\
  (forall b r v, In b g -> In r (gb_regs b) -> In v (gr_vars r) ->
     (gv_shared v = true -> gv_opt v = false /\ gr_vars r = [v]) /\
     (gv_opt v = true -> forall u, In u (gr_vars r) -> gv_opt u = true) /\
     (gv_name v = None -> gr_vars r = [v])).

(** The registers that a map names, with their fields: those of a register that is not shared are all
    mapped. *)
Definition paths (fs : list mfield) : list string := flat_map (fun f => match mf_path f with Some x => [x] | None => [] end) fs.
Definition all_mvars (m : list mblock) : list (string * mvar) :=
  flat_map (fun b => flat_map (fun r => map (fun v => (mb_path b, v)) (mr_vars r)) (mb_regs b)) m.
Definition registers (escape : string -> string) (regs : list (string * string * list string)) (m : list mblock) : Prop :=
  NoDup (map fst regs) /\
  forall bp v y, In (bp, v) (all_mvars m) -> mv_body v = Some y ->
    exists rfs, In (bp, mv_path y, rfs) regs /\ NoDup (map escape rfs) /\ (forall f, In f (paths (mv_fields y)) -> In f rfs /\ f <> "val") /\
      (mv_shared y = false -> incl rfs (paths (mv_fields y)) /\ NoDup (paths (mv_fields y))).

(** What the macro of a map takes out of the index. *)
Definition reg_taken (bp : string) (r : mreg) : list path :=
  match mr_vars r with
  | [] => []
  | v :: _ =>
      match mv_body v with
      | None => []
      | Some y => if mv_shared y then map (PathFld bp (mv_path y)) (paths (mv_fields y)) else [PathReg bp (mv_path y)]
      end
  end.
Definition taken (m : list mblock) : list path := flat_map (fun b => flat_map (reg_taken (mb_path b)) (mb_regs b)) m.

(** What the macros need in addition. *)
(** Of a register that is not shared, and has fields, a field is there; *)
Definition whole_fields (m : list mblock) : Prop :=
  forall bp v y, In (bp, v) (all_mvars m) -> mv_body v = Some y -> mv_shared y = false -> paths (mv_fields y) = [] -> mv_fields y = [].
(** all variants of a register are there, or none. *)
Definition all_variants (m : list mblock) : Prop :=
  forall b r v u, In b m -> In r (mb_regs b) -> In v (mr_vars r) -> In u (mr_vars r) -> mv_body v <> None -> mv_body u <> None.
