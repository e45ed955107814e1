(** The traits of register and field tokens: which methods can be called on which token.

    Source: /repo/src/reg/mod.rs lines 391-800 (traits of registers), /repo/src/reg/field.rs, /repo/src/reg/atomic.rs,
    /repo/src/reg/soft_atomic.rs, /repo/src/reg/marker.rs, /repo/src/reg/tag.rs; the implementations that [reg!] makes:
    /repo/macros/src/reg.rs lines 226-347, 356-360.

    A trait is implemented for a token if [reg!] says so, or if the conditions of a general implementation
    ([impl<R> ... for R]) hold.  The tag [T] of a trait is that of the token.  A method can be called if exactly one trait in the
    prelude that has it is implemented.  Generic code knows its bounds and their supertraits; it must repeat the bound
    on [Self::Reg] of a field trait, since Rust does not infer it.  Left out: what the methods do (RegTok.v). *)
Require Import NArith List Bool.
Import ListNotations.

(** tag.rs lines 36-59. *)
Inductive tag := Urt | Srt | Crt.
(** Read-write, read-only, write-only: in the names of the traits of marker.rs. *)
Inductive mode := Rw | Ro | Wo.

Inductive tr :=
(* conditions on the tag, on copies, and on the integer ([AtomicBits]: atomic.rs lines 82-86, 225-252) *)
| TUrt | TSrt | TCrt | TAtomic | CopyReg | CopyField | AtomicBits
(* registers *)
| RReg | WReg | RoReg | WoReg | WRegUnsync | WRegAtomic | RwRegUnsync | RwRegAtomic
| RwReg | MReg (t : tag) (m : mode)
(* fields; [true]: one bit *)
| FieldOf (one : bool)
| RRField | WWField | RoRRField | WoWField | WoWoField | RROf (one : bool) | WWOf (one : bool) | WoWoOf (one : bool)
| WRwField | WRwOf (one : bool)
| FMode (one : bool) (f r : mode) | MField (t : tag) (one : bool) (f r : mode).

Definition tag_eq (a b : tag) : bool := match a, b with Urt, Urt | Srt, Srt | Crt, Crt => true | _, _ => false end.
Definition mode_eq (a b : mode) : bool := match a, b with Rw, Rw | Ro, Ro | Wo, Wo => true | _, _ => false end.
Definition tr_eq (a b : tr) : bool :=
  match a, b with
  | TUrt, TUrt | TSrt, TSrt | TCrt, TCrt | TAtomic, TAtomic | CopyReg, CopyReg | CopyField, CopyField | AtomicBits, AtomicBits
  | RReg, RReg | WReg, WReg | RoReg, RoReg | WoReg, WoReg | WRegUnsync, WRegUnsync | WRegAtomic, WRegAtomic
  | RwRegUnsync, RwRegUnsync | RwRegAtomic, RwRegAtomic | RwReg, RwReg
  | RRField, RRField | WWField, WWField | RoRRField, RoRRField | WoWField, WoWField | WoWoField, WoWoField | WRwField, WRwField => true
  | MReg t m, MReg t' m' => tag_eq t t' && mode_eq m m'
  | FieldOf x, FieldOf y | RROf x, RROf y | WWOf x, WWOf y | WoWoOf x, WoWoOf y | WRwOf x, WRwOf y => Bool.eqb x y
  | FMode x f r, FMode y f' r' => Bool.eqb x y && mode_eq f f' && mode_eq r r'
  | MField t x f r, MField t' y f' r' => tag_eq t t' && Bool.eqb x y && mode_eq f f' && mode_eq r r'
  | _, _ => false
  end.

Definition tag_cond (t : tag) : tr := match t with Urt => TUrt | Srt => TSrt | Crt => TCrt end.

Section Build.
Variable atomics : bool.   (* the feature of the crate *)

(** The traits that a trait has as conditions on [Self] (its supertraits). *)
Definition supers (p : tr) : list tr :=
  match p with
  | RoReg => [RReg]                                  (* mod.rs line 570 *)
  | WoReg => [WReg]                                  (* 573 *)
  | WRegUnsync => [WReg; TUrt]                       (* 576 *)
  | WRegAtomic => [WReg; TAtomic]                    (* 616 *)
  | RwRegUnsync => [RReg; WRegUnsync]                (* 654 *)
  | RwRegAtomic => [RReg; WRegAtomic]                (* atomic.rs line 8, soft_atomic.rs line 11 *)
  | RwReg => [RReg; WReg]                            (* marker.rs lines 28-33 *)
  | MReg Urt Rw => [RwReg; RwRegUnsync; TUrt]        (* 44-49 *)
  | MReg Urt Ro => [RoReg; TUrt]                     (* 60-64 *)
  | MReg Urt Wo => [WoReg; WRegUnsync; TUrt]         (* 70-75 *)
  | MReg Srt Rw => [RwReg; WRegAtomic; TSrt]         (* 86-91 *)
  | MReg Srt Ro => [RoReg; TSrt]                     (* 102-106 *)
  | MReg Srt Wo => [WoReg; WRegAtomic; TSrt]         (* 112-117 *)
  | MReg Crt Rw => [RwReg; RwRegAtomic; CopyReg; TCrt]  (* 128-134 *)
  | MReg Crt Ro => [RoReg; CopyReg; TCrt]            (* 146-151 *)
  | MReg Crt Wo => [WoReg; WRegAtomic; CopyReg; TCrt]   (* 162-168 *)
  | RoRRField => [RRField]                           (* field.rs lines 110-115 *)
  | WoWField => [WWField]                            (* 118-123 *)
  | WoWoField => [WoWField]                          (* 126-130 *)
  | RROf one => [FieldOf one; RRField]               (* 151-155, 206-210 *)
  | WWOf one => [FieldOf one; WWField]               (* 166-170, 223-227 *)
  | WoWoOf one => [FieldOf one; WoWField]            (* 185-189, 237-241 *)
  | WRwField => [WWField]                            (* atomic.rs lines 32-36, soft_atomic.rs lines 35-39 *)
  | WRwOf one => [WRwField; FieldOf one]             (* 48-52, 71-75; 51-55, 75-79 *)
  | FMode one Rw Rw => [WWOf one; RROf one]          (* marker.rs lines 181-186, 199-204 *)
  | FMode one Wo Rw => [WWOf one; WoWField]          (* 217-222, 235-240 *)
  | FMode one Ro Rw => [RROf one; RoRRField]         (* 253-258, 271-276 *)
  | FMode one Ro Ro => [RROf one; RoRRField]         (* 289-294, 307-312 *)
  | MField Urt one Wo Wo => [WoWoOf one; TUrt]       (* 389-393, 405-409 *)
  | MField Urt one f r => [FMode one f r; TUrt]      (* 325-382, 421-480 *)
  | MField Srt one Rw Rw => [FMode one Rw Rw; WRwOf one; TSrt]   (* 484-489, 502-507 *)
  | MField Srt one Wo Rw => [FMode one Wo Rw; WRwOf one; TSrt]   (* 520-525, 538-543 *)
  | MField Srt one Wo Wo => [WoWoOf one; TSrt]       (* 556-560, 572-576 *)
  | MField Srt one f r => [FMode one f r; TSrt]      (* 588-640 *)
  | MField Crt one Rw Rw => [FMode one Rw Rw; WRwOf one; CopyField; TCrt]   (* 652-658, 672-678 *)
  | MField Crt one Wo Rw => [FMode one Wo Rw; WRwOf one; CopyField; TCrt]   (* 692-698, 712-718 *)
  | MField Crt one Wo Wo => [WoWoOf one; CopyField; TCrt]        (* 732-737, 750-755 *)
  | MField Crt one f r => [FMode one f r; CopyField; TCrt]       (* 768-837 *)
  | _ => []
  end.
(** The condition on [Self::Reg]. *)
Definition reg_cond (p : tr) : list tr :=
  match p with
  | RRField | RoRRField | RROf _ => [RReg]
  | WWField | WoWField | WWOf _ => [WReg]
  | WoWoField | WoWoOf _ => [WoReg]
  | WRwField | WRwOf _ => [RReg; WReg]
  | FMode _ _ Rw => [RwReg]
  | FMode _ _ Ro => [RoReg]
  | MField t _ _ r => [MReg t r]
  | _ => []
  end.

(** Whether a trait is implemented by a general implementation, and under which conditions. *)
Definition blanket (p : tr) : option (list tr) :=
  match p with
  | WRegUnsync => Some [WReg; TUrt]                  (* mod.rs lines 682-685 *)
  | WRegAtomic => Some [TAtomic; WReg]               (* 724-730 *)
  | RwRegUnsync => Some [RReg; WRegUnsync]           (* 765-768 *)
  | RwRegAtomic => Some ([TAtomic; RReg; WRegAtomic] ++ if atomics then [AtomicBits] else [])
                                                     (* atomic.rs lines 88-92; soft_atomic.rs lines 86-89 *)
  | WRwField => Some ([TAtomic; WWField; RReg; WReg] ++ if atomics then [AtomicBits] else [])
                                                     (* 127-132; 114-118 *)
  | WRwOf one => Some [TAtomic; WRwField; FieldOf one; RReg; WReg]   (* 151-156, 186-191; 138-142, 173-177 *)
  | WoWoField => Some [WoWField; WoReg]              (* field.rs lines 247-251 *)
  | RROf one => Some [FieldOf one; RRField; RReg]    (* 279-283, 373-377 *)
  | WWOf one => Some [FieldOf one; WWField; WReg]    (* 298-302, 398-402 *)
  | WoWoOf one => Some [FieldOf one; WoWField; WoReg]   (* 338-342, 420-424 *)
  | RwReg | MReg _ _ | FMode _ Rw Rw | FMode _ Wo Rw | FMode _ Ro Rw | FMode _ Ro Ro
  | MField _ _ Rw Rw | MField _ _ Wo Rw | MField _ _ Wo Wo | MField _ _ Ro Rw | MField _ _ Ro Ro =>
      Some (supers p ++ reg_cond p)                  (* marker.rs: the conditions of the trait *)
  | _ => None
  end.

Definition has (l : list tr) (p : tr) : bool := existsb (tr_eq p) l.
(** [p] is implemented, given the facts [l]; implementations nest less than 8 deep. *)
Fixpoint holds_ (fuel : nat) (l : list tr) (p : tr) : bool :=
  match fuel with
  | O => false
  | S n => has l p || match blanket p with Some c => forallb (holds_ n l) c | None => false end
  end.
Definition holds : list tr -> tr -> bool := holds_ 8.
(** The bounds of generic code, with all supertraits. *)
Fixpoint elaborate_ (fuel : nat) (p : tr) : list tr :=
  match fuel with O => [p] | S n => p :: flat_map (elaborate_ n) (supers p) end.
Definition elaborate (l : list tr) : list tr := flat_map (elaborate_ 6) l.
End Build.

(** ** Declarations *)

(** The traits in a declaration ([traits => { ... }]) of a register with one field. *)
Record decl := Decl {
  d_size : N;                                            (* bits of the register *)
  d_r : bool; d_w : bool; d_ro : bool; d_wo : bool;      (* RReg WReg RoReg WoReg *)
  d_one : bool;                                          (* a field of one bit, without ForceBits *)
  d_rr : bool; d_ww : bool; d_frr : bool; d_fww : bool   (* RRRegField WWRegField RoRRegField WoWRegField *)
}.
Definition given (b : bool) (p : tr) : list tr := if b then [p] else [].
(** The tags: tag.rs lines 36-59; [derive(Clone, Copy)]: macros/src/reg.rs lines 201, 382; the tag [Crt] alone is [Copy]. *)
Definition tag_facts (t : tag) : list tr :=
  match t with
  | Urt => [TUrt]
  | Srt => [TSrt; TAtomic]
  | Crt => [TCrt; TAtomic; CopyReg; CopyField]
  end.
(** What [reg!] implements for the tokens with the tag [t]. *)
Definition facts (t : tag) (d : decl) : list tr :=
  given (d_r d) RReg ++ given (d_w d) WReg ++ given (d_ro d) RoReg ++ given (d_wo d) WoReg ++ [FieldOf (d_one d)]
  ++ given (d_rr d) RRField ++ given (d_ww d) WWField ++ given (d_frr d) RoRRField ++ given (d_fww d) WoWField
  ++ tag_facts t ++ given ((d_size d <=? 32)%N) AtomicBits.
(** What is implemented must have its supertraits and its condition on the register. *)
Definition accepted (atomics : bool) (d : decl) : bool :=
  forallb (fun p => negb (has (facts Urt d) p) || forallb (holds atomics (facts Urt d)) (supers p ++ reg_cond p))
    [RoReg; WoReg; RRField; WWField; RoRRField; WoWField].

(** ** Methods *)
Inductive meth :=
(* of registers *)
| load | load_val | load_bits | as_ptr | as_mut_ptr | store | store_reg | store_val | store_bits | reset | modify | modify_reg
(* of fields *)
| f_load_val | f_default_val | f_store_val | f_store | f_read | f_read_bit | f_set | f_clear | f_toggle | f_write
| f_set_bit | f_clear_bit | f_toggle_bit | f_write_bit | f_read_bits | f_write_bits | f_modify.
(** The traits of the prelude that have the method. *)
Definition providers (m : meth) : list tr :=
  match m with
  | load | load_val | load_bits | as_ptr => [RReg]                (* mod.rs lines 523-557 *)
  | as_mut_ptr => [WReg]                                          (* 559-568 *)
  | store | store_reg | store_val | store_bits | reset => [WRegUnsync; WRegAtomic]   (* 576-652 *)
  | modify | modify_reg => [RwRegUnsync; RwRegAtomic]             (* 654-680, atomic.rs lines 8-29 *)
  | f_load_val => [RRField]                                       (* field.rs line 91 *)
  | f_default_val | f_store_val | f_store => [WoWoField]          (* 131-148 *)
  | f_read => [RROf true; RROf false]
  | f_read_bit => [RROf true]
  | f_set | f_clear | f_toggle => [WWOf true]
  | f_write => [WWOf true; WWOf false]
  | f_set_bit | f_clear_bit | f_toggle_bit | f_write_bit => [WoWoOf true; WRwOf true]
  | f_read_bits => [RROf false]
  | f_write_bits => [WoWoOf false; WRwOf false]
  | f_modify => [WRwField]
  end.
Definition callable (atomics : bool) (l : list tr) (m : meth) : bool :=
  Nat.eqb (length (filter (holds atomics l) (providers m))) 1.

(** What generic code knows of the tag of its bounds. *)
Definition tag_known (t : tag) : list tr := match t with Urt => [TUrt] | Srt => [TSrt; TAtomic] | Crt => [TCrt; TAtomic] end.
(** Generic code with the bound [p] and with its condition on the register. *)
Definition generic (t : tag) (p : tr) : list tr := tag_known t ++ elaborate (p :: reg_cond p).
