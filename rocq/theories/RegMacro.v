(** The macro [reg!]: the fields of a register and the methods of its value.

    Source: /repo/macros/src/reg.rs lines 24-32, 160-347, 356-443 (one variant); /repo/src/reg/field.rs lines 279-336, 373-418 (what
    the generated methods call); /repo/src/bitfield/bits.rs ([from_usize]).

    The name of a field is the list of the words that the crate heck (not part of /repo) finds in it, in lower case.  The
    bodies and their shifts are those of BitDerive.v: offsets and widths are converted to the integer by [as], which drops high
    bits.  A register is declared with the traits that its fields need (RegTraits.v).  Left out: attributes, visibility,
    conversions between variants (RegTok.v), clashes with the names of the imported traits. *)
Require Import NArith Ascii String List Bool.
From Verif Require Import Names BitDerive.
Import ListNotations.
Open Scope N_scope.

(** Lines 26-32; [r], [w]: the traits [RRRegField], [WWRegField]; [force]: [ForceBits] (lines 176-182). *)
Record rfield := Rf { rf_words : list string; rf_off : N; rf_width : N; rf_r : bool; rf_w : bool; rf_force : bool }.

(** Lines 183-184: [to_snake_case], [to_upper_camel_case]. *)
Definition snake (ws : list string) : string := String.concat "_" ws.
Definition upper (c : ascii) : ascii :=
  let n := N_of_ascii c in if (97 <=? n) && (n <=? 122) then ascii_of_N (n - 32) else c.
Definition capital (s : string) : string := match s with EmptyString => EmptyString | String c r => String (upper c) r end.
Definition camel (ws : list string) : string := String.concat "" (map capital ws).

(** Lines 185-187: the name of the type of the token. *)
Definition type_name (f : rfield) : string :=
  let c := camel (rf_words f) in if String.eqb c "Val" then (c ++ "_")%string else c.
(** Line 189: the name of the member of the register token, and of the reading method. *)
Definition member (f : rfield) : string := unkeywordize (snake (rf_words f)).

Section Size.
Variable n : N.   (* line 173: the integer [u{size}] *)

(** bits.rs lines 35-37. *)
Definition from_usize (x : N) : N := x mod 2 ^ n.
(** Lines 232-347: the methods of [Hold]; the bodies are those of field.rs. *)
Definition hold_methods (f : rfield) : list (string * meth) :=
  let off := from_usize (rf_off f) in
  let w := from_usize (rf_width f) in
  let snk := snake (rf_words f) in
  if (rf_width f =? 1) && negb (rf_force f) then
    (if rf_r f then [(member f, ReadBit off)] else [])
    ++ (if rf_w f then
          [("set_" ++ snk, SetBit off); ("clear_" ++ snk, ClearBit off);
           ("toggle_" ++ snk, ToggleBit off); ("write_" ++ snk, WriteBit off)]%string
        else [])
  else
    (if rf_r f then [(member f, ReadBits off w)] else [])
    ++ (if rf_w f then [("write_" ++ snk, WriteBits off w)]%string else []).
Definition generate (l : list rfield) : list (string * meth) := flat_map hold_methods l.

(** What the compiler demands: types (line 202, and lines 374, 378, 382, 415), members and methods of distinct names, no keyword as a
    name, an integer type of this size, literals that are a [usize] of [p] bits, a reset value that is a number of the size. *)
Definition reserved : list string := ["Reg"; "Hold"; "Val"; "Bitfield"; "Self"]%string.
(** Keywords that [unkeywordize] leaves as they are (C80). *)
Definition keywords_left : list string := ["async"; "await"; "dyn"; "try"]%string.
Definition accepted (p reset : N) (l : list rfield) : bool :=
  existsb (N.eqb n) [8; 16; 32; 64; 128] && (reset <? 2 ^ n) &&
  distinct (reserved ++ map type_name l) && distinct (map member l) && distinct (map fst (generate l)) &&
  forallb (fun f => negb (existsb (String.eqb (member f)) keywords_left)) l &&
  forallb (fun f => (rf_off f <? 2 ^ p) && (rf_width f <? 2 ^ p)) l.

(** A call of the method [name] on the value [x]. *)
Definition hold_call (debug : bool) (l : list rfield) (name : string) (a : arg) (x : N) : option (res * N) :=
  match find (fun m => String.eqb (fst m) name) (generate l) with
  | Some m => run debug n (snd m) a x
  | None => None
  end.
End Size.

(** src/reg/mod.rs lines 686-722, 768-790: [modify] and [store] with a chain of calls as closure; the register contains [x].  The
    calls of the chain return the value itself. *)
Fixpoint chain (debug : bool) (n : N) (l : list rfield) (cs : list (string * arg)) (x : N) : option N :=
  match cs with
  | [] => Some x
  | (name, a) :: r =>
      match hold_call n debug l name a x with Some (RUnit, y) => chain debug n l r y | _ => None end
  end.
Definition reg_modify (debug : bool) (n : N) (l : list rfield) (cs : list (string * arg)) (x : N) : option N := chain debug n l cs x.
Definition reg_store (debug : bool) (n reset : N) (l : list rfield) (cs : list (string * arg)) (x : N) : option N :=
  chain debug n l cs reset.
