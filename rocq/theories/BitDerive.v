(** The macro that derives named bit-fields.

    Source: /repo/macros/src/bitfield.rs; the functions called by the generated methods are those of Bitfield.v.

    Here shifts may be by any amount: by [n] or more, they panic in a debug build, and use the low bits of the
    amount in a release build.  Left out: documentation strings, visibility, raw identifiers. *)
Require Import NArith List Bool String.
From Verif Require Import Bitfield.
Import ListNotations.
Open Scope N_scope.

(** Lines 17-29. *)
Inductive mode := MRead | MReadWrite | MWrite.
Record bfield := Bf { bf_name : string; bf_mode : mode; bf_off : N; bf_width : option N }.
(** Lines 82-96. *)
Definition is_read (m : mode) : bool := match m with MRead | MReadWrite => true | MWrite => false end.
Definition is_write (m : mode) : bool := match m with MRead => false | MReadWrite | MWrite => true end.

(** The bodies of the methods. *)
Inductive meth :=
| ReadBit (off : N) | SetBit (off : N) | ClearBit (off : N) | ToggleBit (off : N) | WriteBit (off : N)
| ReadBits (off w : N) | WriteBits (off w : N).

(** Lines 132-247: the methods of a field; the default of line 142. *)
Definition methods (f : bfield) : list (string * meth) :=
  let off := bf_off f in
  let w := match bf_width f with Some w => w | None => 1 end in
  if w =? 1 then
    (if is_read (bf_mode f) then [(bf_name f, ReadBit off)] else [])
    ++ (if is_write (bf_mode f) then
          [("set_" ++ bf_name f, SetBit off); ("clear_" ++ bf_name f, ClearBit off);
           ("toggle_" ++ bf_name f, ToggleBit off); ("write_" ++ bf_name f, WriteBit off)]%string
        else [])
  else
    (if is_read (bf_mode f) then [(bf_name f, ReadBits off w)] else [])
    ++ (if is_write (bf_mode f) then [("write_" ++ bf_name f, WriteBits off w)]%string else []).
(** Lines 126-264. *)
Definition derive (l : list bfield) : list (string * meth) := flat_map methods l.

(** What the compiler demands: methods of distinct names, literals that fit into the integer ([#offset as #bits]). *)
Fixpoint distinct (l : list string) : bool :=
  match l with [] => true | x :: r => negb (existsb (String.eqb x) r) && distinct r end.
Definition literals (m : meth) : list N :=
  match m with
  | ReadBit o | SetBit o | ClearBit o | ToggleBit o | WriteBit o => [o]
  | ReadBits o w | WriteBits o w => [o; w]
  end.
Definition accepted (n : N) (l : list bfield) : bool :=
  distinct (map fst (derive l)) && forallb (fun m => forallb (fun x => x <? 2 ^ n) (literals (snd m))) (derive l).

(** ** Calls *)
Inductive arg := ANone | ABit (b : bool) | AVal (v : N).
Inductive res := RUnit | RBit (b : bool) | RVal (v : N).

Section Call.
Variables (debug : bool) (n : N).

(** The amounts of the shifts of a body (src/bitfield/mod.rs lines 82-165). *)
Definition shifts (m : meth) : list N :=
  match m with
  | ReadBit o | SetBit o | ClearBit o | ToggleBit o | WriteBit o => [o]
  | ReadBits o w | WriteBits o w => if w =? n then [] else [o; w]
  end.
(** A shift of a release build. *)
Definition masked (k : N) : N := k mod n.
Definition mask_width (w : N) : N := if w =? n then w else masked w.

(** The result and the new value of the integer; [None]: a call that does not type-check, or a panic. *)
Definition run (m : meth) (a : arg) (x : N) : option (res * N) :=
  if debug && negb (forallb (fun k => k <? n) (shifts m)) then None
  else
    match m, a with
    | ReadBit o, ANone => Some (RBit (read_bit n (masked o) x), x)
    | SetBit o, ANone => Some (RUnit, set_bit n (masked o) x)
    | ClearBit o, ANone => Some (RUnit, clear_bit n (masked o) x)
    | ToggleBit o, ANone => Some (RUnit, toggle_bit n (masked o) x)
    | WriteBit o, ABit b => Some (RUnit, write_bit n (masked o) b x)
    | ReadBits o w, ANone => Some (RVal (read_bits n (masked o) (mask_width w) x), x)
    | WriteBits o w, AVal v => if v <? 2 ^ n then Some (RUnit, write_bits n (masked o) (mask_width w) v x) else None
    | _, _ => None
    end.
(** A call of the method [name]. *)
Definition call (l : list bfield) (name : string) (a : arg) (x : N) : option (res * N) :=
  match find (fun m => String.eqb (fst m) name) (derive l) with
  | Some m => run (snd m) a x
  | None => None
  end.
End Call.
