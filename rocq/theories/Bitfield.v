(** Model of the bit-field accessors.

    Source: /repo/src/bitfield/mod.rs lines 66-165, /repo/src/bitfield/bits.rs,
    /repo/src/reg/field.rs lines 247-432, /repo/src/reg/mod.rs lines 682-790,
    /repo/macros/src/bitfield.rs lines 100-267.

    A Rust unsigned integer of [n] bits is an [N] below [2^n].  The width [n] is
    a parameter (8, 16, 32, 64 and 128 in bits.rs).  Shifts by an amount that is
    not below [n] are outside of the model (they are undefined or panic in the
    source); all theorems assume in-range offsets. *)
Require Import NArith Bool.
Open Scope N_scope.

(** [x << k] on an [n]-bit integer: bits shifted out are dropped
    (core::ops::Shl for unsigned integers, used at bitfield/mod.rs:156). *)
Definition wshl (n x k : N) : N := N.shiftl x k mod 2 ^ n.

(** [!x] on an [n]-bit integer (core::ops::Not, used at bitfield/mod.rs:103,
    123, 150). *)
Definition wnot (n x : N) : N := N.lxor x (N.ones n).

(** bitfield/mod.rs:155-157 [maybe_bit_at]; [T::from_usize(bit.into())] is 0/1. *)
Definition maybe_bit_at (n : N) (b : bool) (off : N) : N :=
  wshl n (if b then 1 else 0) off.

(** bitfield/mod.rs:159-161 [bit_at]. *)
Definition bit_at (n off : N) : N := maybe_bit_at n true off.

(** bitfield/mod.rs:163-165 [bit_mask]. *)
Definition bit_mask (n w : N) : N := bit_at n w - 1.

(** bitfield/mod.rs:82-84 [Bitfield::read_bit]. *)
Definition read_bit (n off x : N) : bool := negb (N.land x (bit_at n off) =? 0).

(** bitfield/mod.rs:92-94 [Bitfield::set_bit]; returns the new integer. *)
Definition set_bit (n off x : N) : N := N.lor x (bit_at n off).

(** bitfield/mod.rs:102-104 [Bitfield::clear_bit]. *)
Definition clear_bit (n off x : N) : N := N.land x (wnot n (bit_at n off)).

(** bitfield/mod.rs:112-114 [Bitfield::toggle_bit]. *)
Definition toggle_bit (n off x : N) : N := N.lxor x (bit_at n off).

(** bitfield/mod.rs:122-124 [Bitfield::write_bit]. *)
Definition write_bit (n off : N) (b : bool) (x : N) : N :=
  N.lor (N.land x (wnot n (bit_at n off))) (maybe_bit_at n b off).

(** bitfield/mod.rs:132-138 [Bitfield::read_bits]. *)
Definition read_bits (n off w x : N) : N :=
  if w =? n then x else N.land (N.shiftr x off) (bit_mask n w).

(** bitfield/mod.rs:146-152 [Bitfield::write_bits]. *)
Definition write_bits (n off w v x : N) : N :=
  if w =? n then v
  else N.lor (N.land x (wnot n (wshl n (bit_mask n w) off)))
             (wshl n (N.land v (bit_mask n w)) off).

(** A field declaration: macros/src/bitfield.rs:100-267 generates single-bit
    accessors when the width literal is 1 and multi-bit accessors otherwise;
    reg/field.rs uses the same split ([RegFieldBit] / [RegFieldBits]). *)
Record field := Field { f_off : N; f_width : N }.

(** One generated write accessor applied to a field
    (macros/src/bitfield.rs:150-267, reg/field.rs:298-336 and 398-418). *)
Inductive fop :=
| FSet | FClear | FToggle | FWriteBit (b : bool) | FWriteBits (v : N).

(** The effect of a write accessor on the integer. *)
Definition apply_fop (n : N) (f : field) (o : fop) (x : N) : N :=
  match o with
  | FSet => set_bit n (f_off f) x
  | FClear => clear_bit n (f_off f) x
  | FToggle => toggle_bit n (f_off f) x
  | FWriteBit b => write_bit n (f_off f) b x
  | FWriteBits v => write_bits n (f_off f) (f_width f) v x
  end.

(** Registers without concurrency: memory is the register word.  *)

(** reg/field.rs:254-276 [WoWoRegField::store]: [default_val] is the reset value,
    the closure edits it, and the result is written to the register; the old
    register content is not read.  Also reg/mod.rs:687-706 and 732-747
    ([store]/[store_reg]). *)
Definition reg_store (reset : N) (f : N -> N) (old : N) : N := f reset.

(** reg/mod.rs:719-721, 760-762 [reset]. *)
Definition reg_reset (reset old : N) : N := reset.

(** reg/mod.rs:770-789 [RwRegUnsync::modify]/[modify_reg]: load, closure, write. *)
Definition reg_modify_unsync (f : N -> N) (old : N) : N := f old.

(** reg/field.rs:344-370 and 427-431: single-field stores of write-only
    registers. *)
Definition wo_field_store (n reset : N) (f : field) (o : fop) (old : N) : N :=
  reg_store reset (apply_fop n f o) old.
