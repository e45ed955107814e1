(** The documentation of the derived methods (src/bitfield/mod.rs lines 1-50). *)
Require Import NArith List Bool String.
From Verif Require Import BitDerive.
Import ListNotations.
Open Scope N_scope.

(** "[width] is default to 1 when omitted". *)
Definition width (f : bfield) : N := match bf_width f with Some w => w | None => 1 end.

Inductive verb := Read | Set_ | Clear | Toggle | Write.
Definition method (v : verb) (f : bfield) : string :=
  match v with
  | Read => bf_name f
  | Set_ => "set_" ++ bf_name f
  | Clear => "clear_" ++ bf_name f
  | Toggle => "toggle_" ++ bf_name f
  | Write => "write_" ++ bf_name f
  end.
(** Which methods a field has: reading except in mode [w], the others except in mode [r]; setting, clearing and
    toggling for one-bit fields. *)
Definition has (f : bfield) (v : verb) : Prop :=
  match v with
  | Read => bf_mode f <> MWrite
  | Write => bf_mode f <> MRead
  | Set_ | Clear | Toggle => bf_mode f <> MRead /\ width f = 1
  end.
(** The arguments, and what the call does to the integer. *)
Definition typed (n : N) (f : bfield) (v : verb) (a : arg) : Prop :=
  match v, a with
  | Write, ABit _ => width f = 1
  | Write, AVal x => width f <> 1 /\ x < 2 ^ n
  | Write, ANone => False
  | _, a => a = ANone
  end.
Definition within (f : bfield) (i : N) : bool := (bf_off f <=? i) && (i <? bf_off f + width f).
Definition documented (f : bfield) (v : verb) (a : arg) (x : N) (r : res) (y : N) : Prop :=
  match v with
  | Read => y = x /\ r = if width f =? 1 then RBit (N.testbit x (bf_off f)) else RVal ((x / 2 ^ bf_off f) mod 2 ^ width f)
  | _ => r = RUnit /\ forall i, N.testbit y i =
      if within f i then
        match v, a with
        | Set_, _ => true
        | Clear, _ => false
        | Toggle, _ => negb (N.testbit x i)
        | _, ABit b => b
        | _, AVal w => N.testbit w (i - bf_off f)
        | _, ANone => false
        end
      else N.testbit x i
  end.

(** The field lies in the integer. *)
Definition in_range (n : N) (f : bfield) : Prop := bf_off f < n /\ bf_off f + width f <= n.
Definition apart (f g : bfield) : Prop := bf_off f + width f <= bf_off g \/ bf_off g + width g <= bf_off f.
