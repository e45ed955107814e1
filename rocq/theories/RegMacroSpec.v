(** The documentation of the value of a register (src/reg/mod.rs, "Register Value", lines 190-205), and of fields: an offset, a width. *)
Require Import NArith String List Bool.
From Verif Require Import Names BitDerive RegMacro.
Import ListNotations.
Open Scope N_scope.

Inductive verb := Read | Set_ | Clear | Toggle | Write.
(** [foo] is the name of the field; a keyword has an underscore at the end. *)
Definition prefix (v : verb) : string := match v with Read => "" | Set_ => "set_" | Clear => "clear_" | Toggle => "toggle_" | Write => "write_" end.
Definition name_of (v : verb) (f : rfield) (nm : string) : Prop :=
  (v = Read -> ~ In (snake (rf_words f)) KEYWORDS) /\ nm = (prefix v ++ snake (rf_words f))%string \/
  (v = Read /\ In (snake (rf_words f)) KEYWORDS) /\ nm = (snake (rf_words f) ++ "_")%string.

(** "one-bit" and "multi-bit". *)
Definition one_bit (f : rfield) : Prop := rf_width f = 1 /\ rf_force f = false.
(** The table. *)
Definition in_table (f : rfield) (v : verb) : Prop :=
  match v with
  | Read => rf_r f = true
  | Write => rf_w f = true
  | Set_ | Clear | Toggle => rf_w f = true /\ one_bit f
  end.
Definition typed (n : N) (f : rfield) (v : verb) (a : arg) : Prop :=
  match v, a with
  | Write, ABit _ => one_bit f
  | Write, AVal x => ~ one_bit f /\ x < 2 ^ n
  | Write, ANone => False
  | _, a => a = ANone
  end.

(** What a call returns, and which bits it changes. *)
Definition inside (f : rfield) (i : N) : Prop := rf_off f <= i < rf_off f + rf_width f.
Definition new_bit (v : verb) (a : arg) (f : rfield) (old : bool) (i : N) : bool :=
  match v, a with
  | Set_, _ => true
  | Clear, _ => false
  | Toggle, _ => negb old
  | _, ABit b => b
  | _, AVal w => N.testbit w (i - rf_off f)
  | _, ANone => old
  end.
Definition does (f : rfield) (v : verb) (a : arg) (x : N) (r : res) (y : N) : Prop :=
  match v with
  | Read =>
      y = x /\
      (one_bit f -> r = RBit (N.testbit x (rf_off f))) /\
      (~ one_bit f -> exists z, r = RVal z /\
         forall i, N.testbit z i = if i <? rf_width f then N.testbit x (rf_off f + i) else false)
  | _ =>
      r = RUnit /\
      (forall i, inside f i -> N.testbit y i = new_bit v a f (N.testbit x i) i) /\
      (forall i, ~ inside f i -> N.testbit y i = N.testbit x i)
  end.

(** The field lies in the register. *)
Definition lies_in (n : N) (f : rfield) : Prop := 1 <= rf_width f /\ rf_off f + rf_width f <= n.
Definition disjoint (f g : rfield) : Prop := forall i, inside f i -> ~ inside g i.
(** What a chain of calls does: one after the other, each on the value that the one before left. *)
Inductive steps : list (rfield * verb * arg) -> N -> N -> Prop :=
| steps_nil x : steps [] x x
| steps_cons f v a cs x y z : does f v a x RUnit y -> steps cs y z -> steps ((f, v, a) :: cs) x z.
