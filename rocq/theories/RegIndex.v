(** The macros that make the index of register tokens.

    Source: /repo/macros/src/reg_tokens.rs lines 101-272 ([reg::tokens!], which defines a macro that
    may extend an earlier one) and /repo/macros/src/reg_tokens_inner.rs lines 64-99.

    Simplifications: names are numbers, the name of a register includes that of its block; the order
    of the members of the index is left out; the modules of the blocks and the types of the members
    are left out; [macro_rules] is expanded only as far as these macros use it. *)
Require Import List Bool Arith.
Import ListNotations.

(** The value of the condition of a [cfg] attribute in the crate that calls [reg::tokens!] and in the
    crate that makes the index: the macro is exported (lines 115, 203), and features are per crate. *)
Record cfg := Cfg { here : bool; there : bool }.

(** A register in a block: [g_skip] is the exclamation mark. *)
Record regdef := Regdef { g_name : nat; g_cfgs : list cfg; g_skip : bool }.
Record block := Block { b_cfgs : list cfg; b_regs : list regdef }.
(** One call of [reg::tokens!]: the macro it defines, the macro after [use], the blocks. *)
Record call := Call { c_name : nat; c_prev : option nat; c_blocks : list block }.

(** A member of the index, with the conditions of its attributes. *)
Record def := Def { d_name : nat; d_cfgs : list cfg }.
(** A [macro_rules] definition under conditions; [__name_cfg_i] is [(name, Some i)]. *)
Record item := Item { i_cfgs : list cfg; i_name : nat * option nat; i_prev : option (nat * option nat); i_defs : list def }.

(** reg_tokens.rs lines 175-193: what a block adds. The attributes of a register are passed on (line
    189), those of the block that are conditions are not (lines 173-174). *)
Definition block_defs (b : block) : list def :=
  map (fun g => Def (g_name g) (g_cfgs g)) (filter (fun g => negb (g_skip g)) (b_regs b)).
(** reg_tokens.rs lines 156-245. *)
Definition make_macro (prev : option (nat * option nat)) (cfgs : list cfg) (name : nat * option nat) (bs : list block) : item :=
  Item cfgs name prev (concat (map block_defs bs)).
(** reg_tokens.rs lines 247-256: [cfg(not(all(..)))]. *)
Definition negate (cfgs : list cfg) : cfg := Cfg (negb (forallb here cfgs)) (negb (forallb there cfgs)).
(** reg_tokens.rs lines 117, 268-272. *)
Definition conditional (b : block) : bool := match b_cfgs b with [] => false | _ => true end.

(** reg_tokens.rs lines 118-143; also the macro that the next one extends. *)
Fixpoint cond_items (name i : nat) (prev : option (nat * option nat)) (bs : list block) : list item * option (nat * option nat) :=
  match bs with
  | [] => ([], prev)
  | b :: r =>
      let (l, p) := cond_items name (S i) (Some (name, Some i)) r in
      (make_macro prev [negate (b_cfgs b)] (name, Some i) [] :: make_macro prev (b_cfgs b) (name, Some i) [b] :: l, p)
  end.
(** reg_tokens.rs lines 101-154. *)
Definition expand_call (c : call) : list item :=
  let conds := filter conditional (c_blocks c) in
  let regular := filter (fun b => negb (conditional b)) (c_blocks c) in
  let (l, p) := cond_items (c_name c) 0 (option_map (fun n => (n, None)) (c_prev c)) conds in
  l ++ [make_macro p [] (c_name c, None) regular].

Definition name_eqb (a b : nat * option nat) : bool :=
  (fst a =? fst b) && match snd a, snd b with Some i, Some j => i =? j | None, None => true | _, _ => false end.
(** The compiler removes the macros whose conditions do not hold where they are defined. *)
Definition active (l : list item) : list item := filter (fun i => forallb here (i_cfgs i)) l.
Definition lookup (l : list item) (n : nat * option nat) : option item := find (fun i => name_eqb (i_name i) n) l.
(** reg_tokens.rs lines 204-242: a macro calls the earlier one, or the innermost one, with its
    definitions before those it has got. Without a macro of that name the program is rejected. *)
Fixpoint expand (fuel : nat) (l : list item) (n : nat * option nat) (ext : list def) : option (list def) :=
  match fuel with
  | 0 => None
  | S fuel =>
      match lookup l n with
      | None => None
      | Some i => match i_prev i with None => Some (i_defs i ++ ext) | Some p => expand fuel l p (i_defs i ++ ext) end
      end
  end.

(** [BTreeMap::insert] in reg_tokens_inner.rs lines 68-79: the value of an equal key is replaced. *)
Definition insert (m : list def) (d : def) : list def := filter (fun e => negb (d_name e =? d_name d)) m ++ [d].
(** reg_tokens_inner.rs lines 64-84. *)
Definition inner (defs : list def) (undefs : list nat) : list def :=
  filter (fun e => negb (existsb (Nat.eqb (d_name e)) undefs)) (fold_left insert defs []).
(** reg_tokens_inner.rs lines 85-97: the members with their attributes, of which the compiler keeps
    those whose conditions hold where the index is made. *)
Definition members (l : list def) : list nat := map d_name (filter (fun e => forallb there (d_cfgs e)) l).

(** The index made by the macro [name] of a program with these calls. *)
Definition index (cs : list call) (name : nat) (undefs : list nat) : option (list nat) :=
  let l := active (concat (map expand_call cs)) in
  option_map (fun defs => members (inner defs undefs)) (expand (S (length l)) l (name, None) []).
