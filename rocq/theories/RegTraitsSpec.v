(** What the documentation of registers says about the methods of tokens: the tables in /repo/src/reg/mod.rs lines 76-133
    (fields), 135-188 (registers).  Independent of traits. *)
Require Import NArith List Bool.
From Verif Require Import RegTraits.
Import ListNotations.

(** A kind of token: a register with its mode, or a field with its width, its mode, and the mode of its register. *)
Inductive kind := KReg (m : mode) | KField (one : bool) (f r : mode).

Definition reads (m : mode) : bool := match m with Wo => false | _ => true end.
Definition writes (m : mode) : bool := match m with Ro => false | _ => true end.

(** The columns "Mode", "Field Mode" and "Register Mode". *)
Inductive col := read_ | write_ | read_write | write_only.
Definition fits (c : col) (m : mode) : bool :=
  match c with
  | read_ => reads m
  | write_ => writes m
  | read_write => reads m && writes m
  | write_only => writes m && negb (reads m)
  end.
Inductive row :=
| R (name : meth) (m : col) (tags : list tag)
| F (name : meth) (width : option bool) (f r : col) (tags : list tag).
Definition any : list tag := [Urt; Srt; Crt].

Definition table : list row := [
  F f_load_val None read_ read_ any;
  F f_default_val None write_ write_only any;
  F f_store_val None write_ write_only any;
  F f_store None write_ write_only any;
  F f_read (Some true) read_ read_ any;
  F f_read_bit (Some true) read_ read_ any;
  F f_set (Some true) write_ write_ any;
  F f_clear (Some true) write_ write_ any;
  F f_toggle (Some true) write_ write_ any;
  F f_write (Some true) write_ write_ any;
  F f_set_bit (Some true) write_ write_only any;
  F f_clear_bit (Some true) write_ write_only any;
  F f_toggle_bit (Some true) write_ write_only any;
  F f_write_bit (Some true) write_ write_only any;
  F f_read (Some false) read_ read_ any;
  F f_read_bits (Some false) read_ read_ any;
  F f_write (Some false) write_ write_ any;
  F f_write_bits (Some false) write_ write_only any;
  F f_modify None write_ read_write [Srt; Crt];
  F f_set_bit (Some true) write_ read_write [Srt; Crt];
  F f_clear_bit (Some true) write_ read_write [Srt; Crt];
  F f_toggle_bit (Some true) write_ read_write [Srt; Crt];
  F f_write_bit (Some true) write_ read_write [Srt; Crt];
  F f_write_bits (Some false) write_ read_write [Srt; Crt];
  R load read_ any;
  R load_val read_ any;
  R load_bits read_ any;
  R as_ptr read_ any;
  R as_mut_ptr write_ any;
  R store write_ [Urt];
  R store write_ [Srt; Crt];
  R store_reg write_ [Urt];
  R store_reg write_ [Srt; Crt];
  R store_val write_ [Urt];
  R store_val write_ [Srt; Crt];
  R store_bits write_ [Urt];
  R store_bits write_ [Srt; Crt];
  R reset write_ [Urt];
  R reset write_ [Srt; Crt];
  R modify read_write [Urt];
  R modify_reg read_write [Urt];
  R modify read_write [Srt; Crt];
  R modify_reg read_write [Srt; Crt]
].

(** The method is in the table for a token of this kind with this tag. *)
Definition documented (t : tag) (k : kind) (m : meth) : Prop :=
  exists r, In r table /\
    match r, k with
    | R name c tags, KReg rm => name = m /\ fits c rm = true /\ In t tags
    | F name w cf cr tags, KField one f rm =>
        name = m /\ (w = None \/ w = Some one) /\ fits cf f = true /\ fits cr rm = true /\ In t tags
    | _, _ => False
    end.

(** The methods of registers and those of fields. *)
Definition of_register (m : meth) : bool :=
  match m with
  | load | load_val | load_bits | as_ptr | as_mut_ptr | store | store_reg | store_val | store_bits | reset | modify | modify_reg => true
  | _ => false
  end.
Definition suits (k : kind) (m : meth) : Prop := of_register m = match k with KReg _ => true | KField _ _ _ => false end.

(** The documented sets of traits: mod.rs lines 279-297. *)
Definition common (size : N) (one : bool) (f r : mode) : decl :=
  Decl size (reads r) (writes r) (negb (writes r)) (negb (reads r)) one (reads f) (writes f) (negb (writes f)) (negb (reads f)).
(** A field reads or writes only if its register does. *)
Definition sensible (f r : mode) : Prop := (reads f = true -> reads r = true) /\ (writes f = true -> writes r = true).
(** The sizes of registers. *)
Definition a_size (n : N) : Prop := In n [8; 16; 32; 64; 128]%N.
