(** The macro [reg!]: several variants of a register, and the conversions of their tokens.

    Source: /repo/macros/src/reg.rs lines 10-22, 34-45, 440-446, 459-499; /repo/src/reg/mod.rs ([load_val], [store_val]).

    Names are lists of words, as in RegMacro.v.  Left out: attributes, visibility, methods of the traits that the user imports. *)
Require Import NArith Arith String List Bool.
From Verif Require Import BitDerive RegMacro RegTok.
Import ListNotations.

(** Lines 14-24. *)
Record variant := Rv { v_block : list string; v_ident : list string; v_addr : N; v_size : N; v_reset : N; v_fields : list rfield }.

(** Lines 440-446: the name of the module of the variant. *)
Definition reg_full (v : variant) : string := (snake (v_block v) ++ "_" ++ snake (v_ident v))%string.
(** Lines 471-475. *)
Definition into_variant (dst : variant) : string := ("into_" ++ snake (v_block dst) ++ "_" ++ snake (v_ident dst))%string.

(** A method: of the token of which variant, its name, the variant of the token that it returns. *)
Record conv := Conv { cv_src : nat; cv_name : string; cv_dst : nat }.
(** Lines 463-464: [enumerate]. *)
Definition enumerate {X} (l : list X) : list (nat * X) := combine (seq 0 (length l)) l.
(** Lines 463-492. *)
Definition conversions (l : list variant) : list conv :=
  flat_map (fun s => flat_map (fun d => if Nat.eqb (fst s) (fst d) then [] else [Conv (fst s) (into_variant (snd d)) (fst d)]) (enumerate l)) (enumerate l).

(** What the compiler demands: that it accepts each variant, for a [usize] of [p] bits, modules of distinct names, and methods of distinct
    names in the implementations for one type.  Nothing compares the addresses or the sizes. *)
Definition accepts (p : N) (l : list variant) : bool :=
  forallb (fun v => accepted (v_size v) p (v_reset v) (v_fields v) && (v_addr v <? 2 ^ p)%N) l && distinct (map reg_full l) &&
  forallb (fun i => distinct (map cv_name (filter (fun c => Nat.eqb (cv_src c) i) (conversions l)))) (seq 0 (length l)).

(** A token: the variant and the tag.  Lines 486-488: a call of the method [name], which consumes the token and takes one of the other
    variant, with the same tag. *)
Definition token : Type := nat * tag.
Definition convert (l : list variant) (k : token) (name : string) : option token :=
  match find (fun c => Nat.eqb (cv_src c) (fst k) && String.eqb (cv_name c) name) (conversions l) with
  | Some c => Some (cv_dst c, snd k)
  | None => None
  end.
Fixpoint converts (l : list variant) (k : token) (names : list string) : option token :=
  match names with [] => Some k | n :: r => match convert l k n with Some k' => converts l k' r | None => None end end.

(** reg/mod.rs: [load_val] and [store_val] of a token access the address of its variant.  Memory has one cell for each register. *)
Definition tload (l : list variant) (m : N -> N) (k : token) : option N :=
  match nth_error l (fst k) with Some v => Some (m (v_addr v)) | None => None end.
Definition tstore (l : list variant) (m : N -> N) (k : token) (x : N) : N -> N :=
  match nth_error l (fst k) with Some v => fun a => if N.eqb a (v_addr v) then x else m a | None => m end.

(** A program with several macros [reg!], one for each register, and the tokens that exist: each with the number of its macro. *)
Definition held_addr (gs : list (list variant)) (k : nat * token) : option N :=
  match nth_error gs (fst k) with
  | Some l => match nth_error l (fst (snd k)) with Some v => Some (v_addr v) | None => None end
  | None => None
  end.
(** Lines 486-488: the token number [fst a] is consumed by a call of the method [snd a]; the result takes its place. *)
Definition hstep (gs : list (list variant)) (toks : list (nat * token)) (a : nat * string) : list (nat * token) :=
  match nth_error toks (fst a) with
  | Some (g, k) =>
      match nth_error gs g with
      | Some l =>
          match convert l k (snd a) with
          | Some k' => firstn (fst a) toks ++ (g, k') :: skipn (S (fst a)) toks
          | None => toks
          end
      | None => toks
      end
  | None => toks
  end.
Definition hrun (gs : list (list variant)) (toks : list (nat * token)) (l : list (nat * string)) : list (nat * token) := fold_left (hstep gs) l toks.

(** /repo/macros/src/periph_map.rs lines 634-649: the token that a map of a peripheral takes for the register of block [bp] and name [vp]
    out of the index [idx], which is a list of members.  With [from] (in parentheses, lines 157-161), the token of that variant is taken
    and converted.  [None]: the program is rejected. *)
Definition member_of (idx : list (string * (nat * token))) (name : string) : option (nat * token) :=
  option_map snd (find (fun e => String.eqb (fst e) name) idx).
Definition mapped (gs : list (list variant)) (idx : list (string * (nat * token))) (bp vp : list string) (from : option (list string * list string))
  : option (nat * token) :=
  match from with
  | Some (fb, fv) =>
      match member_of idx (snake fb ++ "_" ++ snake fv)%string with
      | Some (g, k) =>
          match nth_error gs g with
          | Some l => option_map (pair g) (convert l k ("into_" ++ snake bp ++ "_" ++ snake vp)%string)
          | None => None
          end
      | None => None
      end
  | None => member_of idx (snake bp ++ "_" ++ snake vp)%string
  end.
