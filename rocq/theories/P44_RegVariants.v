(** The variants of a register: C123. *)
Require Import NArith Arith String List Bool Lia.
From Verif Require Import BitDerive RegMacro RegTok RegVariants RegVariantsProofs RegIndex RegIndexSpec P25_RegIndex.
Import ListNotations.
Open Scope string_scope.

(** In each macro that the compiler accepts, the token of each variant converts into each other variant, by the method that is named like
    the other variant's module, and keeps its tag; and back again. *)
Theorem C123_each p l i j t a b :
  accepts p l = true -> nth_error l i = Some a -> nth_error l j = Some b -> i <> j ->
  converts l (i, t) ["into_" ++ reg_full b] = Some (j, t) /\ converts l (i, t) ["into_" ++ reg_full b; "into_" ++ reg_full a] = Some (i, t).
Proof.
  intros A Ha Hb Hn. unfold accepts in A. apply andb_prop in A as (A & _). apply andb_prop in A as (_ & D). cbn [converts].
  change ("into_" ++ reg_full b) with (into_variant b). change ("into_" ++ reg_full a) with (into_variant a).
  rewrite (convert_to l i j t a b D Ha Hb Hn). split; auto. now rewrite (convert_to l j i t b a D Hb Ha (not_eq_sym Hn)).
Qed.
Print Assumptions C123_each.

(** There are no other conversions, and none changes the tag. *)
Theorem C123_only l k nm k' : convert l k nm = Some k' ->
  snd k' = snd k /\ fst k' <> fst k /\ exists a b, nth_error l (fst k) = Some a /\ nth_error l (fst k') = Some b /\ nm = "into_" ++ reg_full b.
Proof.
  intros H. destruct (convert_in _ _ _ _ H) as (a & b & Ha & Hb & Hn & N & T). split; [exact T|]. split; [auto|]. exists a, b. auto.
Qed.
Print Assumptions C123_only.

(** What is stored through a token is loaded through each token that it is converted into, by any number of conversions.
    Missing from the full claim: macros whose variants have different addresses. *)
Theorem C123_same_register_partial l k names k' m x :
  (forall a b, In a l -> In b l -> v_addr a = v_addr b) -> (fst k < List.length l)%nat ->
  converts l k names = Some k' -> tload l (tstore l m k x) k' = Some x.
Proof.
  intros S L H. assert (L' : (fst k' < List.length l)%nat) by (destruct (converts_in _ _ _ _ H) as [<-|]; tauto).
  apply nth_error_Some in L, L'. unfold tload, tstore. destruct (nth_error l (fst k)) as [a|] eqn:Ha; [|easy]. destruct (nth_error l (fst k')) as [b|] eqn:Hb; [|easy].
  rewrite (S b a) by (eapply nth_error_In; eauto). now rewrite N.eqb_refl.
Qed.
Print Assumptions C123_same_register_partial.

(** Three variants of one register. *)
Definition ccmr (w : string) : variant := Rv ["tim1"] ["ccmr1"; w] 64 32 0 [Rf ["cc1s"] 0 2 true true false].
Definition three : list variant := [ccmr "output"; ccmr "input"; ccmr "raw"].
Example C123_case : accepts 32 three = true /\ List.length (conversions three) = 6%nat /\
  converts three (0%nat, Srt) ["into_tim1_ccmr1_input"; "into_tim1_ccmr1_raw"; "into_tim1_ccmr1_output"] = Some (0%nat, Srt) /\
  converts three (0%nat, Srt) ["into_tim1_ccmr1_output"] = None /\
  tload three (tstore three (fun _ => 0%N) (0%nat, Srt) 5) (2%nat, Srt) = Some 5%N.
Proof. vm_compute. auto 10. Qed.

(** The full claim is false: the macro does not compare the addresses.  With a misspelt address, safe code turns the token of one register
    into a token of another one, whose own token may be elsewhere. *)
Theorem C123_same_register_refuted : exists l nm, accepts 32 l = true /\ convert l (0%nat, Urt) nm = Some (1%nat, Urt) /\
  tload l (tstore l (fun _ => 0%N) (0%nat, Urt) 5) (1%nat, Urt) = Some 0%N.
Proof.
  exists [Rv ["a"] ["x"] 64 32 0 []; Rv ["a"] ["y"] 68 32 0 []], "into_a_y". vm_compute. auto.
Qed.
Print Assumptions C123_same_register_refuted.
(** Variants with distinct names are refused if the names are the same once block and register are joined. *)
Theorem C123_names_refuted : exists a b, (v_block a, v_ident a) <> (v_block b, v_ident b) /\ accepts 32 [a] = true /\ accepts 32 [b] = true /\
  accepts 32 [a; b] = false.
Proof.
  exists (Rv ["gpio"; "a"] ["x"] 64 32 0 []), (Rv ["gpio"] ["a"; "x"] 64 32 0 []). split; [discriminate|]. vm_compute. auto.
Qed.
Print Assumptions C123_names_refuted.

(** With the index (C92): the name [n] of the index is the variant number [snd (place n)] of the macro number [fst (place n)].  However the
    tokens of the index are converted, no two of them stand for the same register, if the variants of a macro have one address and the
    index has one of them (the others are marked with "!").
    Missing from the full claim: macros with different addresses, and an index with several variants of a register. *)
Theorem C123_one_token_partial gs (place : nat -> nat * nat) cs chain c undefs l acts :
  program cs chain c -> same_crate (chain ++ [c]) -> index cs (c_name c) undefs = Some l ->
  (forall g v w, In g gs -> In v g -> In w g -> v_addr v = v_addr w) ->
  let tok n := (fst (place n), (snd (place n), Srt)) in
  (forall n m, declared (chain ++ [c]) n -> declared (chain ++ [c]) m -> held_addr gs (tok n) = held_addr gs (tok m) -> n = m) ->
  NoDup (map (held_addr gs) (hrun gs (map tok l) acts)).
Proof.
  intros P SC E S tok I. rewrite hrun_addr by exact S. rewrite map_map.
  destruct (C92_once cs chain c undefs P) as (l' & E' & N). rewrite E in E'. injection E' as <-.
  assert (H : forall n, In n l -> declared (chain ++ [c]) n) by (intros n Hn; now apply (C92_sound cs chain c undefs l P SC E)).
  clear E. induction l as [|n l IH]; cbn; [constructor|]. inversion N; subst. constructor.
  - intros Hi. apply in_map_iff in Hi as (m & Em & Hm). assert (m = n) by (apply I; auto; apply H; cbn; auto). subst. easy.
  - apply IH; auto. intros k Hk. apply H. now right.
Qed.
Print Assumptions C123_one_token_partial.

(** The registers of [tests/reg.rs]: name 7 is CPUID, 8 and 9 are the variants of CCMR1. *)
Definition regs : list (list variant) := [[Rv ["scb"] ["cpuid"] 16 32 0 []]; [ccmr "input"; ccmr "output"]].
Definition where_ (n : nat) : nat * nat := match n with 7 => (0, 0) | 8 => (1, 0) | _ => (1, 1) end%nat.
Definition toks_of (l : list nat) : list (nat * token) := map (fun n => (fst (where_ n), (snd (where_ n), Srt))) l.
Definition decl (skip : bool) : RegIndex.call := Call 0 None [Block [] [Regdef 7 [] false; Regdef 8 [] false; Regdef 9 [] skip]].
Example C123_one_case : index [decl true] 0 [] = Some [7; 8]%nat /\
  hrun regs (toks_of [7; 8]%nat) [(1%nat, "into_tim1_ccmr1_output")] = [(0%nat, (0%nat, Srt)); (1%nat, (1%nat, Srt))] /\
  map (held_addr regs) (toks_of [7; 8]%nat) = [Some 16%N; Some 64%N].
Proof. vm_compute. auto. Qed.
Lemma decl_ok b : program [decl b] [] (decl b) /\ same_crate ([] ++ [decl b]).
Proof.
  split.
  - split; [repeat constructor; intros []|]. split; [apply incl_refl|]. split; [repeat constructor; intros []|]. cbn. auto.
  - intros g k (c & d & [<-|[]] & [<-|[]] & _ & [<-|[<-|[<-|[]]]] & _) [].
Qed.
Example C123_one_hyps : forall n m, declared ([] ++ [decl true]) n -> declared ([] ++ [decl true]) m ->
  held_addr regs (fst (where_ n), (snd (where_ n), Srt)) = held_addr regs (fst (where_ m), (snd (where_ m), Srt)) -> n = m.
Proof.
  intros n m (g & (c & d & [<-|[]] & [<-|[]] & _ & Hg & Sg) & _ & <-) (h & (c' & d' & [<-|[]] & [<-|[]] & _ & Hh & Sh) & _ & <-).
  destruct Hg as [<-|[<-|[<-|[]]]]; try discriminate Sg; destruct Hh as [<-|[<-|[<-|[]]]]; try discriminate Sh; vm_compute; auto; discriminate.
Qed.
(** Without the mark the index has two tokens of one register, in a program that is accepted and in which all variants of a macro have the same address. *)
Theorem C123_one_token_refuted : exists cs c l, program cs [] c /\ same_crate ([] ++ [c]) /\ forallb (accepts 32) regs = true /\
  index cs (c_name c) [] = Some l /\ map (held_addr regs) (toks_of l) = [Some 16%N; Some 64%N; Some 64%N].
Proof.
  exists [decl false], (decl false), [7; 8; 9]%nat. destruct (decl_ok false). split; [auto|]. split; [auto|]. vm_compute. auto.
Qed.
Print Assumptions C123_one_token_refuted.

(** A map of a peripheral that names a variant, and in parentheses the variant that the index has, gets the token of the variant that it
    names, from the same macro and with the same tag.  Without parentheses it gets the token in the index. *)
Theorem C123_mapped p gs g l i j t a b idx :
  nth_error gs g = Some l -> accepts p l = true -> nth_error l i = Some a -> nth_error l j = Some b -> i <> j ->
  NoDup (map fst idx) -> In (reg_full a, (g, (i, t))) idx ->
  mapped gs idx (v_block b) (v_ident b) (Some (v_block a, v_ident a)) = Some (g, (j, t)) /\
  mapped gs idx (v_block a) (v_ident a) None = Some (g, (i, t)).
Proof.
  intros G A Ha Hb Hn N I. split; [|now apply member_in]. cbn [mapped]. change (snake (v_block a) ++ "_" ++ snake (v_ident a)) with (reg_full a). rewrite (member_in _ _ _ N I), G.
  destruct (C123_each p l i j t a b A Ha Hb Hn) as (E & _). cbn [converts] in E.
  change ("into_" ++ snake (v_block b) ++ "_" ++ snake (v_ident b)) with ("into_" ++ reg_full b). destruct (convert l (i, t) _); [|discriminate]. injection E as ->. reflexivity.
Qed.
Print Assumptions C123_mapped.
(** If such a map is accepted, the token is made from the one in the index that the parentheses name; this is another variant of the same
    macro; the variant of the result has the name that the map gives. *)
Theorem C123_mapped_only gs idx bp vp fb fv k : mapped gs idx bp vp (Some (fb, fv)) = Some k ->
  exists i l a b, In (snake fb ++ "_" ++ snake fv, (fst k, (i, snd (snd k)))) idx /\ nth_error gs (fst k) = Some l /\
    nth_error l i = Some a /\ nth_error l (fst (snd k)) = Some b /\ i <> fst (snd k) /\ reg_full b = snake bp ++ "_" ++ snake vp.
Proof.
  cbn [mapped]. destruct (member_of idx _) as [[g k0]|] eqn:M; [|easy]. destruct (nth_error gs g) as [l|] eqn:G; [|easy].
  destruct (convert l k0 _) as [k'|] eqn:C; [|easy]. cbn. intros E. injection E as <-. cbn. apply member_out in M.
  destruct (C123_only _ _ _ _ C) as (T & Hn & a & b & Ha & Hb & Nm). exists (fst k0), l, a, b. rewrite T. destruct k0 as [i t]. cbn in *.
  repeat split; auto. unfold reg_full in *. now injection Nm.
Qed.
Print Assumptions C123_mapped_only.
(** The index of [tests/reg.rs] has the input variant; a map takes the output variant, or the input variant. *)
Example C123_mapped_case : let idx := [("scb_cpuid", (0, (0, Srt))); ("tim1_ccmr1_input", (1, (0, Srt)))]%nat in
  NoDup (map fst idx) /\ forallb (accepts 32) regs = true /\
  mapped regs idx ["tim1"] ["ccmr1"; "output"] (Some (["tim1"], ["ccmr1"; "input"])) = Some (1, (1, Srt))%nat /\
  mapped regs idx ["tim1"] ["ccmr1"; "input"] None = Some (1, (0, Srt))%nat /\
  mapped regs idx ["tim1"] ["ccmr1"; "output"] None = None /\
  mapped regs idx ["tim1"] ["ccmr1"; "input"] (Some (["tim1"], ["ccmr1"; "input"])) = None.
Proof. split; [repeat constructor; cbn; intuition discriminate|]. vm_compute. auto 10. Qed.
