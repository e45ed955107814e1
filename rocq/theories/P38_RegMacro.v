(** C115: the value of a register has the documented methods for its fields, and each touches the bits of its field.  Claims:
    /repo/src/reg/mod.rs lines 190-205 (the table), 44-57 and 271-298 (declarations). *)
Require Import NArith String List Bool Lia.
From Verif Require Import Names BitDerive RegMacro RegMacroSpec RegMacroProofs.
Import ListNotations.
Open Scope string_scope.
Open Scope list_scope.
Open Scope N_scope.

(** The full statement: a declaration of fields with distinct names is accepted, and each method does what is documented. *)
Definition C115_statement (debug : bool) : Prop :=
  forall n p reset l, In n [8; 16; 32; 64; 128] -> reset < 2 ^ n -> NoDup (map rf_words l) ->
  accepted n p reset l = true /\
  forall f v a x, In f l -> in_table f v -> typed n f v a -> x < 2 ^ n ->
  exists nm r y, name_of v f nm /\ hold_call n debug l nm a x = Some (r, y) /\ does f v a x r y /\ y < 2 ^ n.

(** For a declaration that is accepted, each method of each field that lies in the register does what is documented.  Missing: other
    fields; names that are refused (below). *)
Theorem C115_documented_partial debug n p reset l f v a x :
  accepted n p reset l = true -> In f l -> lies_in n f -> in_table f v -> typed n f v a -> x < 2 ^ n ->
  exists nm r y, name_of v f nm /\ hold_call n debug l nm a x = Some (r, y) /\ does f v a x r y /\ y < 2 ^ n.
Proof.
  intros A I R H T X. destruct (run_does debug n f v a x R H T X) as (r & y & E & D & Y).
  exists (meth_name v f), r, y. split; [apply name_ok|]. rewrite (call_method n debug p reset l f v a x A I H). auto.
Qed.
Print Assumptions C115_documented_partial.

(** There are no other methods. *)
Theorem C115_only debug n l nm a x r : hold_call n debug l nm a x = Some r ->
  exists f v, In f l /\ in_table f v /\ name_of v f nm.
Proof.
  unfold hold_call. destruct (find _ _) as [[k m]|] eqn:F; [|discriminate]. intros _. apply find_some in F. destruct F as [I E].
  simpl in E. apply String.eqb_eq in E. subst k. apply in_flat_map in I. destruct I as (f & If & I). apply in_methods in I.
  destruct I as (v & H & -> & _). exists f, v. split; [exact If|]. split; [exact H|apply name_ok].
Qed.
Print Assumptions C115_only.

(** [modify] and [store] with any chain of writing calls for fields that lie in the register: it runs to the end, in both
    builds, each call does what is documented on the value that the one before left, and no bit outside of these fields changes: of the
    register for [modify], of the reset value for [store]. *)
Definition writing (n : N) (l : list rfield) (c : rfield * verb * arg) : Prop :=
  let '(f, v, a) := c in In f l /\ lies_in n f /\ v <> Read /\ in_table f v /\ typed n f v a.
Definition calls (cs : list (rfield * verb * arg)) : list (string * arg) :=
  map (fun c => let '(f, v, a) := c in (prefix v ++ snake (rf_words f), a)%string) cs.
Lemma chain_ok debug n p reset l cs : accepted n p reset l = true -> Forall (writing n l) cs -> forall x, x < 2 ^ n ->
  exists y, chain debug n l (calls cs) x = Some y /\ y < 2 ^ n /\ steps cs x y /\
    forall i, (forall f v a, In (f, v, a) cs -> ~ inside f i) -> N.testbit y i = N.testbit x i.
Proof.
  intros A. induction cs as [|[[f v] a] cs IH]; intros W x X; simpl.
  - exists x. split; [reflexivity|]. split; [exact X|]. split; [constructor|auto].
  - inversion W as [|? ? W0 W']; subst. destruct W0 as (If & L & V & H & T).
    destruct (run_does debug n f v a x L H T X) as (r & y & E & D & Y).
    assert (Em : (prefix v ++ snake (rf_words f))%string = meth_name v f) by (destruct v; [now destruct V|reflexivity..]).
    rewrite Em, (call_method n debug p reset l f v a x A If H), E.
    assert (D' : r = RUnit /\ forall i, ~ inside f i -> N.testbit y i = N.testbit x i) by (destruct v; [congruence| | | |]; simpl in D; tauto).
    destruct D' as [-> D']. destruct (IH W' y Y) as (z & Ez & Z & Sz & K). exists z. split; [exact Ez|]. split; [exact Z|]. split; [econstructor; eauto|].
    intros i Hi. rewrite K; [apply D'|]; eauto.
Qed.
Theorem C115_modify_partial debug n p reset l cs x :
  accepted n p reset l = true -> Forall (writing n l) cs -> x < 2 ^ n ->
  exists y, reg_modify debug n l (calls cs) x = Some y /\ y < 2 ^ n /\ steps cs x y /\
    forall i, (forall f v a, In (f, v, a) cs -> ~ inside f i) -> N.testbit y i = N.testbit x i.
Proof. intros A W X. exact (chain_ok debug n p reset l cs A W x X). Qed.
Print Assumptions C115_modify_partial.
Theorem C115_store_partial debug n p reset l cs x :
  accepted n p reset l = true -> Forall (writing n l) cs ->
  exists y, reg_store debug n reset l (calls cs) x = Some y /\ y < 2 ^ n /\ steps cs reset y /\
    forall i, (forall f v a, In (f, v, a) cs -> ~ inside f i) -> N.testbit y i = N.testbit reset i.
Proof.
  intros A W. apply (chain_ok debug n p reset l cs A W reset).
  unfold accepted in A. rewrite !andb_true_iff in A. destruct A as [[[[[[_ A] _] _] _] _] _]. now apply N.ltb_lt.
Qed.
Print Assumptions C115_store_partial.

(** The register of the documentation (lines 47-56), with more fields. *)
Definition mode2 := Rf ["mode2"] 8 2 true true false.
Definition en := Rf ["en"] 0 1 true true false.
Definition ty := Rf ["type"] 31 1 true false false.
Definition cnt := Rf ["cnt"] 16 8 false true false.
Definition flag := Rf ["flag"; "x"] 1 1 true true true.
Example C115_case : forall debug : bool,
  let l := [mode2; en; ty; cnt; flag] in
  accepted 32 32 0x100 l = true /\ Forall (lies_in 32) l /\
  hold_call 32 debug l "mode2" ANone 0x2FF = Some (RVal 2, 0x2FF) /\
  hold_call 32 debug l "type_" ANone 0x80000000 = Some (RBit true, 0x80000000) /\
  hold_call 32 debug l "type" ANone 0x80000000 = None /\ hold_call 32 debug l "cnt" ANone 0 = None /\
  hold_call 32 debug l "flag_x" ANone 2 = Some (RVal 1, 2) /\ hold_call 32 debug l "set_flag_x" ANone 2 = None /\
  reg_modify debug 32 l [("write_mode2", AVal 7); ("set_en", ANone); ("write_cnt", AVal 0x12)]%string 0x80000100 = Some 0x80120301 /\
  reg_store debug 32 0x100 l [("toggle_en", ANone)]%string 0x80000000 = Some 0x101.
Proof.
  intros debug l. split; [reflexivity|]. split; [repeat constructor; vm_compute; congruence|]. destruct debug; vm_compute; repeat split.
Qed.
Example C115_case_writing : Forall (writing 32 [mode2; en; ty; cnt; flag]) [(mode2, Write, AVal 7); (en, Set_, ANone); (flag, Write, AVal 1)] /\
  ~ writing 32 [mode2; en; ty; cnt; flag] (flag, Set_, ANone) /\ ~ writing 32 [mode2; en; ty; cnt; flag] (flag, Write, ABit true).
Proof.
  split.
  - repeat constructor; simpl; try tauto; try discriminate; try (vm_compute; congruence); intros [H1 H2]; discriminate.
  - unfold writing; simpl; unfold one_bit; simpl. intuition discriminate.
Qed.

(** A field VAL gives a type of another name; fields of the same words are refused. *)
Example C115_case_names : accepted 32 32 0 [Rf ["val"] 0 1 true true false] = true /\ accepted 32 32 0 [en; en] = false /\ accepted 12 32 0 [en] = false.
Proof. vm_compute. repeat split. Qed.

(** C115 is false.  Offsets and widths are not compared with the size of the register, and [from_usize] drops their high bits: setting
    the "bit 256" of an 8-bit register sets the bit 0 of another field, in a debug build as well. *)
Theorem C115_beyond_refuted : exists n p l f g, accepted n p 0 l = true /\ In f l /\ In g l /\ disjoint f g /\ lies_in n g /\
  forall debug : bool, hold_call n debug l "set_f" ANone 0 = Some (RUnit, 1) /\ hold_call n debug l "g" ANone 1 = Some (RBit true, 1) /\
    ~ does f Set_ ANone 0 RUnit 1.
Proof.
  exists 8, 32, [Rf ["f"] 256 1 true true false; Rf ["g"] 0 1 true true false], (Rf ["f"] 256 1 true true false), (Rf ["g"] 0 1 true true false).
  split; [reflexivity|]. split; [now left|]. split; [right; now left|]. split; [intros i; unfold inside; simpl; lia|].
  split; [split; vm_compute; congruence|]. intros debug. destruct debug; (split; [reflexivity|]; split; [reflexivity|]);
    intros (_ & _ & D); specialize (D 0); vm_compute in D; assert (~ inside (Rf ["f"] 256 1 true true false) 0) as X by (unfold inside; simpl; lia);
    now specialize (D X).
Qed.
Print Assumptions C115_beyond_refuted.

(** Fields of distinct names that lie in the register and do not overlap are refused: a field "HOLD" (the name of a type that the macro
    makes), "FOO" with "SET_FOO" (methods), "IN1" with "IN_1" (types), and "TRY" (a keyword). *)
Theorem C115_names_refuted :
  Forall (fun l => NoDup (map rf_words l) /\ Forall (lies_in 32) l /\
                   (forall f g, In f l -> In g l -> f = g \/ disjoint f g) /\ accepted 32 32 0 l = false)
    [ [Rf ["hold"] 0 1 true true false];
      [Rf ["foo"] 0 1 true true false; Rf ["set"; "foo"] 1 1 true false false];
      [Rf ["in1"] 0 1 true true false; Rf ["in"; "1"] 1 1 true true false];
      [Rf ["try"] 0 1 true true false] ]%string.
Proof.
  assert (D : forall a b r w o s t u c d, a < c -> b = 1 -> disjoint (Rf o a b r w false) (Rf d c s t u false)).
  { intros. intros i. unfold inside. simpl. lia. }
  assert (D' : forall a b r w o s t u c d, a < c -> b = 1 -> disjoint (Rf d c s t u false) (Rf o a b r w false)).
  { intros. intros i. unfold inside. simpl. lia. }
  repeat (constructor; [split; [repeat constructor; simpl; intuition discriminate|];
    split; [repeat constructor; vm_compute; congruence|]; split; [|reflexivity]|]); [| | | |constructor];
    intros f g If Ig; simpl in If, Ig; repeat (destruct If as [<-|If]; [|]); try destruct If; repeat (destruct Ig as [<-|Ig]; [|]); try destruct Ig;
    try (now left); right; try (apply D; [reflexivity|reflexivity]); apply D'; reflexivity.
Qed.
Print Assumptions C115_names_refuted.

Theorem C115_statement_refuted : forall debug : bool, ~ C115_statement debug.
Proof.
  intros debug H. destruct (H 32 32 0 [Rf ["hold"] 0 1 true true false]) as [A _]; [simpl; tauto|reflexivity|repeat constructor; simpl; tauto|].
  vm_compute in A. discriminate.
Qed.
Print Assumptions C115_statement_refuted.
