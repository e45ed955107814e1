(** Properties of peripherals (C101, C102). *)
Require Import List Bool String NArith Permutation Lia.
From Verif Require Import CfgSpec Cfg Names PeriphSpec Periph PeriphProofs P13_Cfg.
Import ListNotations.
Open Scope string_scope.

(** The definitions of the macro that [periph::singular!] may generate: the order depends on a hash map. *)
Definition generated (bs : list pblock) (g : list (cond * list (string * place))) : Prop :=
  exists m d m', collect (entries bs) = Some (m, d) /\ Permutation m m' /\ g = macros m' d.

Lemma reg_members_wanted env b r : plain (r_attr r) -> (forall f, In f (r_fields r) -> plain (f_attr f)) ->
  map snd (filter (fun x => preds_hold env (attrs (fst x))) (reg_members b r)) = map member_of (wanted_reg env b r).
Proof.
  intros P Q. unfold reg_members, wanted_reg. destruct (r_fields r) as [|f fs] eqn:E.
  - cbn [filter map fst snd].
    replace (preds_hold env (attrs (parse (r_attr r)))) with (attrs_hold env [r_attr r]).
    + destruct (attrs_hold env [r_attr r]); reflexivity.
    + rewrite <- (C74_attrs_partial env [r_attr r]) by (constructor; auto). now destruct (r_attr r).
  - rewrite <- E in *. clear E. assert (Q' := Q). clear Q. induction (r_fields r) as [|x l IH]; [reflexivity|].
    cbn [map filter fst flat_map]. rewrite C74_attrs_partial by (repeat constructor; auto; apply Q'; now left).
    rewrite map_app, <- IH by (intros y I; apply Q'; now right).
    destruct (attrs_hold env [r_attr r; f_attr x]); reflexivity.
Qed.
Lemma members_wanted env bs : proper bs ->
  map snd (filter (fun x => preds_hold env (attrs (fst x))) (members bs)) = map member_of (wanted env bs).
Proof.
  intros P. unfold members, wanted.
  assert (G : forall b rs, (forall r, In r rs -> plain (r_attr r) /\ forall f, In f (r_fields r) -> plain (f_attr f)) ->
    map snd (filter (fun x => preds_hold env (attrs (fst x))) (flat_map (reg_members b) rs)) = map member_of (flat_map (wanted_reg env b) rs)).
  { intros b rs. induction rs as [|r rs IH]; intros H; [reflexivity|]. cbn [flat_map]. rewrite filter_app, !map_app.
    rewrite IH by (intros q I; apply H; now right). f_equal. destruct (H r (or_introl eq_refl)). now apply reg_members_wanted. }
  induction bs as [|b bs IH]; [reflexivity|]. cbn [flat_map]. rewrite filter_app, !map_app.
  rewrite IH by (intros c r I; apply P; now right). f_equal. apply G. intros r I. apply (P b r); [now left|assumption].
Qed.

Lemma long_name w : fst (entry_of w) = member_name w.
Proof.
  destruct w; [reflexivity|]. cbn. unfold long. assert (A : forall a b c, ((a ++ b) ++ c = a ++ (b ++ c))%string).
  { intros a b0 c. induction a as [|x a IH]; cbn; congruence. }
  now rewrite !A.
Qed.

(** ** C101: whenever the expansion of the macro compiles, the peripheral has the members that were
    declared under conditions that hold, each with the token it is declared for. *)
Theorem C101_sound : forall env bs g ix p ix', proper bs -> generated bs g -> extract env bs g ix = Some (p, ix') ->
  map (fun e => (fst e, token_of (snd e))) p = map (fun w => (member_name w, Some w)) (wanted env bs).
Proof.
  intros env bs g ix p ix' P _ E. unfold extract in E.
  destruct (filter (fun x => preds_hold env (attrs (fst x))) g) as [|[c es] [|? ?]]; try discriminate.
  rewrite members_wanted in E by assumption. unfold construct in E.
  destruct (_ && _ && _) in E; [|discriminate]. destruct (eval_all es ix) as [[vs ix1]|]; [|discriminate].
  destruct (fill (map member_of (wanted env bs)) vs) as [q|] eqn:F; [|discriminate]. inversion E; subst q. apply fill_ok in F.
  clear -F. revert p F. induction (wanted env bs) as [|w ws IH]; intros p F; inversion F; subst; [reflexivity|]. cbn.
  destruct H1 as (A & B & _). cbn in A, B. rewrite A, long_name. rewrite (ty_token _ _ B). now rewrite (IH _ H3).
Qed.
Print Assumptions C101_sound.

(** The entries as items with one attribute. *)
Definition norm (x y : attr) : attr := match x with NoAttr => y | _ => x end.
Definition reg_items (b : string) (r : preg) : list (list attr * (string * place)) :=
  match r_fields r with
  | [] => [([r_attr r], entry_of (PathReg b (r_name r)))]
  | fs => map (fun f => ([norm (r_attr r) (f_attr f)], entry_of (PathFld b (r_name r) (f_name f)))) fs
  end.
Definition items (bs : list pblock) := flat_map (fun b => flat_map (reg_items (p_name b)) (p_regs b)) bs.
Lemma norm_cond x y : x = NoAttr \/ y = NoAttr -> cond_of [x; y] = cond_of [norm x y].
Proof. intros [->| ->]; [destruct y as [| |[]]; reflexivity|destruct x as [| |[]]; reflexivity]. Qed.
Lemma norm_hold env x y : x = NoAttr \/ y = NoAttr -> attrs_hold env [norm x y] = attrs_hold env [x; y].
Proof. intros [->| ->]; unfold attrs_hold; cbn; rewrite ?andb_true_r; [reflexivity|]. destruct x; cbn; now rewrite ?andb_true_r. Qed.
Lemma reg_items_conds b r : (forall f, In f (r_fields r) -> r_attr r = NoAttr \/ f_attr f = NoAttr) -> reg_entries b r = conds (reg_items b r).
Proof.
  intros H. unfold reg_entries, reg_items. destruct (r_fields r) as [|f fs] eqn:E.
  - cbn. destruct (r_attr r) as [| |[]]; reflexivity.
  - rewrite <- E in *. clear E. unfold conds. rewrite map_map. apply map_ext_in. intros x I. cbn [fst snd]. now rewrite norm_cond by auto.
Qed.
Lemma entries_conds bs : one_level bs -> entries bs = conds (items bs).
Proof.
  intros L. unfold entries, items. induction bs as [|b bs IH]; [reflexivity|]. cbn [flat_map]. unfold conds in *. rewrite map_app.
  rewrite <- IH by (intros c r f I; apply L; now right). f_equal.
  assert (H : forall r f, In r (p_regs b) -> In f (r_fields r) -> r_attr r = NoAttr \/ f_attr f = NoAttr) by (intros r f; apply L; now left).
  clear -H. induction (p_regs b) as [|r rs IH]; [reflexivity|]. cbn [flat_map]. rewrite map_app.
  rewrite <- IH by (intros q f I; apply H; now right). f_equal. apply reg_items_conds. intros f. apply H. now left.
Qed.
Lemma items_wanted env bs : one_level bs ->
  map snd (filter (fun i => attrs_hold env (fst i)) (items bs)) = map entry_of (wanted env bs).
Proof.
  intros L. unfold items, wanted. induction bs as [|b bs IH]; [reflexivity|]. cbn [flat_map]. rewrite filter_app, !map_app.
  rewrite IH by (intros c r f I; apply L; now right). f_equal.
  assert (H : forall r f, In r (p_regs b) -> In f (r_fields r) -> r_attr r = NoAttr \/ f_attr f = NoAttr) by (intros r f; apply L; now left).
  clear -H. induction (p_regs b) as [|r rs IH]; [reflexivity|]. cbn [flat_map]. rewrite filter_app, !map_app.
  rewrite IH by (intros q f I; apply H; now right). f_equal.
  assert (H' : forall f, In f (r_fields r) -> r_attr r = NoAttr \/ f_attr f = NoAttr) by (intros f; apply H; now left). clear -H'.
  unfold reg_items, wanted_reg. destruct (r_fields r) as [|f fs] eqn:E.
  - cbn [filter map fst]. destruct (attrs_hold env [r_attr r]); reflexivity.
  - rewrite <- E in *. clear E. induction (r_fields r) as [|x l IH]; [reflexivity|]. cbn [map filter fst flat_map].
    rewrite norm_hold by (apply H'; now left). rewrite map_app, <- IH by (intros y I; apply H'; now right).
    destruct (attrs_hold env [r_attr r; f_attr x]); reflexivity.
Qed.
Lemma items_in bs l e : In (l, e) (items bs) ->
  exists b r, In b bs /\ In r (p_regs b) /\ (l = [r_attr r] \/ exists f, In f (r_fields r) /\ l = [norm (r_attr r) (f_attr f)]).
Proof.
  unfold items. rewrite in_flat_map. intros (b & B & I). apply in_flat_map in I. destruct I as (r & R & I). exists b, r. split; [auto|]. split; [auto|].
  unfold reg_items in I. destruct (r_fields r) as [|f fs] eqn:E.
  - destruct I as [[= <- <-]|[]]. auto.
  - apply in_map_iff in I. destruct I as (x & [= <- <-] & I). right. exists x. auto.
Qed.

(** Distinct registers and fields, with distinct members. *)
Definition well_named (l : list path) : Prop := NoDup l /\ NoDup (map member_name l).
(** The index has the register of a path, and the register the field; a field is not called [val]. *)
Definition has (regs : list (string * string * list string)) (w : path) : Prop :=
  match w with
  | PathReg b r => exists fs, In (b, r, fs) regs
  | PathFld b r f => exists fs, In (b, r, fs) regs /\ distinct fs /\ In f fs /\ f <> "val"
  end.

(** Full statement of C101: for every declaration and configuration, if the index has the registers and
    fields that are wanted, the macro gives a peripheral. It is false (below). Proved where at most
    one of the conditions mentioned is set, and there is one level of them. *)
Theorem C101_accepted_partial : forall env bs g regs,
  proper bs -> one_level bs -> one_set env bs -> generated bs g ->
  NoDup (map (fun x => s_name (slot_of x)) regs) -> (forall w, In w (wanted env bs) -> has regs w) ->
  well_named (wanted env bs) -> separate (wanted env bs) ->
  exists p ix', extract env bs g (map slot_of regs) = Some (p, ix').
Proof.
  intros env bs g regs P L O (m & d & m' & C & Q & ->) N A [W1 W2] S. rewrite entries_conds in C by assumption.
  destruct (C57_exclusive_partial _ env (items bs) (macros m' d)) as (c & es & Ac & Pe).
  - apply Forall_forall. intros [l e] I. apply items_in in I. destruct I as (b & r & B & R & I). destruct (P b r B R) as [P1 P2].
    destruct I as [->|(f & F & ->)]; cbn; eexists; (split; [reflexivity|auto]).
    destruct (L b r f B R F) as [->| ->]; [apply P2; exact F|]. destruct (r_attr r); auto.
  - assert (M : forall a, mentioned (items bs) a -> mentions bs a).
    { intros a (i & x & I & X & K). destruct i as [l e]. apply items_in in I. destruct I as (b & r & B & R & I). exists b, r. split; [auto|]. split; [auto|].
      destruct I as [->|(f & F & ->)]; cbn in X; destruct X as [<-|[]]; [auto|].
      destruct (r_attr r) as [|y|ys] eqn:Z; cbn in K |- *; eauto. }
    intros a b Ma Mb. apply O; auto.
  - exists m, d, m'. auto.
  - unfold extract. unfold active in Ac. rewrite Ac, members_wanted by assumption. rewrite items_wanted in Pe by assumption.
    apply construct_avail; auto.
    + erewrite map_ext; [exact W2|]. intros w. apply long_name.
    + intros w I. destruct w as [b r|b r f]; destruct (A _ I) as (fs & F); cbn.
      * exists (slot_of (b, r, fs)). split; [now apply getslot_in|]. cbn. auto.
      * destruct F as (F & D & J & _). exists (slot_of (b, r, fs)). split; [now apply getslot_in|]. cbn. auto.
    + intros b r f I. destruct (A _ I) as (fs & _ & _ & _ & V). exact V.
Qed.
Print Assumptions C101_accepted_partial.

Definition on (l : list atom) : config := fun a => existsb (atom_eqb a) l.
(** Two registers under different features. *)
Definition two : list pblock := [Pblock "rtc" [Preg (CfgOne (1, 1)%N) "tr" []; Preg (CfgOne (1, 2)%N) "dr" []]].
Definition two_regs : list (string * string * list string) := [("rtc", "tr", []); ("rtc", "dr", [])].
(** With both features the crate has two definitions of the macro. *)
Theorem C101_features_refuted : exists env bs regs, proper bs /\ one_level bs /\
  NoDup (map (fun x => s_name (slot_of x)) regs) /\ (forall w, In w (wanted env bs) -> has regs w) /\
  well_named (wanted env bs) /\ separate (wanted env bs) /\
  forall g, generated bs g -> extract env bs g (map slot_of regs) = None.
Proof.
  exists (on [(1, 1); (1, 2)]%N), two, two_regs.
  split; [intros b r [<-|[]] [<-|[<-|[]]]; (split; [exact Logic.I|intros f []])|].
  split; [intros b r f [<-|[]] [<-|[<-|[]]] []|].
  split; [repeat constructor; cbn; intuition congruence|].
  split; [intros w [<-|[<-|[]]]; exists []; cbn; auto|].
  split; [split; repeat constructor; cbn; intuition congruence|].
  split; [intros b r f _ [J|[J|[]]]; discriminate|].
  intros g (m & d & m' & C & P & ->). vm_compute in C. inversion C; subst m d.
  apply Permutation_length_2_inv in P. destruct P as [->| ->]; vm_compute; reflexivity.
Qed.
Print Assumptions C101_features_refuted.

(** A register under one feature with a field under another: with one of them, the macro has the field
    and the struct has not. *)
Definition nested : list pblock := [Pblock "rcc" [Preg (CfgOne (1, 1)%N) "enr" [Pfield (CfgOne (1, 2)%N) "en"]]].
Theorem C101_nested_refuted : exists env bs regs, proper bs /\ one_set env bs /\ wanted env bs = [] /\
  NoDup (map (fun x => s_name (slot_of x)) regs) /\
  forall g, generated bs g -> extract env bs g (map slot_of regs) = None.
Proof.
  exists (on [(1, 1)]%N), nested, [("rcc", "enr", ["en"])].
  split; [intros b r [<-|[]] [<-|[]]; (split; [exact Logic.I|intros f [<-|[]]; exact Logic.I])|].
  split.
  { assert (M : forall a, mentions nested a -> on [(1, 1)%N] a = true -> a = (1, 1)%N).
    { intros a _. unfold on. cbn. rewrite orb_false_r. apply atom_eqb_eq. }
    intros a b Ma Mb Ea Eb. rewrite (M a Ma Ea), (M b Mb Eb). reflexivity. }
  split; [reflexivity|]. split; [repeat constructor; intros []|].
  intros g (m & d & m' & C & P & ->). vm_compute in C. inversion C; subst m d.
  apply Permutation_length_1_inv in P. subst m'. vm_compute. reflexivity.
Qed.
Print Assumptions C101_nested_refuted.

(** A field called [VAL] cannot be taken: the type of its token is [Val_], the macro writes [Val]. *)
Theorem C101_val_refuted : exists bs regs, proper bs /\ one_level bs /\ (forall a, ~ mentions bs a) /\
  NoDup (map (fun x => s_name (slot_of x)) regs) /\ wanted (on []) bs = [PathFld "rcc" "enr" "val"] /\
  In ("rcc", "enr", ["val"]) regs /\
  forall g, generated bs g -> extract (on []) bs g (map slot_of regs) = None.
Proof.
  exists [Pblock "rcc" [Preg NoAttr "enr" [Pfield NoAttr "val"]]], [("rcc", "enr", ["val"])].
  split; [intros b r [<-|[]] [<-|[]]; (split; [exact Logic.I|intros f [<-|[]]; exact Logic.I])|].
  split; [intros b r f [<-|[]] [<-|[]] _; left; reflexivity|].
  split; [intros a (b & r & [<-|[]] & [<-|[]] & [[]|(f & [<-|[]] & [])])|].
  split; [repeat constructor; intros []|]. split; [reflexivity|]. split; [left; reflexivity|].
  intros g (m & d & m' & C & P & ->). vm_compute in C. inversion C; subst m d.
  apply Permutation_nil in P. subst m'. vm_compute. reflexivity.
Qed.
Print Assumptions C101_val_refuted.

(** The example of src/periph.rs, with a register under a feature, and the hypotheses of the theorem. *)
Definition rtc : list pblock :=
  [Pblock "rcc" [Preg NoAttr "apb1enr1" [Pfield NoAttr "rtcapben"]];
   Pblock "rtc" [Preg NoAttr "tr" []; Preg (CfgOne (1, 1)%N) "dr" []; Preg NoAttr "in" []]].
Definition rtc_regs : list (string * string * list string) :=
  [("rcc", "apb1enr1", ["lptim1en"; "rtcapben"]); ("rtc", "tr", ["su"]); ("rtc", "dr", []); ("rtc", "in", ["type"; "en"])].
Example C101_case :
  (exists g, generated rtc g /\
    option_map (fun x => map snd (fst x)) (extract (on [(1, 1)]%N) rtc g (map slot_of rtc_regs)) =
      Some [VFld "rcc" "apb1enr1" "rtcapben"; VReg "rtc" "tr" ["su"]; VReg "rtc" "dr" []; VReg "rtc" "in" ["type"; "en"]] /\
    option_map (fun x => map fst (fst x)) (extract (on []) rtc g (map slot_of rtc_regs)) =
      Some ["rcc_apb1enr1_rtcapben"; "rtc_tr"; "rtc_in"]) /\
  proper rtc /\ one_level rtc /\ one_set (on [(1, 1)]%N) rtc /\
  (forall w, In w (wanted (on [(1, 1)]%N) rtc) -> has rtc_regs w) /\
  well_named (wanted (on [(1, 1)]%N) rtc) /\ separate (wanted (on [(1, 1)]%N) rtc).
Proof.
  split.
  { eexists. split; [eexists _, _, _; split; [vm_compute; reflexivity|split; [apply Permutation_refl|reflexivity]]|]. vm_compute. auto. }
  split; [intros b r [<-|[<-|[]]]; [intros [<-|[]]|intros [<-|[<-|[<-|[]]]]]; (split; [exact Logic.I|]); cbn; intros f I; intuition (subst; exact Logic.I)|].
  split; [intros b r f [<-|[<-|[]]]; [intros [<-|[]]|intros [<-|[<-|[<-|[]]]]]; cbn; auto; intros []|].
  split.
  { assert (M : forall a, on [(1, 1)%N] a = true -> a = (1, 1)%N) by (intros a; unfold on; cbn; rewrite orb_false_r; apply atom_eqb_eq).
    intros a b _ _ Ea Eb. rewrite (M a Ea), (M b Eb). reflexivity. }
  split.
  { intros w [<-|[<-|[<-|[<-|[]]]]].
    - exists ["lptim1en"; "rtcapben"]. split; [cbn; auto|]. split; [|split; [cbn; auto|discriminate]].
      repeat constructor; cbn; intuition congruence.
    - exists ["su"]. cbn. auto.
    - exists []. cbn. auto.
    - exists ["type"; "en"]. cbn. auto 6. }
  split; [split; repeat constructor; cbn; intuition congruence|].
  intros b r f [J|[J|[J|[J|[]]]]] [K|[K|[K|[K|[]]]]]; try discriminate; inversion J; inversion K; congruence.
Qed.

(** ** C102: what peripherals own is theirs only. In a program that takes peripherals and tokens out of
    an index with distinct registers, no register and no field of a register is owned twice. *)
Theorem C102_exclusive : forall l regs vs ix',
  NoDup (map fst regs) -> (forall b r fs, In (b, r, fs) regs -> NoDup fs) ->
  program l (map slot_of regs) = Some (vs, ix') -> NoDup (flat_map owns vs).
Proof.
  intros l regs vs ix' N F E.
  assert (K : forall l ix vs ix', program l ix = Some (vs, ix') -> exists lost, Permutation (lost ++ flat_map owns vs ++ lefts ix') (lefts ix)).
  { clear. induction l as [|[env bs g|p] l IH]; intros ix vs ix'; cbn.
    - intros [= <- <-]. exists []. reflexivity.
    - destruct (extract env bs g ix) as [[p ix1]|] eqn:X; [|discriminate]. destruct (program l ix1) as [[q ix2]|] eqn:Y; [|discriminate].
      intros [= <- <-]. cbn. destruct (IH _ _ _ Y) as [l2 P2]. unfold extract in X.
      destruct (filter _ g) as [|[c es] [|? ?]]; try discriminate. destruct (construct_keeps _ _ _ _ _ X) as [l1 P1].
      exists (l1 ++ l2)%list. rewrite <- P1, <- P2, flat_map_app. rewrite <- !app_assoc. apply Permutation_app_head.
      rewrite !app_assoc. apply Permutation_app_tail, Permutation_app_tail. apply Permutation_app_comm.
    - destruct (eval p ix) as [[v ix1]|] eqn:X; [|discriminate]. destruct (program l ix1) as [[q ix2]|] eqn:Y; [|discriminate].
      intros [= <- <-]. cbn. destruct (IH _ _ _ Y) as [l2 P2]. destruct (eval_keeps _ _ _ _ X) as [l1 P1].
      exists (l1 ++ l2)%list. rewrite <- P1, <- P2. rewrite <- !app_assoc. apply Permutation_app_head.
      rewrite !app_assoc. apply Permutation_app_tail, Permutation_app_tail. apply Permutation_app_comm. }
  destruct (K _ _ _ _ E) as [lost P].
  assert (D : NoDup (lefts (map slot_of regs))).
  { clear -N F. unfold lefts. induction regs as [|[[b r] fs] regs IH]; [constructor|]. cbn [map flat_map]. inversion N; subst.
    assert (A : NoDup (left_in (slot_of (b, r, fs)))).
    { cbn. constructor; [rewrite in_map_iff; intros (? & [=] & _)|]. apply FinFun.Injective_map_NoDup; [intros x y [=]; auto|]. eapply F. left. reflexivity. }
    assert (B : NoDup (flat_map left_in (map slot_of regs))) by (apply IH; [assumption|intros b0 r0 f0 I; apply (F b0 r0 f0); now right]).
    assert (C : forall w, In w (left_in (slot_of (b, r, fs))) -> ~ In w (flat_map left_in (map slot_of regs))).
    { intros w I J. apply in_flat_map in J. destruct J as (s & S & J). apply in_map_iff in S. destruct S as ([[c q] gs] & <- & S).
      apply H1. cbn [fst]. apply in_map_iff. exists (c, q, gs). split; [|exact S]. cbn in I, J |- *.
      destruct I as [<-|I]; destruct J as [J|J]; try (apply in_map_iff in I; destruct I as (? & <- & _)); try (apply in_map_iff in J; destruct J as (? & J & _)); congruence. }
    clear -A B C. induction (left_in (slot_of (b, r, fs))) as [|w ws IHw]; [exact B|]. cbn. inversion A; subst. constructor.
    - rewrite in_app_iff. intros [I|I]; [auto|]. apply (C w); [now left|exact I].
    - apply IHw; [assumption|]. intros u I. apply C. now right. }
  apply (Permutation_NoDup (Permutation_sym P)) in D. clear -D. induction lost as [|w lost IH]; [|inversion D; auto]. cbn in D.
  induction (flat_map owns vs) as [|x xs IH]; [constructor|]. cbn in D. inversion D; subst. constructor; [|auto].
  intros I. apply H1. apply in_or_app. auto.
Qed.
Print Assumptions C102_exclusive.
(** A peripheral with a field of a register; another field is left, the register as a whole is not. *)
Example C102_case : exists g, generated rtc g /\
  option_map fst (program [SPeriph (on []) rtc g; SMove (AtField "rcc_apb1enr1" "lptim1en"); SMove (At "rtc_dr")] (map slot_of rtc_regs)) =
    Some [VFld "rcc" "apb1enr1" "rtcapben"; VReg "rtc" "tr" ["su"]; VReg "rtc" "in" ["type"; "en"]; VFld "rcc" "apb1enr1" "lptim1en"; VReg "rtc" "dr" []] /\
  program [SPeriph (on []) rtc g; SMove (At "rcc_apb1enr1")] (map slot_of rtc_regs) = None /\
  program [SPeriph (on []) rtc g; SPeriph (on []) rtc g] (map slot_of rtc_regs) = None.
Proof.
  eexists. split; [eexists _, _, _; split; [vm_compute; reflexivity|split; [apply Permutation_refl|reflexivity]]|]. vm_compute. auto.
Qed.
