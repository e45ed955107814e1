(** C103, C104: peripherals that are mapped to registers. *)
Require Import List Bool String.
From Verif Require Import Names PeriphSpec Periph PeriphProofs PeriphMapSpec PeriphMap PeriphMapProofs PeriphMapComplete.
Import ListNotations.
Open Scope string_scope.

(** ** Cases: the peripheral of src/periph.rs lines 141-232. *)
Definition uart : list gblock :=
  [Gblock "rcc" [Greg "apbenr" [Gvar None true false [Gfield "uarten" false; Gfield "uartrst" true]]];
   Gblock "uart" [Greg "cr1" [Gvar None false false [Gfield "cmie" false; Gfield "eobie" true]];
                  Greg "rtor" [Gvar None false true [Gfield "blen" false; Gfield "rto" true]]]].
Definition uart4 (rtor : option mbody) : list mblock :=
  [Mblock "rcc" "rcc" [Mreg "apbenr" [Mvar None (Some (Mbody "apb1enr1" true false
      [Mfield "uarten" (Some "uart4en") false; Mfield "uartrst" (Some "uart4rst") true]))]];
   Mblock "uart" "uart4" [Mreg "cr1" [Mvar None (Some (Mbody "cr1" false false [Mfield "cmie" (Some "cmie") false; Mfield "eobie" None false]))];
                          Mreg "rtor" [Mvar None rtor]]].
Definition rtor_there : mbody := Mbody "rtor" false true [Mfield "blen" (Some "blen") false; Mfield "rto" None false].
Definition uart_regs : list (string * string * list string) :=
  [("rcc", "apb1enr1", ["uart3en"; "uart4en"; "uart4rst"]); ("uart4", "cr1", ["cmie"]); ("uart4", "rtor", ["blen"])].

(** ** C103: a mapped peripheral holds, for each part of the generic definition, what the map names. *)
Theorem C103_sound regs g m ix p ix' : parts g <> [] -> extract_map regs g m ix = Some (p, ix') ->
  Forall2 (fun k e => fst e = key_name k /\ maps m k (token_of (snd e))) (parts g) p.
Proof. apply sound_map. Qed.
Print Assumptions C103_sound.

(** A map that agrees with a generic definition, on registers that are there, with distinct names, that
    wants nothing twice. *)
Definition good (regs : list (string * string * list string)) (g : list gblock) (m : list mblock) : Prop :=
  proper_generic unkeywordize g /\ agrees g m /\ registers unkeywordize regs m /\
  NoDup (map key_name (parts g)) /\ NoDup (taken m) /\ separate (taken m) /\ NoDup (map (fun x => s_name (slot_of x)) regs).
(** Full statement of C103, second part: every good map gives a peripheral. It is false (below). Proved
    where the definition has parts, a register that has fields has one that is there, and the variants of a
    register are all there or all absent. *)
Theorem C103_accepted_partial : forall regs g m, good regs g m -> parts g <> [] -> whole_fields m -> all_variants m ->
  exists p ix', extract_map regs g m (map slot_of regs) = Some (p, ix').
Proof.
  intros regs g m (P & A & R & K & N & S & D) Ne W V.
  assert (T : forall w, In w (taken m) -> avail (map slot_of regs) w /\ forall b r f, w = PathFld b r f -> f <> "val").
  { intros w I. unfold taken in I. apply in_flat_map in I. destruct I as (b & B & I). apply in_flat_map in I. destruct I as (r & Rr & I).
    unfold reg_taken in I. destruct (mr_vars r) as [|v vs] eqn:Ev; [destruct I|]. destruct (mv_body v) as [y|] eqn:E; [|destruct I].
    assert (M : In (mb_path b, v) (all_mvars m)).
    { unfold all_mvars. apply in_flat_map. exists b. split; [auto|]. apply in_flat_map. exists r. split; [auto|]. apply in_map_iff. exists v. rewrite Ev. cbn. auto. }
    destruct (proj2 R _ _ _ M E) as (rfs & R1 & R2 & R3 & _). destruct (mv_shared y).
    - apply in_map_iff in I. destruct I as (f & <- & F). destruct (R3 f F) as [R4 R5]. split; [|intros b0 r0 f0 [= <- <- <-]; exact R5].
      exists (slot_of (mb_path b, mv_path y, rfs)). split; [now apply getslot_in|]. cbn. auto.
    - destruct I as [<-|[]]. split; [|discriminate]. exists (slot_of (mb_path b, mv_path y, rfs)). split; [now apply getslot_in|]. cbn. auto. }
  apply extract_all; auto.
  - now apply accepted_all.
  - now apply (impls_once g m).
  - intros w I. now apply T.
  - intros b r f I. destruct (T _ I) as [_ T2]. now apply (T2 b r).
Qed.
Print Assumptions C103_accepted_partial.

(** The macros refuse, or fail on, good maps: *)
Definition refuses (regs : list (string * string * list string)) (g : list gblock) (m : list mblock) : Prop :=
  good regs g m /\ extract_map regs g m (map slot_of regs) = None.
(** a register of which no field is there, with optional fields; *)
Ltac nodup := repeat constructor; cbn; intuition discriminate.
Theorem C103_marker_refuted : exists regs g m, refuses regs g m /\ parts g <> [] /\ all_variants m.
Proof.
  exists [("uart4", "cr1", [])], [Gblock "uart" [Greg "cr1" [Gvar None false false [Gfield "eobie" true]]]],
    [Mblock "uart" "uart4" [Mreg "cr1" [Mvar None (Some (Mbody "cr1" false false [Mfield "eobie" None false]))]]].
  split; [|split; [discriminate|intros b r v u [<-|[]] [<-|[]] [<-|[]] [<-|[]]; auto]]. split; [|vm_compute; reflexivity].
  split; [|split; [|split; [|split; [nodup|split; [nodup|split; [intros b r f _ [J|[]]; discriminate|nodup]]]]]].
  - split; [nodup|split].
    + intros x [<-|[]]. nodup.
    + intros b r v [<-|[]] [<-|[]] [<-|[]]. cbn. intuition congruence.
  - repeat constructor; cbn; congruence.
  - split; [nodup|]. intros bp v y [[= <- <-]|[]] [= <-]. exists []. cbn. split; [auto|]. split; [constructor|]. split; [intros f []|].
    intros _. split; [intros f []|constructor].
Qed.
Print Assumptions C103_marker_refuted.
(** an optional register of which one variant is there and another one is not; *)
Theorem C103_variant_refuted : exists regs g m, refuses regs g m /\ parts g <> [] /\ whole_fields m.
Proof.
  exists [("tim2", "ccmr1", ["cc1s"])],
    [Gblock "tim" [Greg "ccmr1" [Gvar (Some "output") false true [Gfield "cc1s" false]; Gvar (Some "input") false true [Gfield "cc1s" false]]]],
    [Mblock "tim" "tim2" [Mreg "ccmr1" [Mvar (Some "output") (Some (Mbody "ccmr1" false true [Mfield "cc1s" (Some "cc1s") false]));
                                       Mvar (Some "input") None]]].
  split; [|split; [discriminate|]]. 2: { intros bp v y [[= <- <-]|[[= <- <-]|[]]] [= <-]; discriminate. }
  split; [|vm_compute; reflexivity].
  split; [|split; [|split; [|split; [nodup|split; [nodup|split; [intros b r f _ [J|[]]; discriminate|nodup]]]]]].
  - split; [nodup|split].
    + intros x [<-|[<-|[]]]; nodup.
    + intros b r v [<-|[]] [<-|[]] [<-|[<-|[]]]; cbn; (split; [discriminate|]); (split; [|discriminate]); intros _ u [<-|[<-|[]]]; reflexivity.
  - repeat constructor; cbn; congruence.
  - split; [nodup|]. intros bp v y [[= <- <-]|[[= <- <-]|[]]] [= <-]. exists ["cc1s"]. cbn. split; [auto|]. split; [nodup|].
    split; [intros f [<-|[]]; split; [auto|discriminate]|]. intros _. split; [intros f; auto|nodup].
Qed.
Print Assumptions C103_variant_refuted.
(** a definition without registers. *)
Theorem C103_empty_refuted : exists regs g m, refuses regs g m /\ whole_fields m /\ all_variants m.
Proof.
  exists [], [], []. split; [|split; [intros bp v y []|intros b r v u []]]. split; [|vm_compute; reflexivity].
  split; [|split; [constructor|split; [|split; [constructor|split; [constructor|split; [intros b r f []|constructor]]]]]].
  - split; [constructor|split; [intros x []|intros b r v []]].
  - split; [constructor|intros bp v y []].
Qed.
Print Assumptions C103_empty_refuted.

(** The maps of the cases are good. *)
Example C103_case_good : good uart_regs uart (uart4 (Some rtor_there)) /\ parts uart <> [] /\
  whole_fields (uart4 (Some rtor_there)) /\ all_variants (uart4 (Some rtor_there)).
Proof.
  split; [|split; [discriminate|split]].
  - split; [|split; [|split; [|split; [nodup|split; [nodup|split; [|nodup]]]]]].
    + split; [nodup|split].
      * intros x [<-|[<-|[<-|[]]]]; nodup.
      * intros b r v [<-|[<-|[]]] B R; cbn in B; repeat destruct B as [<-|B]; try destruct B; cbn in R; destruct R as [<-|[]]; cbn;
          (split; [intros; try discriminate; auto|split; [intros O u [<-|[]]; exact O|auto]]).
    + repeat constructor; cbn; congruence.
    + split; [nodup|]. intros bp v y I E. cbn in I. destruct I as [[= <- <-]|[[= <- <-]|[[= <- <-]|[]]]]; injection E as <-; cbn;
        eexists; (split; [eauto|]); (split; [nodup|]); (split; [intros f F; cbn in F; intuition; subst; cbn; auto; discriminate|]);
        intros S; try discriminate; (split; [intros f F; exact F|nodup]).
    + intros b r f I J. cbn in I, J. intuition congruence.
  - intros bp v y I E _ P. cbn in I. destruct I as [[= <- <-]|[[= <- <-]|[[= <- <-]|[]]]]; injection E as <-; discriminate.
  - intros b r v u [<-|[<-|[]]] B; cbn in B; repeat destruct B as [<-|B]; try destruct B; intros [<-|[]] [<-|[]]; auto.
Qed.
Example C103_case :
  option_map fst (extract_map uart_regs uart (uart4 (Some rtor_there)) (map slot_of uart_regs)) =
    Some [("rcc_apbenr_uarten", VFld "rcc" "apb1enr1" "uart4en"); ("rcc_apbenr_uartrst", VFld "rcc" "apb1enr1" "uart4rst");
          ("uart_cr1", VReg "uart4" "cr1" ["cmie"]); ("uart_rtor", VReg "uart4" "rtor" ["blen"])] /\
  option_map fst (extract_map uart_regs uart (uart4 None) (map slot_of uart_regs)) =
    Some [("rcc_apbenr_uarten", VFld "rcc" "apb1enr1" "uart4en"); ("rcc_apbenr_uartrst", VFld "rcc" "apb1enr1" "uart4rst");
          ("uart_cr1", VReg "uart4" "cr1" ["cmie"]); ("uart_rtor", VUnit)] /\
  parts uart <> [].
Proof. repeat split; try (vm_compute; reflexivity). discriminate. Qed.
(** What is not mapped stays in the index; what is taken cannot be taken again; a map that leaves out a
    part that is not optional, or that names a register that is not there, is refused. *)
Example C103_case_taken :
  exists ix, option_map snd (extract_map uart_regs uart (uart4 None) (map slot_of uart_regs)) = Some ix /\
    extract_map uart_regs uart (uart4 None) ix = None /\
    accepted uart_regs uart (uart4 (Some (Mbody "rtor" false true [Mfield "blen" None false; Mfield "rto" None false]))) = false /\
    accepted uart_regs uart (uart4 (Some (Mbody "brr" false true [Mfield "blen" (Some "blen") false; Mfield "rto" None false]))) = false.
Proof. eexists. split; [vm_compute; reflexivity|]. vm_compute. auto. Qed.

(** ** C104: a mapped register can be taken apart into the fields that the map names, and put together. *)
Theorem C104_fields regs g m mb mr mv y : accepted regs g m = true ->
  In mb m -> In mr (mb_regs mb) -> In mv (mr_vars mr) -> mv_body mv = Some y -> mv_shared y = false ->
  exists gb gr gv rfs l, In gb g /\ gb_name gb = mb_name mb /\ In gr (gb_regs gb) /\ gr_name gr = mr_name mr /\
    In gv (gr_vars gr) /\ gv_name gv = mv_name mv /\ reg_fields_of regs (mb_path mb) (mv_path y) = Some rfs /\
    into_fields (impls m) (fields_struct (mb_name mb) (mr_name mr) gv) (mv_fields y) (VReg (mb_path mb) (mv_path y) rfs) = Some l /\
    from_fields (fields_struct (mb_name mb) (mr_name mr) gv) (mv_fields y) (mb_path mb) (mv_path y) rfs l = Some (VReg (mb_path mb) (mv_path y) rfs) /\
    (gv_fields gv <> [] -> Forall2 (fun f e => fst e = unkeywordize (gf_name f) /\
        maps m (KFld (mb_name mb) (mr_name mr) (mv_name mv) (gf_name f)) (token_of (snd e))) (gv_fields gv) l).
Proof. apply sound_fields. Qed.
Print Assumptions C104_fields.

Example C104_case :
  accepted uart_regs uart (uart4 (Some rtor_there)) = true /\
  into_fields (impls (uart4 (Some rtor_there))) (fields_struct "uart" "rtor" (Gvar None false true [Gfield "blen" false; Gfield "rto" true]))
    (mv_fields rtor_there) (VReg "uart4" "rtor" ["blen"]) = Some [("blen", VFld "uart4" "rtor" "blen"); ("rto", VUnit)] /\
  from_fields (fields_struct "uart" "rtor" (Gvar None false true [Gfield "blen" false; Gfield "rto" true]))
    (mv_fields rtor_there) "uart4" "rtor" ["blen"] [("blen", VFld "uart4" "rtor" "blen"); ("rto", VUnit)] = Some (VReg "uart4" "rtor" ["blen"]).
Proof. vm_compute. auto. Qed.
