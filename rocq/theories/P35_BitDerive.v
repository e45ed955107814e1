(** C109: derived bit-fields do what is documented. *)
Require Import NArith List Bool String Lia.
From Verif Require Import BitDerive BitDeriveSpec BitDeriveProofs.
Import ListNotations.
Open Scope N_scope.

(** The full statement: whatever declaration is accepted, each method of each field does what is documented. *)
Definition C109_statement (debug : bool) (n : N) (l : list bfield) : Prop :=
  accepted n l = true -> forall f v a x, In f l -> has f v -> typed n f v a -> x < 2 ^ n ->
  exists r y, call debug n l (method v f) a x = Some (r, y) /\ documented f v a x r y /\ y < 2 ^ n.

(** Fields that lie in the integer.  Missing: those that do not; they are accepted as well (below). *)
Theorem C109_documented_partial debug n l f v a x :
  accepted n l = true -> In f l -> in_range n f -> has f v -> typed n f v a -> x < 2 ^ n ->
  exists r y, call debug n l (method v f) a x = Some (r, y) /\ documented f v a x r y /\ y < 2 ^ n.
Proof. intros A I R H T X. rewrite (call_method debug n l f v a x A I H). now apply run_documented. Qed.
Print Assumptions C109_documented_partial.

(** There are no other methods: none that writes to a field of mode [r], none that reads one of mode [w]. *)
Theorem C109_only debug n l name a x r : call debug n l name a x = Some r ->
  exists f v, In f l /\ has f v /\ name = method v f.
Proof.
  unfold call. destruct (find _ _) as [[k m]|] eqn:F; [|discriminate]. intros _. apply find_some in F. destruct F as [I E].
  simpl in E. apply String.eqb_eq in E. subst k. apply in_flat_map in I. destruct I as (f & If & I). apply in_methods in I.
  destruct I as (v & H & -> & _). eauto.
Qed.
Print Assumptions C109_only.

(** Any sequence of calls for fields that do not overlap [g] leaves what [g] reads. *)
Fixpoint calls (debug : bool) (n : N) (l : list bfield) (cs : list (bfield * verb * arg)) (x : N) : option N :=
  match cs with
  | [] => Some x
  | (f, v, a) :: r => match call debug n l (method v f) a x with Some (_, y) => calls debug n l r y | None => None end
  end.
Theorem C109_independent_partial debug n l g cs x :
  accepted n l = true -> In g l -> in_range n g -> has g Read -> x < 2 ^ n ->
  (forall f v a, In (f, v, a) cs -> In f l /\ in_range n f /\ has f v /\ typed n f v a /\ apart f g) ->
  exists y r, calls debug n l cs x = Some y /\
    call debug n l (method Read g) ANone x = Some (r, x) /\ call debug n l (method Read g) ANone y = Some (r, y).
Proof.
  intros A G R H. revert x. induction cs as [|[[f v] a] cs IH]; intros x X C; simpl.
  - destruct (C109_documented_partial debug n l g Read ANone x A G R H eq_refl X) as (r & y & E & [-> _] & _). exists x, r. auto.
  - destruct (C f v a (or_introl eq_refl)) as (If & Rf & Hf & Tf & Pf).
    destruct (C109_documented_partial debug n l f v a x A If Rf Hf Tf X) as (r & y & E & D & Y). rewrite E.
    destruct (IH y Y) as (z & r' & E1 & E2 & E3); [intros f' v' a' I'; apply C; now right|]. exists z, r'. split; [exact E1|]. split; [|exact E3].
    destruct (C109_documented_partial debug n l g Read ANone x A G R H eq_refl X) as (r1 & y1 & F1 & [-> D1] & _).
    destruct (C109_documented_partial debug n l g Read ANone y A G R H eq_refl Y) as (r2 & y2 & F2 & [-> D2] & _).
    cbn [method] in *. rewrite F1. rewrite F2 in E2. injection E2 as <-. rewrite D1, D2. f_equal. f_equal.
    symmetry. apply same_read. intros i Wi. destruct v.
    + destruct D as [-> _]. reflexivity.
    + apply (apart_read f g Set_ a x r y); auto; discriminate.
    + apply (apart_read f g Clear a x r y); auto; discriminate.
    + apply (apart_read f g Toggle a x r y); auto; discriminate.
    + apply (apart_read f g Write a x r y); auto; discriminate.
Qed.
Print Assumptions C109_independent_partial.

(** The example of the documentation (src/bitfield/mod.rs lines 6-50), with a read-only and a write-only field. *)
Definition foo := Bf "foo" MReadWrite 1 (Some 4).
Definition bar := Bf "bar" MReadWrite 5 (Some 1).
Definition baz := Bf "baz" MRead 6 None.
Definition qux := Bf "qux" MWrite 7 None.
Example C109_case : forall debug : bool,
  let l := [foo; bar; baz; qux] in
  accepted 8 l = true /\ Forall (in_range 8) l /\ apart foo bar /\
  call debug 8 l "bar" ANone 0x3A = Some (RBit true, 0x3A) /\
  call debug 8 l "clear_bar" ANone 0x3A = Some (RUnit, 0x1A) /\
  call debug 8 l "set_bar" ANone 0x1A = Some (RUnit, 0x3A) /\
  call debug 8 l "toggle_bar" ANone 0x3A = Some (RUnit, 0x1A) /\
  call debug 8 l "foo" ANone 0x1A = Some (RVal 0xD, 0x1A) /\
  call debug 8 l "write_foo" (AVal 0xA) 0x1A = Some (RUnit, 0x14) /\
  call debug 8 l "write_baz" (ABit true) 0 = None /\ call debug 8 l "qux" ANone 0 = None /\
  calls debug 8 l [(bar, Toggle, ANone); (qux, Write, ABit true); (baz, Read, ANone)] 0x1A = Some 0xBA.
Proof.
  intros debug l. split; [reflexivity|]. split; [repeat constructor; vm_compute; congruence|]. split; [left; vm_compute; congruence|].
  destruct debug; vm_compute; repeat split.
Qed.
(** Fields whose methods have the same name are refused, as are offsets that are no number of the integer type. *)
Example C109_case_names :
  accepted 8 [bar; Bf "set_bar" MRead 0 None] = false /\ accepted 8 [bar; Bf "set_bar" MWrite 0 None] = true /\
  accepted 8 [Bf "a" MRead 256 None] = false /\
  accepted 8 [Bf "a" MRead 256 (Some 2)] = false /\ accepted 8 [Bf "a" MWrite 0 (Some 256)] = false.
Proof. vm_compute. repeat split. Qed.

(** C109 is false: offsets and widths are not compared with the size of the integer.  In a release build, setting a
    bit beyond the end of a [u8] sets a bit of another field; a field that reaches beyond the end does not
    read back what was written; in a debug build the first panics. *)
Theorem C109_beyond_refuted : exists n l f g,
  accepted n l = true /\ In f l /\ In g l /\ f <> g /\ apart f g /\ has f Set_ /\ in_range n g /\
  call false n l (method Set_ f) ANone 0 = Some (RUnit, 1) /\
  call false n l (method Read g) ANone 0 = Some (RBit false, 0) /\
  call false n l (method Read g) ANone 1 = Some (RBit true, 1) /\
  call true n l (method Set_ f) ANone 0 = None.
Proof.
  exists 8, [Bf "a" MReadWrite 0 None; Bf "b" MReadWrite 8 None], (Bf "b" MReadWrite 8 None), (Bf "a" MReadWrite 0 None).
  split; [reflexivity|]. split; [right; now left|]. split; [now left|]. split; [discriminate|].
  split; [right; vm_compute; congruence|]. split; [split; [discriminate|reflexivity]|]. split; [vm_compute; split; congruence|].
  vm_compute. repeat split.
Qed.
Print Assumptions C109_beyond_refuted.
Theorem C109_reach_refuted : exists n l f v y, accepted n l = true /\ In f l /\ v < 2 ^ width f /\
  call true n l (method Write f) (AVal v) 0 = Some (RUnit, y) /\ call true n l (method Read f) ANone y <> Some (RVal v, y).
Proof.
  exists 8, [Bf "a" MReadWrite 6 (Some 4)], (Bf "a" MReadWrite 6 (Some 4)), 15, 0xC0.
  split; [reflexivity|]. split; [now left|]. split; [reflexivity|]. split; [reflexivity|]. vm_compute. discriminate.
Qed.
Print Assumptions C109_reach_refuted.
Theorem C109_statement_refuted : exists n l, ~ C109_statement false n l /\ ~ C109_statement true n l.
Proof.
  exists 8, [Bf "b" MReadWrite 8 None].
  split; intros H; destruct (H eq_refl (Bf "b" MReadWrite 8 None) Set_ ANone 0 (or_introl eq_refl)) as (r & y & E & D & _);
    try (split; [discriminate|reflexivity]); try reflexivity.
  - vm_compute in E. injection E as <- <-. destruct D as [_ D]. specialize (D 0). vm_compute in D. discriminate.
  - vm_compute in E. discriminate.
Qed.
Print Assumptions C109_statement_refuted.
