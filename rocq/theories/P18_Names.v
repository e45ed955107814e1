(** Properties of generated names (C80) and of the initialisation of the heap (C79). *)
Require Import NArith List Bool String Ascii Lia.
From Verif Require Import Names.
Import ListNotations.
Open Scope N_scope.

(** ** C79: [init] copies the load image *)

(** The metadata of a heap with [pools] pools lies at [base], its image at [load]; they do
    not overlap. *)
Definition placed (w pools load base : N) : Prop :=
  load + heap_rt_size w pools <= base \/ base + heap_rt_size w pools <= load.
(** Exactly the metadata is replaced, by its image. *)
Definition initialised (size load base : N) (m m' : N -> N) : Prop :=
  (forall k, k < size -> m' (base + k) = m (load + k)) /\
  forall a, (a < base \/ base + size <= a) -> m' a = m a.

(** On a target with words of 8 bytes, memory beyond the metadata is overwritten. *)
Theorem C79_init_refuted : exists pools load base m,
  placed 8 pools load base /\
  ~ initialised (heap_rt_size 8 pools) load base m (heap_init 8 load base (base + heap_rt_size 8 pools) m).
Proof.
  exists 1, 1000, 100, (fun a => a). split; [right; vm_compute; discriminate|].
  intros (_ & H). specialize (H 140 ltac:(right; vm_compute; discriminate)). vm_compute in H. discriminate.
Qed.
Print Assumptions C79_init_refuted.
(** On a target with words of 2 bytes, a part of the metadata is not initialised. *)
Theorem C79_init_small_refuted : exists pools load base m,
  placed 2 pools load base /\
  ~ initialised (heap_rt_size 2 pools) load base m (heap_init 2 load base (base + heap_rt_size 2 pools) m).
Proof.
  exists 1, 1000, 100, (fun a => a). split; [right; vm_compute; discriminate|].
  intros (H & _). specialize (H 9 ltac:(vm_compute; reflexivity)). vm_compute in H. discriminate.
Qed.
Print Assumptions C79_init_small_refuted.

(** Missing: targets whose word does not have 4 bytes. *)
Theorem C79_init_partial pools load base m : placed 4 pools load base ->
  initialised (heap_rt_size 4 pools) load base m (heap_init 4 load base (base + heap_rt_size 4 pools) m).
Proof.
  intros _. unfold initialised, heap_init, heap_rt_size. replace (base + 4 * (1 + 4 * pools) - base) with (4 * (1 + 4 * pools)) by lia.
  rewrite N.shiftr_div_pow2. change (2 ^ 2) with 4.
  replace (4 * (1 + 4 * pools) / 4) with (1 + 4 * pools) by (symmetry; rewrite N.mul_comm; apply N.div_mul; discriminate).
  split.
  - intros k K. destruct (N.leb_spec base (base + k)), (N.ltb_spec (base + k) (base + 4 * (1 + 4 * pools))); simpl; try lia.
    f_equal. lia.
  - intros a A. destruct (N.leb_spec base a), (N.ltb_spec a (base + 4 * (1 + 4 * pools))); simpl; auto; lia.
Qed.
Print Assumptions C79_init_partial.
Example C79_case : placed 4 2 5000 100 /\ map (heap_init 4 5000 100 136 (fun a => a mod 251)) [99; 100; 135; 136] = [99; 231; 15; 136].
Proof. split; [right; vm_compute; discriminate|vm_compute; reflexivity]. Qed.

(** ** C80: generated names *)

(** The reserved words of Rust 2021 (strict and reserved keywords of the language
    reference). *)
Definition reserved : list string :=
  ["as"; "async"; "await"; "break"; "const"; "continue"; "crate"; "dyn"; "else"; "enum"; "extern"; "false"; "fn";
   "for"; "if"; "impl"; "in"; "let"; "loop"; "match"; "mod"; "move"; "mut"; "pub"; "ref"; "return"; "self"; "Self";
   "static"; "struct"; "super"; "trait"; "true"; "type"; "unsafe"; "use"; "where"; "while";
   "abstract"; "become"; "box"; "do"; "final"; "macro"; "override"; "priv"; "try"; "typeof"; "unsized"; "virtual"; "yield"]%string.

Theorem C80_never_reserved_refuted : exists s, In (unkeywordize s) reserved.
Proof. exists "async"%string. vm_compute. auto. Qed.
Print Assumptions C80_never_reserved_refuted.
Theorem C80_only_reserved_refuted : exists s, ~ In s reserved /\ unkeywordize s <> s.
Proof. exists "proc"%string. split; [|vm_compute; discriminate]. vm_compute. intuition discriminate. Qed.
Print Assumptions C80_only_reserved_refuted.
Theorem C80_distinct_refuted : exists s t, s <> t /\ unkeywordize s = unkeywordize t.
Proof. exists "type"%string, "type_"%string. split; [discriminate|vm_compute; reflexivity]. Qed.
Print Assumptions C80_distinct_refuted.

Definition ends (s : string) : Prop := exists t, s = (t ++ "_")%string.
Fixpoint last_is (s : string) : bool :=
  match s with EmptyString => false | String c EmptyString => Ascii.eqb c "_" | String _ s => last_is s end.
Lemma last_app t : last_is (t ++ "_") = true.
Proof. induction t as [|c t IH]; simpl; auto. destruct t; simpl in *; auto. Qed.
Lemma keyword_plain s : In s KEYWORDS \/ In s reserved -> last_is s = false.
Proof.
  assert (H : forallb (fun s => negb (last_is s)) (KEYWORDS ++ reserved) = true) by (vm_compute; reflexivity).
  rewrite forallb_forall in H. intros I. apply in_or_app in I. apply H in I. now destruct (last_is s).
Qed.
Lemma unkeywordize_spec s : In s KEYWORDS /\ unkeywordize s = (s ++ "_")%string \/ ~ In s KEYWORDS /\ unkeywordize s = s.
Proof.
  unfold unkeywordize. destruct (existsb (String.eqb s) KEYWORDS) eqn:E.
  - left. split; auto. apply existsb_exists in E as (x & I & X). now apply String.eqb_eq in X as ->.
  - right. split; auto. intros I. assert (X : existsb (String.eqb s) KEYWORDS = true); [|congruence].
    apply existsb_exists. exists s. split; auto. apply String.eqb_refl.
Qed.
Lemma app_inj s : forall t : string, (s ++ "_" = t ++ "_")%string -> s = t.
Proof.
  induction s as [|c s IH]; intros [|d t] E; auto; simpl in E; inversion E; subst.
  - now destruct t.
  - now destruct s.
  - f_equal. auto.
Qed.

(** The name generated is not reserved.  Missing: four words the code does not know. *)
Theorem C80_never_reserved_partial s : ~ In s ["async"; "await"; "dyn"; "try"]%string -> ~ In (unkeywordize s) reserved.
Proof.
  intros N I. destruct (unkeywordize_spec s) as [(K & E)|(K & E)]; rewrite E in I.
  - pose proof (last_app s) as L. rewrite (keyword_plain _ (or_intror I)) in L. discriminate.
  - assert (H : forallb (fun s => existsb (String.eqb s) (["async"; "await"; "dyn"; "try"]%string ++ KEYWORDS)) reserved = true)
      by (vm_compute; reflexivity).
    rewrite forallb_forall in H. apply H, existsb_exists in I as (x & X & Y). apply String.eqb_eq in Y as <-.
    apply in_app_or in X as [X|X]; auto.
Qed.
Print Assumptions C80_never_reserved_partial.
(** A name is changed only if it is, or was in an earlier edition, a reserved word; and only
    by an underscore at its end. *)
Theorem C80_only_reserved_partial s : unkeywordize s <> s ->
  unkeywordize s = (s ++ "_")%string /\ In s (reserved ++ ["alignof"; "offsetof"; "proc"; "pure"; "sizeof"]%string).
Proof.
  intros N. destruct (unkeywordize_spec s) as [(K & E)|(K & E)]; [|contradiction]. split; auto.
  assert (H : forallb (fun s => existsb (String.eqb s) (reserved ++ ["alignof"; "offsetof"; "proc"; "pure"; "sizeof"]%string)) KEYWORDS = true)
    by (vm_compute; reflexivity).
  rewrite forallb_forall in H. apply H, existsb_exists in K as (x & X & Y). now apply String.eqb_eq in Y as ->.
Qed.
Print Assumptions C80_only_reserved_partial.
(** Distinct names stay distinct, if they do not end with an underscore (names produced by
    [to_snake_case] do not). *)
Theorem C80_distinct_partial s t : ~ ends s -> ~ ends t -> unkeywordize s = unkeywordize t -> s = t.
Proof.
  intros S T E. destruct (unkeywordize_spec s) as [(_ & X)|(_ & X)], (unkeywordize_spec t) as [(_ & Y)|(_ & Y)]; rewrite X, Y in E; auto.
  - now apply app_inj.
  - destruct T. now exists s.
  - destruct S. now exists t.
Qed.
Print Assumptions C80_distinct_partial.
Example C80_case : unkeywordize "type" = "type_"%string /\ unkeywordize "types" = "types"%string /\ ~ ends "type" /\ ~ ends "types".
Proof.
  split; [|split; [|split]]; [vm_compute; reflexivity|vm_compute; reflexivity|..]; intros (t & E);
    pose proof (last_app t) as L; rewrite <- E in L; discriminate.
Qed.
