(** Maps that are accepted. *)
Require Import List Bool String Permutation Arith Lia.
From Verif Require Import Names PeriphSpec Periph PeriphProofs PeriphMapSpec PeriphMap PeriphMapProofs.
Import ListNotations.
Open Scope string_scope.

(** The variants of a generic definition with those of a map. *)
Definition pair6 : Type := string * string * string * gvar * mvar * bool.
Fixpoint zip_vars (b bp r : string) (i : bool) (gs : list gvar) (ms : list mvar) : list pair6 :=
  match gs, ms with
  | gv :: gs, mv :: ms => (b, bp, r, gv, mv, i) :: zip_vars b bp r false gs ms
  | _, _ => []
  end.
Fixpoint zip_regs (b bp : string) (gs : list greg) (ms : list mreg) : list pair6 :=
  match gs, ms with
  | gr :: gs, mr :: ms => (zip_vars b bp (gr_name gr) true (gr_vars gr) (mr_vars mr) ++ zip_regs b bp gs ms)%list
  | _, _ => []
  end.
Fixpoint zip (g : list gblock) (m : list mblock) : list pair6 :=
  match g, m with
  | gb :: g, mb :: m => (zip_regs (gb_name gb) (mb_path mb) (gb_regs gb) (mb_regs mb) ++ zip g m)%list
  | _, _ => []
  end.

Lemma zip_vars_g {B} (f : string -> string -> gvar -> bool -> list B) b bp r gs : forall ms i, Forall2 agree_var gs ms ->
  enum (fun i v => f b r v i) i gs = flat_map (fun p => let '(b, _, r, gv, _, i) := p in f b r gv i) (zip_vars b bp r i gs ms).
Proof. induction gs as [|gv gs IH]; intros ms i H; inversion H; subst; cbn; [reflexivity|]. now rewrite (IH l' false). Qed.
Lemma zip_vars_m {B} (f : string -> string -> string -> mvar -> bool -> list B) b bp r gs : forall ms i, Forall2 agree_var gs ms ->
  enum (fun i v => f b bp r v i) i ms = flat_map (fun p => let '(b, bp, r, _, mv, i) := p in f b bp r mv i) (zip_vars b bp r i gs ms).
Proof. induction gs as [|gv gs IH]; intros ms i H; inversion H; subst; cbn; [reflexivity|]. now rewrite (IH l' false). Qed.
Lemma zip_g {B} (f : string -> string -> gvar -> bool -> list B) g m : agrees g m ->
  per_var f g = flat_map (fun p => let '(b, _, r, gv, _, i) := p in f b r gv i) (zip g m).
Proof.
  unfold per_var. induction 1 as [|gb mb g m [N H] _ IH]; [reflexivity|]. cbn [flat_map zip]. rewrite flat_map_app, IH. f_equal. clear -H.
  induction H as [|gr mr gs ms [N H] _ IH]; [reflexivity|]. cbn [flat_map zip_regs]. rewrite flat_map_app, IH. f_equal. now apply zip_vars_g.
Qed.
Lemma zip_m {B} (f : string -> string -> string -> mvar -> bool -> list B) g m : agrees g m ->
  per_mvar f m = flat_map (fun p => let '(b, bp, r, _, mv, i) := p in f b bp r mv i) (zip g m).
Proof.
  unfold per_mvar. induction 1 as [|gb mb g m [N H] _ IH]; [reflexivity|]. cbn [flat_map zip]. rewrite flat_map_app, IH, N. f_equal. clear -H.
  induction H as [|gr mr gs ms [N H] _ IH]; [reflexivity|]. cbn [flat_map zip_regs]. rewrite flat_map_app, IH, N. f_equal. now apply zip_vars_m.
Qed.
(** A pair is of variants that agree. *)
Lemma zip_in g m b bp r gv mv i : agrees g m -> In (b, bp, r, gv, mv, i) (zip g m) ->
  agree_var gv mv /\ exists gb gr mb mr, In gb g /\ gb_name gb = b /\ In gr (gb_regs gb) /\ gr_name gr = r /\ In gv (gr_vars gr) /\
    In mb m /\ mb_path mb = bp /\ In mr (mb_regs mb) /\ In mv (mr_vars mr) /\ Forall2 agree_var (gr_vars gr) (mr_vars mr).
Proof.
  induction 1 as [|gb mb g m [N H] _ IH]; [intros []|]. cbn [zip]. rewrite in_app_iff. intros [I|I].
  - assert (K : forall gs ms, Forall2 agree_reg gs ms -> In (b, bp, r, gv, mv, i) (zip_regs (gb_name gb) (mb_path mb) gs ms) ->
      agree_var gv mv /\ gb_name gb = b /\ mb_path mb = bp /\ exists gr mr, In gr gs /\ gr_name gr = r /\ In gv (gr_vars gr) /\ In mr ms /\ In mv (mr_vars mr) /\
        Forall2 agree_var (gr_vars gr) (mr_vars mr)).
    { clear. induction 1 as [|gr mr gs ms [N H] _ IH]; [intros []|]. cbn [zip_regs]. rewrite in_app_iff. intros [I|I].
      - assert (K : forall gs ms i0, Forall2 agree_var gs ms -> In (b, bp, r, gv, mv, i) (zip_vars (gb_name gb) (mb_path mb) (gr_name gr) i0 gs ms) ->
          agree_var gv mv /\ gb_name gb = b /\ mb_path mb = bp /\ gr_name gr = r /\ In gv gs /\ In mv ms).
        { clear. intros gs ms i0 H. revert i0. induction H as [|gv0 mv0 gs ms A _ IH]; intros i0; [intros []|]. cbn [zip_vars In]. intros [E|I].
          - inversion E; subst. repeat (split; auto).
          - destruct (IH _ I) as (? & ? & ? & ? & ? & ?). repeat (split; auto). }
        destruct (K _ _ _ H I) as (? & ? & ? & ? & ? & ?). split; [auto|]. split; [auto|]. split; [auto|]. exists gr, mr. cbn. repeat (split; auto).
      - destruct (IH I) as (? & ? & ? & gr' & mr' & ? & ? & ? & ? & ? & ?). split; [auto|]. split; [auto|]. split; [auto|]. exists gr', mr'. cbn. repeat (split; auto). }
    destruct (K _ _ H I) as (A & ? & ? & gr & mr & ? & ? & ? & ? & ? & ?). split; [exact A|]. exists gb, gr, mb, mr. cbn. repeat (split; auto).
  - destruct (IH I) as (A & gb' & gr & mb' & mr & ? & ? & ? & ? & ? & ? & ? & ? & ? & ?). split; [exact A|]. exists gb', gr, mb', mr. cbn. repeat (split; auto).
Qed.
(** The keys of the pairs. *)
Definition pkey (p : pair6) : string * string * option string := let '(b, _, r, gv, _, _) := p in (b, r, gv_name gv).
Lemma zip_keys g m : agrees g m -> map pkey (zip g m) = map (fun x => (fst x, gv_name (snd x))) (all_vars g).
Proof.
  unfold all_vars. induction 1 as [|gb mb g m [N H] _ IH]; [reflexivity|]. cbn [flat_map zip]. rewrite !map_app, <- IH. f_equal. clear -H.
  induction H as [|gr mr gs ms [N H] _ IH]; [reflexivity|]. cbn [flat_map zip_regs]. rewrite !map_app, <- IH. f_equal.
  generalize true. clear -H. induction H as [|gv mv gs ms A _ IH]; intros i; [reflexivity|]. cbn. now rewrite IH.
Qed.

(** Lists made of parts with distinct keys. *)
Lemma NoDup_app' {A} (l r : list A) : NoDup l -> NoDup r -> (forall x, In x l -> ~ In x r) -> NoDup (l ++ r).
Proof.
  induction l as [|x l IH]; cbn; auto. intros H1 H2 H3. inversion H1; subst. constructor.
  - rewrite in_app_iff. intros [I|I]; [auto|]. apply (H3 x); auto.
  - apply IH; auto.
Qed.
Lemma NoDup_parts {A B K} (f : A -> list B) (ka : A -> K) (kb : B -> K) l :
  NoDup (map ka l) -> (forall a, In a l -> NoDup (f a)) -> (forall a x, In a l -> In x (f a) -> kb x = ka a) -> NoDup (flat_map f l).
Proof.
  induction l as [|a l IH]; cbn; intros N H1 H2; [constructor|]. inversion N; subst. apply NoDup_app'; auto.
  intros x I J. apply in_flat_map in J. destruct J as (c & C & J). apply H3. rewrite <- (H2 a x), (H2 c x); auto. now apply in_map.
Qed.
Definition tkey (t : trait) : string * string * option string :=
  match t_key t with KReg b r v => (b, r, v) | KFld b r v _ => (b, r, v) end.
Lemma once_NoDup l : once l = true <-> NoDup l.
Proof.
  induction l as [|x l IH]; cbn; [split; auto; constructor|]. rewrite andb_true_iff, IH, negb_true_iff. split.
  - intros [H1 H2]. constructor; auto. rewrite <- mem_in. congruence.
  - intros H. inversion H; subst. split; auto. apply not_true_iff_false. now rewrite mem_in.
Qed.
Lemma assoc_some t x l : NoDup (map fst l) -> In (t, x) l -> assoc t l = x.
Proof.
  induction l as [|[u y] l IH]; [intros _ []|]. cbn. intros N I. inversion N; subst. destruct I as [[= -> ->]|I].
  - now rewrite (proj2 (trait_eqb_eq t t) eq_refl).
  - destruct (trait_eqb t u) eqn:E; [|auto]. apply trait_eqb_eq in E. subst. exfalso. apply H1. apply in_map_iff. exists (u, x). auto.
Qed.

Lemma map_flat_map {A B C} (h : B -> C) (f : A -> list B) l : map h (flat_map f l) = flat_map (fun x => map h (f x)) l.
Proof. induction l as [|x l IH]; [reflexivity|]. cbn. now rewrite map_app, IH. Qed.
Lemma Forall2_in_l {A B} (R : A -> B -> Prop) l l' x : Forall2 R l l' -> In x l -> exists y, In y l' /\ R x y.
Proof. induction 1 as [|a b l l' H _ IH]; intros I; [destruct I|]. destruct I as [<-|I]; [exists b; cbn; auto|]. destruct (IH I) as (y & ? & ?). exists y. cbn. auto. Qed.
Lemma Forall2_in_r {A B} (R : A -> B -> Prop) l l' y : Forall2 R l l' -> In y l' -> exists x, In x l /\ R x y.
Proof. induction 1 as [|a b l l' H _ IH]; intros I; [destruct I|]. destruct I as [<-|I]; [exists a; cbn; auto|]. destruct (IH I) as (x & ? & ?). exists x. cbn. auto. Qed.

(** ** One variant. *)
Section Var.
Variables (b bp r : string) (gv : gvar) (mv : mvar).
Hypothesis A : agree_var gv mv.
Hypothesis Nd : NoDup (map (fun f => unkeywordize (gf_name f)) (gv_fields gv)).
Hypothesis So : gv_shared gv = true -> gv_opt gv = false.
Definition var_traits : list trait := (flat_map (field_traits b r gv) (gv_fields gv) ++ reg_traits b r gv)%list.

Lemma nd_names : NoDup (map gf_name (gv_fields gv)).
Proof. rewrite <- (map_map gf_name unkeywordize) in Nd. now apply NoDup_map_inv in Nd. Qed.
Lemma mf_names y : mv_body mv = Some y -> map mf_name (mv_fields y) = map gf_name (gv_fields gv).
Proof.
  intros E. destruct A as [_ H]. rewrite E in H. destruct H as (_ & _ & H). clear -H. induction H as [|f m l l' [E _] _ IH]; [reflexivity|].
  cbn. congruence.
Qed.
Definition kname (t : trait) : option string := match t_key t with KReg _ _ _ => None | KFld _ _ _ f => Some f end.
Lemma var_traits_once : NoDup var_traits.
Proof.
  unfold var_traits. apply NoDup_app'.
  - apply (NoDup_parts _ (fun f => Some (gf_name f)) kname).
    + rewrite <- (map_map gf_name Some). apply FinFun.Injective_map_NoDup; [intros x y [= ->]; auto|apply nd_names].
    + intros f _. unfold field_traits. destruct (gf_opt f); repeat constructor; cbn; intuition congruence.
    + intros f t _ I. unfold field_traits in I. destruct (gf_opt f); cbn in I; intuition; subst; reflexivity.
  - unfold reg_traits. destruct (gv_opt gv); repeat constructor; cbn; intuition congruence.
  - intros t I J. apply in_flat_map in I. destruct I as (f & _ & I).
    assert (K1 : kname t = Some (gf_name f)) by (unfold field_traits in I; destruct (gf_opt f); cbn in I; intuition; subst; reflexivity).
    assert (K2 : kname t = None) by (unfold reg_traits in J; destruct (gv_opt gv); cbn in J; intuition; subst; reflexivity). congruence.
Qed.
Lemma var_impls_once : NoDup (map fst (var_impls b bp r mv)).
Proof.
  unfold var_impls. rewrite map_app. apply NoDup_app'.
  - destruct (mv_body mv) as [y|] eqn:E; [|constructor]. cbn [flat_map]. rewrite app_nil_r, map_flat_map.
    apply (NoDup_parts _ (fun f => Some (mf_name f)) kname).
    + rewrite <- (map_map mf_name Some). apply FinFun.Injective_map_NoDup; [intros x z [= ->]; auto|]. rewrite (mf_names y E). apply nd_names.
    + intros f _. unfold field_impls. destruct (mf_path f), (mf_opt f); repeat constructor; cbn; intuition congruence.
    + intros f t _ I. unfold field_impls in I. destruct (mf_path f), (mf_opt f); cbn in I; intuition; subst; reflexivity.
  - unfold reg_impls. destruct (mv_body mv) as [y|]; [|repeat constructor; cbn; tauto]. destruct (mv_shared y).
    + destruct (existsb _ _); repeat constructor; cbn; tauto.
    + destruct (mv_opt y); repeat constructor; cbn; intuition congruence.
  - intros t I J. assert (K1 : kname t <> None).
    { rewrite map_flat_map in I. apply in_flat_map in I. destruct I as (y & _ & I). rewrite map_flat_map in I. apply in_flat_map in I. destruct I as (f & _ & I).
      unfold field_impls in I. destruct (mf_path f), (mf_opt f); cbn in I; intuition; subst; discriminate. }
    apply K1. unfold reg_impls in J. destruct (mv_body mv) as [y|]; [destruct (mv_shared y); [destruct (existsb _ _)|destruct (mv_opt y)]|]; cbn in J; intuition; subst; reflexivity.
Qed.
Lemma var_traits_key t : In t var_traits -> tkey t = (b, r, gv_name gv).
Proof.
  unfold var_traits. rewrite in_app_iff, in_flat_map. intros [(f & _ & I)|I].
  - unfold field_traits in I. destruct (gf_opt f); cbn in I; intuition; subst; reflexivity.
  - unfold reg_traits in I. destruct (gv_opt gv); cbn in I; intuition; subst; reflexivity.
Qed.
(** The type that the map gives a field. *)
Definition fty_of (y : mbody) (f : mfield) : ty := match mf_path f with None => TyUnit | Some x => TyFld bp (mv_path y) (FTy x) end.
Lemma field_impl y gf mf : mv_body mv = Some y -> In mf (mv_fields y) -> agree_field gf mf -> In (field_bound b r gv gf, Some (fty_of y mf)) (var_impls b bp r mv).
Proof.
  intros E I (N & O1 & O2). destruct A as [Nv H]. rewrite E in H. destruct H as (S & _ & _).
  unfold var_impls. rewrite E. cbn [flat_map]. rewrite app_nil_r, in_app_iff. left. apply in_flat_map. exists mf. split; [exact I|].
  unfold field_impls, field_bound, fty_of. rewrite N, Nv, S. destruct (mf_path mf).
  - rewrite O2 by discriminate. destruct (gf_opt gf); cbn; auto.
  - rewrite O1 by reflexivity. cbn. auto.
Qed.
Lemma var_sub t : In t (map fst (var_impls b bp r mv)) -> In t var_traits.
Proof.
  destruct A as [N H]. unfold var_impls, var_traits. rewrite map_app, !in_app_iff. intros [I|I].
  - left. destruct (mv_body mv) as [y|]; [|destruct I]. destruct H as (S & _ & H). cbn [flat_map] in I. rewrite app_nil_r, map_flat_map in I.
    apply in_flat_map in I. destruct I as (f & F & I). destruct (Forall2_in_r _ _ _ _ H F) as (g & G & (Nf & O1 & O2)).
    apply in_flat_map. exists g. split; [auto|]. unfold field_impls in I. unfold field_traits. rewrite N, S, Nf in I. destruct (mf_path f).
    + rewrite O2 in I by discriminate. destruct (gf_opt g); cbn in I |- *; tauto.
    + rewrite O1 by reflexivity. cbn in I |- *. tauto.
  - right. unfold reg_impls in I. unfold reg_traits. rewrite N in I. destruct (mv_body mv) as [y|].
    + destruct H as (S & O & _). rewrite S, O in I. destruct (gv_shared gv).
      * rewrite So by reflexivity. destruct (existsb _ _); cbn in I |- *; tauto.
      * destruct (gv_opt gv); cbn in I |- *; tauto.
    + rewrite H. cbn in I |- *. tauto.
Qed.
Lemma var_field_bounds y f : mv_body mv = Some y -> In f (gv_fields gv) -> In (field_bound b r gv f) (map fst (var_impls b bp r mv)).
Proof.
  intros E F. destruct A as [N H]. rewrite E in H. destruct H as (_ & _ & H). destruct (Forall2_in_l _ _ _ _ H F) as (mf & M & G).
  apply in_map_iff. exists (field_bound b r gv f, Some (fty_of y mf)). split; [auto|]. now apply field_impl.
Qed.
Lemma var_bounded t : In t (var_bounds b r gv) -> In t (map fst (var_impls b bp r mv)).
Proof.
  unfold var_bounds. intros I. destruct A as [N H]. destruct (gv_opt gv) eqn:O.
  - destruct I as [<-|[]]. unfold var_impls. rewrite map_app, in_app_iff. right. unfold reg_impls. rewrite N. destruct (mv_body mv) as [y|]; [|cbn; auto].
    destruct H as (S & Oy & _). rewrite S, Oy. destruct (gv_shared gv); [discriminate (So eq_refl)|]. cbn. auto.
  - destruct (mv_body mv) as [y|] eqn:E; [|congruence]. destruct (gv_shared gv) eqn:S.
    + apply in_map_iff in I. destruct I as (f & <- & F). now apply (var_field_bounds y).
    + destruct I as [<-|I].
      * unfold var_impls. rewrite map_app, in_app_iff. right. unfold reg_impls. rewrite N, E. destruct H as (Sy & Oy & _). rewrite Sy, Oy. cbn. auto.
      * apply in_map_iff in I. destruct I as (f & <- & F). now apply (var_field_bounds y).
Qed.
Lemma var_plain : In (Trait (KReg b r (gv_name gv)) Plain false) (map fst (var_impls b bp r mv)) -> mv_body mv <> None.
Proof.
  unfold var_impls, reg_impls. destruct (mv_body mv); [discriminate|]. cbn. intuition congruence.
Qed.
End Var.

(** ** Taking a register apart and putting it together. *)
Lemma same_names_ok a b : NoDup a -> NoDup b -> (forall x, In x a <-> In x b) -> same_names a b = true.
Proof.
  intros Na Nb H. unfold same_names. rewrite (proj2 (nodup_NoDup a)), (proj2 (nodup_NoDup b)) by assumption.
  rewrite (Permutation_length (NoDup_Permutation Na Nb H)), Nat.eqb_refl. cbn. apply forallb_forall. intros x I.
  apply existsb_exists. exists x. split; [now apply H|apply String.eqb_refl].
Qed.
Lemma fill_some ms vs : (forall n t, In (n, t) ms -> exists v, lookup n vs = Some v /\ type_of v = t) -> exists p, fill ms vs = Some p.
Proof.
  induction ms as [|[n t] ms IH]; intros H; [eexists; reflexivity|]. cbn. destruct (H n t) as (v & -> & T); [now left|].
  rewrite (proj2 (ty_eqb_eq _ _) T). destruct IH as (p & ->); [intros m u I; apply H; now right|]. eexists. reflexivity.
Qed.
Lemma present_paths fs : map snd (present fs) = map unkeywordize (paths fs).
Proof. induction fs as [|f fs IH]; [reflexivity|]. cbn. rewrite !map_app. unfold present, paths in IH. rewrite IH. now destruct (mf_path f). Qed.
Definition val_for (bp rp : string) (f : mfield) : val := match mf_path f with None => VUnit | Some x => VFld bp rp x end.
Lemma bind_all bp rp vars fs : (forall x, In x (paths fs) -> lookup (unkeywordize x) vars = Some (VFld bp rp x)) ->
  bind vars (map (fun f => (unkeywordize (mf_name f), option_map unkeywordize (mf_path f))) fs) =
    Some (map (fun f => (unkeywordize (mf_name f), val_for bp rp f)) fs).
Proof.
  induction fs as [|f fs IH]; intros H; [reflexivity|]. cbn [map bind fold_right fst snd]. fold (bind vars (map (fun f => (unkeywordize (mf_name f), option_map unkeywordize (mf_path f))) fs)).
  rewrite IH by (intros x I; apply H; cbn; apply in_or_app; now right). unfold val_for at 2. destruct (mf_path f) as [x|] eqn:E; cbn; [|reflexivity].
  rewrite H; [reflexivity|]. cbn. rewrite E. now left.
Qed.
Lemma val_for_ty bp y f : (forall x, mf_path f = Some x -> x <> "val") -> type_of (val_for bp (mv_path y) f) = fty_of bp y f.
Proof.
  unfold val_for, fty_of. destruct (mf_path f) as [x|]; [|reflexivity]. intros H. cbn. unfold field_ty. destruct (x =? "val") eqn:E; [|reflexivity].
  apply String.eqb_eq in E. destruct (H x eq_refl E).
Qed.
Lemma paths_in fs x : In x (paths fs) <-> exists f, In f fs /\ mf_path f = Some x.
Proof.
  unfold paths. rewrite in_flat_map. split; intros (f & F & H); exists f; (split; [auto|]).
  - destruct (mf_path f); [destruct H as [->|[]]; auto|destruct H].
  - rewrite H. now left.
Qed.
Lemma reg_struct_map bp rp rfs : rfs <> [] -> reg_struct (VReg bp rp rfs) = map (fun f => (unkeywordize f, VFld bp rp f)) rfs.
Proof. destruct rfs; [congruence|reflexivity]. Qed.
Section Fields.
Variables (b bp r : string) (gv : gvar) (mv : mvar) (y : mbody) (rfs : list string) (i : list (trait * option ty)).
Hypothesis A : agree_var gv mv.
Hypothesis Nd : NoDup (map (fun f => unkeywordize (gf_name f)) (gv_fields gv)).
Hypothesis B : mv_body mv = Some y.
Hypothesis Nr : NoDup (map unkeywordize rfs).
Hypothesis Pr : forall f, In f (paths (mv_fields y)) -> In f rfs /\ f <> "val".
Hypothesis Cr : incl rfs (paths (mv_fields y)).
Hypothesis Np : NoDup (paths (mv_fields y)).
Hypothesis R1 : paths (mv_fields y) = [] -> mv_fields y = [].
Hypothesis Ni : NoDup (map fst i).
Hypothesis Si : incl (var_impls b bp r mv) i.

Lemma names_eq : map (fun f => unkeywordize (mf_name f)) (mv_fields y) = map (fun f => unkeywordize (gf_name f)) (gv_fields gv).
Proof. rewrite <- (map_map mf_name unkeywordize), <- (map_map gf_name unkeywordize). f_equal. now apply mf_names with mv. Qed.
Lemma fields_pair : Forall2 agree_field (gv_fields gv) (mv_fields y).
Proof. destruct A as [_ H]. rewrite B in H. tauto. Qed.

Lemma reg_side : same_names (reg_names (mv_fields y)) (map fst (reg_struct (VReg bp (mv_path y) rfs))) = true.
Proof.
  unfold reg_names. rewrite present_paths. destruct (paths (mv_fields y)) as [|x l] eqn:P.
  - destruct rfs as [|f l]; [reflexivity|]. destruct (Cr f). now left.
  - cbn [map]. destruct rfs as [|f l']; [destruct (Pr x) as [[] _]; now left|]. cbn [reg_struct]. rewrite map_map. cbn [fst].
    change (unkeywordize x :: map unkeywordize l) with (map unkeywordize (x :: l)). apply same_names_ok.
    + assert (Pe : Permutation (x :: l) (f :: l')).
      { apply NoDup_Permutation; [assumption|now apply NoDup_map_inv in Nr|]. intros z. split; [apply Pr|apply Cr]. }
      eapply Permutation_NoDup; [apply Permutation_map, Permutation_sym, Pe|exact Nr].
    + exact Nr.
    + intros z. rewrite !in_map_iff. split; intros (w & <- & W); exists w; (split; [auto|]); [now apply Pr|now apply Cr].
Qed.
Lemma fields_names_eq : mv_fields y <> [] -> fields_names (mv_fields y) = map (fun f => (unkeywordize (mf_name f), option_map unkeywordize (mf_path f))) (mv_fields y).
Proof.
  intros Ne. unfold fields_names. destruct (present (mv_fields y)) as [|e l] eqn:P; [|now rewrite app_nil_r].
  pose proof (present_paths (mv_fields y)) as Q. rewrite P in Q. cbn in Q. symmetry in Q. apply map_eq_nil in Q. now apply R1 in Q.
Qed.
Lemma fields_side : same_names (map fst (fields_names (mv_fields y))) (map fst (fields_struct b r gv)) = true.
Proof.
  assert (D : mv_fields y = [] \/ mv_fields y <> []) by (destruct (mv_fields y); [left; reflexivity|right; discriminate]).
  destruct D as [F|F].
  - pose proof names_eq as E. rewrite F in E |- *. cbn in E. unfold fields_struct. destruct (gv_fields gv); [reflexivity|discriminate].
  - rewrite fields_names_eq by assumption. rewrite map_map. cbn [fst]. rewrite names_eq.
    assert (E : map fst (fields_struct b r gv) = map (fun f => unkeywordize (gf_name f)) (gv_fields gv)).
    { unfold fields_struct. pose proof names_eq as E. destruct (gv_fields gv); [apply map_eq_nil in E; congruence|]. now rewrite map_map. }
    rewrite E. apply same_names_ok; auto. tauto.
Qed.
Lemma types_all : mv_fields y <> [] ->
  fields_types i (fields_struct b r gv) = Some (map (fun f => (unkeywordize (mf_name f), fty_of bp y f)) (mv_fields y)).
Proof.
  intros Ne. pose proof fields_pair as P.
  assert (E : fields_struct b r gv = map (fun f => (unkeywordize (gf_name f), Some (field_bound b r gv f))) (gv_fields gv)).
  { unfold fields_struct. destruct (gv_fields gv); [inversion P; congruence|reflexivity]. }
  rewrite E. clear E. assert (K : forall gs ms, Forall2 agree_field gs ms -> incl ms (mv_fields y) ->
    fields_types i (map (fun f => (unkeywordize (gf_name f), Some (field_bound b r gv f))) gs) = Some (map (fun f => (unkeywordize (mf_name f), fty_of bp y f)) ms)).
  { induction 1 as [|g m gs ms H _ IH]; intros In0; [reflexivity|]. cbn [map fields_types fold_right fst snd].
    fold (fields_types i (map (fun f => (unkeywordize (gf_name f), Some (field_bound b r gv f))) gs)).
    rewrite IH by (intros z Z; apply In0; now right).
    rewrite (assoc_some _ (Some (fty_of bp y m)) i Ni); [destruct H as [-> _]; reflexivity|].
    apply Si. apply field_impl; auto. apply In0. now left. }
  apply K; [exact P|intros z Z; exact Z].
Qed.
Lemma fields_ok : exists l x, into_fields i (fields_struct b r gv) (mv_fields y) (VReg bp (mv_path y) rfs) = Some l /\
  from_fields (fields_struct b r gv) (mv_fields y) bp (mv_path y) rfs l = Some x.
Proof.
  unfold into_fields, from_fields. rewrite reg_side, fields_side. cbn [andb].
  assert (D : mv_fields y = [] \/ mv_fields y <> []) by (destruct (mv_fields y); [left; reflexivity|right; discriminate]).
  destruct D as [F0|Ne].
  - pose proof names_eq as E. rewrite F0 in Cr, E |- *. unfold fields_struct. destruct (gv_fields gv); [|discriminate].
    destruct rfs as [|f l]; [|destruct (Cr f); [now left]]. cbn. eexists _, _. split; reflexivity.
  - rewrite fields_names_eq, types_all by assumption.
    assert (Lr : forall x, In x (paths (mv_fields y)) -> lookup (unkeywordize x) (reg_struct (VReg bp (mv_path y) rfs)) = Some (VFld bp (mv_path y) x)).
    { intros x I. apply Pr in I. destruct I as [I _]. rewrite reg_struct_map by (intros E; rewrite E in I; destruct I).
      apply in_lookup; [now rewrite map_map|]. apply in_map_iff. exists x. auto. }
    rewrite (bind_all bp (mv_path y)) by exact Lr.
    set (vs := map (fun f => (unkeywordize (mf_name f), val_for bp (mv_path y) f)) (mv_fields y)).
    assert (Nv : NoDup (map fst vs)) by (unfold vs; rewrite map_map; cbn [fst]; now rewrite names_eq).
    destruct (fill_some (map (fun f => (unkeywordize (mf_name f), fty_of bp y f)) (mv_fields y)) vs) as (l & Fl).
    { intros n t I. apply in_map_iff in I. destruct I as (f & [= <- <-] & I). exists (val_for bp (mv_path y) f). split.
      - apply in_lookup; [exact Nv|]. apply in_map_iff. exists f. auto.
      - apply val_for_ty. intros x E. apply Pr. apply paths_in. eauto. }
    rewrite Fl. exists l.
    assert (Pl : Permutation l vs).
    { eapply fill_perm; [| | |exact Fl]; [rewrite map_map; cbn [fst]; now rewrite names_eq|exact Nv|unfold vs; now rewrite !map_length]. }
    assert (Nl : NoDup (map fst l)) by (eapply Permutation_NoDup; [apply Permutation_map, Permutation_sym, Pl|exact Nv]).
    set (vars := flat_map _ _).
    assert (Iv : forall x, In x (paths (mv_fields y)) -> In (unkeywordize x, VFld bp (mv_path y) x) vars).
    { intros x I. apply paths_in in I. destruct I as (f & F & E). unfold vars. apply in_flat_map.
      exists (unkeywordize (mf_name f), option_map unkeywordize (mf_path f)). split; [apply in_map_iff; eauto|]. cbn [fst snd]. rewrite E. cbn [option_map].
      rewrite (in_lookup _ _ (val_for bp (mv_path y) f) Nl); [unfold val_for; rewrite E; now left|].
      apply (Permutation_in _ (Permutation_sym Pl)). apply in_map_iff. eauto. }
    assert (Vn : map fst vars = map unkeywordize (paths (mv_fields y))).
    { unfold vars. rewrite map_flat_map. assert (K : forall ms, incl ms (mv_fields y) ->
        flat_map (fun x => map fst (match snd x, lookup (fst x) l with Some x0, Some v => [(x0, v)] | _, _ => [] end))
          (map (fun f => (unkeywordize (mf_name f), option_map unkeywordize (mf_path f))) ms) = map unkeywordize (paths ms)).
      { induction ms as [|f ms IH]; intros In0; [reflexivity|]. cbn [map flat_map fst snd paths]. rewrite IH by (intros z Z; apply In0; now right).
        rewrite map_app. f_equal. destruct (mf_path f); [|reflexivity]. cbn [option_map].
        rewrite (in_lookup _ _ (val_for bp (mv_path y) f) Nl); [reflexivity|].
        apply (Permutation_in _ (Permutation_sym Pl)). apply in_map_iff. exists f. split; [auto|]. apply In0. now left. }
      apply K. intros z Z; exact Z. }
    assert (Nvars : NoDup (map fst vars)).
    { rewrite Vn. eapply Permutation_NoDup; [apply Permutation_map, Permutation_sym, NoDup_Permutation; [exact Np|apply NoDup_map_inv in Nr; exact Nr|]|exact Nr].
      intros z. split; [apply Pr|apply Cr]. }
    assert (Pn : present (mv_fields y) <> []).
    { intros E. pose proof (present_paths (mv_fields y)) as Q. rewrite E in Q. symmetry in Q. apply map_eq_nil in Q. now apply R1 in Q. }
    destruct (present (mv_fields y)) as [|e0 l0]; [congruence|]. clear Pn.
    destruct (fill_some (map (fun e => (fst e, type_of (snd e))) (reg_struct (VReg bp (mv_path y) rfs))) vars) as (p & ->); [|eexists; split; reflexivity].
    intros n t I. rewrite reg_struct_map in I.
    2: { intros E. destruct (paths (mv_fields y)) as [|x q]; [destruct (Ne (R1 eq_refl))|]. destruct (Pr x) as [J _]; [now left|]. rewrite E in J. destruct J. }
    rewrite map_map in I. apply in_map_iff in I. destruct I as (x & [= <- <-] & I). exists (VFld bp (mv_path y) x). split; [|reflexivity].
      apply in_lookup; [exact Nvars|]. apply Iv. now apply Cr.
Qed.
End Fields.

(** ** Everything. *)
Lemma NoDup_map_eq {A B} (f : A -> B) l x y : NoDup (map f l) -> In x l -> In y l -> f x = f y -> x = y.
Proof.
  induction l as [|a l IH]; [intros _ []|]. cbn. intros N I J E. inversion N; subst. destruct I as [->|I], J as [->|J]; auto.
  - exfalso. apply H1. rewrite E. now apply in_map.
  - exfalso. apply H1. rewrite <- E. now apply in_map.
Qed.
Lemma reg_fields_some regs bp rp rfs : NoDup (map fst regs) -> In (bp, rp, rfs) regs -> reg_fields_of regs bp rp = Some rfs.
Proof.
  unfold reg_fields_of. induction regs as [|[[c q] fs] regs IH]; [intros _ []|]. cbn. intros N I. inversion N; subst. destruct I as [[= -> -> ->]|I].
  - now rewrite !String.eqb_refl.
  - destruct ((c =? bp) && (q =? rp)) eqn:E; [|auto]. apply andb_true_iff in E. destruct E as [E1 E2]. apply String.eqb_eq in E1, E2. subst.
    exfalso. apply H1. apply in_map_iff. exists (bp, rp, rfs). auto.
Qed.
Lemma gfind_some g b r gv : NoDup (map (fun x => (fst x, gv_name (snd x))) (all_vars g)) -> In (b, r, gv) (all_vars g) -> gfind g b r (gv_name gv) = Some gv.
Proof.
  intros N I. assert (V : exists x, gfind g b r (gv_name gv) = Some x).
  { unfold gfind. destruct (find _ _) eqn:F; [eauto|]. exfalso.
    pose proof (find_none _ _ F gv) as K. cbn in K. rewrite (proj2 (opt_eqb_eq _ _) eq_refl) in K. enough (true = false) by discriminate. apply K. clear -I.
    unfold all_vars in I. apply in_flat_map in I. destruct I as (gb & B & I). apply in_flat_map in I. destruct I as (gr & R & I).
    apply in_map_iff in I. destruct I as (v & [= <- <- <-] & I). apply in_flat_map. exists gb. split; [auto|]. apply in_flat_map. exists gr. split; [auto|].
    now rewrite !String.eqb_refl. }
  destruct V as (x & V). rewrite V. f_equal. apply gfind_in in V. destruct V as (gb & gr & B & <- & R & <- & X & E).
  assert (J : In (gb_name gb, gr_name gr, x) (all_vars g)).
  { unfold all_vars. apply in_flat_map. exists gb. split; [auto|]. apply in_flat_map. exists gr. split; [auto|]. apply in_map_iff. eauto. }
  pose proof (NoDup_map_eq _ _ _ _ N I J) as K. cbn in K. rewrite E in K. specialize (K eq_refl). congruence.
Qed.

Section All.
Variables (regs : list (string * string * list string)) (g : list gblock) (m : list mblock).
Hypothesis Pg : proper_generic unkeywordize g.
Hypothesis Ag : agrees g m.
Hypothesis Rg : registers unkeywordize regs m.
Hypothesis W : whole_fields m.
Hypothesis V : all_variants m.

(** What is known of a pair. *)
Lemma pair_facts b bp r gv mv i : In (b, bp, r, gv, mv, i) (zip g m) ->
  agree_var gv mv /\ NoDup (map (fun f => unkeywordize (gf_name f)) (gv_fields gv)) /\ (gv_shared gv = true -> gv_opt gv = false) /\
  In (b, r, gv) (all_vars g) /\ In (bp, mv) (all_mvars m).
Proof.
  intros I. destruct (zip_in _ _ _ _ _ _ _ _ Ag I) as (A & gb & gr & mb & mr & B & <- & R & <- & G & M & <- & Mr & Mv & _).
  destruct Pg as (P1 & P2 & P3).
  assert (J : In (gb_name gb, gr_name gr, gv) (all_vars g)).
  { unfold all_vars. apply in_flat_map. exists gb. split; [auto|]. apply in_flat_map. exists gr. split; [auto|]. apply in_map_iff. eauto. }
  split; [exact A|]. split; [apply (P2 _ J)|]. split; [intros S; apply (P3 gb gr gv B R G); exact S|]. split; [exact J|].
  unfold all_mvars. apply in_flat_map. exists mb. split; [auto|]. apply in_flat_map. exists mr. split; [auto|]. apply in_map_iff. eauto.
Qed.
Lemma keys_once : NoDup (map pkey (zip g m)).
Proof. rewrite zip_keys by assumption. apply Pg. Qed.
Lemma traits_eq : traits g = flat_map (fun p => let '(b, _, r, gv, _, _) := p in var_traits b r gv) (zip g m).
Proof. unfold traits. now rewrite (zip_g _ g m Ag). Qed.
Lemma impls_eq : impls m = flat_map (fun p => let '(b, bp, r, _, mv, _) := p in var_impls b bp r mv) (zip g m).
Proof. unfold impls. now rewrite (zip_m _ g m Ag). Qed.
Lemma in_traits b bp r gv mv i t : In (b, bp, r, gv, mv, i) (zip g m) -> In t (var_traits b r gv) -> In t (traits g).
Proof. intros I J. rewrite traits_eq. apply in_flat_map. exists (b, bp, r, gv, mv, i). auto. Qed.
Lemma in_impls b bp r gv mv i : In (b, bp, r, gv, mv, i) (zip g m) -> incl (var_impls b bp r mv) (impls m).
Proof. intros I t J. rewrite impls_eq. apply in_flat_map. exists (b, bp, r, gv, mv, i). auto. Qed.

Lemma traits_once : NoDup (traits g).
Proof.
  rewrite traits_eq. apply (NoDup_parts _ pkey tkey); [apply keys_once| |].
  - intros [[[[[b bp] r] gv] mv] i] I. destruct (pair_facts _ _ _ _ _ _ I) as (A & N & S & _). eapply var_traits_once; eauto.
  - intros [[[[[b bp] r] gv] mv] i] t I J. destruct (pair_facts _ _ _ _ _ _ I) as (A & N & S & _). cbn. eapply var_traits_key; eauto.
Qed.
Lemma impls_once : NoDup (map fst (impls m)).
Proof.
  rewrite impls_eq, map_flat_map. apply (NoDup_parts _ pkey tkey); [apply keys_once| |].
  - intros [[[[[b bp] r] gv] mv] i] I. destruct (pair_facts _ _ _ _ _ _ I) as (A & N & _). eapply var_impls_once; eauto.
  - intros [[[[[b bp] r] gv] mv] i] t I J. destruct (pair_facts _ _ _ _ _ _ I) as (A & N & S & _). cbn. apply var_traits_key; [exact S|]. eapply var_sub; eauto.
Qed.
Lemma impls_from t : In t (map fst (impls m)) -> exists b bp r gv mv i, In (b, bp, r, gv, mv, i) (zip g m) /\ In t (map fst (var_impls b bp r mv)).
Proof.
  rewrite impls_eq, map_flat_map, in_flat_map. intros ([[[[[b bp] r] gv] mv] i] & I & J). exists b, bp, r, gv, mv, i. auto.
Qed.
Lemma generic_ok_all : generic_ok g = true.
Proof.
  destruct Pg as (_ & _ & P). apply forallb_forall. intros b B. apply forallb_forall. intros r R. apply forallb_forall. intros v I.
  destruct (P b r v B R I) as (P1 & P2 & P3). rewrite !andb_true_iff. split; [split; [split|]|].
  - destruct (gv_shared v); [|reflexivity]. destruct P1 as [-> _]; reflexivity.
  - destruct (gv_shared v); [|now rewrite andb_false_r]. destruct P1 as [_ ->]; reflexivity.
  - destruct (gv_opt v); [|reflexivity]. apply forallb_forall. auto.
  - destruct (Nat.leb (List.length (gr_vars r)) 1) eqn:L; [reflexivity|]. cbn. apply orb_true_iff. right. apply forallb_forall. intros u U.
    destruct (P b r u B R U) as (_ & _ & P4). destruct (gv_name u); [reflexivity|]. rewrite P4 in L by reflexivity. discriminate.
Qed.
Lemma map_ok_all : map_ok m = true.
Proof.
  destruct Pg as (_ & _ & P). apply forallb_forall. intros mb B. apply forallb_forall. intros mr R. apply forallb_forall. intros mv I.
  destruct (Forall2_in_r _ _ _ _ Ag B) as (gb & G & Nb & Hb). destruct (Forall2_in_r _ _ _ _ Hb R) as (gr & Gr & Nr & Hr).
  destruct (Forall2_in_r _ _ _ _ Hr I) as (gv & Gv & Nv & Hv). destruct (mv_body mv) as [y|] eqn:E; [|reflexivity].
  destruct Hv as (S & O & _). destruct (P gb gr gv G Gr Gv) as (P1 & P2 & P3).
  assert (L : List.length (mr_vars mr) = List.length (gr_vars gr)) by (clear -Hr; induction Hr; cbn; congruence).
  rewrite S, O, L, !andb_true_iff. split; [split; [split|]|].
  - destruct (gv_shared gv); [|reflexivity]. destruct P1 as [-> _]; reflexivity.
  - destruct (gv_shared gv); [|now rewrite andb_false_r]. destruct P1 as [_ ->]; reflexivity.
  - destruct (gv_opt gv) eqn:Og; [|reflexivity]. apply forallb_forall. intros mu U. destruct (Forall2_in_r _ _ _ _ Hr U) as (gu & Gu & _ & Hu).
    unfold is_opt. destruct (mv_body mu); [|reflexivity]. destruct Hu as (_ & -> & _). now apply P2.
  - destruct (Nat.leb (List.length (gr_vars gr)) 1) eqn:Lb; [reflexivity|]. cbn. apply orb_true_iff. right. apply forallb_forall. intros mu U.
    destruct (Forall2_in_r _ _ _ _ Hr U) as (gu & Gu & Nu & _). destruct (P gb gr gu G Gr Gu) as (_ & _ & P4). rewrite Nu.
    destruct (gv_name gu); [|rewrite P4 in Lb by reflexivity; discriminate].
    pose proof (V mb mr mv mu B R I U) as K. destruct (mv_body mu); [reflexivity|]. exfalso. apply K; [congruence|reflexivity].
Qed.
Lemma same_pair b bp r gv mv i b' bp' r' gv' mv' i' : In (b, bp, r, gv, mv, i) (zip g m) -> In (b', bp', r', gv', mv', i') (zip g m) ->
  (b, r, gv_name gv) = (b', r', gv_name gv') -> (b, bp, r, gv, mv, i) = (b', bp', r', gv', mv', i').
Proof. intros I J E. apply (NoDup_map_eq _ _ _ _ keys_once I J). exact E. Qed.
Lemma bounds_met t : In t (bounds g ++ required g (map fst (impls m))) -> In t (map fst (impls m)).
Proof.
  rewrite in_app_iff. unfold bounds, required. rewrite !(zip_g _ g m Ag), !in_flat_map. intros [H|H].
  - destruct H as ([[[[[b bp] r] gv] mv] i] & I & J). destruct (pair_facts _ _ _ _ _ _ I) as (A & N & S & _).
    assert (K : In t (map fst (var_impls b bp r mv))) by (eapply var_bounded; eauto).
    apply in_map_iff in K. destruct K as (x & <- & K). apply in_map. now apply (in_impls _ _ _ _ _ _ I).
  - destruct H as ([[[[[b bp] r] gv] mv] i] & I & J). destruct (pair_facts _ _ _ _ _ _ I) as (A & N & S & _).
    destruct (mem _ _) eqn:Me; [|destruct J]. apply mem_in, impls_from in Me. destruct Me as (b' & bp' & r' & gv' & mv' & i' & I' & Me).
    destruct (pair_facts _ _ _ _ _ _ I') as (A' & N' & S' & _).
    pose proof (var_sub _ _ _ _ _ A' S' _ Me) as K. apply var_traits_key in K; [|exact S']. cbn in K.
    pose proof (same_pair _ _ _ _ _ _ _ _ _ _ _ _ I I' K) as [= <- <- <- <- <- <-].
    apply var_plain in Me. destruct (mv_body mv) as [y|] eqn:E; [|congruence].
    unfold opt_bounds in J. destruct (gv_opt gv); [|destruct J]. apply in_map_iff in J. destruct J as (f & <- & F).
    pose proof (var_field_bounds b bp r _ _ A y f E F) as X. apply in_map_iff in X. destruct X as (x & <- & X). apply in_map. now apply (in_impls _ _ _ _ _ _ I).
Qed.
Lemma types_met x : In x (impls m) -> type_ok regs (snd x) = true.
Proof.
  rewrite impls_eq, in_flat_map. intros ([[[[[b bp] r] gv] mv] i] & I & J). destruct (pair_facts _ _ _ _ _ _ I) as (_ & _ & _ & _ & M).
  destruct Rg as [Rn Rh]. unfold var_impls in J. apply in_app_iff in J. destruct J as [J|J].
  - destruct (mv_body mv) as [y|] eqn:E; [|destruct J]. destruct (Rh _ _ _ M E) as (rfs & R1 & _ & R3 & _). cbn [flat_map] in J. rewrite app_nil_r in J.
    apply in_flat_map in J. destruct J as (f & F & J). unfold field_impls in J.
    assert (K : forall p, mf_path f = Some p -> type_ok regs (Some (TyFld bp (mv_path y) (FTy p))) = true).
    { intros p Ep. cbn. rewrite (reg_fields_some _ _ _ _ Rn R1). apply existsb_exists. exists p. destruct (R3 p) as [H1 H2]; [apply paths_in; eauto|].
      split; [exact H1|]. unfold field_ty. destruct (p =? "val") eqn:Ev; [apply String.eqb_eq in Ev; congruence|]. now apply fty_eqb_eq. }
    destruct (mf_path f) as [p|]; [destruct (mf_opt f)|]; cbn in J; intuition; subst; cbn [snd]; auto.
  - unfold reg_impls in J. destruct (mv_body mv) as [y|] eqn:E.
    + destruct (Rh _ _ _ M E) as (rfs & R1 & _). assert (K : type_ok regs (Some (TyReg bp (mv_path y))) = true) by (cbn; now rewrite (reg_fields_some _ _ _ _ Rn R1)).
      destruct (mv_shared y); [destruct (existsb _ _)|destruct (mv_opt y)]; cbn in J; intuition; subst; cbn [snd]; auto.
    + cbn in J. intuition. subst. reflexivity.
Qed.
Lemma fields_met b bp r gv mv i : In (b, bp, r, gv, mv, i) (zip g m) -> var_fields_ok regs g (impls m) b bp r mv = true.
Proof.
  intros I. destruct (pair_facts _ _ _ _ _ _ I) as (A & N & S & Vg & M). destruct Rg as [Rn Rh]. unfold var_fields_ok.
  destruct (mv_body mv) as [y|] eqn:E; [|reflexivity]. destruct (mv_shared y) eqn:Sh; [reflexivity|]. cbn [orb].
  destruct (Rh _ _ _ M E) as (rfs & R1 & R2 & R3 & R4). destruct (R4 Sh) as [R5 R6].
  pose proof A as (Nv & Hb). rewrite E in Hb. destruct Hb as (Sy & _ & _).
  rewrite Nv, (gfind_some _ _ _ _ (proj1 Pg) Vg), (reg_fields_some _ _ _ _ Rn R1), <- Sy, Sh. cbn [negb andb].
  rewrite (names_eq gv mv y A E), same_names_ok by (auto; tauto). cbn [andb].
  destruct (fields_ok b bp r gv mv y rfs (impls m)) as (l & x & -> & ->); auto.
  - apply (W _ _ _ M E Sh).
  - apply impls_once.
  - apply (in_impls _ _ _ _ _ _ I).
Qed.
Theorem accepted_all : accepted regs g m = true.
Proof.
  unfold accepted. rewrite generic_ok_all, map_ok_all, (proj2 (once_NoDup _) traits_once), (proj2 (once_NoDup _) impls_once). cbn [andb].
  rewrite !andb_true_iff. split; [split; [split|]|].
  - apply forallb_forall. intros t I. apply mem_in. apply impls_from in I. destruct I as (b & bp & r & gv & mv & i & I & J).
    destruct (pair_facts _ _ _ _ _ _ I) as (A & N & S & _). apply (in_traits _ _ _ _ _ _ _ I). eapply var_sub; eauto.
  - apply forallb_forall. intros t I. apply mem_in. now apply bounds_met.
  - apply forallb_forall. apply types_met.
  - rewrite (zip_m _ g m Ag). apply forallb_forall. intros z Z. apply in_flat_map in Z. destruct Z as ([[[[[b bp] r] gv] mv] i] & I & Z).
    destruct Z as [<-|[]]. now apply (fields_met _ _ _ _ _ _ I).
Qed.
End All.

(** ** The macro of a map that is accepted. *)
Definition place_of (o : option path) : place := match o with None => UnitE | Some w => snd (entry_of w) end.
Definition some_of (o : option path) : list path := match o with None => [] | Some w => [w] end.
(** The parts of the expression, with what they name. *)
Definition var_items (b bp r : string) (v : mvar) (first : bool) : list (string * option path) :=
  match mv_body v with
  | None => if first then [(key_name (KReg b r (mv_name v)), None)] else []
  | Some y =>
      if mv_shared y then map (fun f => (key_name (KFld b r (mv_name v) (mf_name f)), option_map (PathFld bp (mv_path y)) (mf_path f))) (mv_fields y)
      else if first then [(key_name (KReg b r (mv_name v)), Some (PathReg bp (mv_path y)))]
      else []
  end.
Definition all_items (m : list mblock) : list (string * option path) := per_mvar var_items m.

Lemma enum_map {A B C} (h : B -> C) (f : bool -> A -> list B) l : forall i, map h (enum f i l) = enum (fun i x => map h (f i x)) i l.
Proof. induction l as [|a l IH]; intros i; [reflexivity|]. cbn. now rewrite map_app, IH. Qed.
Lemma enum_ext {A B} (f f' : bool -> A -> list B) l : (forall i x, In x l -> f i x = f' i x) -> forall i, enum f i l = enum f' i l.
Proof. induction l as [|a l IH]; intros H i; [reflexivity|]. cbn. rewrite H by now left. f_equal. apply IH. intros j x I. apply H. now right. Qed.
Lemma flat_map_ext' {A B} (f f' : A -> list B) l : (forall x, In x l -> f x = f' x) -> flat_map f l = flat_map f' l.
Proof. induction l as [|a l IH]; intros H; [reflexivity|]. cbn. rewrite H by now left. f_equal. apply IH. intros x I. apply H. now right. Qed.

Lemma entries_items m : mentries m = map (fun e => (fst e, place_of (snd e))) (all_items m).
Proof.
  unfold mentries, all_items, per_mvar. rewrite map_flat_map. apply flat_map_ext'. intros b _. rewrite map_flat_map. apply flat_map_ext'. intros r _.
  rewrite enum_map. apply enum_ext. intros i v _. unfold var_entries, var_items. destruct (mv_body v) as [y|]; [|now destruct i].
  destruct (mv_shared y); [|now destruct i]. rewrite map_map. apply map_ext. intros f. cbn. now destruct (mf_path f).
Qed.

Section Extract.
Variables (regs : list (string * string * list string)) (g : list gblock) (m : list mblock).
Hypothesis Pg : proper_generic unkeywordize g.
Hypothesis Ag : agrees g m.

Lemma items_taken : flat_map (fun e => some_of (snd e)) (all_items m) = taken m.
Proof.
  unfold all_items, per_mvar, taken.
  assert (FF : forall {A B C} (f : B -> list C) (h : A -> list B) l, flat_map f (flat_map h l) = flat_map (fun x => flat_map f (h x)) l).
  { intros A B C f h l. induction l as [|a l IH]; [reflexivity|]. cbn. now rewrite flat_map_app, IH. }
  rewrite FF. apply flat_map_ext'. intros b B. rewrite FF. apply flat_map_ext'. intros r R.
  destruct (Forall2_in_r _ _ _ _ Ag B) as (gb & G & Nb & Hb). destruct (Forall2_in_r _ _ _ _ Hb R) as (gr & Gr & Nr & Hr).
  destruct Pg as (_ & _ & P). unfold reg_taken.
  assert (Sh : forall v y, In v (mr_vars r) -> mv_body v = Some y -> mv_shared y = true -> mr_vars r = [v]).
  { intros v y I E S. destruct (Forall2_in_r _ _ _ _ Hr I) as (gv & Gv & Nv & Hv). rewrite E in Hv. destruct Hv as (S' & _).
    destruct (P gb gr gv G Gr Gv) as (P1 & _). rewrite S in S'. destruct P1 as [_ P1]; [auto|]. rewrite P1 in Hr. inversion Hr; subst. inversion H3; subst.
    rewrite <- H1 in I. now destruct I as [->|[]]. }
  destruct (mr_vars r) as [|v vs]; [reflexivity|]. cbn [enum]. rewrite flat_map_app.
  assert (Z : flat_map (fun e => some_of (snd e)) (enum (fun i v => var_items (mb_name b) (mb_path b) (mr_name r) v i) false vs) = []).
  { assert (K : forall us, incl us vs -> flat_map (fun e => some_of (snd e)) (enum (fun i v => var_items (mb_name b) (mb_path b) (mr_name r) v i) false us) = []).
    { induction us as [|u us IH]; intros In0; [reflexivity|]. cbn [enum]. rewrite flat_map_app, IH by (intros z Z; apply In0; now right). rewrite app_nil_r.
      unfold var_items. destruct (mv_body u) as [y|] eqn:E; [|reflexivity]. destruct (mv_shared y) eqn:S; [|reflexivity].
      assert (U : In u vs) by (apply In0; now left). pose proof (Sh u y (or_intror U) E S) as K. inversion K; subst. destruct U. }
    apply K. intros z Z0. exact Z0. }
  rewrite Z, app_nil_r. unfold var_items. destruct (mv_body v) as [y|]; [|reflexivity]. destruct (mv_shared y); [|reflexivity].
  clear. induction (mv_fields y) as [|f l IH]; [reflexivity|]. cbn [map flat_map paths snd]. rewrite IH, map_app. f_equal. now destruct (mf_path f).
Qed.

(** The members have the types of what the parts name. *)
Lemma items_members : Forall2 (fun e x => fst x = fst e /\ In (snd e, Some (ty_opt (snd x))) (impls m)) (gmembers g) (all_items m).
Proof.
  unfold gmembers, all_items. rewrite (zip_g _ g m Ag), (zip_m _ g m Ag).
  assert (K : forall l, incl l (zip g m) -> Forall2 (fun e x => fst x = fst e /\ In (snd e, Some (ty_opt (snd x))) (impls m))
    (flat_map (fun p => let '(b, _, r, gv, _, i) := p in var_members b r gv i) l) (flat_map (fun p => let '(b, bp, r, _, mv, i) := p in var_items b bp r mv i) l)).
  { induction l as [|[[[[[b bp] r] gv] mv] i] l IH]; intros In0; [constructor|]. cbn [flat_map]. apply Forall2_app; [|apply IH; intros z Z; apply In0; now right].
    assert (I : In (b, bp, r, gv, mv, i) (zip g m)) by (apply In0; now left).
    destruct (pair_facts g m Pg Ag _ _ _ _ _ _ I) as (A & _ & So & _). pose proof (in_impls g m Ag _ _ _ _ _ _ I) as Ii.
    unfold var_members, var_items. pose proof A as (Nv & Hv). destruct (gv_shared gv) eqn:S.
    - rewrite (So eq_refl) in *. destruct (mv_body mv) as [y|] eqn:E; [|discriminate]. destruct Hv as (-> & _ & Hf). rewrite Nv.
      assert (K : forall gs ms, Forall2 agree_field gs ms -> incl ms (mv_fields y) -> Forall2 (fun e x => fst x = fst e /\ In (snd e, Some (ty_opt (snd x))) (impls m))
        (map (fun f => (key_name (KFld b r (gv_name gv) (gf_name f)), field_bound b r gv f)) gs)
        (map (fun f => (key_name (KFld b r (gv_name gv) (mf_name f)), option_map (PathFld bp (mv_path y)) (mf_path f))) ms)).
      { induction 1 as [|gf mf gs ms H _ IHs]; intros J; [constructor|]. cbn [map]. constructor; [|apply IHs; intros z Z; apply J; now right].
        cbn [fst snd]. split; [destruct H as [-> _]; reflexivity|]. apply Ii.
        pose proof (field_impl b bp r gv mv A y gf mf E (J mf (or_introl eq_refl)) H) as F. unfold fty_of in F. destruct (mf_path mf); exact F. }
      apply K; [exact Hf|intros z Z; exact Z].
    - destruct i.
      + assert (X : var_items b bp r mv true = [(key_name (KReg b r (gv_name gv)), option_map (fun y => PathReg bp (mv_path y)) (mv_body mv))]).
        { unfold var_items. rewrite Nv. destruct (mv_body mv) as [y|]; [|reflexivity]. destruct Hv as (-> & _). reflexivity. }
        unfold var_items in X. rewrite X. constructor; [|constructor]. cbn [fst snd]. split; [reflexivity|]. apply Ii.
        unfold var_impls. apply in_app_iff. right. unfold reg_impls. rewrite Nv. destruct (mv_body mv) as [y|]; cbn [option_map ty_opt].
        * destruct Hv as (-> & -> & _). destruct (gv_opt gv); cbn; auto.
        * rewrite Hv. cbn. auto.
      + destruct (mv_body mv) as [y|]; [destruct Hv as (-> & _)|]; constructor. }
  apply K. intros z Z. exact Z.
Qed.

Lemma eval_items l : forall ix, NoDup (flat_map (fun e => some_of (snd e)) l) -> separate (flat_map (fun e => some_of (snd e)) l) ->
  (forall w, In w (flat_map (fun e => some_of (snd e)) l) -> avail ix w) ->
  exists vs ix', eval_all (map (fun e => (fst e, place_of (snd e))) l) ix = Some (vs, ix') /\ Forall2 (fun (e : string * option path) v => fst v = fst e /\ token_of (snd v) = snd e) l vs.
Proof.
  induction l as [|[n o] l IH]; intros ix N S A; [eexists _, _; split; [reflexivity|constructor]|]. cbn [flat_map snd] in *. destruct o as [w|].
  - cbn [some_of app] in *. inversion N; subst. destruct (eval_avail ix w (A w (or_introl eq_refl))) as (v & ix1 & E & T & K).
    destruct (IH ix1) as (vs & ix' & F & Q).
    + assumption.
    + intros b r f I J. apply (S b r f); right; assumption.
    + intros u I. apply K; [|apply A; now right]. destruct w as [b r|b r f], u as [c q|c q f']; cbn.
      * intros [= -> ->]. auto.
      * intros [= -> ->]. apply (S c q f'); [left; reflexivity|right; exact I].
      * intros [= -> ->]. apply (S b r f); [right; exact I|left; reflexivity].
      * intros [= -> -> ->]. auto.
    + cbn [map eval_all fst snd place_of]. rewrite E, F. eexists _, _. split; [reflexivity|]. constructor; [auto|exact Q].
  - cbn [some_of app] in *. destruct (IH ix N S A) as (vs & ix' & F & Q). cbn [map eval_all fst snd place_of eval]. rewrite F.
    eexists _, _. split; [reflexivity|]. constructor; [auto|exact Q].
Qed.

Theorem extract_all ix : accepted regs g m = true -> NoDup (map fst (impls m)) -> parts g <> [] -> NoDup (map key_name (parts g)) ->
  NoDup (taken m) -> separate (taken m) -> (forall w, In w (taken m) -> avail ix w) -> (forall b r f, In (PathFld b r f) (taken m) -> f <> "val") ->
  exists p ix', extract_map regs g m ix = Some (p, ix').
Proof.
  intros Ac Ni Ne Nk Nt St Av Vl. unfold extract_map. rewrite Ac.
  pose proof (gmembers_parts g (accepted_generic _ _ _ Ac)) as Gp. pose proof items_members as Im.
  assert (E : gstruct g = map (fun e => (fst e, Some (snd e))) (gmembers g)) by (unfold gstruct; destruct (gmembers g); [inversion Gp; congruence|reflexivity]).
  rewrite E.
  assert (Ft : fields_types (impls m) (map (fun e => (fst e, Some (snd e))) (gmembers g)) = Some (map (fun x => (fst x, ty_opt (snd x))) (all_items m))).
  { clear -Im Ni. induction Im as [|[n t] [n' o] l l' [H1 H2] _ IH]; [reflexivity|]. cbn [map fields_types fold_right fst snd] in *.
    fold (fields_types (impls m) (map (fun e => (fst e, Some (snd e))) l)). rewrite IH. rewrite (assoc_some _ _ _ Ni H2). now rewrite H1. }
  rewrite Ft, entries_items. unfold construct. rewrite !map_map. cbn [fst].
  assert (Nn : NoDup (map fst (all_items m))).
  { assert (E1 : map fst (all_items m) = map fst (gmembers g)) by (clear -Im; induction Im as [|? ? ? ? [H _] _ IH]; cbn; congruence).
    assert (E2 : map fst (gmembers g) = map key_name (parts g)) by (clear -Gp; induction Gp as [|? ? ? ? [H _] _ IH]; cbn; congruence). now rewrite E1, E2. }
  change (fun x : string * option path => fst x) with (@fst string (option path)).
  rewrite (proj2 (nodup_NoDup _) Nn), !map_length, Nat.eqb_refl. cbn [andb].
  destruct (eval_items (all_items m) ix) as (vs & ix' & -> & Q); try (rewrite items_taken; assumption).
  assert (Nv : NoDup (map fst vs)).
  { assert (E1 : map fst vs = map fst (all_items m)) by (clear -Q; induction Q as [|? ? ? ? [H _] _ IH]; cbn; congruence). now rewrite E1. }
  destruct (fill_some (map (fun x => (fst x, ty_opt (snd x))) (all_items m)) vs) as (p & ->); [|eexists _, _; reflexivity].
  intros n t I. apply in_map_iff in I. destruct I as ([n' o] & [= <- <-] & I).
  destruct (Forall2_in_l _ _ _ _ Q I) as ([n'' v] & J & H1 & H2). cbn in H1, H2. subst n''. exists v. split; [now apply in_lookup|].
  destruct o as [w|]; cbn [ty_opt].
  - apply token_ty; [exact H2|]. intros b r f ->. apply (Vl b r). rewrite <- items_taken. apply in_flat_map. exists (n', Some (PathFld b r f)). split; [auto|now left].
  - destruct v; [discriminate..|reflexivity].
Qed.
End Extract.
