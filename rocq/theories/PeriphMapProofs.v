(** Proofs about generic peripherals. *)
Require Import List Bool String Permutation Arith Lia.
From Verif Require Import Names PeriphSpec Periph PeriphProofs PeriphMapSpec PeriphMap.
Import ListNotations.
Open Scope string_scope.

Lemma opt_eqb_eq a b : opt_eqb a b = true <-> a = b.
Proof. destruct a, b; cbn; rewrite ?String.eqb_eq; split; congruence. Qed.
Lemma pkey_eqb_eq a b : pkey_eqb a b = true <-> a = b.
Proof.
  destruct a, b; cbn; try (split; congruence); rewrite !andb_true_iff, !opt_eqb_eq, ?String.eqb_eq; intuition congruence.
Qed.
Lemma trait_eqb_eq a b : trait_eqb a b = true <-> a = b.
Proof.
  destruct a as [k d p], b as [k' d' p']; unfold trait_eqb; cbn. rewrite !andb_true_iff, pkey_eqb_eq, eqb_true_iff.
  split; [intros ((-> & E) & ->); destruct d, d'; cbn in E; congruence|intros [= -> -> ->]; destruct d'; auto].
Qed.
Lemma mem_in t l : mem t l = true <-> In t l.
Proof.
  unfold mem. rewrite existsb_exists. split; [intros (x & I & E); apply trait_eqb_eq in E; congruence|].
  intros I. exists t. split; [auto|now apply trait_eqb_eq].
Qed.
Lemma assoc_in t l x : assoc t l = Some x -> In (t, Some x) l.
Proof.
  induction l as [|[u y] l IH]; cbn; [discriminate|]. destruct (trait_eqb t u) eqn:E; [|auto].
  apply trait_eqb_eq in E. intros ->. subst. auto.
Qed.

(** ** What the implementations are for. *)
Lemma enum_in {A B} (f : bool -> A -> list B) l : forall i x, In x (enum f i l) -> exists j a, In a l /\ In x (f j a).
Proof.
  induction l as [|a l IH]; intros i x; cbn; [tauto|]. rewrite in_app_iff. intros [I|I]; [eauto|].
  destruct (IH _ _ I) as (j & c & ? & ?). eauto.
Qed.
Lemma per_mvar_in {B} (f : string -> string -> string -> mvar -> bool -> list B) m x : In x (per_mvar f m) ->
  exists b r v i, In b m /\ In r (mb_regs b) /\ In v (mr_vars r) /\ In x (f (mb_name b) (mb_path b) (mr_name r) v i).
Proof.
  unfold per_mvar. rewrite in_flat_map. intros (b & B0 & I). apply in_flat_map in I. destruct I as (r & R & I).
  apply enum_in in I. destruct I as (i & v & V & I). exists b, r, v, i. auto.
Qed.
Definition ty_opt (w : option path) : ty := match w with None => TyUnit | Some p => ty_of p end.
Lemma impls_maps m t x : In (t, Some x) (impls m) -> exists w, maps m (t_key t) w /\ x = ty_opt w.
Proof.
  intros I. apply per_mvar_in in I. destruct I as (b & r & v & _ & B & R & V & I). unfold var_impls in I. apply in_app_iff in I.
  destruct I as [I|I].
  - apply in_flat_map in I. destruct I as (y & Y & I). destruct (mv_body v) as [y'|] eqn:E; [|destruct Y]. destruct Y as [->|[]].
    apply in_flat_map in I. destruct I as (f & F & I).
    exists (option_map (fun p => PathFld (mb_path b) (mv_path y) p) (mf_path f)).
    assert (K : t_key t = KFld (mb_name b) (mr_name r) (mv_name v) (mf_name f) /\ x = ty_opt (option_map (fun p => PathFld (mb_path b) (mv_path y) p) (mf_path f))).
    { unfold field_impls in I. destruct (mf_path f) as [q|]; [destruct (mf_opt f)|]; cbn in I; intuition; try discriminate;
      match goal with H : (_, _) = (_, _) |- _ => inversion H; subst; reflexivity end. }
    destruct K as [-> ->]. split; [|reflexivity]. exists b, r, v, y, f. repeat split; auto.
  - exists (option_map (fun y => PathReg (mb_path b) (mv_path y)) (mv_body v)).
    assert (K : t_key t = KReg (mb_name b) (mr_name r) (mv_name v) /\ x = ty_opt (option_map (fun y => PathReg (mb_path b) (mv_path y)) (mv_body v))).
    { unfold reg_impls in I. destruct (mv_body v) as [y|]; [destruct (mv_shared y); [destruct (existsb _ _)|destruct (mv_opt y)]|]; cbn in I; intuition; try discriminate;
      match goal with H : (_, _) = (_, _) |- _ => inversion H; subst; reflexivity end. }
    destruct K as [-> ->]. split; [|reflexivity]. exists b, r, v. repeat split; auto.
Qed.
Lemma ty_opt_token v w : type_of v = ty_opt w -> token_of v = w.
Proof. destruct w as [p|]; cbn; [apply ty_token|]. destruct v; [discriminate..|reflexivity]. Qed.

Lemma fields_types_ok i s : forall ts, fields_types i s = Some ts ->
  Forall2 (fun e t => fst t = fst e /\ match snd e with None => snd t = TyUnit | Some x => In (x, Some (snd t)) i end) s ts.
Proof.
  induction s as [|[n o] s IH]; intros ts; cbn; [intros [= <-]; constructor|]. fold (fields_types i s).
  destruct (fields_types i s) as [q|] eqn:Q; [|discriminate]. specialize (IH q eq_refl). destruct o as [t|].
  - destruct (assoc t i) as [x|] eqn:A; [|discriminate]. intros [= <-]. constructor; [|exact IH]. cbn. split; [auto|]. now apply assoc_in.
  - intros [= <-]. constructor; [|exact IH]. cbn. auto.
Qed.

(** ** The members of a peripheral. *)
Definition key_trait (e : string * trait) (k : key) : Prop := fst e = key_name k /\ t_key (snd e) = k.
Lemma reg_members_parts b r : gvars_ok (gr_vars r) = true ->
  Forall2 key_trait (enum (fun i v => var_members b (gr_name r) v i) true (gr_vars r)) (reg_parts b r).
Proof.
  unfold reg_parts, gvars_ok. destruct (gr_vars r) as [|v vs] eqn:E; [constructor|]. intros H. cbn [enum].
  assert (Z : enum (fun i v => var_members b (gr_name r) v i) false vs = []).
  { rewrite forallb_forall in H. assert (S : forall u, In u vs -> gv_shared u = false).
    { intros u I. specialize (H u (or_intror I)). rewrite !andb_true_iff in H. destruct H as (((_ & H) & _) & _).
      destruct vs; [destruct I|]. cbn in H. now destruct (gv_shared u). }
    clear -S. induction vs as [|u vs IH]; [reflexivity|]. cbn. rewrite IH by (intros x I; apply S; now right).
    unfold var_members. rewrite S by (now left). reflexivity. }
  rewrite Z, app_nil_r. unfold var_members. destruct (gv_shared v).
  - induction (gv_fields v) as [|f fs IH]; cbn; constructor; auto. split; reflexivity.
  - constructor; [split; reflexivity|constructor].
Qed.
Lemma gmembers_parts g : generic_ok g = true -> Forall2 key_trait (gmembers g) (parts g).
Proof.
  unfold generic_ok, gmembers, per_var, parts. induction g as [|b g IH]; [constructor|]. cbn [forallb flat_map].
  rewrite andb_true_iff. intros [H1 H2]. apply Forall2_app; [|auto]. clear -H1. induction (gb_regs b) as [|r rs IH]; [constructor|].
  cbn [forallb flat_map] in *. rewrite andb_true_iff in H1. destruct H1. apply Forall2_app; [|auto]. now apply reg_members_parts.
Qed.

Lemma accepted_generic regs g m : accepted regs g m = true -> generic_ok g = true.
Proof. unfold accepted. rewrite !andb_true_iff. tauto. Qed.

Lemma sound_map regs g m ix p ix' : parts g <> [] -> extract_map regs g m ix = Some (p, ix') ->
  Forall2 (fun k e => fst e = key_name k /\ maps m k (token_of (snd e))) (parts g) p.
Proof.
  intros Ne. unfold extract_map. destruct (accepted regs g m) eqn:A; [|discriminate]. apply accepted_generic in A. apply gmembers_parts in A.
  assert (S : gstruct g = map (fun e => (fst e, Some (snd e))) (gmembers g)).
  { unfold gstruct. destruct (gmembers g); [|reflexivity]. inversion A. congruence. }
  rewrite S. clear S Ne. destruct (fields_types (impls m) _) as [ms|] eqn:T; [|discriminate]. apply fields_types_ok in T.
  unfold construct. destruct (_ && _ && _); [|discriminate]. destruct (eval_all _ ix) as [[vs ix1]|]; [|discriminate].
  destruct (fill ms vs) as [q|] eqn:F; [|discriminate]. intros [= <- <-]. apply fill_ok in F.
  revert ms q T F. induction A as [|e k es ks [K1 K2] _ IH]; intros ms q T F; cbn in T; inversion T; subst; inversion F; subst; constructor; eauto.
  destruct H1 as (N & I). destruct H2 as (N' & Ty & _). cbn in N, I. split; [congruence|].
  apply impls_maps in I. destruct I as (w & M & X). rewrite X in Ty. apply ty_opt_token in Ty. now rewrite Ty.
Qed.

(** ** The fields of a register. *)
Lemma per_mvar_all (f : string -> string -> string -> mvar -> bool) m :
  forallb (fun x => x) (per_mvar (fun b bp r v _ => [f b bp r v]) m) = true ->
  forall b r v, In b m -> In r (mb_regs b) -> In v (mr_vars r) -> f (mb_name b) (mb_path b) (mr_name r) v = true.
Proof.
  intros H b r v B R V. rewrite forallb_forall in H. apply H. unfold per_mvar. apply in_flat_map. exists b. split; [auto|].
  apply in_flat_map. exists r. split; [auto|]. generalize true. induction (mr_vars r) as [|u l IH]; [destruct V|].
  intros i. cbn. destruct V as [->|V]; [now left|]. right. now apply IH.
Qed.
Lemma field_ty_inj f g : field_ty f = field_ty g -> f = g.
Proof.
  unfold field_ty. destruct (f =? "val") eqn:E, (g =? "val") eqn:F; try congruence.
  apply String.eqb_eq in E, F. congruence.
Qed.
Lemma from_fields_same s fs bp rp rfs l x : from_fields s fs bp rp rfs l = Some x -> x = VReg bp rp rfs.
Proof.
  unfold from_fields. destruct (_ && _); [|discriminate]. set (vars := match present fs with [] => _ | _ => _ end). clearbody vars.
  destruct (fill _ vars) as [p|] eqn:F; [|discriminate]. intros [= <-]. apply fill_ok in F. f_equal.
  destruct rfs as [|f0 rfs]; cbn in F.
  - inversion F; subst. inversion H3; subst. cbn. destruct H1 as (_ & T & _). cbn in T. destruct (snd y); [discriminate..|reflexivity].
  - assert (G : forall fs p, Forall2 (fun m e => fst e = fst m /\ type_of (snd e) = snd m /\ lookup (fst m) vars = Some (snd e))
       (map (fun e => (fst e, type_of (snd e))) (map (fun f => (unkeywordize f, VFld bp rp f)) fs)) p ->
       flat_map (fun e => match snd e with VFld _ _ f => [f] | _ => [] end) p = fs).
    { clear. induction fs as [|f fs IH]; intros p F; cbn in F; inversion F; subst; [reflexivity|]. cbn. rewrite (IH _ H3).
      destruct H1 as (_ & T & _). cbn in T. destruct (snd y); cbn in T; try discriminate. inversion T. apply field_ty_inj in H2. now subst. }
    apply (G (f0 :: rfs)). exact F.
Qed.
Lemma gfind_in g b r v x : gfind g b r v = Some x ->
  exists gb gr, In gb g /\ gb_name gb = b /\ In gr (gb_regs gb) /\ gr_name gr = r /\ In x (gr_vars gr) /\ gv_name x = v.
Proof.
  unfold gfind. intros F. apply find_some in F. destruct F as [I E]. apply opt_eqb_eq in E.
  apply in_flat_map in I. destruct I as (gb & B & I). apply in_flat_map in I. destruct I as (gr & R & I).
  destruct ((gb_name gb =? b) && (gr_name gr =? r)) eqn:N; [|destruct I]. apply andb_true_iff in N. destruct N as [N1 N2].
  apply String.eqb_eq in N1, N2. exists gb, gr. auto 8.
Qed.

(** A register that a peripheral owns can be taken apart and put together. *)
Lemma sound_fields regs g m mb mr mv y : accepted regs g m = true ->
  In mb m -> In mr (mb_regs mb) -> In mv (mr_vars mr) -> mv_body mv = Some y -> mv_shared y = false ->
  exists gb gr gv rfs l, In gb g /\ gb_name gb = mb_name mb /\ In gr (gb_regs gb) /\ gr_name gr = mr_name mr /\
    In gv (gr_vars gr) /\ gv_name gv = mv_name mv /\ reg_fields_of regs (mb_path mb) (mv_path y) = Some rfs /\
    into_fields (impls m) (fields_struct (mb_name mb) (mr_name mr) gv) (mv_fields y) (VReg (mb_path mb) (mv_path y) rfs) = Some l /\
    from_fields (fields_struct (mb_name mb) (mr_name mr) gv) (mv_fields y) (mb_path mb) (mv_path y) rfs l = Some (VReg (mb_path mb) (mv_path y) rfs) /\
    (gv_fields gv <> [] -> Forall2 (fun f e => fst e = unkeywordize (gf_name f) /\
        maps m (KFld (mb_name mb) (mr_name mr) (mv_name mv) (gf_name f)) (token_of (snd e))) (gv_fields gv) l).
Proof.
  intros A B R V Y S. unfold accepted in A. rewrite !andb_true_iff in A. destruct A as (_ & A).
  pose proof (per_mvar_all _ _ A mb mr mv B R V) as K. clear A. unfold var_fields_ok in K. rewrite Y, S in K. cbn [orb] in K.
  destruct (gfind g (mb_name mb) (mr_name mr) (mv_name mv)) as [gv|] eqn:G; [|discriminate].
  destruct (reg_fields_of regs (mb_path mb) (mv_path y)) as [rfs|] eqn:Rf; [|discriminate].
  rewrite !andb_true_iff in K. destruct K as ((_ & _) & K).
  destruct (into_fields _ _ _ _) as [l|] eqn:I; [|discriminate].
  destruct (from_fields _ _ _ _ _ _) as [x|] eqn:F; [|discriminate].
  apply gfind_in in G. destruct G as (gb & gr & G1 & G2 & G3 & G4 & G5 & G6).
  exists gb, gr, gv, rfs, l. rewrite (from_fields_same _ _ _ _ _ _ _ F) in F. repeat (split; [first [assumption|reflexivity]|]).
  intros Ne. clear F. unfold into_fields in I. destruct (_ && _); [|discriminate]. destruct (bind _ _) as [vs|]; [|discriminate].
  destruct (fields_types _ _) as [ts|] eqn:T; [|discriminate]. apply fields_types_ok in T. apply fill_ok in I.
  assert (E : fields_struct (mb_name mb) (mr_name mr) gv =
     map (fun f => (unkeywordize (gf_name f), Some (field_bound (mb_name mb) (mr_name mr) gv f))) (gv_fields gv)).
  { unfold fields_struct. destruct (gv_fields gv); [congruence|reflexivity]. }
  rewrite E in T. clear E Ne. revert ts l T I. induction (gv_fields gv) as [|f fs IH]; intros ts l T I; cbn in T; inversion T; subst; inversion I; subst; constructor; eauto.
  destruct H1 as (N & J). destruct H2 as (N' & Ty & _). cbn in N, J. split; [congruence|].
  apply impls_maps in J. destruct J as (w & M & X). rewrite X in Ty. apply ty_opt_token in Ty. rewrite Ty.
  cbn in M. now rewrite G6 in M.
Qed.
