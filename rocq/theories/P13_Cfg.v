(** Properties of the conditional compilation of macro items (C57, C74). *)
Require Import NArith List Bool Lia Permutation.
From Verif Require Import CfgSpec Cfg.
Import ListNotations.

Lemma atom_eqb_eq a b : atom_eqb a b = true <-> a = b.
Proof.
  destruct a, b. unfold atom_eqb. cbn. rewrite andb_true_iff, !N.eqb_eq. split; [intros [-> ->]|intros [= -> ->]]; auto.
Qed.
Lemma key_eqb_eq x : forall y, key_eqb x y = true <-> x = y.
Proof.
  induction x as [|a x IH]; intros [|b y]; cbn; try (split; [discriminate|intros [=]]); [tauto|].
  rewrite andb_true_iff, atom_eqb_eq, IH. split; [intros [-> ->]|intros [= -> ->]]; auto.
Qed.

(** ** The attributes of one item. *)
Lemma cond_of_app l : forall c, clauses (fold_left (fun c x => add_clause c (parse x)) l c) =
  clauses c ++ flat_map (fun x => clauses (parse x)) l /\
  inverse (fold_left (fun c x => add_clause c (parse x)) l c) = inverse c.
Proof.
  induction l as [|x l IH]; intros c; cbn; [now rewrite app_nil_r|].
  destruct (IH (add_clause c (parse x))) as [-> ->]. cbn. rewrite <- app_assoc. auto.
Qed.
Lemma cond_of_clauses l : clauses (cond_of l) = flat_map (fun x => clauses (parse x)) l /\ inverse (cond_of l) = false.
Proof. unfold cond_of. destruct (cond_of_app l default_cond) as [-> ->]. auto. Qed.

Lemma parse_holds env x : plain x -> forallb (existsb env) (clauses (parse x)) = attr_holds env x.
Proof.
  destruct x as [|a|l]; cbn; auto; [now rewrite orb_false_r, andb_true_r|].
  intros [H _]. destruct l as [|a l]; [now destruct H|]. cbn. now rewrite andb_true_r.
Qed.
Lemma preds_map env l : preds_hold env (map PAny l) = forallb (existsb env) l.
Proof. induction l; cbn; auto. unfold preds_hold in *. cbn. now rewrite IHl. Qed.
Lemma attrs_plain env c : inverse c = false -> preds_hold env (attrs c) = forallb (existsb env) (clauses c).
Proof.
  unfold attrs. intros ->. destruct (clauses c) eqn:E; [reflexivity|]. now rewrite preds_map.
Qed.

(** The attributes generated for an item hold in exactly the configurations in which all
    the attributes the user wrote on it (and on what contains it) hold, provided none of
    those is [any()]. *)
Theorem C74_attrs_partial : forall env l,
  Forall plain l -> preds_hold env (attrs (cond_of l)) = attrs_hold env l.
Proof.
  intros env l F. rewrite attrs_plain by apply cond_of_clauses. rewrite (proj1 (cond_of_clauses l)).
  induction F as [|x l P F IH]; [reflexivity|]. cbn [flat_map]. rewrite forallb_app, IH, parse_holds by assumption. reflexivity.
Qed.
Print Assumptions C74_attrs_partial.

(** ** The transposed items. *)
Section Trans.
Context {T : Type}.
Notation entry := (list atom * list T)%type.


(** What is stored under a key. *)
Definition get (m : list entry) (k : list atom) : list T :=
  flat_map (fun e => if key_eqb k (fst e) then snd e else []) m.
Lemma key_refl k : key_eqb k k = true. Proof. now apply key_eqb_eq. Qed.
Lemma key_neq k k' : k <> k' -> key_eqb k k' = false.
Proof. intros H. destruct (key_eqb k k') eqn:E; auto. apply key_eqb_eq in E. contradiction. Qed.
Lemma get_none (m : list entry) k : ~ In k (map fst m) -> get m k = [].
Proof.
  induction m as [|[k' l] m IH]; cbn; auto. intros H. rewrite key_neq by intuition. apply IH. intuition.
Qed.
Lemma push_keys (m : list entry) k x k' : In k' (map fst (push m k x)) <-> k' = k \/ In k' (map fst m).
Proof.
  induction m as [|[k0 l] m IH]; cbn; [intuition congruence|]. destruct (key_eqb k k0) eqn:E; cbn.
  - apply key_eqb_eq in E. subst. intuition.
  - rewrite IH. intuition.
Qed.
Lemma push_nodup (m : list entry) k x : NoDup (map fst m) -> NoDup (map fst (push m k x)).
Proof.
  induction m as [|[k0 l] m IH]; cbn; intros H; [repeat constructor; auto|].
  inversion H; subst. destruct (key_eqb k k0) eqn:E; cbn; constructor; auto.
  rewrite push_keys. intros [->|?]; [rewrite key_refl in E; discriminate|auto].
Qed.
Lemma push_get (m : list entry) k x k' : NoDup (map fst m) ->
  get (push m k x) k' = get m k' ++ (if key_eqb k' k then [x] else []).
Proof.
  unfold get. induction m as [|[k0 l] m IH]; cbn; intros H.
  - now rewrite app_nil_r.
  - inversion H; subst. destruct (key_eqb k k0) eqn:E; cbn.
    + apply key_eqb_eq in E. subst k0. destruct (key_eqb k' k) eqn:E'; [|now rewrite app_nil_r].
      apply key_eqb_eq in E'. subst k'. fold (get m k). rewrite get_none by assumption. now rewrite !app_nil_r.
    + rewrite IH by assumption. now rewrite app_assoc.
Qed.
(** All items pushed under their keys. *)
Definition pushes (m : list entry) (x : T) (l : list (list atom)) : list entry := fold_left (fun m k => push m k x) l m.
Definition times (k : list atom) (l : list (list atom)) (x : T) : list T :=
  flat_map (fun k' => if key_eqb k k' then [x] else []) l.
Lemma pushes_ok l : forall m x, NoDup (map fst m) ->
  NoDup (map fst (pushes m x l)) /\ (forall k, get (pushes m x l) k = get m k ++ times k l x) /\
  (forall k, In k (map fst (pushes m x l)) <-> In k l \/ In k (map fst m)).
Proof.
  induction l as [|k l IH]; intros m x H.
  - split; [assumption|]. split; [intros; cbn; now rewrite app_nil_r|intros; cbn; tauto].
  - destruct (IH (push m k x) x (push_nodup _ _ _ H)) as (H1 & H2 & H3).
    change (pushes m x (k :: l)) with (pushes (push m k x) x l). split; [exact H1|]. split.
    + intros k'. rewrite H2, push_get by assumption. now rewrite <- app_assoc.
    + intros k'. rewrite H3, push_keys. cbn. intuition.
Qed.

Definition dnf (i : cond * T) : list (list atom) := match to_dnf (fst i) with Some l => l | None => [] end.
Lemma collect_ok items : forall m d m' d', NoDup (map fst m) ->
  fold_left add_item items (Some (m, d)) = Some (m', d') ->
  NoDup (map fst m') /\
  (forall k, get m' k = get m k ++ flat_map (fun i => times k (dnf i) (snd i)) items) /\
  (forall k, In k (map fst m') <-> In k (map fst m) \/ exists i, In i items /\ In k (dnf i)) /\
  d' = d ++ map snd (filter (fun i => match dnf i with [] => true | _ => false end) items) /\
  Forall (fun i => to_dnf (fst i) = Some (dnf i)) items.
Proof.
  assert (Z : forall items, fold_left (add_item (T:=T)) items None = None) by (induction items0; cbn; auto).
  induction items as [|i items IH]; intros m d m' d' H; cbn [fold_left].
  - intros [= <- <-]. split; [assumption|]. split; [intros; now rewrite app_nil_r|]. split; [|split; [now rewrite app_nil_r|constructor]].
    intros k. split; [auto|]. intros [?|(? & [] & _)]; auto.
  - unfold add_item at 2. cbn [flat_map filter].
    destruct (to_dnf (fst i)) as [l|] eqn:E; [|rewrite Z; discriminate].
    assert (D : dnf i = l) by (unfold dnf; now rewrite E). rewrite D. destruct l as [|k l].
    + intros F. destruct (IH _ _ _ _ H F) as (H1 & H2 & H3 & H4 & H5). cbn [times flat_map app map]. repeat apply conj; auto.
      * intros k. rewrite H3. split; intros [?|(i' & H6 & H7)]; eauto using in_cons.
        destruct H6 as [<-|H6]; [rewrite D in H7; contradiction|]; eauto.
      * rewrite H4. now rewrite <- app_assoc.
      * constructor; auto. now rewrite D.
    + intros F. fold (pushes m (snd i) (k :: l)) in F. destruct (pushes_ok (k :: l) m (snd i) H) as (G1 & G2 & G3).
      destruct (IH _ _ _ _ G1 F) as (H1 & H2 & H3 & H4 & H5). repeat apply conj; auto.
      * intros k'. rewrite H2, G2. rewrite <- app_assoc. reflexivity.
      * intros k'. rewrite H3, G3. split.
        -- intros [[?|?]|(i' & ? & ?)]; eauto using in_cons. right. exists i. rewrite D. split; auto. now left.
        -- intros [?|(i' & [<-|?] & H6)]; eauto. rewrite D in H6. auto.
      * constructor; auto. now rewrite D.
Qed.

(** The meaning of [to_dnf]. *)
Lemma one_holds (env : config) u : existsb (forallb env) (map (fun a => [a]) u) = existsb env u.
Proof. induction u as [|a u IH]; cbn; auto. now rewrite IH, andb_true_r. Qed.
Lemma prod_holds (env : config) u v :
  existsb (forallb env) (flat_map (fun a => map (fun b => [a; b]) v) u) = existsb env u && existsb env v.
Proof.
  induction u as [|a u IH]; [reflexivity|]. cbn [flat_map existsb].
  rewrite existsb_app, IH, andb_orb_distrib_l. f_equal.
  clear. induction v as [|b v IH]; cbn; [now rewrite andb_false_r|].
  cbn in IH. rewrite IH, andb_true_r. now rewrite andb_orb_distrib_r.
Qed.
Lemma to_dnf_holds env (c : cond) l : to_dnf c = Some l -> Forall (fun x => x <> []) (clauses c) ->
  l <> [] -> existsb (forallb env) l = forallb (existsb env) (clauses c).
Proof.
  unfold to_dnf. intros E F N. destruct (clauses c) as [|x [|y [|z r]]].
  - injection E as <-. now destruct N.
  - destruct x as [|a x]; [injection E as <-; now destruct N|].
    replace l with (map (fun a => [a]) (a :: x)) by congruence. rewrite one_holds. cbn. now rewrite andb_true_r.
  - inversion F as [|? ? F1 F2]; subst. inversion F2 as [|? ? F3 F4]; subst.
    destruct x as [|a x]; [now destruct F1|]. destruct y as [|b y]; [now destruct F3|].
    replace l with (flat_map (fun a => map (fun b => [a; b]) (b :: y)) (a :: x)) by congruence.
    rewrite prod_holds. cbn [forallb]. now rewrite andb_true_r.
  - destruct x as [|? [|]], y; discriminate.
Qed.
Lemma dnf_nonempty (i : cond * T) : Forall (fun k => k <> []) (dnf i).
Proof.
  unfold dnf, to_dnf. apply Forall_forall. intros k.
  assert (A : forall x : list atom, In k (map (fun a => [a]) x) -> k <> []).
  { intros x H. apply in_map_iff in H. destruct H as (a & <- & _). discriminate. }
  destruct (clauses (fst i)) as [|x [|y [|z r]]]; cbn.
  - intros [].
  - destruct x; cbn -[map]; [intros []|]. apply A.
  - destruct x as [|a x], y as [|b y]; cbn -[map flat_map]; try apply A; try (now intros []).
    intros H. apply in_flat_map in H. destruct H as (a' & _ & H). apply in_map_iff in H. destruct H as (b' & <- & _). discriminate.
  - destruct x as [|? [|]], y; intros [].
Qed.

Lemma clauses_nonempty l : Forall (fun x => x <> []) (clauses (cond_of l)).
Proof.
  rewrite (proj1 (cond_of_clauses l)). apply Forall_forall. intros x H. apply in_flat_map in H.
  destruct H as ([|a|[|b y]] & _ & H); cbn in H; try tauto; destruct H as [<-|[]]; discriminate.
Qed.

(** The items of the user: attributes and contents. *)
Definition conds (items : list (list attr * T)) : list (cond * T) := map (fun i => (cond_of (fst i), snd i)) items.
(** The alternatives whose generated attributes hold. *)
Definition active (env : config) (g : list (cond * list T)) : list (cond * list T) :=
  filter (fun r => preds_hold env (attrs (fst r))) g.

Lemma entry_active env (e : entry) (d : list T) :
  preds_hold env (attrs (Cond [fst e] false)) = existsb env (fst e).
Proof. rewrite attrs_plain by reflexivity. cbn. now rewrite andb_true_r. Qed.
Lemma all_any (env : config) k : k <> [] -> forallb env k = true -> existsb env k = true.
Proof. destruct k; cbn; [congruence|]. intros _ H. apply andb_true_iff in H. destruct H as [-> _]. reflexivity. Qed.

Lemma get_in (m : list entry) k x : In x (get m k) -> exists l, In (k, l) m /\ In x l.
Proof.
  unfold get. intros H. apply in_flat_map in H. destruct H as ([k' l] & H1 & H2). cbn in H2.
  destruct (key_eqb k k') eqn:E; [|destruct H2]. apply key_eqb_eq in E. subst. eauto.
Qed.
Lemma alt_clauses (m : list entry) (d : list T) :
  flat_map (fun r => clauses (fst r)) (map (fun e => (Cond [fst e] false, snd e ++ d)) m) = map fst m.
Proof. induction m; cbn; auto. now rewrite IHm. Qed.
Lemma inverse_active env (m : list entry) (d : list T) :
  preds_hold env (attrs (Cond (flat_map (fun r => clauses (fst r)) (map (fun e => (Cond [fst e] false, snd e ++ d)) m)) true)) =
  negb (existsb (fun e => forallb env (fst e)) m).
Proof.
  rewrite alt_clauses. unfold attrs. cbn [clauses inverse]. destruct m as [|e m]; [reflexivity|]. 
  change (map fst (e :: m)) with (fst e :: map fst m). cbn [preds_hold forallb pred_holds].
  rewrite andb_true_r. f_equal. change (fst e :: map fst m) with (map fst (e :: m)).
  generalize (e :: m). induction l; cbn; auto. now rewrite IHl.
Qed.

(** In every configuration at least one alternative is active, and every item whose
    attributes hold is in an active alternative. *)
Lemma covered : forall env items (m m' : list entry) d,
  Forall (fun i => Forall plain (fst i)) items ->
  collect (conds items) = Some (m, d) -> Permutation m m' ->
  active env (alternatives m' d) <> [] /\
  forall l x, In (l, x) items -> attrs_hold env l = true ->
    exists r, In r (active env (alternatives m' d)) /\ In x (snd r).
Proof.
  intros env items m m' d PL E P. unfold collect in E.
  destruct (collect_ok _ [] [] _ _ (NoDup_nil _) E) as (H1 & H2 & H3 & H4 & H5). cbn in H2, H3, H4.
  assert (NE : forall k, In k (map fst m) -> k <> []).
  { intros k Hk. rewrite H3 in Hk. destruct Hk as [[]|(i & _ & Hk)].
    pose proof (dnf_nonempty i) as F. rewrite Forall_forall in F. auto. }
  unfold active, alternatives.
  assert (IA : forall e, In e m -> forallb env (fst e) = true ->
    In (Cond [fst e] false, snd e ++ d) (filter (fun r => preds_hold env (attrs (fst r)))
      (map (fun e => (Cond [fst e] false, snd e ++ d)) m' ++
       [(Cond (flat_map (fun r => clauses (fst r)) (map (fun e => (Cond [fst e] false, snd e ++ d)) m')) true, d)]))).
  { intros e He Ha. apply filter_In. split.
    - apply in_or_app. left. apply in_map_iff. exists e. split; auto. eapply Permutation_in; eauto.
    - cbn [fst]. rewrite entry_active by exact d. apply all_any; auto. apply NE. now apply in_map. }
  assert (EX : exists r, In r (filter (fun r => preds_hold env (attrs (fst r)))
      (map (fun e => (Cond [fst e] false, snd e ++ d)) m' ++
       [(Cond (flat_map (fun r => clauses (fst r)) (map (fun e => (Cond [fst e] false, snd e ++ d)) m')) true, d)])) /\
      incl d (snd r)).
  { destruct (existsb (fun e => forallb env (fst e)) m') eqn:A.
    - apply existsb_exists in A. destruct A as (e & A1 & A2). eexists; split; [apply (IA e)|]; auto.
      + eapply Permutation_in; [symmetry|]; eauto.
      + cbn. apply incl_appr, incl_refl.
    - eexists; split; [apply filter_In; split; [apply in_or_app; right; left; reflexivity|]|apply incl_refl].
      cbn [fst]. rewrite inverse_active, A. reflexivity. }
  split; [destruct EX as (r & H & _) ; intros Z; rewrite Z in H; contradiction|].
  intros l x Hi Hh. set (i := (cond_of l, x)).
  assert (Ii : In i (conds items)) by (apply in_map_iff; exists (l, x); auto).
  rewrite Forall_forall in H5. pose proof (H5 i Ii) as D. change (fst i) with (cond_of l) in D.
  destruct (dnf i) as [|k0 ks] eqn:Dn.
  - destruct EX as (r & R1 & R2). exists r. split; auto. apply R2. rewrite H4. apply in_map_iff. exists i. split; auto.
    apply filter_In. rewrite Dn. auto.
  - assert (Hc : existsb (forallb env) (k0 :: ks) = true).
    { rewrite (to_dnf_holds env _ _ D (clauses_nonempty l)) by discriminate.
      rewrite <- attrs_plain by apply cond_of_clauses. rewrite C74_attrs_partial; auto.
      rewrite Forall_forall in PL. apply (PL (l, x) Hi). }
    apply existsb_exists in Hc. destruct Hc as (k & K1 & K2). rewrite <- Dn in K1.
    assert (Hg : In x (get m k)).
    { rewrite H2. apply in_flat_map. exists i. split; auto. unfold times. apply in_flat_map. exists k. rewrite key_refl. cbn. auto. }
    apply get_in in Hg. destruct Hg as (lk & G1 & G2). eexists; split; [apply (IA (k, lk) G1 K2)|]. cbn. apply in_or_app. auto.
Qed.

(** ** When at most one of the conditions is set. *)
Definition mentioned (items : list (list attr * T)) (a : atom) : Prop :=
  exists i x, In i items /\ In x (fst i) /\ In a (attr_atoms x).

Lemma single_dnf x (t : T) : to_dnf (cond_of [x]) = Some (map (fun a => [a]) (attr_atoms x)).
Proof. destruct x as [|a|[|a l]]; reflexivity. Qed.
Lemma times_single a l (t : T) : NoDup l -> times [a] (map (fun a => [a]) l) t = if existsb (atom_eqb a) l then [t] else [].
Proof.
  unfold times. induction 1 as [|b l H N IH]; [reflexivity|].
  cbn [map flat_map existsb]. rewrite IH. cbn [key_eqb]. rewrite andb_true_r. destruct (atom_eqb a b) eqn:E; [|reflexivity].
  apply atom_eqb_eq in E. subst b. replace (existsb (atom_eqb a) l) with false; [reflexivity|].
  symmetry. apply not_true_iff_false. intros C. apply existsb_exists in C. destruct C as (b & C1 & C2).
  apply atom_eqb_eq in C2. subst. auto.
Qed.
Lemma unique_entry (m : list entry) k l : NoDup (map fst m) -> In (k, l) m -> filter (fun e => key_eqb k (fst e)) m = [(k, l)] /\ get m k = l.
Proof.
  induction m as [|[k' l'] m IH]; [intros _ []|]. cbn [map fst]. intros N. inversion N as [|? ? H1 H2]; subst.
  unfold get. cbn [filter flat_map fst snd]. fold (get m k). intros [H|H]; [injection H as -> ->|].
  - rewrite key_refl, get_none by assumption. rewrite app_nil_r. split; auto. f_equal.
    clear - H1. induction m as [|[k0 l0] m IH]; cbn; auto. cbn in H1. rewrite key_neq by intuition. apply IH. intuition.
  - rewrite key_neq; [now apply IH|]. intros ->. apply H1. change k' with (fst (k', l)). now apply in_map.
Qed.

Lemma filter_conds items (f : cond * T -> bool) (g : list attr * T -> bool) :
  (forall i, In i items -> f (cond_of (fst i), snd i) = g i) ->
  map snd (filter f (conds items)) = map snd (filter g items).
Proof.
  induction items as [|i items IH]; intros H; [reflexivity|]. cbn [conds map filter]. fold (conds items). rewrite (H i) by now left.
  destruct (g i); cbn [map]; rewrite IH by (intros; apply H; now right); reflexivity.
Qed.
Lemma flat_conds items (f : cond * T -> list T) (g : list attr * T -> bool) :
  (forall i, In i items -> f (cond_of (fst i), snd i) = if g i then [snd i] else []) ->
  flat_map f (conds items) = map snd (filter g items).
Proof.
  induction items as [|i items IH]; intros H; [reflexivity|]. cbn [conds map flat_map filter]. fold (conds items).
  rewrite (H i) by now left. rewrite IH by (intros; apply H; now right). destruct (g i); reflexivity.
Qed.

Definition unconditional (i : list attr * T) : bool := match fst i with [NoAttr] => true | _ => false end.
Definition selected (env : config) (i : list attr * T) : bool := attrs_hold env (fst i) && negb (unconditional i).

Lemma exact : forall env items (m m' : list entry) d,
  Forall (fun i => exists x, fst i = [x] /\ plain x) items ->
  (forall a b, mentioned items a -> mentioned items b -> env a = true -> env b = true -> a = b) ->
  collect (conds items) = Some (m, d) -> Permutation m m' ->
  exists c, active env (alternatives m' d) =
    [(c, map snd (filter (selected env) items) ++ map snd (filter unconditional items))].
Proof.
  intros env items m m' d PL U E P. unfold collect in E.
  destruct (collect_ok _ [] [] _ _ (NoDup_nil _) E) as (H1 & H2 & H3 & H4 & _). cbn in H2, H3, H4.
  rewrite Forall_forall in PL.
  assert (Hd : d = map snd (filter unconditional items)).
  { rewrite H4. apply filter_conds. intros [l t] Hi. destruct (PL _ Hi) as (x & Hx & Px). cbn in Hx. subst l.
    unfold dnf. cbn [fst snd]. rewrite (single_dnf x t). unfold unconditional. cbn.
    destruct x as [|a|[|a l]]; cbn; auto. destruct Px as [[] _]. reflexivity. }
  assert (HK : forall k, In k (map fst m') -> exists a, k = [a] /\ mentioned items a).
  { intros k Hk. assert (Hk' : In k (map fst m)) by (eapply Permutation_in; [symmetry; apply Permutation_map|]; eauto).
    rewrite H3 in Hk'. destruct Hk' as [[]|(i & Hi & Hk')]. apply in_map_iff in Hi. destruct Hi as ([l t] & <- & Hi).
    destruct (PL _ Hi) as (x & Hx & _). cbn in Hx. subst l. unfold dnf in Hk'. cbn [fst snd] in Hk'. rewrite (single_dnf x t) in Hk'.
    apply in_map_iff in Hk'. destruct Hk' as (a & <- & Ha). exists a. split; auto. exists ([x], t), x. cbn. auto. }
  assert (N' : NoDup (map fst m')) by (eapply Permutation_NoDup; [apply Permutation_map|]; eauto).
  unfold active, alternatives. rewrite filter_app. cbn [filter fst]. rewrite inverse_active.
  assert (FM : forall f, filter (fun r : cond * list T => preds_hold env (attrs (fst r))) (map (fun e => (Cond [fst e] false, snd e ++ d)) f) =
     map (fun e => (Cond [fst e] false, snd e ++ d)) (filter (fun e => existsb env (fst e)) f)).
  { induction f as [|e f IH]; [reflexivity|]. cbn [map filter fst]. rewrite (entry_active env e d). destruct (existsb env (fst e)); cbn [map]; now rewrite IH. }
  rewrite FM. destruct (existsb (fun e => forallb env (fst e)) m') eqn:A.
  - apply existsb_exists in A. destruct A as ([k l] & A1 & A2). cbn [fst] in A2.
    destruct (HK k) as (a & -> & Ma); [change k with (fst (k, l)); now apply in_map|]. cbn in A2. rewrite andb_true_r in A2.
    replace (filter (fun e => existsb env (fst e)) m') with (filter (fun e => key_eqb [a] (fst e)) m').
    2:{ apply filter_ext_in. intros [k' l'] Hk'. cbn [fst].
        destruct (HK k') as (b & -> & Mb); [change k' with (fst (k', l')); now apply in_map|]. cbn. rewrite andb_true_r, orb_false_r.
        destruct (env b) eqn:B; [apply atom_eqb_eq; eauto|]. apply not_true_iff_false. intros C. apply atom_eqb_eq in C. congruence. }
    destruct (unique_entry m' [a] l N' A1) as [-> _]. cbn [map fst snd negb app]. eexists. do 2 f_equal. rewrite <- Hd. f_equal.
    destruct (unique_entry m [a] l H1) as [_ <-]; [eapply Permutation_in; [symmetry|]; eauto|].
    rewrite H2. apply flat_conds. intros [l0 t] Hi. destruct (PL _ Hi) as (x & Hx & Px). cbn in Hx. subst l0.
    unfold dnf. cbn [fst snd]. rewrite (single_dnf x t), times_single by (destruct x; cbn; repeat constructor; auto; apply Px).
    unfold selected, attrs_hold, unconditional. cbn [fst forallb]. rewrite andb_true_r.
    destruct x as [|b|lb]; cbn; auto.
    + rewrite orb_false_r, andb_true_r. destruct (env b) eqn:B.
      * rewrite (proj2 (atom_eqb_eq a b)); auto. apply U; auto. exists ([CfgOne b], t), (CfgOne b). cbn. auto.
      * destruct (atom_eqb a b) eqn:C; auto. apply atom_eqb_eq in C. congruence.
    + rewrite andb_true_r. replace (existsb env lb) with (existsb (atom_eqb a) lb); [reflexivity|].
      apply eq_true_iff_eq. rewrite !existsb_exists. split; intros (b & B1 & B2).
      * apply atom_eqb_eq in B2. subst b. eauto.
      * exists b. split; auto. apply atom_eqb_eq. apply U; auto. exists ([CfgAny lb], t), (CfgAny lb). cbn. auto.
  - replace (filter (fun e => existsb env (fst e)) m') with ([] : list entry).
    2:{ symmetry. apply not_true_iff_false in A. clear -A HK. induction m' as [|[k l] m' IH]; [reflexivity|]. cbn in *.
        destruct (HK k) as (a & -> & _); [auto|]. cbn in *. rewrite andb_true_r, orb_false_r in *.
        destruct (env a); [destruct A; reflexivity|]. apply IH; auto. }
    cbn [map app negb]. eexists. do 2 f_equal. rewrite <- Hd.
    replace (filter (selected env) items) with ([] : list (list attr * T)); [reflexivity|].
    symmetry. destruct (filter (selected env) items) as [|i r] eqn:Fi; [reflexivity|]. exfalso.
    assert (Hi : In i (filter (selected env) items)) by (rewrite Fi; now left).
    apply filter_In in Hi. destruct Hi as [Hi Hs]. destruct i as [l t]. destruct (PL _ Hi) as (x & Hx & Px). cbn in Hx. subst l.
    unfold selected, attrs_hold, unconditional in Hs. cbn [fst forallb] in Hs. rewrite andb_true_r in Hs. apply andb_true_iff in Hs. destruct Hs as [Hs Hu].
    assert (Ha : exists a, In a (attr_atoms x) /\ env a = true).
    { destruct x as [|a|la]; cbn in *; [discriminate|eauto|]. apply existsb_exists in Hs. firstorder. }
    destruct Ha as (a & Ha & Ea).
    assert (Hk : In [a] (map fst m)).
    { rewrite H3. right. exists (cond_of [x], t). split; [apply in_map_iff; exists ([x], t); auto|].
      unfold dnf. cbn [fst]. rewrite (single_dnf x t). apply in_map_iff. exists a. auto. }
    apply not_true_iff_false in A. apply A. apply existsb_exists.
    assert (Hk' : In [a] (map fst m')) by (eapply Permutation_in; [apply Permutation_map|]; eauto).
    apply in_map_iff in Hk'. destruct Hk' as (e & Ee & He). exists e. split; auto. rewrite Ee. cbn. now rewrite Ea.
Qed.

End Trans.

(** [transpose] gives alternatives, in an order that depends on the hash map. *)
Definition transposed {T} (items : list (list attr * T)) (g : list (cond * list T)) : Prop :=
  exists m d m', collect (conds items) = Some (m, d) /\ Permutation m m' /\ g = alternatives m' d.

(** It does not panic for items with at most two attributes. *)
Theorem C57_defined_partial : forall T (items : list (list attr * T)),
  Forall (fun i => (length (fst i) <= 2)%nat) items -> exists g, transposed items g.
Proof.
  intros T items F.
  assert (H : forall acc, acc <> None -> fold_left (add_item (T:=T)) (conds items) acc <> None).
  { induction F as [|[l t] items L F IH]; intros acc N; [exact N|]. cbn in L.
    cbn [conds map fold_left]. apply IH. destruct acc as [[m d]|]; [|congruence]. unfold add_item. cbn [fst snd].
    assert (L' : (length (clauses (cond_of l)) <= 2)%nat).
    { rewrite (proj1 (cond_of_clauses l)). transitivity (length l); [|assumption]. clear.
      induction l as [|x l IH]; cbn [flat_map]; [cbn; lia|]. rewrite app_length. cbn [length].
      assert (length (clauses (parse x)) <= 1)%nat by (destruct x as [| |[]]; cbn; lia). lia. }
    unfold to_dnf. destruct (clauses (cond_of l)) as [|x [|y [|z r]]]; cbn in L'; try lia; try discriminate.
    - destruct x; discriminate.
    - destruct x, y; discriminate. }
  specialize (H (Some ([], []))). fold (collect (conds items)) in H.
  destruct (collect (conds items)) as [[m d]|] eqn:E; [|destruct H; congruence].
  exists (alternatives m d), m, d, m. auto.
Qed.
Print Assumptions C57_defined_partial.

(** The full statement is that for every configuration exactly one alternative is active
    and it has exactly the items whose attributes hold; it is false (see below).  Proved
    for all items: at least one alternative is active, and every item whose attributes
    hold is in an active one (attributes [any()] excepted). *)
Theorem C57_covered_partial : forall T env (items : list (list attr * T)) g,
  Forall (fun i => Forall plain (fst i)) items -> transposed items g ->
  active env g <> [] /\
  forall l x, In (l, x) items -> attrs_hold env l = true ->
    exists r, In r (active env g) /\ In x (snd r).
Proof. intros T env items g PL (m & d & m' & E & P & ->). eapply covered; eauto. Qed.
Print Assumptions C57_covered_partial.

(** The full statement, up to the order of the items, where each item has one attribute
    (or none) and at most one of the conditions mentioned is set in the
    configuration. *)
Theorem C57_exclusive_partial : forall T env (items : list (list attr * T)) g,
  Forall (fun i => exists x, fst i = [x] /\ plain x) items ->
  (forall a b, mentioned items a -> mentioned items b -> env a = true -> env b = true -> a = b) ->
  transposed items g ->
  exists c l, active env g = [(c, l)] /\
    Permutation l (map snd (filter (fun i => attrs_hold env (fst i)) items)).
Proof.
  intros T env items g PL U (m & d & m' & E & P & ->).
  destruct (exact env items m m' d PL U E P) as (c & ->). eexists _, _. split; [reflexivity|].
  rewrite <- map_app. apply Permutation_map. rewrite Forall_forall in PL. clear -PL.
  induction items as [|[l t] items IH]; [constructor|].
  destruct (PL (l, t)) as (x & Hx & Px); [now left|]. cbn in Hx. subst l.
  cbn [filter]. unfold selected at 1. cbn [fst]. 
  assert (U : unconditional ([x], t) = true -> attrs_hold env [x] = true) by (destruct x; cbn; auto; discriminate).
  specialize (IH (fun i H => PL i (or_intror H))).
  destruct (unconditional ([x], t)).
  - rewrite U by reflexivity. cbn [negb andb]. etransitivity; [symmetry; apply Permutation_middle|]. now constructor.
  - destruct (attrs_hold env [x]); cbn [negb andb app]; [now constructor|assumption].
Qed.
Print Assumptions C57_exclusive_partial.

Definition set_ (l : list atom) : config := fun a => existsb (atom_eqb a) l.
(** Four items; one condition is set. *)
Example C57_case :
  let items := [([CfgOne (1, 1)], 10); ([NoAttr], 11); ([CfgAny [(1, 1); (1, 2)]], 12); ([CfgOne (1, 2)], 13)]%N in
  match collect (conds items) with
  | Some (m, d) => map snd (active (set_ [(1, 1)%N]) (alternatives m d)) = [[10; 12; 11]]%N /\
      map snd (active (set_ []) (alternatives m d)) = [[11]]%N /\ map snd (alternatives m d) = [[10; 12; 11]; [12; 13; 11]; [11]]%N
  | None => False
  end.
Proof. vm_compute. repeat split. Qed.

(** With two conditions set, two alternatives are active, and neither has the items of
    the other. *)
Theorem C57_overlap_refuted : exists env (items : list (list attr * N)) g, transposed items g /\
  Forall (fun i => attrs_hold env (fst i) = true) items /\ length (active env g) = 2%nat /\
  forall r, In r (active env g) -> length (snd r) <> length items.
Proof.
  exists (set_ [(1, 1); (1, 2)]%N), [([CfgOne (1, 1)], 10); ([CfgOne (1, 2)], 11)]%N. eexists.
  split; [unfold transposed; eexists _, _, _; split; [vm_compute; reflexivity|split; [apply Permutation_refl|reflexivity]]|].
  split; [repeat constructor|]. split; [vm_compute; reflexivity|].
  vm_compute. intros r [<-|[<-|[]]]; discriminate.
Qed.
Print Assumptions C57_overlap_refuted.

(** An item with two attributes, as a field in a register block: it is selected in
    configurations in which only one of them holds, since the alternative of a
    conjunction is given the attribute [any]. *)
Theorem C57_conjunction_refuted : exists env (items : list (list attr * N)) g, transposed items g /\
  Forall (fun i => attrs_hold env (fst i) = false) items /\
  existsb (fun r => match snd r with [] => false | _ => true end) (active env g) = true.
Proof.
  exists (set_ [(1, 1)]%N), [([CfgOne (1, 1); CfgOne (1, 2)], 10)]%N. eexists.
  split; [unfold transposed; eexists _, _, _; split; [vm_compute; reflexivity|split; [apply Permutation_refl|reflexivity]]|].
  split; [repeat constructor|]. vm_compute. reflexivity.
Qed.
Print Assumptions C57_conjunction_refuted.

(** An item whose [any] repeats a condition is generated twice. *)
Theorem C57_repeated_refuted : exists env (items : list (list attr * N)) g, transposed items g /\
  length items = 1%nat /\ exists r, active env g = [r] /\ length (snd r) = 2%nat.
Proof.
  exists (set_ [(1, 1)]%N), [([CfgAny [(1, 1); (1, 1)]], 10)]%N. eexists.
  split; [unfold transposed; eexists _, _, _; split; [vm_compute; reflexivity|split; [apply Permutation_refl|reflexivity]]|].
  split; [reflexivity|]. eexists. vm_compute. split; reflexivity.
Qed.
Print Assumptions C57_repeated_refuted.

(** [#[cfg(any())]] never holds, but no attribute is generated for it. *)
Theorem C74_any_refuted : exists env l,
  attrs_hold env l = false /\ preds_hold env (attrs (cond_of l)) = true.
Proof. exists (set_ []), [CfgAny []]. vm_compute. auto. Qed.
Print Assumptions C74_any_refuted.
Example C74_case :
  attrs (cond_of [CfgAny [(1, 1); (1, 2)]; NoAttr; CfgOne (2, 1)]%N) = [PAny [(1, 1); (1, 2)]; PAny [(2, 1)]]%N.
Proof. reflexivity. Qed.
