(** Properties of the inventory (C55, C75). *)
Require Import NArith List Bool Lia.
From Verif Require Import InventorySpec Inventory.
Import ListNotations.
Open Scope N_scope.

Local Arguments N.eqb : simpl never.
Local Arguments N.leb : simpl never.

Lemma member_in t l : member t l = true <-> In t l.
Proof.
  unfold member. rewrite existsb_exists. split.
  - intros (x & H & E). apply N.eqb_eq in E. now subst.
  - intros H. exists t. now rewrite N.eqb_refl.
Qed.
Lemma member_not t l : member t l = false <-> ~ In t l.
Proof. rewrite <- member_in. destruct (member t l); split; congruence. Qed.
Lemma distinct_nodup l : distinct l = true -> NoDup l.
Proof.
  induction l; cbn; [constructor|]. intros H. apply andb_true_iff in H. destruct H as [H1 H2].
  constructor; auto. apply negb_true_iff in H1. now apply member_not.
Qed.

(** ** Histories that grow. *)
Lemma always_snoc (P : list iev -> iev -> Prop) l e : always P (l ++ [e]) <-> always P l /\ P l e.
Proof.
  split.
  - intros H. split; [|apply (H l e []); reflexivity].
    intros a e' b ->. apply (H a e' (b ++ [e])). now rewrite <- app_assoc.
  - intros [H1 H2] a e' b E. destruct (exists_last (l := b ++ [e']) ) as (u & v & Eu); [now destruct b|].
    destruct b as [|x b] using rev_ind.
    + apply app_inj_tail in E. destruct E as [-> ->]. exact H2.
    + change (e' :: b ++ [x]) with ((e' :: b) ++ [x]) in E. rewrite app_assoc in E. apply app_inj_tail in E. destruct E as [-> ->].
      eapply H1. reflexivity.
Qed.
Lemma always_nil (P : list iev -> iev -> Prop) : always P [].
Proof. intros [|] ? ? E; discriminate. Qed.

Ltac folds := unfold outstanding, is_active, guard_downs; rewrite ?fold_left_app; cbn [fold_left].
Lemma out_snoc j l e : outstanding j (l ++ [e]) = match e with
    | EShare j' ts => if j' =? j then outstanding j l ++ ts else outstanding j l
    | EMerge j' ts => if j' =? j then filter (fun t => negb (member t ts)) (outstanding j l) else outstanding j l
    | _ => outstanding j l end.
Proof. folds. reflexivity. Qed.
Lemma act_snoc j l e : is_active j (l ++ [e]) = match e with
    | ESetup j' => if j' =? j then true else is_active j l
    | EDown j' => if j' =? j then false else is_active j l
    | _ => is_active j l end.
Proof. folds. reflexivity. Qed.
Lemma gd_snoc j l e : guard_downs j (l ++ [e]) = match e with
    | EGuard j' => if j' =? j then Some O else guard_downs j l
    | EDown j' => if j' =? j then match guard_downs j l with Some n => Some (S n) | None => None end else guard_downs j l
    | EUnguard j' | ELeak j' => if j' =? j then None else guard_downs j l
    | _ => guard_downs j l end.
Proof. folds. reflexivity. Qed.

Lemma fresh_len n : forall f, length (fresh_tokens n f) = n.
Proof. induction n; cbn; auto. Qed.
Lemma fresh_in n : forall f t, In t (fresh_tokens n f) <-> f <= t < f + N.of_nat n.
Proof.
  induction n; intros f t; [cbn; split; [intros []|lia]|]. cbn [fresh_tokens In]. rewrite IHn. lia.
Qed.
Lemma fresh_nodup n : forall f, NoDup (fresh_tokens n f).
Proof. induction n; intros f; cbn; constructor; auto. rewrite fresh_in. lia. Qed.

Lemma nodup_app {A} (l1 l2 : list A) : NoDup l1 -> NoDup l2 -> (forall x, In x l1 -> ~ In x l2) -> NoDup (l1 ++ l2).
Proof.
  induction l1; cbn; auto. intros N1 N2 D. inversion N1; subst. constructor; [|apply IHl1; auto].
  rewrite in_app_iff. intros [?|?]; [auto|eapply D; eauto].
Qed.
Lemma filter_len ts l : NoDup l -> NoDup ts -> incl ts l ->
  (length (filter (fun t => negb (member t ts)) l) + length ts = length l)%nat.
Proof.
  revert ts. induction l as [|x l IH]; intros ts N1 N2 I.
  - destruct ts as [|t ts]; [reflexivity|]. destruct (I t); now left.
  - inversion N1; subst. cbn [filter]. destruct (member x ts) eqn:E; cbn [negb length].
    + apply member_in in E. apply in_split in E. destruct E as (a & b & ->).
      rewrite (filter_ext_in _ (fun t => negb (member t (a ++ b)))).
      * rewrite app_length. cbn. specialize (IH (a ++ b)). rewrite app_length in IH. 
        assert (Q : (length (filter (fun t => negb (member t (a ++ b))) l) + (length a + length b) = length l)%nat).
        { apply IH; auto; [now apply NoDup_remove_1 in N2|]. intros t Ht.
          destruct (I t); [rewrite in_app_iff in *; cbn; tauto| |assumption]. subst. apply NoDup_remove_2 in N2. contradiction. }
        lia.
      * intros t Ht. f_equal. apply eq_true_iff_eq. rewrite !member_in, !in_app_iff. cbn.
        split; [intros [?|[?|?]]|]; try tauto. subst. contradiction.
    + rewrite <- (IH ts); auto. intros t Ht. destruct (I t Ht); auto. subst. apply member_not in E. contradiction.
Qed.

Lemma if_eqb (j j' : N) {A} (x y : A) : (if j =? j' then x else y) = x \/ j <> j'.
Proof. destruct (N.eqb_spec j j'); auto. Qed.

Record inv (s : ist) : Prop := {
  i_cnt : always own_tokens (ilog s) -> forall j, imode_of s j <> MNone -> N.of_nat (length (outstanding j (ilog s))) = cnt s j;
  i_nd : forall j, NoDup (outstanding j (ilog s));
  i_lt : forall j t, In t (outstanding j (ilog s)) -> t < next s;
  i_new : forall j, imode_of s j = MNone -> outstanding j (ilog s) = [] /\ is_active j (ilog s) = false;
  i_held : NoDup (held s) /\ forall t, In t (held s) -> t < next s;
  i_guard : forall j, if in_guard s j then guard_downs j (ilog s) = Some O /\ cnt s j = 0 else guard_downs j (ilog s) = None;
  i_back : always own_tokens (ilog s) -> always all_back (ilog s);
  i_once : always down_once (ilog s);
  i_act : always own_tokens (ilog s) -> always given_active (ilog s) -> forall j,
    outstanding j (ilog s) <> [] \/ in_guard s j = true -> is_active j (ilog s) = true
}.

Lemma inv_init : inv iinit.
Proof.
  constructor; cbn; auto using always_nil; intros.
  - constructor.
  - contradiction.
  - split; [constructor|intros _ []].
  - destruct H1; [congruence|discriminate].
Qed.

Local Arguments outstanding : simpl never.
Local Arguments is_active : simpl never.
Local Arguments guard_downs : simpl never.

Ltac bools := repeat match goal with
  | H : _ && _ = true |- _ => apply andb_true_iff in H; destruct H
  | H : (_ <=? _) = true |- _ => apply N.leb_le in H
  | H : (_ =? _) = true |- _ => apply N.eqb_eq in H
  | H : Nat.leb _ _ = true |- _ => apply PeanoNat.Nat.leb_le in H
  end.
Ltac snocs := rewrite ?always_snoc, ?out_snoc, ?act_snoc, ?gd_snoc in *.
Ltac eqb_case := match goal with
  | |- context [?a =? ?b] => destruct (N.eqb_spec a b) as [Heq|Heq]; [first [subst b|subst a|idtac]|]
  | H : context [?a =? ?b] |- _ => destruct (N.eqb_spec a b) as [Heq|Heq]; [first [subst b|subst a|idtac]|]
  end.

Lemma in_guard_mode s j : in_guard s j = true <-> imode_of s j = MGuard.
Proof. unfold in_guard. destruct (imode_of s j); split; congruence. Qed.
Lemma owned_mode s j : owned s j = true <-> imode_of s j = MOwned.
Proof. unfold owned. destruct (imode_of s j); split; congruence. Qed.

Lemma inv_step s o s' : inv s -> istep s o = Some s' -> inv s'.
Proof.
  intros I E. destruct I as [Ic In_ Il Iw Ih Ig Ib Io Ia]. destruct o; cbn [istep] in E; cbv zeta in E.
  - (* New *)
    destruct (imode_of s j) eqn:M; try discriminate. injection E as <-.
    assert (Gj : guard_downs j (ilog s) = None) by (specialize (Ig j); unfold in_guard in Ig; now rewrite M in Ig).
    constructor; cbn; intros; snocs; cbn in *; auto; try tauto; eauto; try (apply Ic; tauto).
    + eqb_case; [now rewrite (proj1 (Iw _ M))|]. apply Ic; tauto.
    + eqb_case; [discriminate|auto].
    + unfold in_guard in *. cbn. eqb_case; auto. apply Ig.
    + unfold in_guard in *. cbn in *. eqb_case; [destruct H1 as [H1|]; [|discriminate]; now rewrite (proj1 (Iw _ M)) in H1|]. apply Ia; tauto.
  - (* Setup *)
    destruct (owned s j) eqn:W; [|discriminate]. apply owned_mode in W. injection E as <-.
    constructor; cbn; intros; snocs; cbn in *; auto; try tauto; eauto; try (apply Ic; tauto).
    + eqb_case; [congruence|auto].
    + apply Ig.
    + eqb_case; auto. apply Ia; tauto.
  - (* Share *)
    destruct (owned s j && Nat.leb 1 n && Nat.leb n 8) eqn:B; [|discriminate]. bools. rewrite owned_mode in *. injection E as <-.
    set (ts := fresh_tokens n (next s)).
    assert (F : forall t, In t ts -> next s <= t < next s + N.of_nat n) by (intros t; unfold ts; now rewrite fresh_in).
    assert (L : length ts = n) by apply fresh_len. assert (ND : NoDup ts) by apply fresh_nodup. clearbody ts.
    constructor; cbn; intros; snocs; cbn in *; auto; try tauto; eauto; try (apply Ic; tauto).
    + rewrite (N.eqb_sym j j0). eqb_case; [rewrite app_length, Nnat.Nat2N.inj_add, L, Ic; tauto|apply Ic; tauto].
    + eqb_case; auto. apply nodup_app; auto. intros t T1 T2. apply Il in T1. apply F in T2. lia.
    + eqb_case; [|apply Il in H2; lia]. apply in_app_or in H2. destruct H2 as [T|T]; [apply Il in T|apply F in T]; lia.
    + destruct (N.eqb_spec j j0); [congruence|]. auto.
    + split; [apply nodup_app; try tauto; intros t T1 T2; apply Ih in T1; apply F in T2; lia|].
      intros t T. apply in_app_or in T. destruct T as [T|T]; [apply Ih in T|apply F in T]; lia.
    + specialize (Ig j0). unfold in_guard in *. cbn. eqb_case; [|assumption]. rewrite H in *. assumption.
    + specialize (Ia ltac:(tauto) ltac:(tauto) j0). unfold in_guard in *. cbn in *.
      destruct (N.eqb_spec j j0); [|auto]. subst. tauto.
  - (* Merge *)
    match type of E with (if ?b then _ else _) = _ => destruct b eqn:B; [|discriminate] end. bools. rewrite owned_mode in *. injection E as <-.
    match goal with H : distinct ts = true |- _ => apply distinct_nodup in H end.
    constructor; cbn; intros; snocs; cbn in *; auto; try tauto; eauto; try (apply Ic; tauto).
    + rewrite (N.eqb_sym j j0). eqb_case; [|apply Ic; tauto].
      match goal with H : always own_tokens _ /\ incl _ _ |- _ => destruct H as [HO HI] end.
      rewrite <- Ic by (auto; congruence). assert (Q := filter_len ts (outstanding j0 (ilog s)) ltac:(auto) ltac:(auto) ltac:(auto)). lia.
    + eqb_case; auto. now apply NoDup_filter.
    + eqb_case; eauto. apply filter_In in H5. eapply Il. apply H5.
    + eqb_case; [congruence|auto].
    + split; [apply NoDup_filter; tauto|]. intros t T. apply filter_In in T. apply Ih. tauto.
    + specialize (Ig j0). unfold in_guard in *. cbn. eqb_case; [|assumption]. rewrite H in *. assumption.
    + apply Ia; try tauto. destruct H7 as [H7|]; [left|right; assumption]. eqb_case; auto. intros Z. now rewrite Z in H7.
  - (* Ref *)
    destruct (owned s j || in_guard s j) eqn:B; [|discriminate]. injection E as <-.
    constructor; cbn; intros; snocs; cbn in *; auto; try tauto; eauto; try (apply Ic; tauto).
    + apply Ig.
    + apply Ia; tauto.
  - (* Guard *)
    destruct (owned s j && (cnt s j =? 0)) eqn:B; [|discriminate]. bools. rewrite owned_mode in *. injection E as <-.
    constructor; cbn; intros; snocs; cbn in *; auto; try tauto; eauto; try (apply Ic; tauto).
    + apply Ic; [tauto|]. eqb_case; congruence.
    + eqb_case; [discriminate|auto].
    + specialize (Ig j0). unfold in_guard in *. cbn. rewrite (N.eqb_sym j j0). eqb_case; auto.
    + specialize (Ia ltac:(tauto) ltac:(tauto) j0). unfold in_guard in *. cbn in *. eqb_case; tauto.
  - (* DropGuard *)
    destruct (in_guard s j) eqn:B; [|discriminate]. pose proof (Ig j) as Gj. rewrite B in Gj. rewrite in_guard_mode in B. injection E as <-.
    constructor; cbn; intros; change [EDown j; EUnguard j] with ([EDown j] ++ [EUnguard j]) in *; rewrite ?app_assoc in *; snocs; cbn in *; auto; try tauto; eauto; try (apply Ic; tauto).
    + apply Ic; [tauto|]. eqb_case; congruence.
    + destruct (N.eqb_spec j0 j); [discriminate|]. rewrite (proj2 (N.eqb_neq j j0)) by congruence. auto.
    + specialize (Ig j0). unfold in_guard in *. cbn. rewrite (N.eqb_sym j j0). eqb_case; auto.
    + repeat split; try tauto. apply length_zero_iff_nil. apply Nnat.Nat2N.inj. rewrite Ic; [tauto|tauto|congruence].
    + rewrite gd_snoc, N.eqb_refl. destruct Gj as [-> _]. auto.
    + specialize (Ia ltac:(tauto) ltac:(tauto) j0). unfold in_guard in *. cbn in *. rewrite (N.eqb_sym j j0). eqb_case; [|tauto].
      destruct H1 as [H1|]; [|discriminate]. exfalso. apply H1. apply length_zero_iff_nil. apply Nnat.Nat2N.inj. rewrite Ic; [tauto|tauto|congruence].
  - (* Forget *)
    destruct (in_guard s j) eqn:B; [|discriminate]. rewrite in_guard_mode in B. injection E as <-.
    constructor; cbn; intros; snocs; cbn in *; auto; try tauto; eauto; try (apply Ic; tauto).
    + apply Ic; [tauto|]. eqb_case; congruence.
    + eqb_case; [discriminate|auto].
    + specialize (Ig j0). unfold in_guard in *. cbn. rewrite (N.eqb_sym j j0). eqb_case; auto.
    + apply Ia; try tauto. unfold in_guard in *. cbn in *. eqb_case; [|tauto]. rewrite B. auto.
  - (* Teardown *)
    destruct (owned s j && (cnt s j =? 0)) eqn:B; [|discriminate]. bools. rewrite owned_mode in *. injection E as <-.
    assert (Z : always own_tokens (ilog s) -> outstanding j (ilog s) = []).
    { intros HO. apply length_zero_iff_nil. apply Nnat.Nat2N.inj. rewrite Ic; auto; congruence. }
    constructor; cbn; intros; snocs; cbn in *; auto; try tauto; eauto; try (apply Ic; tauto).
    + eqb_case; [congruence|auto].
    + specialize (Ig j0). unfold in_guard in *. cbn. eqb_case; [|assumption]. rewrite H in *. now rewrite Ig.
    + eqb_case; [|apply Ia; tauto]. rewrite Z in H3 by tauto. unfold in_guard in H3. cbn in H3. rewrite H in H3. destruct H3; congruence.
  - (* Free *)
    destruct (owned s j && (cnt s j =? 0)) eqn:B; [|discriminate]. bools. rewrite owned_mode in *. injection E as <-.
    constructor; cbn; intros; snocs; cbn in *; auto; try tauto; eauto; try (apply Ic; tauto).
    + apply Ic; [tauto|]. eqb_case; congruence.
    + eqb_case; [discriminate|auto].
    + specialize (Ig j0). unfold in_guard in *. cbn. eqb_case; auto. rewrite H in *. assumption.
    + split; [tauto|]. apply length_zero_iff_nil. apply Nnat.Nat2N.inj. rewrite Ic; [assumption|tauto|congruence].
    + apply Ia; try tauto. unfold in_guard in *. cbn in *. eqb_case; [|tauto]. destruct H3; [auto|discriminate].
  - (* DropToken *)
    destruct (member t (held s)) eqn:B; [|discriminate]. injection E as <-.
    constructor; cbn; auto. split; [apply NoDup_filter; tauto|]. intros t' T. apply filter_In in T. apply Ih. tauto.
  - (* DropInv *)
    destruct (owned s j) eqn:W; [|discriminate]. apply owned_mode in W. injection E as <-.
    constructor; cbn; intros; eauto.
    + apply Ic; [tauto|]. eqb_case; congruence.
    + eqb_case; [discriminate|auto].
    + specialize (Ig j0). unfold in_guard in *. cbn. eqb_case; auto. rewrite W in *. assumption.
    + apply Ia; auto. unfold in_guard in *. cbn in *. eqb_case; [|tauto]. destruct H1; [auto|discriminate].
Qed.

Lemma inv_run l : forall s s', inv s -> irun s l = Some s' -> inv s'.
Proof.
  induction l as [|o l IH]; cbn; intros s s' I E; [now injection E as <-|].
  destruct (istep s o) as [s1|] eqn:F; [|discriminate]. eauto using inv_step.
Qed.

(** ** With one inventory of the item type. *)
Definition about (j : N) (o : iop) : bool :=
  match o with
  | New i | Setup i | Share i _ | Merge i _ | Ref i | Guard i | DropGuard i | Forget i | Teardown i | Free i | DropInv i => i =? j
  | DropToken _ => true
  end.
Lemma own_step j s o s' : about j o = true -> istep s o = Some s' ->
  always own_tokens (ilog s) /\ incl (held s) (outstanding j (ilog s)) ->
  always own_tokens (ilog s') /\ incl (held s') (outstanding j (ilog s')).
Proof.
  intros A E [HO HI]. destruct o; cbn [about istep] in A, E; cbv zeta in E; try (apply N.eqb_eq in A; subst j0);
    repeat match type of E with
    | (if ?b then _ else _) = _ => destruct b eqn:?; [|discriminate]
    | match ?b with _ => _ end = _ => destruct b eqn:?; try discriminate
    end; injection E as <-; cbn in *; try (change [EDown j; EUnguard j] with ([EDown j] ++ [EUnguard j]); rewrite app_assoc);
    rewrite ?always_snoc, ?out_snoc; cbn; rewrite ?N.eqb_refl; try tauto.
  - split; [tauto|]. intros t T. apply in_or_app. apply in_app_or in T. destruct T; auto.
  - bools. rewrite forallb_forall in *. split; [split; [assumption|]|].
    + intros t T. apply HI. apply member_in. auto.
    + intros t T. apply filter_In in T. apply filter_In. split; [apply HI|]; tauto.
  - split; [assumption|]. intros t' T. apply filter_In in T. apply HI. tauto.
Qed.
Lemma own_run j l : forallb (about j) l = true -> forall s s', irun s l = Some s' ->
  always own_tokens (ilog s) /\ incl (held s) (outstanding j (ilog s)) ->
  always own_tokens (ilog s').
Proof.
  induction l as [|o l IH]; cbn; intros A s s' E H; [injection E as <-; tauto|].
  apply andb_true_iff in A. destruct (istep s o) as [s1|] eqn:F; [|discriminate].
  apply (IH (proj2 A) s1); auto. eapply own_step; eauto. tauto.
Qed.

Lemma filter_all {A} (l : list A) f : (forall x, In x l -> f x = true) -> filter f l = l.
Proof. induction l; cbn; auto. intros H. rewrite H by auto. f_equal. auto. Qed.
Lemma filter_none {A} (l : list A) f : (forall x, In x l -> f x = false) -> filter f l = [].
Proof. induction l; cbn; auto. intros H. rewrite H by auto. auto. Qed.

(** The full statement has no hypothesis about the inventories; it is false (see below).
    In every program that compiles and has one inventory of the item type, the item is
    torn down or taken out only when all tokens it shared have been merged. *)
Theorem C55_all_back_partial : forall j l s,
  irun iinit l = Some s -> forallb (about j) l = true -> always all_back (ilog s).
Proof.
  intros j l s E A. apply (i_back s (inv_run l _ _ inv_init E)).
  eapply own_run; eauto. split; [apply always_nil|intros t []].
Qed.
Print Assumptions C55_all_back_partial.

(** The same with any number of inventories, if tokens are merged into the inventory
    that shared them. *)
Theorem C55_all_back_own_partial : forall l s,
  irun iinit l = Some s -> always own_tokens (ilog s) -> always all_back (ilog s).
Proof. intros l s E. apply (i_back s (inv_run l _ _ inv_init E)). Qed.
Print Assumptions C55_all_back_own_partial.

(** With two inventories of one item type, a token of the other is accepted. *)
Theorem C55_two_inventories_refuted : exists l s,
  irun iinit l = Some s /\ exists a b, ilog s = a ++ EDown 0 :: b /\ outstanding 0 a <> [].
Proof.
  exists [New 0; New 1; Setup 0; Setup 1; Share 0 1; Share 1 1; Merge 0 [1]; Teardown 0].
  eexists. split; [vm_compute; reflexivity|].
  exists [ENew 0; ENew 1; ESetup 0; ESetup 1; EShare 0 [0]; EShare 1 [1]; EMerge 0 [1]], [].
  split; [reflexivity|discriminate].
Qed.
Print Assumptions C55_two_inventories_refuted.

(** In every program that compiles: when a guard is dropped, the item has been torn down
    exactly once since the guard was created. *)
Theorem C55_guard_once : forall l s, irun iinit l = Some s -> always down_once (ilog s).
Proof. intros l s E. apply (i_once s (inv_run l _ _ inv_init E)). Qed.
Print Assumptions C55_guard_once.

(** In every program that compiles, tokens can be shared and merged again in any number
    up to 8, and that gives back the inventory and the tokens owned before. *)
Theorem C55_round_trip : forall l s j n,
  irun iinit l = Some s -> imode_of s j = MOwned -> (1 <= n <= 8)%nat ->
  exists s1 s2 ts, istep s (Share j n) = Some s1 /\ held s1 = held s ++ ts /\ length ts = n /\
    istep s1 (Merge j ts) = Some s2 /\
    held s2 = held s /\ imode_of s2 = imode_of s /\ forall i, cnt s2 i = cnt s i.
Proof.
  intros l s j n E M L. destruct (i_held s (inv_run l _ _ inv_init E)) as [ND HL].
  cbn [istep]. unfold owned. rewrite M. rewrite (proj2 (PeanoNat.Nat.leb_le 1 n)), (proj2 (PeanoNat.Nat.leb_le n 8)) by lia.
  cbn [andb]. eexists _, _, (fresh_tokens n (next s)). split; [reflexivity|]. cbn.
  split; [reflexivity|]. rewrite fresh_len. split; [reflexivity|]. rewrite M, N.eqb_refl.
  rewrite (proj2 (N.leb_le 1 (N.of_nat n))), (proj2 (N.leb_le (N.of_nat n) 8)), (proj2 (N.leb_le (N.of_nat n) (cnt s j + N.of_nat n))) by lia.
  replace (distinct (fresh_tokens n (next s))) with true.
  2:{ symmetry. generalize (next s). clear. induction n; intros f; [reflexivity|]. cbn. rewrite IHn, andb_true_r.
      apply negb_true_iff. apply member_not. rewrite fresh_in. lia. }
  replace (forallb _ _) with true.
  2:{ symmetry. apply forallb_forall. intros t T. apply member_in. apply in_or_app. auto. }
  cbn [andb]. split; [reflexivity|]. cbn. split; [|split; [reflexivity|]].
  - rewrite filter_app, (filter_all (held s)), (filter_none (fresh_tokens n (next s))), app_nil_r; [reflexivity| |].
    + intros t T. apply negb_false_iff. now apply member_in.
    + intros t T. apply negb_true_iff. apply member_not. rewrite fresh_in. apply HL in T. lia.
  - intros i. destruct (N.eqb_spec i j); [subst; rewrite ?N.eqb_refl; lia|reflexivity].
Qed.
Print Assumptions C55_round_trip.

Definition dma : list iop :=
  [New 0; Setup 0; Share 0 2; Share 0 1; Ref 0; Merge 0 [2; 0]; Merge 0 [1]; Teardown 0;
   Setup 0; Guard 0; Ref 0; DropGuard 0; Free 0].
Example C55_case : exists s, irun iinit dma = Some s /\ forallb (about 0) dma = true /\
  ilog s = [ENew 0; ESetup 0; EShare 0 [0; 1]; EShare 0 [2]; ERef 0; EMerge 0 [2; 0]; EMerge 0 [1]; EDown 0;
            ESetup 0; EGuard 0; ERef 0; EDown 0; EUnguard 0; EFree 0] /\
  irun iinit [New 0; Setup 0; Share 0 2; Merge 0 [0]; Teardown 0] = None /\
  irun iinit [New 0; Setup 0; Share 0 1; Merge 0 [0]; Merge 0 [0]] = None /\
  irun iinit [New 0; Guard 0; Teardown 0] = None.
Proof. eexists. vm_compute. repeat split. Qed.

(** ** Tokens stand for an active item. *)

(** The full statement has no hypotheses (the documentation promises it for tokens and
    references to them); it is false.  Proved: if tokens and guards are given out while
    the item is active, and tokens are merged into the inventory that shared them, then
    at any moment at which a token is outstanding or a guard exists the item is
    active. *)
Theorem C75_token_active_partial : forall l s j,
  irun iinit l = Some s -> always own_tokens (ilog s) -> always given_active (ilog s) ->
  outstanding j (ilog s) <> [] \/ imode_of s j = MGuard -> is_active j (ilog s) = true.
Proof.
  intros l s j E O G H. apply (i_act s (inv_run l _ _ inv_init E) O G).
  destruct H as [|H]; [now left|right]. now apply in_guard_mode.
Qed.
Print Assumptions C75_token_active_partial.
Example C75_case : exists s, irun iinit [New 0; Setup 0; Share 0 2; Merge 0 [1]] = Some s /\
  outstanding 0 (ilog s) = [0] /\ is_active 0 (ilog s) = true /\
  exists s', irun iinit [New 0; Setup 0; Guard 0] = Some s' /\ imode_of s' 0 = MGuard.
Proof. eexists. vm_compute. repeat split. eexists. repeat split. Qed.

(** An inventory gives out references to a token before the item was ever activated, and
    tokens after it was torn down. *)
Theorem C75_reference_refuted : exists l s, irun iinit l = Some s /\ ~ always ref_active (ilog s).
Proof.
  exists [New 0; Ref 0]. eexists. split; [vm_compute; reflexivity|].
  intros H. specialize (H [ENew 0] (ERef 0) [] eq_refl). discriminate.
Qed.
Print Assumptions C75_reference_refuted.
Theorem C75_token_refuted : exists l s, irun iinit l = Some s /\
  outstanding 0 (ilog s) <> [] /\ is_active 0 (ilog s) = false.
Proof.
  exists [New 0; Setup 0; Teardown 0; Share 0 1]. eexists. split; [vm_compute; reflexivity|]. split; [discriminate|reflexivity].
Qed.
Print Assumptions C75_token_refuted.
