(** Wakeups, runs and priorities of the soft-thread machine with at most 32 threads. *)
Require Import NArith List Bool Lia Arith.
From Verif Require Import SoftSpec Soft SoftProofs SoftInv SoftInv2.
Import ListNotations.
Open Scope N_scope.
Local Arguments N.sub : simpl never.
Local Arguments N.add : simpl never.
Local Arguments N.eqb : simpl never.
Local Arguments N.ltb : simpl never.
Local Opaque hC hP cell N.ltb N.eqb.

(** Thread [i] can still be taken at level [l] without a new wakeup. *)
Definition hot (s : sst) (l i : N) : Prop := cell s l i = true \/ any (snapF l i) (stk s).
(** It has been taken and its body has not started. *)
Definition cal (s : sst) (l i : N) : Prop := any (callF l i) (stk s).

Lemma marked_snap (b auto : bool) i r l j : any (snapF l j) ((if b then if auto then [FStart; FEnd (EWoken i)] else [FEnd (EWill i true)]
  else [FEnd (if auto then EWoken i else EWill i false)]) ++ r) -> any (snapF l j) r.
Proof. destruct b, auto; simpl; tauto. Qed.
Lemma marked_call (b auto : bool) i r l j : any (callF l j) ((if b then if auto then [FStart; FEnd (EWoken i)] else [FEnd (EWill i true)]
  else [FEnd (if auto then EWoken i else EWill i false)]) ++ r) -> any (callF l j) r.
Proof. destruct b, auto; simpl; tauto. Qed.

(** At most one event per step. *)
Lemma one_event count s s' : tr count s s' -> slog s' = slog s \/ exists e, slog s' = slog s ++ [e].
Proof. intros H. destruct H; norm; eauto. Qed.

Lemma snoc_inj (A : Type) (l l' : list A) x y : l ++ [x] = l' ++ [y] -> l = l' /\ x = y.
Proof. apply app_inj_tail. Qed.
Lemma snoc_self (A : Type) (l : list A) x : l = l ++ [x] -> False.
Proof. intros H. apply (f_equal (@length A)) in H. rewrite app_length in H. simpl in H. lia. Qed.

(** The event of a step is known. *)
Ltac evt E :=
  first [ exfalso; exact (snoc_self _ _ _ E)
        | match type of E with slog ?s' = _ => match goal with X : slog s' = slog _ |- _ =>
            rewrite X in E; exfalso; exact (snoc_self _ _ _ E) end end
        | match type of E with slog ?s' = _ => match goal with X : slog s' = slog _ ++ [_] |- _ =>
            lazymatch X with E => fail | _ => rewrite X in E; apply snoc_inj in E as (_ & E); try discriminate E end end end ].

Section Small.
Variable count : N.
Hypothesis small : 1 <= count <= 32.

Lemma hot_step s s' l i : base count s -> 1 <= l <= 27 -> tr count s s' -> hot s' l i ->
  hot s l i \/ slog s' = slog s ++ [EPend i (l - 1)].
Proof.
  intros B Hl H. unfold hot. destruct H; norm; auto; try getcell Hl; stacks; try stacks; from; cbn [any app snapF snap] in *; try tauto.
  - rewrite orb_true_iff, andb_true_iff, !N.eqb_eq. intros [[?|(-> & ->)]|?]; try tauto. right. replace (p + 1 - 1) with p by lia. auto.
  - intros [?|K]; [tauto|]. apply marked_snap in K. tauto.
  - intros [?|[(<- & _ & K)|?]]; [tauto| |tauto]. rewrite H2 in K. tauto.
  - intros [?|[(<- & [-> |(K1 & K2)])|?]]; [tauto| | |tauto]; left; right; left; repeat split; auto; lia.
  - intros [?|[K|?]]; [tauto| |tauto]. apply snap_see, adv_see in K as (-> & K1 & K2). left; right; left; repeat split; auto; lia.
  - intros [?|[(<- & [-> |(K1 & K2)])|?]]; [tauto|tauto| |tauto]. rewrite H2 in K2. tauto.
  - rewrite andb_true_iff. intros [?|[(<- & K1 & K2)|?]]; [tauto| |tauto]. rewrite H5 in K2. tauto.
  - intros [?|[K|?]]; [tauto| |tauto]. apply snap_see, adv_see in K as (-> & K1 & K2). tauto.
  - rewrite andb_true_iff. tauto.
Qed.

Lemma no_snap r l j prev : l > prev -> (forall m, any (loopF m) r -> 1 <= m <= prev) -> any (snapF l j) r -> False.
Proof.
  clear small. intros L K H. specialize (K l). enough (any (loopF l) r) by (specialize (K H0); lia).
  revert H. apply any_imp. intros f F. now apply see_loop with j, snap_see.
Qed.
Lemma no_call r l j prev : l > prev -> (forall m, any (loopF m) r -> 1 <= m <= prev) -> any (callF l j) r -> False.
Proof.
  clear small. intros L K H. specialize (K l). enough (any (loopF l) r) by (specialize (K H0); lia).
  revert H. apply any_imp. intros f F. now apply call_loop with j.
Qed.

Lemma hot_take s s' i p : base count s -> ends (stk s) -> tr count s s' -> slog s' = slog s ++ [ETake i p] ->
  p < 27 /\ hot s (p + 1) i /\ ~ hot s' (p + 1) i.
Proof.
  intros B En H E. destruct H; norm; evt E.
  - subst e. rewrite H1 in En. now exfalso.
  - injection E as -> <-. destruct (uniq count s _ _ _ _ _ B H4) as (U1 & U2 & U3 & U4). replace (pri - 1 + 1) with pri by lia.
    split; [lia|]. unfold hot. rewrite H2, H4, H6 by auto. simpl. rewrite !N.eqb_refl, andb_false_r. split; [auto|].
    intros [?|[(_ & ? & _)|?]]; [discriminate|lia|]. eapply no_snap; [| |eassumption]; [|eassumption]. lia.
Qed.

Lemma cal_step s s' l i : base count s -> 1 <= l <= 27 -> tr count s s' -> cal s' l i ->
  cal s l i \/ slog s' = slog s ++ [ETake i (l - 1)].
Proof.
  intros B Hl H. unfold cal. destruct H; norm; auto; stacks; try stacks; from; cbn [any app callF] in *; try tauto.
  - intros K. apply marked_call in K. tauto.
  - intros [K|?]; [|tauto]. now apply adv_call in K.
  - intros [(-> & ->)|?]; tauto.
  - intros [K|?]; [|tauto]. now apply adv_call in K.
Qed.

Lemma cal_body s s' i p : base count s -> ends (stk s) -> tr count s s' -> slog s' = slog s ++ [EResume i p] ->
  p < 27 /\ cal s (p + 1) i /\ ~ cal s' (p + 1) i.
Proof.
  intros B En H E. destruct H; norm; evt E.
  - subst e. rewrite H1 in En. now exfalso.
  - injection E as -> <-. destruct (uniq count s _ _ _ _ _ B ltac:(eassumption)) as (U1 & U2 & U3 & U4). replace (pri - 1 + 1) with pri by lia.
    split; [lia|]. unfold cal. rewrite H1, H2 by auto. simpl. split; [auto|].
    intros [?|?]; [easy|]. eapply no_call; [| |eassumption]; [|eassumption]. lia.
Qed.

(** ** Credit *)
Definition invC (s : sst) : Prop := forall i p,
  (runs i p (slog s) <= wakeups i p (slog s))%nat /\
  (27 <= p -> runs i p (slog s) = 0%nat) /\
  (p < 27 -> hot s (p + 1) i -> (runs i p (slog s) + 1 <= wakeups i p (slog s))%nat) /\
  (p < 27 -> cal s (p + 1) i -> (runs i p (slog s) + 1 <= wakeups i p (slog s))%nat) /\
  (p < 27 -> hot s (p + 1) i -> cal s (p + 1) i -> (runs i p (slog s) + 2 <= wakeups i p (slog s))%nat).

Lemma invC_step s s' : base count s -> ends (stk s) -> invC s -> tr count s s' -> invC s'.
Proof.
  intros B En C H i p. specialize (C i p). destruct C as (C0 & Cp & C1 & C2 & C3).
  assert (Hh : p < 27 -> hot s' (p + 1) i -> hot s (p + 1) i \/ slog s' = slog s ++ [EPend i p]).
  { intros P Hh. replace p with (p + 1 - 1) at 2 by lia. apply hot_step; auto. lia. }
  assert (Hc : p < 27 -> cal s' (p + 1) i -> cal s (p + 1) i \/ slog s' = slog s ++ [ETake i p]).
  { intros P Hc. replace p with (p + 1 - 1) at 2 by lia. apply cal_step; auto. lia. }
  pose proof (hot_take s s' i p B En H) as Ht. pose proof (cal_body s s' i p B En H) as Hb.
  destruct (one_event _ _ _ H) as [E|(e & E)].
  - rewrite E in *. assert (N1 : forall e, slog s = slog s ++ [e] -> False) by (intros e; apply snoc_self).
    repeat split; auto; intros; firstorder.
  - rewrite E in *. rewrite runs_app, wakeups_app.
    assert (Hh' : p < 27 -> hot s' (p + 1) i -> hot s (p + 1) i \/ e = EPend i p).
    { intros P X. destruct (Hh P X) as [?|Y]; auto. apply snoc_inj in Y. tauto. }
    assert (Hc' : p < 27 -> cal s' (p + 1) i -> cal s (p + 1) i \/ e = ETake i p).
    { intros P X. destruct (Hc P X) as [?|Y]; auto. apply snoc_inj in Y. tauto. }
    clear Hh Hc.
    assert (Q : (forall i' p', e <> EPend i' p' /\ e <> ETake i' p' /\ e <> EResume i' p') \/
      (exists i' p', e = EPend i' p' \/ e = ETake i' p' \/ e = EResume i' p')).
    { destruct e; try (left; repeat split; discriminate); right; eauto 10. }
    destruct Q as [Q|(i' & p' & [-> |[-> | ->]])].
    + assert (R : hot s' (p + 1) i -> p < 27 -> hot s (p + 1) i) by (intros X P; destruct (Hh' P X); auto; now apply Q in H0).
      assert (R' : cal s' (p + 1) i -> p < 27 -> cal s (p + 1) i) by (intros X P; destruct (Hc' P X); auto; now apply Q in H0).
      destruct e; auto 10; now destruct (Q i0 p0) as (? & ? & ?).
    + assert (R' : cal s' (p + 1) i -> p < 27 -> cal s (p + 1) i) by (intros X P; destruct (Hc' P X); auto; discriminate).
      destruct (is_ i p i' p') eqn:I.
      * assert (C2' : cal s' (p + 1) i -> p < 27 -> (runs i p (slog s) + 1 <= wakeups i p (slog s))%nat) by auto.
        repeat split; auto; intros; try lia; match goal with X : cal s' _ _ |- _ => specialize (C2' X ltac:(auto)) end; lia.
      * assert (R : hot s' (p + 1) i -> p < 27 -> hot s (p + 1) i).
        { intros X P. destruct (Hh' P X) as [?|Y]; auto. injection Y as -> ->. apply not_true_iff_false in I. destruct I. now apply is_true. }
        auto 10.
    + assert (R : hot s' (p + 1) i -> p < 27 -> hot s (p + 1) i) by (intros X P; destruct (Hh' P X); auto; discriminate).
      destruct (is_ i p i' p') eqn:I.
      * apply is_true in I as (<- & <-). destruct (Ht eq_refl) as (P & T1 & T2). repeat split; auto; intros; try easy.
      * assert (R' : cal s' (p + 1) i -> p < 27 -> cal s (p + 1) i).
        { intros X P. destruct (Hc' P X) as [?|Y]; auto. injection Y as -> ->. apply not_true_iff_false in I. destruct I. now apply is_true. }
        auto 10.
    + assert (R : hot s' (p + 1) i -> p < 27 -> hot s (p + 1) i) by (intros X P; destruct (Hh' P X); auto; discriminate).
      assert (R' : cal s' (p + 1) i -> p < 27 -> cal s (p + 1) i) by (intros X P; destruct (Hc' P X); auto; discriminate).
      destruct (is_ i p i' p') eqn:I; [|auto 10].
      apply is_true in I as (<- & <-). destruct (Hb eq_refl) as (P & T1 & T2). specialize (C2 P T1).
      repeat split; intros; try easy; try lia. specialize (C3 P (R H1 P) T1). lia.
Qed.

Lemma invC_init : invC sinit.
Proof. intros i p. unfold hot, cal. rewrite cell_init. repeat split; simpl; auto; intros; try tauto; intuition discriminate. Qed.

(** ** is_pending *)
Definition invP (s : sst) : Prop := forall i p, p < 27 -> pending i p (slog s) = cell s (p + 1) i.

Lemma same_cell i p i' p' : (p + 1 =? p' + 1) && (i =? i') = is_ i p i' p'.
Proof.
  clear small. apply eq_true_iff_eq. rewrite is_true, andb_true_iff, !N.eqb_eq. lia.
Qed.

Lemma invP_step s s' : base count s -> ends (stk s) -> invP s -> tr count s s' -> invP s'.
Proof.
  intros B En I H i p Hp. specialize (I i p Hp). assert (Hl : 1 <= p + 1 <= 27) by lia.
  destruct H; norm; auto; getcell Hl; match goal with X : slog s' = _ |- _ => rewrite X end; rewrite ?pending_app; auto.
  - rewrite H1 in En. destruct e; easy.
  - now rewrite same_cell, I.
  - destruct (is_ i p i0 p0) eqn:E; [|now rewrite orb_false_r]. apply is_true in E as (-> & ->). now rewrite H5, orb_true_r.
  - destruct (uniq count s _ _ _ _ _ B H4) as (U1 & _). replace (p + 1 =? pri) with (p + 1 =? (pri - 1) + 1) by (f_equal; lia).
    now rewrite same_cell, I.
  - now rewrite same_cell, I.
Qed.
Lemma invP_init : invP sinit.
Proof. intros i p _. now rewrite cell_init. Qed.

(** ** clear_pending *)
Definition invK (s : sst) : Prop := forall i p,
  cleared i p (slog s) = true -> p < 27 -> ~ hot s (p + 1) i /\ ~ cal s (p + 1) i.

Lemma xlev_levels i p l : x_levels (fold_left (xstep i p) l (Clr [] false)) = levels l.
Proof.
  induction l as [|e l IH] using rev_ind; [reflexivity|]. rewrite levels_app, fold_left_app. simpl. rewrite <- IH.
  destruct e; reflexivity.
Qed.
Lemma cleared_app i p l e : cleared i p (l ++ [e]) =
  match e with
  | EPend i' p' => cleared i p l && negb (is_ i p i' p')
  | EClear i' p' => cleared i p l || (is_ i p i' p' && negb (existsb (N.eqb p) (levels l)))
  | _ => cleared i p l
  end.
Proof. unfold cleared. rewrite fold_left_app. simpl. rewrite <- (xlev_levels i p). destruct e; reflexivity. Qed.

Lemma clr_step s s' i p : ends (stk s) -> tr count s s' -> slog s' = slog s ++ [EClear i p] -> p < 27 ->
  cell s' (p + 1) i = false /\ forall P, any P (stk s') -> any P (stk s).
Proof.
  intros En H E Hp. destruct H; norm; evt E.
  - subst e. rewrite H1 in En. now exfalso.
  - injection E as -> ->. rewrite H2, H4, H5, !N.eqb_refl, andb_false_r by lia. split; auto. simpl. auto.
Qed.

Lemma invK_step s s' : base count s -> ends (stk s) -> invL s -> invK s -> tr count s s' -> invK s'.
Proof.
  intros B En [L _] K H i p Kc Hp. specialize (K i p).
  assert (Hh : hot s' (p + 1) i -> hot s (p + 1) i \/ slog s' = slog s ++ [EPend i p]).
  { intros Hh. replace p with (p + 1 - 1) at 2 by lia. apply hot_step; auto. lia. }
  assert (Hc : cal s' (p + 1) i -> cal s (p + 1) i \/ slog s' = slog s ++ [ETake i p]).
  { intros Hc. replace p with (p + 1 - 1) at 2 by lia. apply cal_step; auto. lia. }
  pose proof (hot_take s s' i p B En H) as Ht. pose proof (clr_step s s' i p En H) as Hb.
  destruct (one_event _ _ _ H) as [E|(e & E)].
  - rewrite E in *. destruct (K Kc Hp) as (K1 & K2).
    split; intros X; [destruct (Hh X)|destruct (Hc X)]; try tauto; eapply snoc_self; eauto.
  - rewrite E in *. rewrite cleared_app in Kc.
    assert (T : cleared i p (slog s) = true -> e <> EPend i p -> ~ hot s' (p + 1) i /\ ~ cal s' (p + 1) i).
    { intros Kc' N. destruct (K Kc' Hp) as (K1 & K2). split; intros X.
      - destruct (Hh X) as [?|Y]; auto. apply snoc_inj in Y. tauto.
      - destruct (Hc X) as [?|Y]; auto. destruct (Ht Y). tauto. }
    destruct e; try (apply T; [assumption|discriminate]).
    + apply andb_true_iff in Kc as (Kc & N). apply T; auto. intros Y. injection Y as -> ->.
      unfold is_ in N. rewrite !N.eqb_refl in N. discriminate.
    + apply orb_true_iff in Kc as [Kc|Kc]; [apply T; auto; discriminate|].
      apply andb_true_iff in Kc as (Y & N). apply is_true in Y as (<- & <-). destruct (Hb eq_refl Hp) as (C & A).
      assert (NL : ~ any (loopF (p + 1)) (stk s)).
      { intros X. apply negb_true_iff, not_true_iff_false in N. apply N. rewrite L. apply existsb_exists. exists p.
        split; [|apply N.eqb_refl]. apply lvls_in. exists (p + 1). split; [lia|auto]. }
      split; intros X.
      * destruct X as [X|X]; [congruence|]. apply NL. apply A in X. revert X. apply any_imp. intros f F. now apply see_loop with i, snap_see.
      * apply NL. apply A in X. revert X. apply any_imp. intros f F. now apply call_loop with i.
Qed.
Lemma invK_init : invK sinit.
Proof. intros i p. discriminate. Qed.

(** ** Priorities *)
Definition callsF (i : N) (f : frame) : bool :=
  match f with
  | FPrio j _ | FCell j _ _ | FHead j _ _ | FEnd (EWoken j) | FEnd (EWill j _) => j =? i
  | _ => false
  end.
Definition runsF (i : N) (f : frame) : bool :=
  match f with FLoop _ _ _ (RCall j _ _) | FLoop _ _ _ (RBody j _ _) => j =? i | _ => false end.
Definition num (P : frame -> bool) (l : list frame) : nat := length (filter P l).
(** The frame relies on [i] having the priority of level [l]. *)
Definition useF (l i : N) (f : frame) : Prop :=
  match f with
  | FCell j p _ | FHead j p _ => j = i /\ p + 1 = l
  | FLoop _ l' _ (RCall j _ _) | FLoop _ l' _ (RBody j _ _) => j = i /\ l' = l
  | _ => False
  end.

Lemma num_cons P f l : num P (f :: l) = ((if P f then 1 else 0) + num P l)%nat.
Proof. unfold num. simpl. now destruct (P f). Qed.
Lemma use_num l i r : any (useF l i) r -> (num (callsF i) r + num (runsF i) r <> 0)%nat.
Proof.
  clear small. induction r as [|f r IH]; [easy|]. rewrite !num_cons. intros [H|H]; [|specialize (IH H); lia].
  destruct f as [| | | | | | |? ? ? []| | | |]; simpl in *; try easy; destruct H as (-> & _); rewrite N.eqb_refl; lia.
Qed.
Lemma num_mark i j (b auto : bool) r :
  num (callsF i) ((if b then if auto then [FStart; FEnd (EWoken j)] else [FEnd (EWill j true)]
    else [FEnd (if auto then EWoken j else EWill j false)]) ++ r) = ((if (j =? i)%N then 1 else 0) + num (callsF i) r)%nat /\
  num (runsF i) ((if b then if auto then [FStart; FEnd (EWoken j)] else [FEnd (EWill j true)]
    else [FEnd (if auto then EWoken j else EWill j false)]) ++ r) = num (runsF i) r.
Proof. clear small. destruct b, auto; cbn [app]; rewrite !num_cons; cbn [callsF runsF]; split; lia. Qed.

Record invT (i : N) (s : sst) : Prop := InvT {
  t_pr : prio i (slog s) = pr s i;
  t_call : m_call (moved i (slog s)) = num (callsF i) (stk s);
  t_run : m_run (moved i (slog s)) = num (runsF i) (stk s);
  t_set : m_call (moved i (slog s)) <> 0%nat -> m_set (moved i (slog s)) = true;
  t_hot : m_bad (moved i (slog s)) = false -> forall l, 1 <= l <= 27 -> hot s l i ->
          pr s i + 1 = l /\ m_set (moved i (slog s)) = true;
  t_use : m_bad (moved i (slog s)) = false -> forall l, any (useF l i) (stk s) -> pr s i + 1 = l
}.

Lemma adv_num i ptr pri prev k w : callsF i (adv count ptr pri prev k w) = false /\ runsF i (adv count ptr pri prev k w) = false.
Proof. clear small. unfold adv. destruct (k + 1 =? count); auto. Qed.

Lemma nums_step i s s' : base count s -> ends (stk s) -> m_call (moved i (slog s)) = num (callsF i) (stk s) ->
  m_run (moved i (slog s)) = num (runsF i) (stk s) -> tr count s s' ->
  m_call (moved i (slog s')) = num (callsF i) (stk s') /\ m_run (moved i (slog s')) = num (runsF i) (stk s').
Proof.
  pose proof small as (Sm1 & Sm2). clear small. intros B En C R H.
  destruct H; norm; auto; stacks; match goal with X : slog s' = _ |- _ => rewrite X end; from; rewrite ?num_cons in *;
    cbn [callsF runsF] in *; auto; rewrite ?moved_app; cbn [mvstep];
    try match goal with |- context [adv count ?a ?b ?c ?d ?e] => destruct (adv_num i a b c d e) as (-> & ->) end;
    try match goal with |- context [hC s <? ?p + 1] => destruct (num_mark i i0 (hC s <? p + 1) auto r) as (-> & ->) end;
    try (try destruct (i0 =? i); cbn [m_call m_run] in *; split; lia).
  - destruct e; try easy; cbn [mvstep]; destruct (i0 =? i); cbn [m_call m_run]; split; lia.
  - destruct auto; split; lia.
Qed.

Lemma use_step i s s' l : 1 <= l <= 27 -> base count s -> tr count s s' -> any (useF l i) (stk s') ->
  any (useF l i) (stk s) \/ (pr s i + 1 = l /\ slog s' = slog s) \/ slog s' = slog s ++ [ETake i (l - 1)].
Proof.
  intros Hl B H. destruct H; norm; auto; stacks; from; cbn [any app useF] in *; try tauto.
  - intros [(-> & ?)|?]; auto.
  - destruct (hC s <? p + 1), auto; simpl; tauto.
  - unfold adv. destruct (i0 + 1 =? count); simpl; tauto.
  - intros [(-> & ->)|?]; auto.
  - unfold adv. destruct (i0 + 1 =? count); simpl; tauto.
Qed.
Lemma use_level s l i : base count s -> any (useF l i) (stk s) -> 1 <= l <= 27.
Proof.
  clear small. intros B. pose proof (b_wf _ _ B) as W. revert W. generalize (hC s) as c. generalize (stk s) as r.
  induction r as [|f r IH]; [easy|]. intros c W [H|H].
  - pose proof (wf_le _ _ _ W). destruct f as [| | | | | | |? ? ? []| | | |]; simpl in *; try easy; lia.
  - destruct f; simpl in W; try (eapply IH; [apply W|exact H]).
Qed.

Lemma pend_use s s' i p : ends (stk s) -> tr count s s' -> slog s' = slog s ++ [EPend i p] ->
  any (useF (p + 1) i) (stk s) /\ num (callsF i) (stk s) <> 0%nat.
Proof.
  clear small. intros En H E. destruct H; norm; evt E.
  - subst e. rewrite H1 in En. now exfalso.
  - injection E as -> ->. rewrite H4, num_cons. simpl. rewrite N.eqb_refl. split; [auto|lia].
  - injection E as -> ->. rewrite H4, num_cons. simpl. rewrite N.eqb_refl. split; [auto|lia].
Qed.
Lemma prio_step s s' : tr count s s' -> (forall i p, slog s' <> slog s ++ [EPrio i p]) -> pr s' = pr s.
Proof. clear small. intros H N. destruct H; norm; auto. now apply N in H5. Qed.
Lemma setprio_step s s' i p : ends (stk s) -> tr count s s' -> slog s' = slog s ++ [EPrio i p] ->
  pr s' = (fun j => if j =? i then p else pr s j).
Proof.
  clear small. intros En H E. destruct H; norm; evt E.
  - subst e. rewrite H1 in En. now exfalso.
  - now injection E as -> ->.
Qed.

Lemma invT_step i s s' : base count s -> ends (stk s) -> invT i s -> tr count s s' -> invT i s'.
Proof.
  intros B En [T1 T2 T3 T4 T5 T6] H. destruct (nums_step i s s' B En T2 T3 H) as (C & R).
  pose proof (base_step _ small _ _ B H) as B'.
  split; auto.
  - destruct (one_event _ _ _ H) as [E|(e & E)].
    + rewrite E, T1. rewrite (prio_step s s' H); auto. intros i' p' X. rewrite E in X. now apply snoc_self in X.
    + rewrite E, prio_app, T1. destruct e; try (rewrite (prio_step s s' H); auto; intros i' p' X; rewrite E in X; apply snoc_inj in X as (_ & X); discriminate).
      rewrite (setprio_step s s' i0 p En H E). now rewrite N.eqb_sym.
  - destruct (one_event _ _ _ H) as [E|(e & E)]; rewrite E; auto. rewrite moved_app. destruct e; simpl; auto; destruct (i0 =? i); simpl; auto.
    + intros X. apply T4. lia.
    + intros X. apply T4. lia.
    + destruct (m_call (moved i (slog s))); auto.
  - destruct (one_event _ _ _ H) as [E|(e & E)].
    + intros Bd l Hl Hh. rewrite E in Bd. rewrite (prio_step s s' H), E by (intros i' p' X; rewrite E in X; now apply snoc_self in X).
      apply T5; auto. destruct (hot_step s s' l i B Hl H Hh) as [?|X]; auto. rewrite E in X. now apply snoc_self in X.
    + intros Bd l Hl Hh.
      assert (Bd0 : m_bad (moved i (slog s)) = false).
      { rewrite E, moved_app in Bd. destruct e; simpl in Bd; auto; destruct (i0 =? i); auto. simpl in Bd.
        apply orb_false_iff in Bd as (Bd & _). now apply orb_false_iff in Bd as (Bd & _). }
      destruct (hot_step s s' l i B Hl H Hh) as [X|X].
      * destruct (T5 Bd0 l Hl X) as (X1 & X2).
        assert (P : pr s' i = pr s i /\ m_set (moved i (slog s')) = true); [|destruct P as (-> & ->); auto].
        rewrite E, moved_app in Bd |- *.
        assert (Q : (forall j q, e <> EPrio j q) -> pr s' = pr s).
        { intros Q. apply (prio_step s s' H). intros i' p' Y. rewrite E in Y. apply snoc_inj in Y as (_ & Y). now apply Q in Y. }
        destruct e; try (rewrite Q by discriminate; split; auto; simpl; try destruct (i0 =? i); auto; fail).
        -- rewrite Q by discriminate. split; auto. simpl. destruct (N.eqb_spec i0 i) as [-> |]; auto.
           destruct (hot_take s s' i p B En H E) as (Y1 & Y2 & Y3). destruct (T5 Bd0 (p + 1) ltac:(lia) Y2) as (Z & _).
           destruct Y3. now rewrite <- Z, X1.
        -- rewrite (setprio_step s s' i0 p En H E). simpl in *. rewrite (N.eqb_sym i).
           destruct (i0 =? i); auto. simpl in Bd. rewrite X2, orb_true_r in Bd. discriminate.
      * rewrite X in E. apply snoc_inj in E as (_ & <-). destruct (pend_use s s' i (l - 1) En H X) as (U & U').
        replace (l - 1 + 1) with l in U by lia. rewrite X, moved_app. simpl.
        rewrite (prio_step s s' H) by (intros i' p' Y; rewrite X in Y; apply snoc_inj in Y as (_ & Y); discriminate).
        split; [now apply T6|]. apply T4. now rewrite T2.
  - intros Bd l Hu. pose proof (use_level _ _ _ B' Hu) as Hl.
    assert (Bd0 : m_bad (moved i (slog s)) = false).
    { destruct (one_event _ _ _ H) as [E|(e & E)]; [now rewrite E in Bd|].
      rewrite E, moved_app in Bd. destruct e; simpl in Bd; auto; destruct (i0 =? i); auto. simpl in Bd.
      apply orb_false_iff in Bd as (Bd & _). now apply orb_false_iff in Bd as (Bd & _). }
    assert (D : (forall q, slog s' <> slog s ++ [EPrio i q]) -> pr s' i = pr s i).
    { intros D. destruct (one_event _ _ _ H) as [E|(e & E)].
      - rewrite (prio_step s s' H); auto. intros i' p' X. rewrite E in X. now apply snoc_self in X.
      - assert (Q : (forall j q, e <> EPrio j q) -> pr s' = pr s).
        { intros Q. apply (prio_step s s' H). intros i' p' Y. rewrite E in Y. apply snoc_inj in Y as (_ & Y). now apply Q in Y. }
        destruct e; try (rewrite Q by discriminate; auto; fail). rewrite (setprio_step s s' i0 p En H E).
        destruct (N.eqb_spec i i0) as [->|]; auto. now apply D in E. }
    destruct (use_step i s s' l Hl B H Hu) as [X|[(X & E)|X]].
    + rewrite D; [now apply T6|]. intros q E. rewrite E, moved_app in Bd. simpl in Bd. rewrite N.eqb_refl in Bd. simpl in Bd.
      apply use_num in X. rewrite T2, T3 in Bd. apply orb_false_iff in Bd as (_ & Bd). apply negb_false_iff, Nat.eqb_eq in Bd. lia.
    + rewrite D; auto. intros q Y. rewrite E in Y. now apply snoc_self in Y.
    + rewrite D by (intros q Y; rewrite X in Y; apply snoc_inj in Y as (_ & Y); discriminate).
      destruct (hot_take s s' i (l - 1) B En H X) as (_ & Y & _). replace (l - 1 + 1) with l in Y by lia. now apply T5.
Qed.
Lemma invT_init i : invT i sinit.
Proof. split; auto; try easy. intros _ l _ [X|X]; [|easy]. now rewrite cell_init in X. Qed.
End Small.
