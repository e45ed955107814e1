(** Channels without data races: what the halves do on the weak memory (Weak.v), they
    can do when all accesses take effect one after the other (Spsc.v).  The accesses are
    sorted by the value of the word they belong to. *)
Require Import NArith List Bool Arith Lia.
From Verif Require Import Spsc WeakSpec Weak WeakProofs.
Import ListNotations.
Open Scope nat_scope.

(** The events of one half. *)
Definition ev_of {O R} (side_of : O -> side) (s : side) (e : ev O R) : bool :=
  match e with
  | EInv o => seqb (side_of o) s
  | ERet o _ => seqb (side_of o) s
  | EWake t _ | EDropW t _ | EDropV t _ => seqb t s
  | ESync _ | EAcc _ => false
  end.
Definition hist {O R} (side_of : O -> side) (s : side) (l : list (ev O R)) : list (ev O R) := filter (ev_of side_of s) l.
Lemma hist_app {O R} side_of s (a b : list (ev O R)) : hist side_of s (a ++ b) = hist side_of s a ++ hist side_of s b.
Proof. apply filter_app. Qed.

(** ** Keys *)
Record keyed (l : exec) (ks : list nat) : Prop := mkkeyed {
  k_len : length ks = length l;
  k_po : forall i j s a b x y, i < j -> nth_error l i = Some (s, a) -> nth_error l j = Some (s, b) ->
         nth_error ks i = Some x -> nth_error ks j = Some y -> x <= y;
  k_upd : forall i s o n, nth_error l i = Some (s, AUpd o n) -> nth_error ks i = Some (2 * n + 1);
  k_read : forall i s o n, nth_error l i = Some (s, ARead o n) -> nth_error ks i = Some (2 * n);
  k_ord : forall i j s o n t o' m, nth_error l i = Some (s, AUpd o n) ->
          nth_error l j = Some (t, ARead o' m) \/ nth_error l j = Some (t, AUpd o' m) -> n < m -> i < j
}.
Lemma key_ex l ks i p : keyed l ks -> nth_error l i = Some p -> exists x, nth_error ks i = Some x.
Proof.
  intros K E. apply nth_lt in E. rewrite <- (k_len _ _ K) in E. destruct (nth_error ks i) eqn:X; eauto.
  apply nth_error_None in X. lia.
Qed.
Lemma hb_ends l i j : hb l i j -> exists p q, nth_error l i = Some p /\ nth_error l j = Some q.
Proof.
  intros H. induction H as [i j s a b L Ei Ej|i j (s & o & n & s' & o' & m & Ei & Ro & Ej & Ao & L)|i j k H1 (p & q & A & B) H2 (p' & q' & A' & B')]; eauto.
  destruct Ej; eauto.
Qed.
Lemma hb_key l ks i j : keyed l ks -> hb l i j -> forall s a t b x y,
  nth_error l i = Some (s, a) -> nth_error l j = Some (t, b) -> nth_error ks i = Some x -> nth_error ks j = Some y ->
  i < j /\ x <= y /\ (s <> t -> x < y).
Proof.
  intros K H. induction H as [i j s a b L Ei Ej|i j (s & o & n & s' & o' & m & Ei & Ro & Ej & Ao & L)|i j k H1 IH1 H2 IH2];
    intros s1 a1 t1 b1 x y E1 E2 X Y.
  - rewrite Ei in E1. rewrite Ej in E2. injection E1 as <- <-. injection E2 as <- <-.
    split; auto. split; [|congruence]. exact (k_po _ _ K _ _ _ _ _ _ _ L Ei Ej X Y).
  - assert (i < j) by (eapply (k_ord _ _ K); eauto).
    rewrite (k_upd _ _ K _ _ _ _ Ei) in X. injection X as <-.
    destruct Ej as [Ej|Ej]; [rewrite (k_read _ _ K _ _ _ _ Ej) in Y|rewrite (k_upd _ _ K _ _ _ _ Ej) in Y]; injection Y as <-; lia.
  - destruct (hb_ends _ _ _ H1) as (p & (u & c) & _ & Ek). destruct (key_ex _ _ _ _ K Ek) as (z & Z).
    destruct (IH1 _ _ _ _ _ _ E1 Ek X Z) as (L1 & L2 & L3). destruct (IH2 _ _ _ _ _ _ Ek E2 Z Y) as (M1 & M2 & M3).
    split; [lia|]. split; [lia|]. intros N. destruct s1, t1, u; try congruence; try (specialize (L3 ltac:(congruence)); lia);
      specialize (M3 ltac:(congruence)); lia.
Qed.
Lemma keyed0 : keyed [] [].
Proof. constructor; auto; intros [|i]; intros; discriminate. Qed.
(** One more access; [k] is not less than the keys of its half. *)
Lemma keyed_snoc l ks s a k :
  keyed l ks -> (forall i b x, nth_error l i = Some (s, b) -> nth_error ks i = Some x -> x <= k) ->
  match a with
  | AUpd _ n => k = 2 * n + 1 /\ forall i t b, nth_error l i = Some (t, b) -> match b with ARead _ m | AUpd _ m => m <= n | _ => True end
  | ARead _ n => k = 2 * n
  | _ => True
  end -> keyed (l ++ [(s, a)]) (ks ++ [k]).
Proof.
  intros K B A. pose proof (k_len _ _ K) as Kl.
  assert (KS : forall i p x, nth_error l i = Some p -> nth_error (ks ++ [k]) i = Some x -> nth_error ks i = Some x).
  { intros i p x E X. apply nth_lt in E. rewrite nth_error_app1 in X by lia. exact X. }
  assert (KN : nth_error (ks ++ [k]) (length l) = Some k) by (rewrite <- Kl; apply nth_new).
  constructor.
  - rewrite !app_length. cbn. lia.
  - intros i j t b c x y L Ei Ej X Y. apply nth_snoc in Ej as [Ej|(-> & Ej)].
    + apply nth_lt in Ej as Lj. apply nth_snoc in Ei as [Ei|(-> & _)]; [|lia].
      apply (KS _ _ _ Ei) in X. apply (KS _ _ _ Ej) in Y. exact (k_po _ _ K _ _ _ _ _ _ _ L Ei Ej X Y).
    + apply nth_snoc in Ei as [Ei|(-> & _)]; [|lia]. injection Ej as -> ->. rewrite KN in Y. injection Y as <-.
      apply (KS _ _ _ Ei) in X. eapply B; eauto.
  - intros i t o n E. apply nth_snoc in E as [E|(-> & E)].
    + apply nth_old. eapply (k_upd _ _ K); eauto.
    + injection E as -> <-. rewrite KN. f_equal. apply A.
  - intros i t o n E. apply nth_snoc in E as [E|(-> & E)].
    + apply nth_old. eapply (k_read _ _ K); eauto.
    + injection E as -> <-. rewrite KN. f_equal. apply A.
  - intros i j t o n u o' m Ei Ej L. apply nth_snoc in Ei as [Ei|(-> & Ei)].
    + destruct Ej as [Ej|Ej]; apply nth_snoc in Ej as [Ej|(-> & Ej)]; eauto using nth_lt; eapply (k_ord _ _ K); eauto.
    + injection Ei as -> <-. destruct A as (_ & A).
      destruct Ej as [Ej|Ej]; apply nth_snoc in Ej as [Ej|(-> & Ej)].
      * apply A in Ej. lia.
      * discriminate.
      * apply A in Ej. lia.
      * injection Ej as _ _ <-. lia.
Qed.

Section SC.
  Context {O R : Type}.
  Variable side_of : O -> side.
  Variable consuming : O -> bool.
  Variable code : O -> prog R.

  Notation step := (@Spsc.step O R side_of consuming code true).
  Notation hist := (@hist O R side_of).

  (** An action, the half it belongs to, and what that half was doing. *)
  Record entry := mkE { es : side; ea : act O; epre : thr O R }.
  Definition aside (a : act O) : side := match a with Call o => side_of o | Step s _ => s end.
  Definition acc_of (t : thr O R) : option (cell * bool) :=
    match t with
    | Run _ (Write c _ _) | Run _ (Take c _) => Some (c, true)
    | Run _ (Peek c _) => Some (c, false)
    | _ => None
    end.
  Fixpoint runE (y : sys O R) (l : list entry) : sys O R :=
    match l with [] => y | e :: l => runE (step y (ea e)) l end.
  Fixpoint okE (y : sys O R) (l : list entry) : Prop :=
    match l with
    | [] => True
    | e :: l => thr_of y (es e) = epre e /\ aside (ea e) = es e /\ okE (step y (ea e)) l
    end.
  Lemma runE_app y a b : runE y (a ++ b) = runE (runE y a) b.
  Proof. revert y. induction a; intros y; cbn; auto. Qed.
  Lemma okE_app y a b : okE y (a ++ b) <-> okE y a /\ okE (runE y a) b.
  Proof. revert y. induction a as [|e a IH]; intros y; cbn; [tauto|]. rewrite IH. tauto. Qed.
  Lemma runE_run y l : runE y l = run side_of consuming code true y (map ea l).
  Proof. revert y. induction l; intros y; cbn; auto. Qed.

  Lemma thr_put_same (y : sys O R) s m e t : thr_of (put y s m e t) s = t.
  Proof. now destruct s. Qed.
  Lemma thr_put_other (y : sys O R) s m e t : thr_of (put y s m e t) (other s) = thr_of y (other s).
  Proof. now destruct s. Qed.
  Lemma smem_put (y : sys O R) s m e t : smem (put y s m e t) = m.
  Proof. now destruct s. Qed.
  Lemma slog_put (y : sys O R) s m e t : slog (put y s m e t) = slog y ++ e.
  Proof. now destruct s. Qed.

  (** An action does not concern the other half. *)
  Lemma pstep_evs s o p m b m' e t : side_of o = s -> pstep consuming true s o p m b = (m', e, t) -> hist (other s) e = [].
  Proof.
    intros <- E. assert (X : seqb (side_of o) (other (side_of o)) = false) by now destruct (side_of o).
    destruct p; cbn [pstep] in E; try (injection E as <- <- <-; unfold hist; cbn; rewrite ?X; reflexivity).
    - destruct old; [destruct (_ || _)|]; injection E as <- <- <-; reflexivity.
    - destruct (take m c). injection E as <- <- <-; reflexivity.
    - destruct (peek m c). injection E as <- <- <-; reflexivity.
  Qed.
  Definition wf_thr (s : side) (t : thr O R) : Prop := match t with Run o _ => side_of o = s | _ => True end.
  Definition wf (y : sys O R) : Prop := forall s, wf_thr s (thr_of y s).
  Lemma pstep_wf s o p m b m' e t : side_of o = s -> pstep consuming true s o p m b = (m', e, t) -> wf_thr s t.
  Proof.
    intros E P. destruct p; cbn [pstep] in P; try (injection P as <- <- <-; cbn; auto; now destruct (consuming o)).
    - destruct old; [destruct (_ || _)|]; injection P as <- <- <-; auto.
    - destruct (take m c). injection P as <- <- <-; auto.
    - destruct (peek m c). injection P as <- <- <-; auto.
  Qed.
  Lemma step_other y a : wf y -> thr_of (step y a) (other (aside a)) = thr_of y (other (aside a)) /\
    hist (other (aside a)) (slog (step y a)) = hist (other (aside a)) (slog y) /\ wf (step y a).
  Proof.
    intros W. destruct a as [o|s b]; cbn [Spsc.step aside].
    - destruct (thr_of y (side_of o)) eqn:T; auto. rewrite thr_put_other, slog_put, hist_app.
      split; auto. split.
      + unfold hist at 2. cbn. destruct (side_of o); apply app_nil_r.
      + intros s. destruct (other_case (side_of o) s) as [->| ->]; [now rewrite thr_put_same|rewrite thr_put_other; apply W].
    - destruct (thr_of y s) eqn:T; auto. destruct (pstep _ _ _ _ _ _ _) as ((m & e) & t) eqn:P.
      pose proof (W s) as Ws. rewrite T in Ws. cbn in Ws.
      rewrite thr_put_other, slog_put, hist_app, (pstep_evs _ _ _ _ _ _ _ _ Ws P), app_nil_r. split; auto. split; auto.
      intros u. destruct (other_case s u) as [->| ->]; [rewrite thr_put_same; eapply pstep_wf; eauto|rewrite thr_put_other; apply W].
  Qed.

  (** Two states that the half [s] cannot tell apart unless it accesses [D]. *)
  Definition like (D : cell -> bool) (s : side) (y z : sys O R) : Prop :=
    st (smem y) = st (smem z) /\ thr_of y s = thr_of z s /\ hist s (slog y) = hist s (slog z) /\
    forall c, D c = false -> cells (smem y) c = cells (smem z) c.
  Lemma like_step D a y z : like D (aside a) y z ->
    (forall c w, acc_of (thr_of y (aside a)) = Some (c, w) -> D c = false) -> like D (aside a) (step y a) (step z a).
  Proof.
    intros (L1 & L2 & L3 & L4) A. destruct a as [o|s b]; cbn [Spsc.step aside] in *; rewrite <- L2.
    - destruct (thr_of y (side_of o)) eqn:T; [|repeat split; auto; congruence..].
      unfold like. rewrite !smem_put, !thr_put_same, !slog_put, !hist_app, L3. auto.
    - destruct (thr_of y s) as [|o p|] eqn:T; [repeat split; auto; congruence| |repeat split; auto; congruence].
      destruct (pstep _ _ _ _ _ (smem y) _) as ((m & e) & t) eqn:P. destruct (pstep _ _ _ _ _ (smem z) _) as ((m' & e') & t') eqn:P'.
      unfold like. rewrite !smem_put, !thr_put_same, !slog_put, !hist_app, L3.
      enough (st m = st m' /\ t = t' /\ e = e' /\ forall c, D c = false -> cells m c = cells m' c) as (X1 & X2 & X3 & X4) by (subst; auto).
      destruct p as [r|r k|r c old f k|c w k|c k|c k|w k|w k|w k|k]; cbn [pstep] in P, P'; cbn [acc_of] in A;
        try (injection P as <- <- <-; injection P' as <- <- <-; rewrite ?L1; auto; fail).
      + rewrite L1 in P. destruct old as [old|]; [destruct (b || negb (st (smem z) =? old)%N)|];
          injection P as <- <- <-; injection P' as <- <- <-; auto.
      + injection P as <- <- <-; injection P' as <- <- <-. cbn. repeat split; auto. intros d Dd. unfold upd. destruct (cell_eqb d c); auto.
      + specialize (A c true eq_refl). unfold take in P, P'. cbn [touch cells] in P, P'. rewrite (L4 c A) in P.
        destruct (cells (smem z) c) eqn:C; injection P as <- <- <-; injection P' as <- <- <-; cbn; repeat split; auto.
        intros d Dd. unfold upd. destruct (cell_eqb d c); auto.
      + specialize (A c false eq_refl). unfold peek in P, P'. cbn [touch cells] in P, P'. rewrite (L4 c A) in P.
        destruct (cells (smem z) c) eqn:C; injection P as <- <- <-; injection P' as <- <- <-; cbn; repeat split; auto.
  Qed.
  (** An action leaves the cells alone that it does not write. *)
  Lemma step_cell a y c : acc_of (thr_of y (aside a)) <> Some (c, true) -> cells (smem (step y a)) c = cells (smem y) c.
  Proof.
    intros N. destruct a as [o|s b]; cbn [Spsc.step aside] in *.
    - destruct (thr_of y (side_of o)); auto. now rewrite smem_put.
    - destruct (thr_of y s) as [|o p|]; auto. destruct (pstep _ _ _ _ _ _ _) as ((m & e) & t) eqn:P. rewrite smem_put.
      destruct p as [r|r k|r d old f k|d w k|d k|d k|w k|w k|w k|k]; cbn [pstep] in P; cbn [acc_of] in N;
        try (injection P as <- <- <-; reflexivity).
      + destruct old; [destruct (_ || _)|]; injection P as <- <- <-; reflexivity.
      + injection P as <- <- <-. cbn. unfold upd. destruct (cell_eqb_spec c d); congruence.
      + unfold take in P. destruct (cells (touch (smem y)) d); injection P as <- <- <-; auto. cbn. unfold upd. destruct (cell_eqb_spec c d); congruence.
      + unfold peek in P. destruct (cells (touch (smem y)) d); injection P as <- <- <-; auto.
  Qed.

  (** A run of one half. *)
  Definition only (s : side) (l : list entry) : Prop := forall e, In e l -> es e = s.
  Lemma only_run s l y : wf y -> only s l -> okE y l ->
    thr_of (runE y l) (other s) = thr_of y (other s) /\ hist (other s) (slog (runE y l)) = hist (other s) (slog y) /\ wf (runE y l).
  Proof.
    revert y. induction l as [|e l IH]; intros y W A K; cbn; auto. destruct K as (K1 & K2 & K3).
    assert (E : aside (ea e) = s) by (rewrite K2; apply A; now left).
    destruct (step_other y (ea e) W) as (S1 & S2 & S3). rewrite E in S1, S2.
    destruct (IH (step y (ea e)) S3) as (H1 & H2 & H3); [intros d Hd; apply A; now right|exact K3|].
    rewrite H1, H2. auto.
  Qed.
  Lemma wf_run l y : wf y -> wf (runE y l).
  Proof. revert y. induction l as [|e l IH]; intros y W; cbn; auto. apply IH. now apply step_other. Qed.
  Lemma like_run D s l y z : only s l -> okE y l -> like D s y z ->
    (forall e c w, In e l -> acc_of (epre e) = Some (c, w) -> D c = false) -> like D s (runE y l) (runE z l) /\ okE z l.
  Proof.
    revert y z. induction l as [|e l IH]; intros y z A K L N; cbn; auto. destruct K as (K1 & K2 & K3).
    assert (E : es e = s) by (apply A; now left). rewrite E in K1, K2.
    destruct (IH (step y (ea e)) (step z (ea e))) as (H1 & H2).
    - intros d Hd. apply A. now right.
    - exact K3.
    - rewrite <- K2. apply like_step; [now rewrite K2|]. intros c w X. rewrite K2, K1 in X. eapply N; [left; reflexivity|exact X].
    - intros d c w Hd. apply N. now right.
    - split; auto. rewrite E. repeat split; auto. destruct L as (_ & L & _). congruence.
  Qed.
  Lemma cell_run l y c : okE y l -> (forall e, In e l -> acc_of (epre e) <> Some (c, true)) -> cells (smem (runE y l)) c = cells (smem y) c.
  Proof.
    revert y. induction l as [|e l IH]; intros y K N; cbn; auto. destruct K as (K1 & K2 & K3).
    rewrite IH; auto; [|intros d Hd; apply N; now right]. apply step_cell. rewrite K2, K1. apply N. now left.
  Qed.

  Record inv (x : wsys O R) (segs : list (list entry)) (ks : list nat) : Prop := mkinv {
    i_len : length segs = length (whist x);
    i_ok : okE sys0 (concat segs);
    i_st : forall k, k < length segs -> st (smem (runE sys0 (concat (firstn (S k) segs)))) = value (whist x) k;
    i_thr : forall s, thr_of (runE sys0 (concat segs)) s = wt (wthr_of x s);
    i_hist : forall s, hist s (slog (runE sys0 (concat segs))) = hist s (calls (wlog x));
    i_cell : forall c, cells (smem (runE sys0 (concat segs))) c = wcells x c;
    i_lt : forall s, wseen (wthr_of x s) < length segs;
    i_seen : forall k g e, nth_error segs k = Some g -> In e g -> k <= wseen (wthr_of x (es e));
    i_acc : forall k g e c w, nth_error segs k = Some g -> In e g -> acc_of (epre e) = Some (c, w) ->
            exists i, nth_error (accesses (wlog x)) i = Some (es e, ACell c w) /\ nth_error ks i = Some (2 * k);
    i_key : keyed (accesses (wlog x)) ks;
    i_max : forall i s a k, nth_error (accesses (wlog x)) i = Some (s, a) -> nth_error ks i = Some k -> k <= 2 * wseen (wthr_of x s);
    i_ver : forall i s a, nth_error (accesses (wlog x)) i = Some (s, a) ->
            match a with ARead _ m => m < length segs | AUpd _ m => S m < length segs | _ => True end
  }.

  Lemma wf0 : wf sys0.
  Proof. now intros []. Qed.

  (** What the action [a] of the half [s] has to do when the word has its value number [k]. *)
  Definition does (x x' : wsys O R) (s : side) (k : nat) (a : act O) (D : cell -> bool) (evs : list (ev O R)) : Prop :=
    forall y, wf y -> st (smem y) = value (whist x) k -> thr_of y s = wt (wthr_of x s) ->
      (forall c w, acc_of (wt (wthr_of x s)) = Some (c, w) -> cells (smem y) c = wcells x c) ->
      st (smem (step y a)) = st (smem y) /\ thr_of (step y a) s = wt (wthr_of x' s) /\
      hist s (slog (step y a)) = hist s (slog y) ++ hist s evs /\
      (forall c, D c = false -> cells (smem (step y a)) c = cells (smem y) c) /\
      (forall c, D c = true -> cells (smem (step y a)) c = wcells x' c).

  Lemma insert x x' segs ks s k a D evs accl :
    inv x segs ks -> wseen (wthr_of x s) <= k < length segs -> aside a = s ->
    does x x' s k a D evs ->
    (forall c, D c = true -> acc_of (wt (wthr_of x s)) = Some (c, true)) ->
    whist x' = whist x -> (forall c, D c = false -> wcells x' c = wcells x c) ->
    wthr_of x' (other s) = wthr_of x (other s) -> wseen (wthr_of x' s) = k ->
    calls (wlog x') = calls (wlog x) ++ evs -> hist (other s) evs = [] ->
    accesses (wlog x') = accesses (wlog x) ++ accl ->
    match accl with
    | [] => acc_of (wt (wthr_of x s)) = None
    | [(t, ARead _ n)] => t = s /\ n = k /\ acc_of (wt (wthr_of x s)) = None
    | [(t, ACell c w)] => t = s /\ acc_of (wt (wthr_of x s)) = Some (c, w)
    | [(t, AFree)] => t = s /\ acc_of (wt (wthr_of x s)) = None
    | _ => False
    end ->
    ~ racing clash (accesses (wlog x')) ->
    exists segs' ks', inv x' segs' ks'.
  Proof.
    intros I Hk Ha Hd HD Hh Hc Ho Hs Hl He Hacc Haccl Hr.
    destruct (nth_error segs k) as [g|] eqn:Eg; [|apply nth_error_None in Eg; lia].
    apply nth_error_split in Eg as (A & B & -> & LA).
    set (e := mkE s a (wt (wthr_of x s))).
    exists (A ++ (g ++ [e]) :: B).
    set (ks' := match accl with [] => ks | _ => ks ++ [2 * k] end). exists ks'.
    set (y1 := runE sys0 (concat A ++ g)).
    assert (Ey : runE sys0 (concat (A ++ g :: B)) = runE y1 (concat B)).
    { unfold y1. rewrite <- runE_app. f_equal. rewrite concat_app. cbn [concat]. now rewrite app_assoc. }
    assert (Ey' : runE sys0 (concat (A ++ (g ++ [e]) :: B)) = runE (step y1 a) (concat B)).
    { unfold y1. rewrite concat_app. cbn [concat]. rewrite app_assoc, runE_app. f_equal. rewrite app_assoc, runE_app. reflexivity. }
    pose proof (i_ok _ _ _ I) as K. rewrite concat_app in K. cbn [concat] in K. rewrite app_assoc in K.
    apply okE_app in K as (K1 & K2). fold y1 in K2.
    assert (NB : forall j g', nth_error B j = Some g' -> nth_error (A ++ g :: B) (S (k + j)) = Some g').
    { intros j g' E. rewrite nth_error_app2 by lia. replace (S (k + j) - length A) with (S j) by lia. exact E. }
    assert (InB : forall d, In d (concat B) -> exists j g', nth_error B j = Some g' /\ In d g').
    { intros d H. apply in_concat in H as (g' & H & H'). apply In_nth_error in H as (j & H). eauto. }
    assert (OB : only (other s) (concat B)).
    { intros d H. destruct (InB d H) as (j & g' & E & H'). destruct (other_case s (es d)) as [X|X]; auto.
      pose proof (i_seen _ _ _ I _ _ _ (NB _ _ E) H') as L. rewrite X in L. lia. }
    assert (W1 : wf y1) by (apply wf_run, wf0).
    destruct (only_run (other s) (concat B) y1 W1 OB K2) as (T1 & T2 & W2). rewrite other_other in T1, T2. rewrite <- Ey in T1, T2.
    (* keys *)
    assert (Key : keyed (accesses (wlog x')) ks').
    { rewrite Hacc. unfold ks'. destruct accl as [|(t, b) [|]]; [now rewrite app_nil_r; apply (i_key _ _ _ I)| |destruct b; contradiction].
      apply keyed_snoc; [apply (i_key _ _ _ I)| |destruct b; try exact Logic.I; [|contradiction]; lia].
      intros i b' z E Z. assert (t = s) as -> by (destruct b; tauto). pose proof (i_max _ _ _ I _ _ _ _ E Z). lia. }
    (* conflicting accesses would race *)
    assert (NC : forall d c w v, In d (concat B) -> acc_of (epre d) = Some (c, w) -> acc_of (wt (wthr_of x s)) = Some (c, v) ->
                 w = true \/ v = true -> False).
    { intros d c w v Hin Ew Ev X. destruct (InB d Hin) as (j & g' & E & H').
      destruct (i_acc _ _ _ I _ _ _ _ _ (NB _ _ E) H' Ew) as (i & Ei & Ki). rewrite (OB d Hin) in Ei.
      rewrite Ev in Haccl. destruct accl as [|(t, b) [|]]; [discriminate| |destruct b; contradiction].
      destruct b as [| |c' v'|]; try (destruct Haccl as (_ & ? & ?) || destruct Haccl; congruence).
      destruct Haccl as (-> & Haccl). injection Haccl as <- <-.
      assert (En : nth_error (accesses (wlog x')) (length (accesses (wlog x))) = Some (s, ACell c v)) by (rewrite Hacc; apply nth_new).
      assert (Eo : nth_error (accesses (wlog x')) i = Some (other s, ACell c w)) by (rewrite Hacc; now apply nth_old).
      assert (Kn' : nth_error ks' (length (accesses (wlog x))) = Some (2 * k)).
      { unfold ks'. rewrite <- (k_len _ _ (i_key _ _ _ I)). apply nth_new. }
      assert (Ko : nth_error ks' i = Some (2 * S (k + j))) by (unfold ks'; now apply nth_old).
      apply nth_lt in Ei as Li. apply Hr. exists i, (length (accesses (wlog x))), (other s), s, (ACell c w), (ACell c v).
      split; [lia|]. split; auto. split; auto. split; [cbn; auto|].
      split; intros H; [destruct (hb_key _ _ _ _ Key H _ _ _ _ _ _ Eo En Ko Kn')|destruct (hb_key _ _ _ _ Key H _ _ _ _ _ _ En Eo Kn' Ko)]; lia. }
    (* the action where it is inserted *)
    assert (Ec : forall c w, acc_of (wt (wthr_of x s)) = Some (c, w) -> cells (smem y1) c = wcells x c).
    { intros c w E. rewrite <- (i_cell _ _ _ I), Ey. symmetry. apply cell_run; auto. intros d Hin X. eapply NC; eauto. }
    assert (Es : st (smem y1) = value (whist x) k).
    { rewrite <- (i_st _ _ _ I k ltac:(lia)). unfold y1. do 3 f_equal. rewrite firstn_app, firstn_all2 by lia.
      replace (S k - length A) with 1 by lia. cbn [firstn]. rewrite concat_app. cbn [concat]. now rewrite app_nil_r. }
    assert (Et : thr_of y1 s = wt (wthr_of x s)) by (rewrite <- (i_thr _ _ _ I); congruence).
    destruct (Hd y1 W1 Es Et Ec) as (D1 & D2 & D3 & D4 & D5).
    destruct (step_other y1 a W1) as (S1 & S2 & S3). rewrite Ha in S1, S2.
    assert (L : like D (other s) y1 (step y1 a)).
    { repeat split; auto. intros c Dc. symmetry. now apply D4. }
    assert (ND : forall d c w, In d (concat B) -> acc_of (epre d) = Some (c, w) -> D c = false).
    { intros d c w Hin X. destruct (D c) eqn:Dc; auto. exfalso. eapply NC; eauto. }
    destruct (like_run D (other s) (concat B) y1 (step y1 a) OB K2 L ND) as (LB & K2').
    destruct (only_run (other s) (concat B) (step y1 a) S3 OB K2') as (T1' & T2' & _). rewrite other_other in T1', T2'. rewrite <- Ey' in T1', T2'.
    destruct LB as (B1 & B2 & B3 & B4). rewrite <- Ey, <- Ey' in B1, B2, B3, B4.
    assert (LL : length (A ++ (g ++ [e]) :: B) = length (A ++ g :: B)) by (rewrite !app_length; reflexivity).
    assert (N' : forall j q, nth_error (A ++ (g ++ [e]) :: B) j = Some q ->
       nth_error (A ++ g :: B) j = Some q \/ j = k /\ q = g ++ [e] /\ nth_error (A ++ g :: B) k = Some g).
    { intros j q E. destruct (Nat.lt_total j k) as [Q|[->|Q]].
      - left. rewrite nth_error_app1 in * by lia. exact E.
      - right. rewrite nth_error_app2 in E by lia. rewrite <- LA, Nat.sub_diag in E. cbn in E. injection E as <-.
        split; auto. split; auto. rewrite nth_error_app2 by lia. now rewrite <- LA, Nat.sub_diag.
      - left. rewrite nth_error_app2 in * by lia. destruct (j - length A) eqn:Z; [lia|]. exact E. }
    assert (Seen : forall t, wseen (wthr_of x t) <= wseen (wthr_of x' t)).
    { intros t. destruct (other_case s t) as [->| ->]; [lia|rewrite Ho; lia]. }
    constructor.
    - rewrite LL, Hh. apply (i_len _ _ _ I).
    - rewrite concat_app. cbn [concat]. rewrite app_assoc. apply okE_app. split.
      + rewrite app_assoc. apply okE_app. split; auto. cbn. fold y1. auto.
      + rewrite app_assoc, runE_app. cbn [runE]. exact K2'.
    - intros j Lj. rewrite LL in Lj. rewrite Hh, <- (i_st _ _ _ I j Lj). destruct (Nat.lt_ge_cases j k) as [Q|Q].
      + rewrite !firstn_app. replace (S j - length A) with 0 by lia. reflexivity.
      + rewrite !firstn_app, !firstn_all2 by lia. replace (S j - length A) with (S (j - k)) by lia. cbn [firstn].
        rewrite !concat_app. cbn [concat]. set (P := concat (firstn (j - k) B)).
        assert (Q1 : concat A ++ (g ++ [e]) ++ P = (concat A ++ g) ++ e :: P) by (now rewrite <- !app_assoc).
        rewrite Q1, app_assoc, !runE_app. cbn [runE]. rewrite <- runE_app. fold y1. cbn [ea e].
        assert (QB : concat B = P ++ concat (skipn (j - k) B)).
        { unfold P. rewrite <- concat_app. now rewrite firstn_skipn. }
        pose proof K2 as K3. rewrite QB in K3. apply okE_app in K3 as (K3 & _).
        destruct (like_run D (other s) P y1 (step y1 a)) as ((X & _) & _); auto.
        * intros d Hin. apply OB. rewrite QB. apply in_or_app. now left.
        * intros d c w Hin. apply ND. rewrite QB. apply in_or_app. now left.
    - intros t. destruct (other_case s t) as [->| ->].
      + rewrite T1'. exact D2.
      + rewrite Ho, <- (i_thr _ _ _ I). auto.
    - intros t. rewrite Hl, hist_app. destruct (other_case s t) as [->| ->].
      + rewrite T2', D3, <- T2, (i_hist _ _ _ I). reflexivity.
      + rewrite He, app_nil_r, <- (i_hist _ _ _ I). auto.
    - intros c. destruct (D c) eqn:Dc.
      + rewrite <- (D5 c Dc), Ey'. apply cell_run; auto. intros d Hin X. eapply NC; [exact Hin|exact X|apply HD, Dc|auto].
      + rewrite <- (B4 c Dc), Hc by auto. apply (i_cell _ _ _ I).
    - intros t. rewrite LL. destruct (other_case s t) as [->| ->]; [lia|rewrite Ho; apply (i_lt _ _ _ I)].
    - intros j q d E H. destruct (N' _ _ E) as [E'|(-> & -> & E')].
      + pose proof (i_seen _ _ _ I _ _ _ E' H). specialize (Seen (es d)). lia.
      + apply in_app_or in H as [H|[<-|[]]].
        * pose proof (i_seen _ _ _ I _ _ _ E' H). specialize (Seen (es d)). lia.
        * cbn [es e]. lia.
    - assert (Old : forall j q d c w, nth_error (A ++ g :: B) j = Some q -> In d q -> acc_of (epre d) = Some (c, w) ->
        exists i, nth_error (accesses (wlog x')) i = Some (es d, ACell c w) /\ nth_error ks' i = Some (2 * j)).
      { intros j q d c w E H X. destruct (i_acc _ _ _ I _ _ _ _ _ E H X) as (i & Ei & Ki). exists i. rewrite Hacc. unfold ks'.
        apply nth_lt in Ei as Li. apply nth_lt in Ki as Lk. rewrite nth_error_app1 by lia. split; auto.
        destruct accl; auto. rewrite nth_error_app1 by lia. auto. }
      intros j q d c w E H X. destruct (N' _ _ E) as [E'|(-> & -> & E')]; [eapply Old; eauto|].
      apply in_app_or in H as [H|[<-|[]]]; [eapply Old; eauto|]. cbn [es epre e] in *. rewrite X in Haccl.
      destruct accl as [|(t, b) [|]]; [discriminate| |destruct b; contradiction].
      destruct b as [| |c' v'|]; try (destruct Haccl as (_ & ? & ?) || destruct Haccl; congruence).
      destruct Haccl as (-> & Haccl). injection Haccl as <- <-. exists (length (accesses (wlog x))).
      split; [rewrite Hacc; apply nth_new|]. unfold ks'. rewrite <- (k_len _ _ (i_key _ _ _ I)). apply nth_new.
    - exact Key.
    - assert (Old : forall i t b z, nth_error (accesses (wlog x)) i = Some (t, b) -> nth_error ks' i = Some z -> z <= 2 * wseen (wthr_of x' t)).
      { intros i t b z E Z. assert (nth_error ks i = Some z).
        { unfold ks' in Z. destruct accl; auto. apply nth_lt in E. rewrite nth_error_app1 in Z; auto. rewrite (k_len _ _ (i_key _ _ _ I)). auto. }
        pose proof (i_max _ _ _ I _ _ _ _ E H). specialize (Seen t). lia. }
      intros i t b z E Z. rewrite Hacc in E. destruct accl as [|(t', b') [|]]; [rewrite app_nil_r in E; eapply Old; eauto| |destruct b'; contradiction].
      apply nth_snoc in E as [E|(-> & E)]; [eapply Old; eauto|]. injection E as -> ->. unfold ks' in Z.
      rewrite <- (k_len _ _ (i_key _ _ _ I)), nth_new in Z. injection Z as <-.
      assert (t' = s) as -> by (destruct b'; tauto). lia.
    - intros i t b E. rewrite LL. rewrite Hacc in E. destruct accl as [|(t', b') [|]]; [rewrite app_nil_r in E; eapply (i_ver _ _ _ I); eauto| |destruct b'; contradiction].
      apply nth_snoc in E as [E|(-> & E)]; [eapply (i_ver _ _ _ I); eauto|]. injection E as -> ->. destruct b'; auto; [lia|contradiction].
  Qed.

  Definition none (c : cell) : bool := false.

  Lemma calls_app (a b : list (wev O R)) : calls (a ++ b) = calls a ++ calls b.
  Proof. apply flat_map_app. Qed.
  Lemma wthr_put x s h c t e : wthr_of (@wput O R x s h c t e) s = t.
  Proof. now destruct s. Qed.
  Lemma wthr_put_other x s h c t e : wthr_of (@wput O R x s h c t e) (other s) = wthr_of x (other s).
  Proof. now destruct s. Qed.
  Lemma whist_put x s h c t e : whist (@wput O R x s h c t e) = h.
  Proof. now destruct s. Qed.
  Lemma wcells_put x s h c t e : wcells (@wput O R x s h c t e) = c.
  Proof. now destruct s. Qed.
  Lemma wlog_put x s h c t e : wlog (@wput O R x s h c t e) = wlog x ++ e.
  Proof. now destruct s. Qed.

  Ltac puts := rewrite ?wthr_put, ?wthr_put_other, ?whist_put, ?wcells_put, ?wlog_put, ?calls_app, ?acc_app.

  (** The exchange takes effect. *)
  Lemma append x segs ks s o r c f k :
    inv x segs ks -> wt (wthr_of x s) = Run o (Rmw r c (Some (value (whist x) (length (whist x) - 1))) f k) ->
    exists segs' ks', inv (wput x s (f (value (whist x) (length (whist x) - 1)) :: whist x) (wcells x)
      (Wthr (Run o (k (value (whist x) (length (whist x) - 1)))) (S (length (whist x) - 1))) [WAcc s (AUpd c (length (whist x) - 1))]) segs' ks'.
  Proof.
    intros I T. set (v := value (whist x) (length (whist x) - 1)) in *. set (n := length (whist x) - 1) in *.
    pose proof (i_len _ _ _ I) as Ln. pose proof (i_lt _ _ _ I s) as Lt.
    set (y := runE sys0 (concat segs)). assert (W : wf y) by (apply wf_run, wf0).
    assert (Ty : thr_of y s = Run o (Rmw r c (Some v) f k)) by (unfold y; rewrite (i_thr _ _ _ I); exact T).
    assert (Sy : st (smem y) = v).
    { unfold y, v. rewrite <- (i_st _ _ _ I n) by (unfold n; lia). do 3 f_equal. rewrite firstn_all2; auto. unfold n. lia. }
    exists (segs ++ [[mkE s (Step s false) (Run o (Rmw r c (Some v) f k))]]), (ks ++ [2 * n + 1]).
    assert (C : concat (segs ++ [[mkE s (Step s false) (Run o (Rmw r c (Some v) f k))]]) = concat segs ++ [mkE s (Step s false) (Run o (Rmw r c (Some v) f k))]).
    { rewrite concat_app. cbn. reflexivity. }
    assert (E : runE sys0 (concat (segs ++ [[mkE s (Step s false) (Run o (Rmw r c (Some v) f k))]])) = step y (Step s false)).
    { rewrite C, runE_app. reflexivity. }
    assert (P : step y (Step s false) = put y s (set_st (touch (smem y)) (f v)) [ESync s] (Run o (k v))).
    { cbn [Spsc.step]. rewrite Ty. cbn [pstep]. rewrite Sy, N.eqb_refl. reflexivity. }
    assert (X : forall i p, nth_error (segs ++ [[mkE s (Step s false) (Run o (Rmw r c (Some v) f k))]]) i = Some p ->
       nth_error segs i = Some p \/ i = S n /\ p = [mkE s (Step s false) (Run o (Rmw r c (Some v) f k))]).
    { intros i p H. apply nth_snoc in H as [H|(-> & ->)]; auto. right. split; auto. unfold n. lia. }
    pose proof (k_len _ _ (i_key _ _ _ I)) as Kl.
    assert (Seen : forall t, wseen (wthr_of x t) <= wseen (wthr_of (wput x s (f v :: whist x) (wcells x)
      (Wthr (Run o (k v)) (S n)) [WAcc s (AUpd c n)]) t)).
    { intros t. destruct (other_case s t) as [->| ->]; puts; cbn [wseen]; unfold n; lia. }
    constructor; rewrite ?E, ?app_length; puts; cbn [length calls accesses flat_map app].
    - lia.
    - rewrite C. apply okE_app. split; [apply (i_ok _ _ _ I)|]. cbn. auto.
    - intros j Lj. destruct (Nat.eq_dec j (length segs)) as [->|].
      + rewrite firstn_all2 by (rewrite app_length; cbn; lia). rewrite E, P, smem_put. cbn [st set_st]. rewrite Ln. symmetry. apply value_new.
      + rewrite firstn_app. replace (S j - length segs) with 0 by lia. cbn [firstn]. rewrite app_nil_r, value_cons by lia. apply (i_st _ _ _ I). lia.
    - intros t. rewrite P. destruct (other_case s t) as [->| ->]; rewrite ?thr_put_same, ?thr_put_other; puts; [reflexivity|]. apply (i_thr _ _ _ I).
    - intros t. rewrite P, slog_put, !hist_app. cbn. rewrite !app_nil_r. apply (i_hist _ _ _ I).
    - intros d. rewrite P, smem_put. cbn. apply (i_cell _ _ _ I).
    - intros t. destruct (other_case s t) as [->| ->]; puts; cbn [wseen]; [unfold n; lia|]. pose proof (i_lt _ _ _ I (other s)). lia.
    - intros j g e G H. destruct (X _ _ G) as [G'|(-> & ->)].
      + pose proof (i_seen _ _ _ I _ _ _ G' H). specialize (Seen (es e)). lia.
      + destruct H as [<-|[]]. cbn [es]. puts. cbn. lia.
    - intros j g e d w G H A. destruct (X _ _ G) as [G'|(-> & ->)].
      + destruct (i_acc _ _ _ I _ _ _ _ _ G' H A) as (i & Ei & Ki). exists i. split; now apply nth_old.
      + destruct H as [<-|[]]. discriminate.
    - apply keyed_snoc; [apply (i_key _ _ _ I)| |].
      + intros i b z E1 Z. pose proof (i_max _ _ _ I _ _ _ _ E1 Z). unfold n. lia.
      + split; auto. intros i t b E1. pose proof (i_ver _ _ _ I _ _ _ E1) as V. destruct b; auto; unfold n; lia.
    - intros i t b z E1 Z. apply nth_snoc in E1 as [E1|(-> & E1)].
      + apply nth_lt in E1 as L1. rewrite nth_error_app1 in Z by lia. pose proof (i_max _ _ _ I _ _ _ _ E1 Z). specialize (Seen t). lia.
      + injection E1 as -> ->. rewrite <- Kl, nth_new in Z. injection Z as <-. puts. cbn. lia.
    - intros i t b E1. apply nth_snoc in E1 as [E1|(-> & E1)].
      + pose proof (i_ver _ _ _ I _ _ _ E1) as V. destruct b; auto; lia.
      + injection E1 as -> ->. unfold n. lia.
  Qed.

  Ltac finish :=
    try (symmetry; apply app_nil_r); try apply app_nil_r;
    try match goal with T : wt _ = _ |- _ => now rewrite T end;
    try (unfold hist; cbn; repeat match goal with H : seqb _ _ = false |- _ => rewrite H end; reflexivity).

  Lemma step_inv x segs ks a : inv x segs ks -> ~ racing clash (accesses (wlog (wstep side_of consuming code x a))) ->
    exists segs' ks', inv (wstep side_of consuming code x a) segs' ks'.
  Proof.
    intros I. assert (Keep : ~ racing clash (accesses (wlog x)) -> exists segs' ks', inv x segs' ks') by eauto.
    destruct a as [o|s spur back]; cbn [wstep].
    - destruct (wt (wthr_of x (side_of o))) eqn:T; auto. intros Hr.
      assert (Se : seqb (side_of o) (other (side_of o)) = false) by now destruct (side_of o).
      refine (insert x _ segs ks (side_of o) (wseen (wthr_of x (side_of o))) (Call o) none [EInv o] [] I _ eq_refl _ _ _ _ _ _ _ _ _ _ Hr);
        puts; auto; try discriminate; finish.
      + split; auto. apply (i_lt _ _ _ I).
      + intros y W Hy Ty _. rewrite T in Ty. cbn [Spsc.step]. rewrite Ty, smem_put, thr_put_same, slog_put, hist_app. puts. cbn.
        repeat split; auto. discriminate.
    - destruct (wt (wthr_of x s)) as [|o p|] eqn:T; auto. intros Hr.
      assert (So : side_of o = s).
      { assert (W : wf (runE sys0 (concat segs))) by (apply wf_run, wf0). specialize (W s). rewrite (i_thr _ _ _ I), T in W. exact W. }
      assert (Se : seqb (side_of o) (other s) = false) by (rewrite So; now destruct s).
      assert (Se' : seqb s (other s) = false) by now destruct s.
      pose proof (i_lt _ _ _ I s) as Lt. pose proof (i_len _ _ _ I) as Ln.
      assert (Pk : wseen (wthr_of x s) <= pick (whist x) (wseen (wthr_of x s)) back < length segs).
      { rewrite Ln in *. now apply pick_range. }
      destruct p as [r|r k|r c old f k|c w k|c k|c k|w k|w k|w k|k]; cbn [wpstep] in *.
      + refine (insert x _ segs ks s (wseen (wthr_of x s)) (Step s true) none [ERet o r] [] I _ eq_refl _ _ _ _ _ _ _ _ _ _ Hr);
          puts; auto; try discriminate; finish.
        * intros y W Hy Ty _. rewrite T in Ty. cbn [Spsc.step]. rewrite Ty. cbn [pstep]. rewrite smem_put, thr_put_same, slog_put, hist_app. puts. cbn.
          repeat split; auto. discriminate.
      + refine (insert x _ segs ks s (pick (whist x) (wseen (wthr_of x s)) back) (Step s true) none [] [(s, ARead r (pick (whist x) (wseen (wthr_of x s)) back))]
            I Pk eq_refl _ _ _ _ _ _ _ _ _ _ Hr); puts; auto; try discriminate; finish.
        * intros y W Hy Ty _. rewrite T in Ty. cbn [Spsc.step]. rewrite Ty. cbn [pstep]. rewrite smem_put, thr_put_same, slog_put, hist_app. puts. cbn.
          rewrite Hy. repeat split; auto. discriminate.
      + assert (F : forall r' c' old', wt (wthr_of x s) = Run o (Rmw r' c' old' f k) ->
           ~ racing clash (accesses (wlog (wput x s (whist x) (wcells x) (Wthr (Run o (Rmw r' c' (Some (value (whist x) (pick (whist x) (wseen (wthr_of x s)) back))) f k))
              (pick (whist x) (wseen (wthr_of x s)) back)) [WAcc s (ARead r' (pick (whist x) (wseen (wthr_of x s)) back))]))) ->
           exists segs' ks', inv (wput x s (whist x) (wcells x) (Wthr (Run o (Rmw r' c' (Some (value (whist x) (pick (whist x) (wseen (wthr_of x s)) back))) f k))
              (pick (whist x) (wseen (wthr_of x s)) back)) [WAcc s (ARead r' (pick (whist x) (wseen (wthr_of x s)) back))]) segs' ks').
        { clear T Hr old r c. intros r c old T Hr.
          refine (insert x _ segs ks s (pick (whist x) (wseen (wthr_of x s)) back) (Step s true) none [] [(s, ARead r (pick (whist x) (wseen (wthr_of x s)) back))]
              I Pk eq_refl _ _ _ _ _ _ _ _ _ _ Hr); puts; auto; try discriminate; finish.
          - intros y W Hy Ty _. rewrite T in Ty. cbn [Spsc.step]. rewrite Ty. cbn [pstep orb].
            destruct old; puts; rewrite smem_put, thr_put_same, slog_put, hist_app, Hy; cbn; repeat split; auto; discriminate. }
        destruct old as [old|]; [|now apply (F _ _ _ T)].
        destruct (spur || negb (value (whist x) (pick (whist x) (wseen (wthr_of x s)) back) =? old)%N
          || negb (pick (whist x) (wseen (wthr_of x s)) back =? length (whist x) - 1)) eqn:B; [now apply (F _ _ _ T)|].
        apply orb_false_iff in B as (B & B2). apply orb_false_iff in B as (_ & B1).
        apply negb_false_iff, N.eqb_eq in B1. apply negb_false_iff, Nat.eqb_eq in B2. rewrite B2 in *. subst old.
        now apply append with segs ks r.
      + refine (insert x _ segs ks s (wseen (wthr_of x s)) (Step s true) (fun d => cell_eqb d c) [] [(s, ACell c true)] I _ eq_refl _ _ _ _ _ _ _ _ _ _ Hr);
          puts; auto; try discriminate; finish.
        * intros y W Hy Ty Hc. rewrite T in Ty. cbn [Spsc.step]. rewrite Ty. cbn [pstep]. rewrite smem_put, thr_put_same, slog_put, hist_app. puts. cbn.
          unfold upd. repeat split; auto; intros d Dd; rewrite Dd; auto.
        * intros d Dd. destruct (cell_eqb_spec d c); [subst; now rewrite T|discriminate].
        * intros d Dd. unfold upd. now rewrite Dd.
      + refine (insert x _ segs ks s (wseen (wthr_of x s)) (Step s true) (fun d => cell_eqb d c) [] [(s, ACell c true)] I _ eq_refl _ _ _ _ _ _ _ _ _ _ Hr);
          puts; auto; try discriminate; finish.
        * intros y W Hy Ty Hc. rewrite T in Ty, Hc. specialize (Hc c true eq_refl). cbn [Spsc.step]. rewrite Ty. cbn [pstep]. unfold take. cbn [touch cells]. rewrite Hc.
          destruct (wcells x c) as [w|] eqn:Ec; rewrite smem_put, thr_put_same, slog_put, hist_app; puts; cbn; unfold upd.
          -- repeat split; auto; intros d Dd; rewrite Dd; auto.
          -- repeat split; auto; intros d Dd; rewrite ?Dd; auto. destruct (cell_eqb_spec d c); congruence.
        * intros d Dd. destruct (cell_eqb_spec d c); [subst; now rewrite T|discriminate].
        * intros d Dd. unfold upd. now rewrite Dd.
      + refine (insert x _ segs ks s (wseen (wthr_of x s)) (Step s true) none [] [(s, ACell c false)] I _ eq_refl _ _ _ _ _ _ _ _ _ _ Hr);
          puts; auto; try discriminate; finish.
        * intros y W Hy Ty Hc. rewrite T in Ty, Hc. specialize (Hc c false eq_refl). cbn [Spsc.step]. rewrite Ty. cbn [pstep]. unfold peek. cbn [touch cells]. rewrite Hc.
          destruct (wcells x c) as [w|] eqn:Ec; rewrite smem_put, thr_put_same, slog_put, hist_app; puts; cbn; repeat split; auto; discriminate.
      + refine (insert x _ segs ks s (wseen (wthr_of x s)) (Step s true) none [EWake s w] [] I _ eq_refl _ _ _ _ _ _ _ _ _ _ Hr);
          puts; auto; try discriminate; finish.
        * intros y W Hy Ty _. rewrite T in Ty. cbn [Spsc.step]. rewrite Ty. cbn [pstep]. rewrite smem_put, thr_put_same, slog_put, hist_app. puts. cbn.
          repeat split; auto. discriminate.
      + refine (insert x _ segs ks s (wseen (wthr_of x s)) (Step s true) none [EDropW s w] [] I _ eq_refl _ _ _ _ _ _ _ _ _ _ Hr);
          puts; auto; try discriminate; finish.
        * intros y W Hy Ty _. rewrite T in Ty. cbn [Spsc.step]. rewrite Ty. cbn [pstep]. rewrite smem_put, thr_put_same, slog_put, hist_app. puts. cbn.
          repeat split; auto. discriminate.
      + refine (insert x _ segs ks s (wseen (wthr_of x s)) (Step s true) none [EDropV s w] [] I _ eq_refl _ _ _ _ _ _ _ _ _ _ Hr);
          puts; auto; try discriminate; finish.
        * intros y W Hy Ty _. rewrite T in Ty. cbn [Spsc.step]. rewrite Ty. cbn [pstep]. rewrite smem_put, thr_put_same, slog_put, hist_app. puts. cbn.
          repeat split; auto. discriminate.
      + refine (insert x _ segs ks s (wseen (wthr_of x s)) (Step s true) none [] [(s, AFree)] I _ eq_refl _ _ _ _ _ _ _ _ _ _ Hr);
          puts; auto; try discriminate; finish.
        * intros y W Hy Ty _. rewrite T in Ty. cbn [Spsc.step]. rewrite Ty. cbn [pstep]. rewrite smem_put, thr_put_same, slog_put, hist_app. puts. cbn.
          repeat split; auto. discriminate.
  Qed.

  Lemma inv0 : inv wsys0 [[]] [].
  Proof.
    constructor.
    - reflexivity.
    - exact Logic.I.
    - intros k L. cbn in L. assert (k = 0) as -> by lia. reflexivity.
    - now intros [].
    - now intros [].
    - reflexivity.
    - intros []; cbn; lia.
    - intros [|k] g e E H; [injection E as <-; contradiction|now destruct k].
    - intros [|k] g e c w E H; [injection E as <-; contradiction|now destruct k].
    - constructor; [reflexivity|intros [|i]; discriminate..].
    - intros [|i]; discriminate.
    - intros [|i]; discriminate.
  Qed.

  (** Executions on the weak memory that are free of races at every moment. *)
  Theorem weak_sc l : (forall n, ~ racing clash (accesses (wlog (wrun side_of consuming code (firstn n l))))) ->
    let x := wrun side_of consuming code l in
    exists sched, let y := run side_of consuming code true sys0 sched in
      (forall s, hist s (calls (wlog x)) = hist s (slog y)) /\ (forall s, wt (wthr_of x s) = thr_of y s) /\
      hd 0%N (whist x) = st (smem y) /\ forall c, wcells x c = cells (smem y) c.
  Proof.
    intros D x. assert (E : exists segs ks, inv x segs ks).
    { subst x. induction l as [|a l IH] using rev_ind; [exists [[]], []; apply inv0|].
      destruct IH as (segs & ks & I).
      { intros n. destruct (Nat.le_gt_cases n (length l)).
        - specialize (D n). rewrite firstn_app in D. replace (n - length l) with 0 in D by lia. cbn in D. now rewrite app_nil_r in D.
        - specialize (D (length l)). rewrite firstn_app, Nat.sub_diag, firstn_all in D. cbn in D. rewrite app_nil_r in D.
          now rewrite firstn_all2 by lia. }
      specialize (D (length (l ++ [a]))). rewrite firstn_all in D. unfold wrun in *. rewrite fold_left_app in *. cbn [fold_left] in *.
      eapply step_inv; eauto. }
    destruct E as (segs & ks & I). exists (map ea (concat segs)). cbv zeta. rewrite <- runE_run.
    split; [intros s; symmetry; apply (i_hist _ _ _ I)|]. split; [intros s; symmetry; apply (i_thr _ _ _ I)|].
    split; [|intros c; symmetry; apply (i_cell _ _ _ I)].
    pose proof (i_lt _ _ _ I TX) as L. pose proof (i_len _ _ _ I) as Ln.
    rewrite <- (firstn_all segs). replace (length segs) with (S (length (whist x) - 1)) by lia.
    rewrite (i_st _ _ _ I) by lia. symmetry. apply value_latest.
  Qed.
End SC.
