(** Proof method for [Spsc], second version.  As in [SpscProofs], each half's programs
    are verified against a shared invariant [J]; in addition
    - only histories whose observer satisfies [ok] are considered ([ok] never becomes
      true again once it is false);
    - observers may react to every access ([EAcc]);
    - [safe] is checked at every access, so that several invariants, each about a part
      of the memory, can be verified separately and combined. *)
Require Import NArith List Bool Lia.
Require Import Verif.Spsc.
Import ListNotations.
Open Scope N_scope.

Inductive acc := AWord | AWrite (c : cell) | ATake (c : cell) | APeek (c : cell) | AFree.

Definition access {R} (p : prog R) : option acc :=
  match p with
  | Load _ _ | Rmw _ _ _ _ _ => Some AWord
  | Write c _ _ => Some (AWrite c)
  | Take c _ => Some (ATake c)
  | Peek c _ => Some (APeek c)
  | Free _ => Some AFree
  | _ => None
  end.

(** An access that is not an error. *)
Definition fine (m : mem) (a : acc) : Prop :=
  freed m = false /\
  match a with
  | AWrite c => cells m c = None
  | ATake c | APeek c => cells m c <> None
  | _ => True
  end.

Section WP.
  Context {O R G H B : Type}.
  Variable sd : side.
  Variable consuming : O -> bool.
  Variable bstep : B -> ev O R -> B.
  Variable ok : B -> bool.
  Variable safe : mem -> acc -> Prop.
  Variable J : mem -> B -> G -> H -> Prop.
  Variable idle : bool -> G -> Prop.

  (** One event. *)
  Definition nxt (b : B) (e : ev O R) (P : B -> Prop) : Prop := ok (bstep b e) = true -> P (bstep b e).

  Fixpoint wp (o : O) (p : prog R) (g : G) : Prop :=
    match p with
    | Done r => forall m b h, J m b g h ->
        nxt b (ERet o r) (fun b => exists g', J m b g' h /\ idle (consuming o) g')
    | Load _ k => forall m b h, J m b g h ->
        safe m AWord /\ nxt b (EAcc sd) (fun b => exists g', J (touch m) b g' h /\ wp o (k (st m)) g')
    | Rmw _ _ _ f k =>
        (forall m b h, J m b g h ->
           safe m AWord /\ nxt b (EAcc sd) (fun b => J (touch m) b g h)) /\
        (forall m b h, J m b g h ->
           nxt b (ESync sd) (fun b =>
             exists g', J (set_st (touch m) (f (st m))) b g' h /\ wp o (k (st m)) g'))
    | Write c v k => forall m b h, J m b g h ->
        safe m (AWrite c) /\ nxt b (EAcc sd) (fun b => exists g', J (write m c v) b g' h /\ wp o k g')
    | Take c k => forall m b h, J m b g h ->
        safe m (ATake c) /\
        nxt b (EAcc sd) (fun b => exists g', J (fst (take m c)) b g' h /\ wp o (k (snd (take m c))) g')
    | Peek c k => forall m b h, J m b g h ->
        safe m (APeek c) /\
        nxt b (EAcc sd) (fun b => exists g', J (fst (peek m c)) b g' h /\ wp o (k (snd (peek m c))) g')
    | Wake w k => forall m b h, J m b g h ->
        nxt b (EWake sd w) (fun b => exists g', J m b g' h /\ wp o k g')
    | DropW w k => forall m b h, J m b g h ->
        nxt b (EDropW sd w) (fun b => exists g', J m b g' h /\ wp o k g')
    | DropV v k => forall m b h, J m b g h ->
        nxt b (EDropV sd v) (fun b => exists g', J m b g' h /\ wp o k g')
    | Free k => forall m b h, J m b g h ->
        safe m AFree /\ exists g', J (free m) b g' h /\ wp o k g'
    end.

  Definition thr_ok (t : thr O R) (g : G) : Prop :=
    match t with
    | Idle => idle false g
    | Gone => idle true g
    | Run o p => wp o p g
    end.

  Lemma pstep_ok at_ o p m b g h spur :
    J m b g h -> wp o p g ->
    forall m' e t, pstep consuming at_ sd o p m spur = (m', e, t) ->
    ok (fold_left bstep e b) = true ->
    exists g', J m' (fold_left bstep e b) g' h /\ thr_ok t g'.
  Proof.
    intros Hj Hw m' e t E Ok. destruct p; cbn [wp pstep] in *; unfold nxt in *.
    - injection E as <- <- <-. destruct (Hw _ _ _ Hj Ok) as (g' & H1 & H2).
      exists g'. split; [exact H1|]. destruct (consuming o); exact H2.
    - injection E as <- <- <-. destruct (proj2 (Hw _ _ _ Hj) Ok) as (g' & H1 & H2). now exists g'.
    - destruct Hw as [Ht Hw].
      destruct at_.
      + destruct old as [old|].
        * destruct (spur || negb (st m =? old)) eqn:Es.
          -- injection E as <- <- <-. exists g. split; [exact (proj2 (Ht _ _ _ Hj) Ok)|]. cbn. now split.
          -- injection E as <- <- <-. apply orb_false_iff in Es as [_ Es].
             apply negb_false_iff, N.eqb_eq in Es. subst old.
             destruct (Hw _ _ _ Hj Ok) as (g' & H1 & H2). exists g'. split; assumption.
        * injection E as <- <- <-. exists g. split; [exact (proj2 (Ht _ _ _ Hj) Ok)|]. cbn. now split.
      + injection E as <- <- <-. destruct (Hw _ _ _ Hj Ok) as (g' & H1 & H2). now exists g'.
    - injection E as <- <- <-. destruct (proj2 (Hw _ _ _ Hj) Ok) as (g' & H1 & H2). now exists g'.
    - pose proof (proj2 (Hw _ _ _ Hj)) as K. destruct (take m c) as [m1 v]. injection E as <- <- <-.
      destruct (K Ok) as (g' & H1 & H2). now exists g'.
    - pose proof (proj2 (Hw _ _ _ Hj)) as K. destruct (peek m c) as [m1 v]. injection E as <- <- <-.
      destruct (K Ok) as (g' & H1 & H2). now exists g'.
    - injection E as <- <- <-. destruct (Hw _ _ _ Hj Ok) as (g' & H1 & H2). now exists g'.
    - injection E as <- <- <-. destruct (Hw _ _ _ Hj Ok) as (g' & H1 & H2). now exists g'.
    - injection E as <- <- <-. destruct (Hw _ _ _ Hj Ok) as (g' & H1 & H2). now exists g'.
    - injection E as <- <- <-. destruct (Hw _ _ _ Hj) as (_ & g' & H1 & H2). now exists g'.
  Qed.

  Lemma pstep_safe o p m b g h a : J m b g h -> wp o p g -> access p = Some a -> safe m a.
  Proof.
    intros Hj Hw E. destruct p; cbn [wp access] in *; try discriminate; injection E as <-;
      first [now destruct (Hw _ _ _ Hj)|destruct Hw as [Hw _]; now destruct (Hw _ _ _ Hj)].
  Qed.
End WP.

Section Sound.
  Context {O R TG RG B : Type}.
  Variable side_of : O -> side.
  Variable consuming : O -> bool.
  Variable code : O -> prog R.
  Variable at_ : bool.
  Variable b0 : B.
  Variable bstep : B -> ev O R -> B.
  Variable ok : B -> bool.
  Variable safe : mem -> acc -> Prop.
  Variable J : mem -> B -> TG -> RG -> Prop.
  Variable tidle : bool -> TG -> Prop.
  Variable ridle : bool -> RG -> Prop.

  Let J' := fun m b h g => J m b g h.
  Let wpt := wp TX consuming bstep ok safe J tidle.
  Let wpr := wp RX consuming bstep ok safe J' ridle.

  Definition sys_ok (x : sys O R) : Prop :=
    ok (fold_left bstep (slog x) b0) = true ->
    exists g h, J (smem x) (fold_left bstep (slog x) b0) g h /\
      thr_ok TX consuming bstep ok safe J tidle (stx x) g /\
      thr_ok RX consuming bstep ok safe J' ridle (srx x) h.

  Variable g0 : TG.
  Variable h0 : RG.
  Hypothesis sticky : forall b e, ok (bstep b e) = true -> ok b = true.
  Hypothesis J0 : J mem0 b0 g0 h0.
  Hypothesis t0 : tidle false g0.
  Hypothesis r0 : ridle false h0.
  Hypothesis callt : forall o, side_of o = TX -> forall m b g h, J m b g h -> tidle false g ->
    nxt bstep ok b (EInv o) (fun b => exists g', J m b g' h /\ wpt o (code o) g').
  Hypothesis callr : forall o, side_of o = RX -> forall m b g h, J m b g h -> ridle false h ->
    nxt bstep ok b (EInv o) (fun b => exists h', J m b g h' /\ wpr o (code o) h').

  Lemma sticky_fold l : forall b, ok (fold_left bstep l b) = true -> ok b = true.
  Proof. induction l as [|e r IH]; cbn; intros b E; [exact E|]. exact (sticky _ _ (IH _ E)). Qed.

  Lemma sys_ok_step x a : sys_ok x -> sys_ok (step side_of consuming code at_ x a).
  Proof.
    intros Hx. destruct a as [o|s spur]; cbn [step].
    - destruct (side_of o) eqn:Es; cbn [thr_of].
      + destruct (stx x) eqn:Et; try exact Hx.
        intros Ok. cbn [put smem stx srx slog] in *. rewrite fold_left_app in *. cbn [fold_left] in *.
        destruct (Hx (sticky _ _ Ok)) as (g & h & Hj & Ht & Hr). rewrite Et in Ht.
        destruct (callt o Es _ _ _ _ Hj Ht Ok) as (g' & H1 & H2).
        exists g', h. split; [exact H1|]. split; [exact H2|exact Hr].
      + destruct (srx x) eqn:Et; try exact Hx.
        intros Ok. cbn [put smem stx srx slog] in *. rewrite fold_left_app in *. cbn [fold_left] in *.
        destruct (Hx (sticky _ _ Ok)) as (g & h & Hj & Ht & Hr). rewrite Et in Hr.
        destruct (callr o Es _ _ _ _ Hj Hr Ok) as (h' & H1 & H2).
        exists g, h'. split; [exact H1|]. split; [exact Ht|exact H2].
    - destruct s; cbn [thr_of].
      + destruct (stx x) eqn:Et; try exact Hx.
        destruct (pstep consuming at_ TX o p (smem x) spur) as [[m e] t] eqn:E.
        intros Ok. cbn [put smem stx srx slog] in *. rewrite fold_left_app in *.
        destruct (Hx (sticky_fold _ _ Ok)) as (g & h & Hj & Ht & Hr). rewrite Et in Ht.
        destruct (pstep_ok TX consuming bstep ok safe J tidle at_ o p _ _ g h spur Hj Ht _ _ _ E Ok) as (g' & H1 & H2).
        exists g', h. auto.
      + destruct (srx x) eqn:Et; try exact Hx.
        destruct (pstep consuming at_ RX o p (smem x) spur) as [[m e] t] eqn:E.
        intros Ok. cbn [put smem stx srx slog] in *. rewrite fold_left_app in *.
        destruct (Hx (sticky_fold _ _ Ok)) as (g & h & Hj & Ht & Hr). rewrite Et in Hr.
        destruct (pstep_ok RX consuming bstep ok safe J' ridle at_ o p (smem x) (fold_left bstep (slog x) b0) h g spur Hj Hr _ _ _ E Ok)
          as (h' & H1 & H2).
        exists g, h'. auto.
  Qed.

  Theorem sys_ok_run sched : sys_ok (run side_of consuming code at_ sys0 sched).
  Proof.
    assert (forall l x, sys_ok x -> sys_ok (run side_of consuming code at_ x l)) as K.
    { induction l as [|a r IH]; intros x Hx; cbn [run]; auto. apply IH, sys_ok_step, Hx. }
    apply K. intros _. exists g0, h0. cbn. auto.
  Qed.

  (** The next access of side [s]. *)
  Lemma sys_ok_safe x s o p a :
    sys_ok x -> ok (fold_left bstep (slog x) b0) = true ->
    thr_of x s = Run o p -> access p = Some a -> safe (smem x) a.
  Proof.
    intros Hx Ok Et Ea. destruct (Hx Ok) as (g & h & Hj & Ht & Hr). destruct s; cbn [thr_of] in Et.
    - rewrite Et in Ht. exact (pstep_safe _ _ _ _ _ _ _ _ _ _ _ _ _ _ Hj Ht Ea).
    - rewrite Et in Hr.
      exact (pstep_safe RX consuming bstep ok safe J' ridle o p (smem x) _ h g a Hj Hr Ea).
  Qed.
End Sound.

(** If every access is fine then no error is ever recorded. *)
Section Fine.
  Context {O R : Type}.
  Variable side_of : O -> side.
  Variable consuming : O -> bool.
  Variable code : O -> prog R.
  Variable at_ : bool.

  Lemma run_app l1 : forall l2 x,
    run side_of consuming code at_ x (l1 ++ l2) =
    run side_of consuming code at_ (run side_of consuming code at_ x l1) l2.
  Proof. induction l1 as [|a r IH]; intros; cbn; auto. Qed.

  Lemma fine_step x a :
    (forall s o p c, thr_of x s = Run o p -> access p = Some c -> fine (smem x) c) ->
    uaf (smem x) = false -> bad (smem x) = false ->
    uaf (smem (step side_of consuming code at_ x a)) = false /\
    bad (smem (step side_of consuming code at_ x a)) = false.
  Proof.
    intros Hf Hu Hb. destruct a as [o|s spur]; cbn [step].
    - destruct (side_of o); cbn [thr_of]; [destruct (stx x)|destruct (srx x)]; cbn; auto.
    - destruct (thr_of x s) as [|o p|] eqn:Et; auto.
      specialize (Hf s o p).
      assert (forall c, access p = Some c -> fine (smem x) c) as K by (intros c; now apply Hf).
      assert (forall m e t, pstep consuming at_ s o p (smem x) spur = (m, e, t) ->
                uaf m = false /\ bad m = false) as P.
      { intros m e t E. destruct p; cbn in *;
          try (specialize (K _ eq_refl); destruct K as [K1 K2]); cbn in *.
        - injection E as <- <- <-. auto.
        - injection E as <- <- <-. cbn. rewrite Hu, K1. auto.
        - destruct at_; [destruct old as [old|]; [destruct (spur || negb (st (smem x) =? old))|]|];
            injection E as <- <- <-; cbn; rewrite Hu, K1; auto.
        - injection E as <- <- <-. cbn. rewrite Hu, K1, Hb, K2. auto.
        - unfold take in E. cbn in E. destruct (cells (smem x) c); [|congruence].
          injection E as <- <- <-. cbn. rewrite Hu, K1. auto.
        - unfold peek in E. cbn in E. destruct (cells (smem x) c); [|congruence].
          injection E as <- <- <-. cbn. rewrite Hu, K1. auto.
        - injection E as <- <- <-. auto.
        - injection E as <- <- <-. auto.
        - injection E as <- <- <-. auto.
        - injection E as <- <- <-. cbn. rewrite Hb, K1. auto. }
      destruct (pstep consuming at_ s o p (smem x) spur) as [[m e] t] eqn:E.
      specialize (P _ _ _ eq_refl). destruct s; cbn; exact P.
  Qed.

  Lemma log_step x a : exists e, slog (step side_of consuming code at_ x a) = slog x ++ e.
  Proof.
    destruct a as [o|s spur]; cbn [step].
    - destruct (thr_of x (side_of o)); try (exists []; now rewrite app_nil_r).
      exists [EInv o]. now destruct (side_of o).
    - destruct (thr_of x s) as [|o p|]; try (exists []; now rewrite app_nil_r).
      destruct (pstep consuming at_ s o p (smem x) spur) as [[m e] t]. exists e. now destruct s.
  Qed.

  (** [P] is a property of histories kept by prefixes. *)
  Variable P : list (ev O R) -> Prop.
  Hypothesis Pre : forall l e, P (l ++ e) -> P l.
  Hypothesis all_fine : forall sched, let x := run side_of consuming code at_ sys0 sched in
    P (slog x) -> forall s o p c, thr_of x s = Run o p -> access p = Some c -> fine (smem x) c.

  Theorem fine_run sched : let x := run side_of consuming code at_ sys0 sched in
    P (slog x) -> uaf (smem x) = false /\ bad (smem x) = false.
  Proof.
    induction sched as [|a l IH] using rev_ind; cbn zeta in *; [auto|].
    rewrite run_app. cbn [run]. intros HP.
    destruct (log_step (run side_of consuming code at_ sys0 l) a) as [e E]. rewrite E in HP.
    pose proof (Pre _ _ HP) as HP'. destruct (IH HP') as [Hu Hb].
    apply fine_step; auto. exact (all_fine l HP').
  Qed.
End Fine.
