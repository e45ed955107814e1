(** Proof method for [Spsc]: a shared invariant [J] over memory, an observer of the
    history, and the private ghost state of each half.  Each half's programs are
    verified against the invariant alone, so that every interleaving is covered. *)
Require Import NArith List Bool Lia.
Require Import Verif.Spsc.
Import ListNotations.
Open Scope N_scope.

Section WP.
  Context {O R G H B : Type}.
  Variable sd : side.
  Variable consuming : O -> bool.
  Variable bstep : B -> ev O R -> B.
  Variable J : mem -> B -> G -> H -> Prop.
  Variable idle : bool -> G -> Prop.

  Fixpoint wp (o : O) (p : prog R) (g : G) : Prop :=
    match p with
    | Done r => forall m b h, J m b g h ->
        exists g', J m (bstep b (ERet o r)) g' h /\ idle (consuming o) g'
    | Load _ k => forall m b h, J m b g h -> exists g', J (touch m) b g' h /\ wp o (k (st m)) g'
    | Rmw _ _ _ f k =>
        (forall m b h, J m b g h -> J (touch m) b g h) /\
        (forall m b h, J m b g h ->
           exists g', J (set_st (touch m) (f (st m))) (bstep b (ESync sd)) g' h /\ wp o (k (st m)) g')
    | Write c v k => forall m b h, J m b g h -> exists g', J (write m c v) b g' h /\ wp o k g'
    | Take c k => forall m b h, J m b g h ->
        exists g', J (fst (take m c)) b g' h /\ wp o (k (snd (take m c))) g'
    | Peek c k => forall m b h, J m b g h ->
        exists g', J (fst (peek m c)) b g' h /\ wp o (k (snd (peek m c))) g'
    | Wake w k => forall m b h, J m b g h ->
        exists g', J m (bstep b (EWake sd w)) g' h /\ wp o k g'
    | DropW w k => forall m b h, J m b g h ->
        exists g', J m (bstep b (EDropW sd w)) g' h /\ wp o k g'
    | DropV v k => forall m b h, J m b g h ->
        exists g', J m (bstep b (EDropV sd v)) g' h /\ wp o k g'
    | Free k => forall m b h, J m b g h -> exists g', J (free m) b g' h /\ wp o k g'
    end.

  Definition thr_ok (t : thr O R) (g : G) : Prop :=
    match t with
    | Idle => idle false g
    | Gone => idle true g
    | Run o p => wp o p g
    end.

  Lemma pstep_ok at_ o p m b g h spur :
    (forall b, bstep b (EAcc sd) = b) ->
    J m b g h -> wp o p g ->
    forall m' e t, pstep consuming at_ sd o p m spur = (m', e, t) ->
    exists g', J m' (fold_left bstep e b) g' h /\ thr_ok t g'.
  Proof.
    intros Ha Hj Hw m' e t E. destruct p; cbn [wp pstep] in *.
    - injection E as <- <- <-. destruct (Hw _ _ _ Hj) as (g' & H1 & H2).
      exists g'. split; [exact H1|]. destruct (consuming o); exact H2.
    - injection E as <- <- <-. destruct (Hw _ _ _ Hj) as (g' & H1 & H2). exists g'. split; [cbn [fold_left]; rewrite ?Ha|]; assumption.
    - destruct Hw as [Ht Hw].
      destruct at_.
      + destruct old as [old|].
        * destruct (spur || negb (st m =? old)) eqn:Es.
          -- injection E as <- <- <-. exists g. split; [cbn [fold_left]; rewrite Ha; exact (Ht _ _ _ Hj)|]. cbn. split; [cbn [fold_left]; rewrite ?Ha|]; assumption.
          -- injection E as <- <- <-. apply orb_false_iff in Es as [_ Es].
             apply negb_false_iff, N.eqb_eq in Es. subst old.
             destruct (Hw _ _ _ Hj) as (g' & H1 & H2). exists g'. split; assumption.
        * injection E as <- <- <-. exists g. split; [cbn [fold_left]; rewrite Ha; exact (Ht _ _ _ Hj)|]. cbn. split; [cbn [fold_left]; rewrite ?Ha|]; assumption.
      + injection E as <- <- <-. destruct (Hw _ _ _ Hj) as (g' & H1 & H2). exists g'. split; [cbn [fold_left]; rewrite ?Ha|]; assumption.
    - injection E as <- <- <-. destruct (Hw _ _ _ Hj) as (g' & H1 & H2). exists g'. split; [cbn [fold_left]; rewrite ?Ha|]; assumption.
    - destruct (Hw _ _ _ Hj) as (g' & H1 & H2). destruct (take m c) as [m1 v]. injection E as <- <- <-.
      exists g'. split; [cbn [fold_left]; rewrite ?Ha|]; assumption.
    - destruct (Hw _ _ _ Hj) as (g' & H1 & H2). destruct (peek m c) as [m1 v]. injection E as <- <- <-.
      exists g'. split; [cbn [fold_left]; rewrite ?Ha|]; assumption.
    - injection E as <- <- <-. destruct (Hw _ _ _ Hj) as (g' & H1 & H2). exists g'. split; [cbn [fold_left]; rewrite ?Ha|]; assumption.
    - injection E as <- <- <-. destruct (Hw _ _ _ Hj) as (g' & H1 & H2). exists g'. split; [cbn [fold_left]; rewrite ?Ha|]; assumption.
    - injection E as <- <- <-. destruct (Hw _ _ _ Hj) as (g' & H1 & H2). exists g'. split; [cbn [fold_left]; rewrite ?Ha|]; assumption.
    - injection E as <- <- <-. destruct (Hw _ _ _ Hj) as (g' & H1 & H2). exists g'. split; [cbn [fold_left]; rewrite ?Ha|]; assumption.
  Qed.
End WP.

Section Sound.
  Context {O R TG RG B : Type}.
  Variable side_of : O -> side.
  Variable consuming : O -> bool.
  Variable code : O -> prog R.
  Variable at_ : bool.
  Variable b0 : B.
  Variable bstep : B -> ev O R -> B.
  Variable J : mem -> B -> TG -> RG -> Prop.
  Variable tidle : bool -> TG -> Prop.
  Variable ridle : bool -> RG -> Prop.

  Let J' := fun m b h g => J m b g h.
  Let wpt := wp TX consuming bstep J tidle.
  Let wpr := wp RX consuming bstep J' ridle.

  Definition sys_ok (x : sys O R) : Prop :=
    exists g h, J (smem x) (fold_left bstep (slog x) b0) g h /\
      thr_ok TX consuming bstep J tidle (stx x) g /\
      thr_ok RX consuming bstep J' ridle (srx x) h.

  Variable g0 : TG.
  Variable h0 : RG.
  Hypothesis Hacc : forall b s, bstep b (EAcc s) = b.
  Hypothesis J0 : J mem0 b0 g0 h0.
  Hypothesis t0 : tidle false g0.
  Hypothesis r0 : ridle false h0.
  Hypothesis callt : forall o, side_of o = TX -> forall m b g h, J m b g h -> tidle false g ->
    exists g', J m (bstep b (EInv o)) g' h /\ wpt o (code o) g'.
  Hypothesis callr : forall o, side_of o = RX -> forall m b g h, J m b g h -> ridle false h ->
    exists h', J m (bstep b (EInv o)) g h' /\ wpr o (code o) h'.

  Lemma sys_ok_step x a : sys_ok x -> sys_ok (step side_of consuming code at_ x a).
  Proof.
    intros (g & h & Hj & Ht & Hr). destruct a as [o|s spur]; cbn [step].
    - destruct (side_of o) eqn:Es; cbn [thr_of].
      + destruct (stx x) eqn:Et; try (exists g, h; rewrite Et; auto; fail).
        destruct (callt o Es _ _ _ _ Hj Ht) as (g' & H1 & H2).
        exists g', h. cbn [put smem stx srx slog]. rewrite fold_left_app. cbn [fold_left].
        split; [exact H1|]. split; [exact H2|exact Hr].
      + destruct (srx x) eqn:Et; try (exists g, h; rewrite Et; auto; fail).
        destruct (callr o Es _ _ _ _ Hj Hr) as (h' & H1 & H2).
        exists g, h'. cbn [put smem stx srx slog]. rewrite fold_left_app. cbn [fold_left].
        split; [exact H1|]. split; [exact Ht|exact H2].
    - destruct s; cbn [thr_of].
      + destruct (stx x) eqn:Et; try (exists g, h; rewrite Et; auto; fail).
        destruct (pstep consuming at_ TX o p (smem x) spur) as [[m e] t] eqn:E.
        destruct (pstep_ok TX consuming bstep J tidle at_ o p _ _ g h spur (fun b => Hacc b _) Hj Ht _ _ _ E) as (g' & H1 & H2).
        exists g', h. cbn [put smem stx srx slog]. rewrite fold_left_app. auto.
      + destruct (srx x) eqn:Et; try (exists g, h; rewrite Et; auto; fail).
        destruct (pstep consuming at_ RX o p (smem x) spur) as [[m e] t] eqn:E.
        destruct (pstep_ok RX consuming bstep J' ridle at_ o p (smem x) (fold_left bstep (slog x) b0) h g spur (fun b => Hacc b _) Hj Hr _ _ _ E)
          as (h' & H1 & H2).
        exists g, h'. cbn [put smem stx srx slog]. rewrite fold_left_app. auto.
  Qed.

  Theorem sys_ok_run sched : sys_ok (run side_of consuming code at_ sys0 sched).
  Proof.
    assert (forall l x, sys_ok x -> sys_ok (run side_of consuming code at_ x l)) as K.
    { induction l as [|a r IH]; intros x Hx; cbn [run]; auto. apply IH, sys_ok_step, Hx. }
    apply K. exists g0, h0. cbn. auto.
  Qed.
End Sound.
