(** Proof method for [Fiber]: one turn of a generator is verified against all histories
    in which the other half's events appear anywhere. *)
Require Import PeanoNat NArith List Bool Lia.
Require Import Verif.Spsc Verif.Fiber Verif.FiberSpec Verif.RingMain.
Import ListNotations.

Lemma channel_app {O R Y C} (a b : list (fev O R Y C)) : channel (a ++ b) = channel a ++ channel b.
Proof. apply flat_map_app. Qed.
Lemma channel_map {O R Y C} (l : list (ev O R)) : channel (map (@FCh O R Y C) l) = l.
Proof. induction l as [|e l IH]; [reflexivity|]. unfold channel in *. cbn. now rewrite IH. Qed.

Section Logic.
  Context {O R Y C : Type}.
  Variable side_of : O -> side.
  Variable consuming : O -> bool.
  Variable code : O -> prog R.
  Variable at_ : bool.
  Variable api : O -> bool.
  Variable body : gtree O R Y C.
  Notation log := (list (fev O R Y C)).
  Notation frun_ := (frun side_of consuming code at_ api body fst0).
  Notation run_ := (run side_of consuming code at_ sys0).
  Notation step_ := (step side_of consuming code at_).
  Notation fstep_ := (fstep side_of consuming code at_ api body).

  (** Events other than calls and returns of the sending half. *)
  Definition quiet (e : fev O R Y C) : Prop :=
    match e with
    | FCh (EInv o) | FCh (ERet o _) => side_of o = RX /\ api o = true
    | FCh _ => True
    | _ => False
    end.

  Variable good : list (ev O R) -> mem -> Prop.
  Variable K : list (ev O R) -> Prop.
  Variable ok psus pend : log -> Prop.

  Hypothesis good_pre : forall x a, good (slog (step_ x a)) (smem (step_ x a)) -> good (slog x) (smem x).
  Hypothesis known : forall sched, let x := run_ sched in good (slog x) (smem x) -> K (slog x).
  Hypothesis ok_quiet : forall l e, quiet e -> ok l -> K (channel (l ++ [e])) -> ok (l ++ [e]).
  Hypothesis psus_quiet : forall l e, quiet e -> ok l -> psus l -> psus (l ++ [e]).
  Hypothesis pend_quiet : forall l e, quiet e -> ok l -> pend l -> pend (l ++ [e]).

  Fixpoint gwp (t : gtree O R Y C) (l : log) : Prop :=
    ok l /\
    match t with
    | GCall o k => side_of o = TX /\ forall q, Forall quiet q ->
        (ok (l ++ q) -> ok (l ++ q ++ [FCh (EInv o)])) /\
        forall q' r, Forall quiet q' -> ok (l ++ q ++ FCh (EInv o) :: q') ->
          K (channel (l ++ q ++ FCh (EInv o) :: q' ++ [FCh (ERet o r)])) ->
          gwp (k r) (l ++ q ++ FCh (EInv o) :: q' ++ [FCh (ERet o r)])
    | GResume k => forall q, Forall quiet q ->
        (ok (l ++ q) -> ok (l ++ q ++ [FResume])) /\
        forall q' o, Forall quiet q' -> ok (l ++ q ++ FResume :: q') -> gwp (k o) (l ++ q ++ FResume :: q' ++ [FOut o])
    | GOver v k => forall q, Forall quiet q ->
        (ok (l ++ q) -> ok (l ++ q ++ [FOver v])) /\
        forall q' o, Forall quiet q' -> ok (l ++ q ++ FOver v :: q') -> gwp (k o) (l ++ q ++ FOver v :: q' ++ [FOverRet o])
    | GYield => forall q, Forall quiet q -> ok (l ++ q) -> ok (l ++ q ++ [FYield]) /\ psus (l ++ q ++ [FYield])
    | GEnd => forall q, Forall quiet q -> ok (l ++ q) -> ok (l ++ q ++ [FEnd]) /\ pend (l ++ q ++ [FEnd])
    end.

  Lemma gwp_ok t l : gwp t l -> ok l.
  Proof. destruct t; cbn; tauto. Qed.

  Lemma gwp_quiet t l e : quiet e -> K (channel (l ++ [e])) -> gwp t l -> gwp t (l ++ [e]).
  Proof.
    intros Q Hk G. pose proof (gwp_ok _ _ G) as Ho.
    assert (ok (l ++ [e])) as Ho' by auto.
    destruct t; cbn [gwp] in *; destruct G as [_ G]; (split; [exact Ho'|]).
    - destruct G as [Es G]. split; [exact Es|]. intros q Hq. specialize (G (e :: q) (Forall_cons _ Q Hq)).
      rewrite <- !app_assoc. cbn [app]. destruct G as [G1 G2]. split; [exact G1|].
      intros q' r Hq'. specialize (G2 q' r Hq'). rewrite <- !app_assoc. exact G2.
    - intros q Hq. specialize (G (e :: q) (Forall_cons _ Q Hq)).
      rewrite <- !app_assoc. cbn [app]. destruct G as [G1 G2]. split; [exact G1|].
      intros q' r Hq'. specialize (G2 q' r Hq'). rewrite <- !app_assoc. exact G2.
    - intros q Hq. specialize (G (e :: q) (Forall_cons _ Q Hq)).
      rewrite <- !app_assoc. cbn [app]. destruct G as [G1 G2]. split; [exact G1|].
      intros q' r Hq'. specialize (G2 q' r Hq'). rewrite <- !app_assoc. exact G2.
    - intros q Hq. rewrite <- !app_assoc. exact (G (e :: q) (Forall_cons _ Q Hq)).
    - intros q Hq. rewrite <- !app_assoc. exact (G (e :: q) (Forall_cons _ Q Hq)).
  Qed.

  Hypothesis ok0 : ok [].
  Hypothesis psus0 : psus [].
  Hypothesis turn : forall l, ok l -> psus l -> ok (l ++ [FRun]) /\ gwp body (l ++ [FRun]).

  Definition fine (s : fst_ O R Y C) : Prop :=
    let l := flog s in ok l /\
    match fgen s with
    | Susp => psus l /\ (stx (fch s) = Idle \/ stx (fch s) = Gone)
    | At t => gwp t l /\ (stx (fch s) = Idle \/ stx (fch s) = Gone)
    | InCall k =>
        match stx (fch s) with
        | Run o _ => side_of o = TX /\ exists l0 q', l = l0 ++ FCh (EInv o) :: q' /\ Forall quiet q' /\
          forall q r, Forall quiet q -> ok (l0 ++ FCh (EInv o) :: q) ->
            K (channel (l0 ++ FCh (EInv o) :: q ++ [FCh (ERet o r)])) ->
            gwp (k r) (l0 ++ FCh (EInv o) :: q ++ [FCh (ERet o r)])
        | _ => True
        end
    | InFib k => (stx (fch s) = Idle \/ stx (fch s) = Gone) /\ exists l0 q', l = l0 ++ FResume :: q' /\ Forall quiet q' /\
        forall q o, Forall quiet q -> ok (l0 ++ FResume :: q) -> gwp (k o) (l0 ++ FResume :: q ++ [FOut o])
    | InOver k => (stx (fch s) = Idle \/ stx (fch s) = Gone) /\ exists l0 v q', l = l0 ++ FOver v :: q' /\ Forall quiet q' /\
        forall q o, Forall quiet q -> ok (l0 ++ FOver v :: q) -> gwp (k o) (l0 ++ FOver v :: q ++ [FOverRet o])
    | Ended => pend l /\ (stx (fch s) = Idle \/ stx (fch s) = Gone)
    end.

  (** The channel part. *)
  Lemma chan_log (s : fst_ O R Y C) a g : channel (flog s) = slog (fch s) ->
    channel (flog (chan side_of consuming code at_ s a g)) = slog (fch (chan side_of consuming code at_ s a g)).
  Proof.
    intros E. unfold chan. cbn [flog fch]. rewrite channel_app, channel_map, E.
    destruct (one_event side_of consuming code at_ (fch s) a) as [->|[e ->]].
    - now rewrite skipn_all, app_nil_r.
    - now rewrite skipn_app, skipn_all, Nat.sub_diag.
  Qed.
  Lemma tell_log (s : fst_ O R Y C) e g : (match e with FCh _ => False | _ => True end) -> channel (flog s) = slog (fch s) ->
    channel (flog (tell s e g)) = slog (fch (tell s e g)).
  Proof. intros He E. cbn [tell flog fch]. rewrite channel_app, E. destruct e; try contradiction; cbn; now rewrite app_nil_r. Qed.

  Lemma fstep_log (s : fst_ O R Y C) a : channel (flog s) = slog (fch s) -> channel (flog (fstep_ s a)) = slog (fch (fstep_ s a)).
  Proof.
    intros E. destruct a, (fgen s) as [|[]| | | |] eqn:Eg; cbn [fstep]; rewrite ?Eg; auto;
      try (apply tell_log; [exact I|exact E]); try (apply chan_log; exact E).
    all: try (destruct (side_of o) eqn:Es; auto; destruct (api o); auto; apply chan_log; exact E).
    all: try (destruct (stx (fch s)) as [|? []|]; auto; apply chan_log; exact E).
  Qed.
  Lemma fstep_run (s : fst_ O R Y C) a : (exists sc, fch s = run_ sc) -> exists sc, fch (fstep_ s a) = run_ sc.
  Proof.
    intros [sc E].
    assert (forall b, exists sc, step_ (fch s) b = run_ sc) as A.
    { intros b. exists (sc ++ [b]). rewrite E. generalize (@sys0 O R) as x. clear E. induction sc as [|c sc IH]; intros x; cbn [run app]; [reflexivity|apply IH]. }
    destruct a, (fgen s) as [|[]| | | |] eqn:Eg; cbn [fstep]; rewrite ?Eg; eauto; try (cbn [chan fch]; apply A).
    all: try (destruct (side_of o) eqn:Es; eauto; destruct (api o); eauto; cbn [chan fch]; apply A).
    all: try (destruct (stx (fch s)) as [|? []|]; eauto; cbn [chan fch]; apply A).
  Qed.

  Definition rx_ok (x : sys O R) : Prop := match srx x with Run o _ => side_of o = RX /\ api o = true | _ => True end.

  (** One step of the receiving half. *)
  Lemma rx_event x a : rx_ok x -> (match a with Call o => side_of o = RX /\ api o = true | Step s _ => s = RX end) ->
    rx_ok (step_ x a) /\ stx (step_ x a) = stx x /\
    exists e, slog (step_ x a) = slog x ++ e /\ Forall quiet (map FCh e) /\ (length e <= 1)%nat.
  Proof.
    intros Hr Ha. destruct a as [o|s spur]; cbn [step].
    - destruct Ha as [Ha Hb]. rewrite Ha. cbn [thr_of]. destruct (srx x) eqn:E.
      + cbn. unfold rx_ok. cbn. repeat split; auto. exists [EInv o]. cbn. repeat split; auto. constructor; cbn; auto.
      + repeat split; auto. exists []. rewrite app_nil_r. repeat split; cbn; auto.
      + repeat split; auto. exists []. rewrite app_nil_r. repeat split; cbn; auto.
    - subst s. cbn [thr_of]. unfold rx_ok in Hr. destruct (srx x) as [|o p|] eqn:E.
      + repeat split; [unfold rx_ok; now rewrite E|]. exists []. rewrite app_nil_r. repeat split; cbn; auto.
      + destruct (pstep consuming at_ RX o p (smem x) spur) as [[m e] t] eqn:Ep. cbn.
        assert (match t with Run o' _ => o' = o | _ => True end /\ Forall quiet (map FCh e) /\ (length e <= 1)%nat) as (H1 & H2 & H3).
        { destruct p; cbn in Ep; try (destruct (take (smem x) c)); try (destruct (peek (smem x) c));
            try (destruct at_; [destruct old; [destruct (_ || _)|]|]); injection Ep as <- <- <-; cbn; repeat split; auto;
            try (destruct (consuming o); exact I); constructor; cbn; auto. }
        repeat split; [|exists e; repeat split; auto]. unfold rx_ok. cbn. destruct t; try exact I. now subst.
      + repeat split; [unfold rx_ok; now rewrite E|]. exists []. rewrite app_nil_r. repeat split; cbn; auto.
  Qed.
  Lemma tx_event x spur o p : stx x = Run o p -> side_of o = TX ->
    srx (step_ x (Step TX spur)) = srx x /\
    match p with
    | Done r => slog (step_ x (Step TX spur)) = slog x ++ [ERet o r] /\
        (stx (step_ x (Step TX spur)) = Idle \/ stx (step_ x (Step TX spur)) = Gone)
    | _ => (exists p', stx (step_ x (Step TX spur)) = Run o p') /\
        exists e, slog (step_ x (Step TX spur)) = slog x ++ e /\ Forall quiet (map FCh e) /\ (length e <= 1)%nat
    end.
  Proof.
    intros E Es. cbn [step thr_of]. rewrite E.
    destruct (pstep consuming at_ TX o p (smem x) spur) as [[m e] t] eqn:Ep. cbn. split; [reflexivity|].
    destruct p; cbn in Ep; try (destruct (take (smem x) c)); try (destruct (peek (smem x) c));
      try (destruct at_; [destruct old; [destruct (_ || _)|]|]); injection Ep as <- <- <-; cbn;
      try (split; [reflexivity|]; destruct (consuming o); auto; fail);
      (split; [eauto|]); eexists; (split; [reflexivity|]); cbn; repeat constructor.
  Qed.

  Definition inv (s : fst_ O R Y C) : Prop :=
    channel (flog s) = slog (fch s) /\ (exists sc, fch s = run_ sc) /\
    (good (slog (fch s)) (smem (fch s)) -> rx_ok (fch s) /\ fine s).

  Lemma skip_app {A} (l e : list A) : skipn (length l) (l ++ e) = e.
  Proof. now rewrite skipn_app, skipn_all, Nat.sub_diag. Qed.

  (** An event of the receiving half, or an access of a method of the sending half. *)
  Lemma fine_quiet s x e : fine s -> slog x = slog (fch s) ++ e -> Forall quiet (map FCh e) -> (length e <= 1)%nat ->
    (match stx (fch s) with Run o _ => exists p, stx x = Run o p | t => stx x = t end) ->
    (e <> [] -> K (channel (flog s ++ map FCh e))) ->
    fine (Fst x (fgen s) (flog s ++ map FCh e)).
  Proof.
    intros (Ho & Hf) Ex Q Le Et Hk. destruct e as [|e [|]]; [| |cbn in Le; lia].
    { cbn [map]. rewrite app_nil_r. split; cbn [flog fgen fch]; [exact Ho|].
      destruct (fgen s); auto; destruct (stx (fch s)) as [|o p|]; try (rewrite Et; exact Hf);
        try (destruct Et as [p' ->]; exact Hf);
        destruct Hf as [Hf1 Hf2]; exfalso; first [destruct Hf1; discriminate|destruct Hf2; discriminate]. }
    cbn [map] in *. inversion_clear Q as [|? ? Q1 _]. specialize (Hk ltac:(discriminate)).
    assert (ok (flog s ++ [FCh e])) as Ho' by auto.
    assert (stx (fch s) = Idle \/ stx (fch s) = Gone -> stx x = Idle \/ stx x = Gone) as Hi.
    { intros [E|E]; rewrite E in Et; auto. }
    split; cbn [flog fgen fch]; [exact Ho'|]. destruct (fgen s).
    - destruct Hf as [Hf Hs]. auto.
    - destruct Hf as [Hf Hs]. split; auto. now apply gwp_quiet.
    - destruct (stx (fch s)) as [|o p|]; [rewrite Et; exact I| |rewrite Et; exact I].
      destruct Et as [p' ->]. destruct Hf as (Es & l0 & q' & E & Q' & Hf). split; [exact Es|].
      exists l0, (q' ++ [FCh e]). split; [rewrite E, <- app_assoc; reflexivity|]. split; [apply Forall_app; auto|exact Hf].
    - destruct Hf as (Hs & l0 & q' & E & Q' & Hf). split; auto.
      exists l0, (q' ++ [FCh e]). split; [rewrite E, <- app_assoc; reflexivity|]. split; [apply Forall_app; auto|exact Hf].
    - destruct Hf as (Hs & l0 & v & q' & E & Q' & Hf). split; auto.
      exists l0, v, (q' ++ [FCh e]). split; [rewrite E, <- app_assoc; reflexivity|]. split; [apply Forall_app; auto|exact Hf].
    - destruct Hf as [Hf Hs]. auto.
  Qed.

  Lemma inv_step s a : inv s -> inv (fstep_ s a).
  Proof.
    intros Hinv. pose proof Hinv as (H1 & H2 & H4).
    assert (channel (flog (fstep_ s a)) = slog (fch (fstep_ s a))) as H1' by now apply fstep_log.
    assert (exists sc, fch (fstep_ s a) = run_ sc) as H2' by now apply fstep_run.
    assert (good (slog (fch (fstep_ s a))) (smem (fch (fstep_ s a))) -> K (channel (flog (fstep_ s a)))) as Hk.
    { intros G. rewrite H1'. destruct H2' as [sc E]. rewrite E in *. now apply known. }
    assert (forall b, good (slog (step_ (fch s) b)) (smem (step_ (fch s) b)) -> rx_ok (fch s) /\ fine s) as H4'.
    { intros b G. apply H4. eapply good_pre. exact G. }
    assert (forall b g, (match b with Call o => side_of o = RX /\ api o = true | Step s _ => s = RX end) -> g = fgen s ->
      fstep_ s a = chan side_of consuming code at_ s b g -> inv (fstep_ s a)) as Krx.
    { intros b g Hb Hg E. split; [exact H1'|]. split; [exact H2'|]. rewrite E in *. cbn [chan fch flog] in *.
      intros G. destruct (H4' b G) as [H3 Hfine].
      destruct (rx_event (fch s) b H3 Hb) as (R1 & R2 & e & R3 & R4 & R5). split; [exact R1|]. unfold chan. rewrite R3, skip_app in *. subst g. apply fine_quiet; auto.
      rewrite R2. destruct (stx (fch s)); eauto. }
    assert (forall e g, fstep_ s a = tell s e g -> 
      (fine s -> fine (tell s e g)) -> inv (fstep_ s a)) as Ktell.
    { intros e g E Hf. split; [exact H1'|]. split; [exact H2'|]. rewrite E in *. cbn [tell fch flog] in *.
      intros G. destruct (H4 G) as [H3 Hfine]. split; auto. }
    destruct a as [| |o|e|spur|o|spur].
    - destruct (fgen s) eqn:Eg; try (cbn [fstep]; rewrite Eg; exact Hinv).
      eapply Ktell; [cbn [fstep]; rewrite Eg; reflexivity|]. intros (Ho & Hf). rewrite Eg in Hf. destruct Hf as [Hf Hs].
      destruct (turn _ Ho Hf) as [T1 T2]. split; cbn [tell fgen flog fch]; auto.
    - destruct (fgen s) as [|[o k|k|v k| |]| | | |] eqn:Eg; try (cbn [fstep]; rewrite Eg; exact Hinv).
      + (* call *)
        split; [exact H1'|]. split; [exact H2'|]. revert Hk H1' H2'. cbn [fstep]. rewrite Eg. cbn [chan fch flog]. intros Hk H1' H2'.
        destruct (side_of o) eqn:Es; [|].
        * intros G. destruct (H4' _ G) as (H3 & Ho & Hf). split.
          { cbn [step]. rewrite Es. cbn [thr_of]. destruct (stx (fch s)); exact H3. } rewrite Eg in Hf. destruct Hf as [Hf Hs].
          cbn [gwp] in Hf. destruct Hf as (_ & _ & Hf). specialize (Hf [] (Forall_nil _)). cbn [app] in Hf. destruct Hf as [F1 F2].
          unfold chan. cbn [step]. rewrite Es. cbn [thr_of]. destruct Hs as [Hs|Hs]; rewrite Hs.
          -- cbn [put slog]. rewrite skip_app. cbn [map]. rewrite app_nil_r in F1. split; cbn [flog fgen fch stx]; [apply F1; auto|].
             split; [exact Es|]. exists (flog s), []. repeat split; auto. 
          -- split; cbn [flog fgen fch]; rewrite skipn_all; cbn [map]; rewrite ?app_nil_r; auto. now rewrite Hs.
        * intros G. destruct (H4' _ G) as (_ & Ho & Hf). rewrite Eg in Hf. destruct Hf as [Hf Hs]. cbn [gwp] in Hf.
          destruct Hf as (_ & Hf & _). congruence.
      + eapply Ktell; [cbn [fstep]; rewrite Eg; reflexivity|]. intros (Ho & Hf). rewrite Eg in Hf. destruct Hf as [Hf Hs].
        cbn [gwp] in Hf. destruct Hf as (_ & Hf). destruct (Hf [] (Forall_nil _)) as [F1 F2]. cbn [app] in *. rewrite app_nil_r in F1.
        split; cbn [tell fgen flog fch]; [auto|]. split; [exact Hs|]. exists (flog s), []. repeat split; auto.
      + eapply Ktell; [cbn [fstep]; rewrite Eg; reflexivity|]. intros (Ho & Hf). rewrite Eg in Hf. destruct Hf as [Hf Hs].
        cbn [gwp] in Hf. destruct Hf as (_ & Hf). destruct (Hf [] (Forall_nil _)) as [F1 F2]. cbn [app] in *. rewrite app_nil_r in F1.
        split; cbn [tell fgen flog fch]; [auto|]. split; [exact Hs|]. exists (flog s), v, []. repeat split; auto.
      + eapply Ktell; [cbn [fstep]; rewrite Eg; reflexivity|]. intros (Ho & Hf). rewrite Eg in Hf. destruct Hf as [Hf Hs].
        cbn [gwp] in Hf. destruct Hf as (_ & Hf). specialize (Hf [] (Forall_nil _)). cbn [app] in *. rewrite app_nil_r in Hf. destruct (Hf Ho).
        split; cbn [tell fgen flog fch]; auto.
      + eapply Ktell; [cbn [fstep]; rewrite Eg; reflexivity|]. intros (Ho & Hf). rewrite Eg in Hf. destruct Hf as [Hf Hs].
        cbn [gwp] in Hf. destruct Hf as (_ & Hf). specialize (Hf [] (Forall_nil _)). cbn [app] in *. rewrite app_nil_r in Hf. destruct (Hf Ho).
        split; cbn [tell fgen flog fch]; auto.
    - destruct (fgen s) as [|[]| |k| |] eqn:Eg; try (cbn [fstep]; rewrite Eg; exact Hinv).
      eapply Ktell; [cbn [fstep]; rewrite Eg; reflexivity|]. intros (Ho & Hf). rewrite Eg in Hf.
      destruct Hf as (Hs & l0 & q' & E & Q & Hf). rewrite E in Ho. specialize (Hf q' o Q Ho).
      split; cbn [tell fgen flog fch]; rewrite E, <- app_assoc; cbn [app]; auto. eapply gwp_ok, Hf.
    - destruct (fgen s) as [|[]| |k|k|] eqn:Eg; try (cbn [fstep]; rewrite Eg; exact Hinv).
      eapply Ktell; [cbn [fstep]; rewrite Eg; reflexivity|]. intros (Ho & Hf). rewrite Eg in Hf.
      destruct Hf as (Hs & l0 & v & q' & E & Q & Hf). rewrite E in Ho. specialize (Hf q' e Q Ho).
      split; cbn [tell fgen flog fch]; rewrite E, <- app_assoc; cbn [app]; auto. eapply gwp_ok, Hf.
    - destruct (fgen s) as [|[]|k| | |] eqn:Eg; try (cbn [fstep]; rewrite Eg; exact Hinv).
      destruct (stx (fch s)) as [|o p|] eqn:Et; try (cbn [fstep]; rewrite Eg, Et; exact Hinv).
      assert (fstep_ s (ATx spur) = chan side_of consuming code at_ s (Step TX spur) (match p with Done r => At (k r) | _ => InCall k end)) as Ef
        by (cbn [fstep]; rewrite Eg, Et; destruct p; reflexivity).
      split; [exact H1'|]. split; [exact H2'|]. rewrite Ef in *. clear Ef. cbn [chan fch flog] in *.
      assert (srx (step_ (fch s) (Step TX spur)) = srx (fch s)) as Er.
      { cbn [step thr_of]. rewrite Et. destruct (pstep consuming at_ TX o p (smem (fch s)) spur) as [[m e] t]. reflexivity. }
      intros G. destruct (H4' _ G) as [H3 Hfine]. split; [unfold rx_ok; rewrite Er; exact H3|].
      pose proof Hfine as (Ho & Hf). rewrite Eg, Et in Hf. destruct Hf as (Es & l0 & q' & E & Q & Hf).
      destruct (tx_event (fch s) spur o p Et Es) as [_ Hp]. specialize (Hk G).
      assert (forall m, (match p with Done _ => False | _ => True end) -> match p with Done r => At (k r) | _ => InCall k end = m -> m = InCall k) as Kp
        by (intros m Hm <-; destruct p; [contradiction|..]; reflexivity).
      destruct p as [r| | | | | | | | |].
      { destruct Hp as [P1 P2]. unfold chan. rewrite P1, skip_app in *. cbn [map] in *. rewrite E, <- app_assoc in Hk |- *. cbn [app] in *.
        rewrite E in Ho. specialize (Hf q' r Q Ho Hk). split; cbn [fgen flog fch]; [eapply gwp_ok, Hf|]. split; [exact Hf|exact P2]. }
      all: clear Kp; destruct Hp as ((p' & P1) & e & P2 & P3 & P4); unfold chan; rewrite P2, skip_app in *; rewrite <- Eg;
        apply fine_quiet; auto; rewrite Et; eauto.
    - cbn [fstep]. destruct (fgen s) as [|[]| | | |] eqn:Eg; destruct (side_of o) eqn:Es; try (exact Hinv);
        destruct (api o) eqn:Ea; try (exact Hinv).
      all: pose proof (Krx (Call o) _ (conj Es Ea) eq_refl) as X; cbn [fstep] in X; rewrite Eg, Es, Ea in X; apply X; reflexivity.
    - cbn [fstep]. destruct (fgen s) as [|[]| | | |] eqn:Eg;
        pose proof (Krx (Step RX spur) _ eq_refl eq_refl) as X; cbn [fstep] in X; rewrite Eg in X; apply X; reflexivity.
  Qed.

  Theorem inv_run sched : inv (frun_ sched).
  Proof.
    assert (forall l s, inv s -> inv (frun side_of consuming code at_ api body s l)) as Kr.
    { induction l as [|a l IH]; intros s Hs; cbn [frun]; auto. apply IH, inv_step, Hs. }
    apply Kr. split; [reflexivity|]. split; [exists []; reflexivity|].
    intros _. repeat split; cbn; auto.
  Qed.

  (** Rules. *)
  Definition stable (P : log -> Prop) := forall l e, quiet e -> P l -> P (l ++ [e]).
  Lemma stable_app P l q : stable P -> Forall quiet q -> P l -> P (l ++ q).
  Proof.
    intros Hs. revert l. induction q as [|e q IH]; intros l Hq Hp; [now rewrite app_nil_r|].
    inversion_clear Hq. replace (l ++ e :: q) with ((l ++ [e]) ++ q) by now rewrite <- app_assoc.
    apply IH; auto.
  Qed.
  Ltac assoc_ l q e q' := replace (l ++ q ++ e :: q') with (((l ++ q) ++ [e]) ++ q') in * by now rewrite <- !app_assoc.
  Lemma gwp_call P P1 o k l : stable P -> stable P1 -> side_of o = TX ->
    (forall l, ok l -> P l -> ok (l ++ [FCh (EInv o)])) ->
    (forall l, P l -> P1 (l ++ [FCh (EInv o)])) ->
    (forall l r, ok l -> P1 l -> K (channel (l ++ [FCh (ERet o r)])) -> gwp (k r) (l ++ [FCh (ERet o r)])) ->
    ok l -> P l -> gwp (GCall o k) l.
  Proof.
    intros S1 S2 Es A B D Ho Hp. cbn [gwp]. split; [exact Ho|]. split; [exact Es|]. intros q Hq.
    assert (P (l ++ q)) as Hp' by now apply stable_app. split.
    - intros Ho'. rewrite app_assoc. auto.
    - intros q' r Hq' Ho' Hk.
      replace (l ++ q ++ FCh (EInv o) :: q' ++ [FCh (ERet o r)]) with ((((l ++ q) ++ [FCh (EInv o)]) ++ q') ++ [FCh (ERet o r)]) in * by now rewrite <- !app_assoc.
      assoc_ l q (@FCh O R Y C (EInv o)) q'. apply D; auto. apply stable_app; auto.
  Qed.
  Lemma gwp_resume P P1 k l : stable P -> stable P1 ->
    (forall l, ok l -> P l -> ok (l ++ [FResume])) ->
    (forall l, P l -> P1 (l ++ [FResume])) ->
    (forall l r, ok l -> P1 l -> gwp (k r) (l ++ [FOut r])) ->
    ok l -> P l -> gwp (GResume k) l.
  Proof.
    intros S1 S2 A B D Ho Hp. cbn [gwp]. split; [exact Ho|]. intros q Hq.
    assert (P (l ++ q)) as Hp' by now apply stable_app. split.
    - intros Ho'. rewrite app_assoc. auto.
    - intros q' r Hq' Ho'.
      replace (l ++ q ++ FResume :: q' ++ [FOut r]) with ((((l ++ q) ++ [FResume]) ++ q') ++ [FOut r]) by now rewrite <- !app_assoc.
      assoc_ l q (@FResume O R Y C) q'. apply D; auto. apply stable_app; auto.
  Qed.
  Lemma gwp_over P P1 v k l : stable P -> stable P1 ->
    (forall l, ok l -> P l -> ok (l ++ [FOver v])) ->
    (forall l, P l -> P1 (l ++ [FOver v])) ->
    (forall l r, ok l -> P1 l -> gwp (k r) (l ++ [FOverRet r])) ->
    ok l -> P l -> gwp (GOver v k) l.
  Proof.
    intros S1 S2 A B D Ho Hp. cbn [gwp]. split; [exact Ho|]. intros q Hq.
    assert (P (l ++ q)) as Hp' by now apply stable_app. split.
    - intros Ho'. rewrite app_assoc. auto.
    - intros q' r Hq' Ho'.
      replace (l ++ q ++ FOver v :: q' ++ [FOverRet r]) with ((((l ++ q) ++ [FOver v]) ++ q') ++ [FOverRet r]) by now rewrite <- !app_assoc.
      assoc_ l q (@FOver O R Y C v) q'. apply D; auto. apply stable_app; auto.
  Qed.
  Lemma gwp_yield P l : stable P -> (forall l, ok l -> P l -> ok (l ++ [FYield]) /\ psus (l ++ [FYield])) ->
    ok l -> P l -> gwp GYield l.
  Proof.
    intros S1 A Ho Hp. cbn [gwp]. split; [exact Ho|]. intros q Hq Ho'. rewrite app_assoc. apply A; auto.
    now apply stable_app.
  Qed.
  Lemma gwp_end P l : stable P -> (forall l, ok l -> P l -> ok (l ++ [FEnd]) /\ pend (l ++ [FEnd])) ->
    ok l -> P l -> gwp GEnd l.
  Proof.
    intros S1 A Ho Hp. cbn [gwp]. split; [exact Ho|]. intros q Hq Ho'. rewrite app_assoc. apply A; auto.
    now apply stable_app.
  Qed.
End Logic.

(** ** How a quiet event changes [driving]. *)
Section Driving.
  Context {O R Y C : Type}.
  Variable side_of : O -> side.
  Variable api : O -> bool.
  Variable closes : O -> bool.
  Definition dr i r lt dn er en ru ys (l : list (fev O R Y C)) : Prop :=
    exists bg cl, driving closes l = Drive i r lt dn er en ru ys bg cl false.
  Lemma driving_snoc (l : list (fev O R Y C)) e : driving closes (l ++ [e]) = dstep closes (driving closes l) e.
  Proof. unfold driving. now rewrite fold_left_app. Qed.
  Lemma dr_ch i r lt dn er en ru ys l e : dr i r lt dn er en ru ys l -> dr i r lt dn er en ru ys (l ++ [FCh e]).
  Proof. intros (bg & cl & E). unfold dr. rewrite driving_snoc, E. destruct e; cbn; eauto. Qed.
  Lemma dr_stable i r lt dn er en ru ys : stable side_of api (dr i r lt dn er en ru ys).
  Proof. intros l e Q. destruct e; try contradiction Q. apply dr_ch. Qed.
  Lemma begun_stable : stable side_of api (fun l : list (fev O R Y C) => d_begun (driving closes l) = true).
  Proof.
    intros l e Q H. rewrite driving_snoc. destruct (driving closes l). cbn in H. subst.
    destruct e as [| | [] | | [] | | |[]]; cbn; auto.
  Qed.
End Driving.

(** ** Results of channel methods. *)
Section Shape.
  Context {O R : Type}.
  Variable side_of : O -> side.
  Variable consuming : O -> bool.
  Variable code : O -> prog R.
  Variable at_ : bool.
  Variable shape : O -> R -> Prop.
  Fixpoint leaves (P : R -> Prop) (p : prog R) : Prop :=
    match p with
    | Done r => P r
    | Load _ k | Rmw _ _ _ _ k | Take _ k | Peek _ k => forall n, leaves P (k n)
    | Write _ _ k | Wake _ k | DropW _ k | DropV _ k | Free k => leaves P k
    end.
  Hypothesis code_shape : forall o, leaves (shape o) (code o).
  Definition shaped (e : ev O R) : Prop := match e with ERet o r => shape o r | _ => True end.
  Definition runs_ok (t : thr O R) : Prop := match t with Run o p => leaves (shape o) p | _ => True end.
  Theorem shaped_run sched : Forall shaped (slog (run side_of consuming code at_ sys0 sched)).
  Proof.
    assert (forall l x, Forall shaped (slog x) -> runs_ok (stx x) -> runs_ok (srx x) ->
      Forall shaped (slog (run side_of consuming code at_ x l))) as Kr.
    { induction l as [|a l IH]; intros x H1 H2 H3; cbn [run]; auto.
      assert (forall s o p spur, leaves (shape o) p ->
        Forall shaped (snd (fst (pstep consuming at_ s o p (smem x) spur))) /\ runs_ok (snd (pstep consuming at_ s o p (smem x) spur))) as Kp.
      { intros s o p spur Hp. destruct p; cbn in *; try (destruct (take (smem x) c)); try (destruct (peek (smem x) c));
          try (destruct at_; [destruct old; [destruct (_ || _)|]|]); cbn; split; try (destruct (consuming o)); cbn; auto;
          repeat constructor; auto. }
      destruct a as [o|s spur]; cbn [step].
      - destruct (side_of o); cbn [thr_of]; [destruct (stx x) eqn:E|destruct (srx x) eqn:E]; apply IH; cbn; rewrite ?E; auto;
          try exact I; try (apply Forall_app; split; auto; repeat constructor).
      - destruct s; cbn [thr_of].
        + destruct (stx x) as [|o p|] eqn:E; try (apply IH; rewrite ?E; auto; fail).
          specialize (Kp TX o p spur H2). destruct (pstep consuming at_ TX o p (smem x) spur) as [[m e] t].
          destruct Kp. apply IH; cbn; auto. apply Forall_app; auto.
        + destruct (srx x) as [|o p|] eqn:E; try (apply IH; rewrite ?E; auto; fail).
          specialize (Kp RX o p spur H3). destruct (pstep consuming at_ RX o p (smem x) spur) as [[m e] t].
          destruct Kp. apply IH; cbn; auto. apply Forall_app; auto. }
    apply Kr; cbn; auto.
  Qed.
End Shape.

(** ** A run of the generator can always be brought to an end. *)
(** The actions of a generator that is not interrupted, the fiber answering [o] and the
    overflow handler [e]. *)
Definition own {O Y C} (o : out Y C) (e : option N) (a : fact O Y C) : Prop :=
  a = AGo \/ a = ATx false \/ a = AOut o \/ a = AOver e.
Section Progress.
  Context {O R Y C : Type}.
  Variable side_of : O -> side.
  Variable consuming : O -> bool.
  Variable code : O -> prog R.
  Variable at_ : bool.
  Variable api : O -> bool.
  Variable body : gtree O R Y C.
  Notation frun_ := (frun side_of consuming code at_ api body).
  Notation fstep_ := (fstep side_of consuming code at_ api body).

  (** A method that consumes the sending half is called once, last. *)
  Fixpoint tidy (g : bool) (t : gtree O R Y C) : Prop :=
    match t with
    | GCall o k => g = false /\ side_of o = TX /\ forall r, tidy (consuming o) (k r)
    | GResume k => g = false /\ forall o, tidy false (k o)
    | GOver _ k => g = false /\ forall e, tidy false (k e)
    | GYield => g = false
    | GEnd => g = true
    end.
  Hypothesis body_tidy : tidy false body.

  Definition live (s : fst_ O R Y C) : Prop :=
    match fgen s with
    | Susp => stx (fch s) = Idle
    | At t => exists g : bool, tidy g t /\ stx (fch s) = if g then Gone else Idle
    | InCall k => exists o p, stx (fch s) = Run o p /\ forall r, tidy (consuming o) (k r)
    | InFib k => stx (fch s) = Idle /\ forall o, tidy false (k o)
    | InOver k => stx (fch s) = Idle /\ forall e, tidy false (k e)
    | Ended => stx (fch s) = Gone
    end.

  Lemma rx_stx x a : (match a with Call o => side_of o = RX | Step s _ => s = RX end) ->
    stx (step side_of consuming code at_ x a) = stx x.
  Proof.
    destruct a as [o|s spur]; intros E; cbn [step].
    - rewrite E. cbn [thr_of]. now destruct (srx x).
    - subst s. cbn [thr_of]. destruct (srx x) as [|o p|]; auto.
      now destruct (pstep consuming at_ RX o p (smem x) spur) as [[m e] t].
  Qed.
  Lemma live_rx s a g : (match a with Call o => side_of o = RX | Step s _ => s = RX end) -> g = fgen s ->
    live s -> live (chan side_of consuming code at_ s a g).
  Proof. intros E -> H. unfold live, chan in *. cbn [fgen fch]. now rewrite rx_stx. Qed.
  Lemma tx_stx x spur o p : stx x = Run o p ->
    match p with
    | Done r => stx (step side_of consuming code at_ x (Step TX spur)) = if consuming o then Gone else Idle
    | _ => exists p', stx (step side_of consuming code at_ x (Step TX spur)) = Run o p'
    end.
  Proof.
    intros E. cbn [step thr_of]. rewrite E. destruct (pstep consuming at_ TX o p (smem x) spur) as [[m e] t] eqn:Ep. cbn.
    destruct p; cbn in Ep; try (destruct (take (smem x) c)); try (destruct (peek (smem x) c));
      try (destruct at_; [destruct old; [destruct (_ || _)|]|]); injection Ep as <- <- <-; eauto.
  Qed.

  Lemma live_step s a : live s -> live (fstep_ s a).
  Proof.
    intros H. pose proof H as L. unfold live in L. destruct a as [| |o|e|spur|o|spur].
    - cbn [fstep]. destruct (fgen s); auto. exists false. auto.
    - cbn [fstep]. destruct (fgen s) as [|[o k|k|v k| |]| | | |] eqn:Eg; auto; destruct L as (g & Ht & L); cbn [tidy] in Ht;
        unfold live, tell, chan; cbn [fgen fch].
      + destruct Ht as (-> & Es & Ht). cbn [step]. rewrite Es. cbn [thr_of]. rewrite L. cbn [put stx]. exists o, (code o). auto.
      + destruct Ht as (-> & Ht). auto.
      + destruct Ht as (-> & Ht). auto.
      + now subst.
      + now subst.
    - cbn [fstep]. destruct (fgen s) as [|[]| |k| |] eqn:Eg; auto. destruct L. unfold live, tell. cbn [fgen fch]. exists false. auto.
    - cbn [fstep]. destruct (fgen s) as [|[]| |k|k|] eqn:Eg; auto. destruct L. unfold live, tell. cbn [fgen fch]. exists false. auto.
    - cbn [fstep]. destruct (fgen s) as [|[]|k| | |] eqn:Eg; auto. destruct L as (o & p & E & L). rewrite E.
      pose proof (tx_stx (fch s) spur o p E) as T. destruct p as [r| | | | | | | | |].
      { unfold live, chan. cbn [fgen fch]. exists (consuming o). auto. }
      all: destruct T as [p' T]; unfold live, chan; cbn [fgen fch]; exists o, p'; auto.
    - cbn [fstep]. destruct (fgen s) as [|[]| | | |] eqn:Eg; destruct (side_of o) eqn:Es; auto; destruct (api o); auto; apply live_rx; auto.
    - cbn [fstep]. destruct (fgen s) as [|[]| | | |] eqn:Eg; apply live_rx; auto.
  Qed.
  Theorem live_run sched : live (frun_ fst0 sched).
  Proof.
    assert (forall l s, live s -> live (frun_ s l)) as Kr.
    { induction l as [|a l IH]; intros s Hs; cbn [frun]; auto. apply IH, live_step, Hs. }
    apply Kr. reflexivity.
  Qed.

  Lemma frun_app s a b : frun_ s (a ++ b) = frun_ (frun_ s a) b.
  Proof. revert s. induction a as [|x a IH]; intros s; cbn; auto. Qed.

  Lemma call_ends o k p : forall s, fgen s = InCall k -> stx (fch s) = Run o p ->
    exists n r, fgen (frun_ s (repeat (ATx false) n)) = At (k r).
  Proof.
    induction p as [r|ra kk IH|ra rc old f kk IH|c v kk IH|c kk IH|c kk IH|w kk IH|w kk IH|w kk IH|kk IH]; intros s Eg Et.
    { exists 1%nat, r. cbn [repeat frun fstep]. rewrite Eg, Et. reflexivity. }
    all: assert (fstep_ s (ATx false) = chan side_of consuming code at_ s (Step TX false) (InCall k)) as Ef by (cbn [fstep]; rewrite Eg, Et; reflexivity).
    2: { assert (at_ = true \/ at_ = false) as [Ea|Ea] by (destruct at_; auto).
      - assert (forall s old, fgen s = InCall k -> stx (fch s) = Run o (Rmw ra rc (Some old) f kk) -> st (smem (fch s)) = old ->
          exists n r, fgen (frun_ s (repeat (ATx false) n)) = At (k r)) as Ks.
        { clear s Eg Et Ef. intros s old' Eg Et Eo. destruct (IH old' (fstep_ s (ATx false))) as (n & r & E).
          - cbn [fstep]. rewrite Eg, Et. reflexivity.
          - cbn [fstep]. rewrite Eg, Et. cbn [chan fch step thr_of]. rewrite Et. cbn [pstep]. rewrite Ea, Eo, N.eqb_refl. reflexivity.
          - exists (S n), r. rewrite <- E. reflexivity. }
        assert (fgen (fstep_ s (ATx false)) = InCall k) as E1 by (rewrite Ef; reflexivity).
        assert (match old with Some old => (st (smem (fch s)) =? old)%N = false | None => True end ->
          stx (fch (fstep_ s (ATx false))) = Run o (Rmw ra rc (Some (st (smem (fch s)))) f kk) /\
          st (smem (fch (fstep_ s (ATx false)))) = st (smem (fch s))) as E2.
        { intros Eo. rewrite Ef. cbn [chan fch step thr_of]. rewrite Et. cbn [pstep]. rewrite Ea. destruct old; rewrite ?Eo; split; reflexivity. }
        destruct old as [old|].
        + destruct (st (smem (fch s)) =? old)%N eqn:Eo.
          * apply (Ks s old Eg Et). now apply N.eqb_eq.
          * destruct (E2 eq_refl) as [E3 E4]. destruct (Ks _ _ E1 E3 E4) as (n & r & E). exists (S n), r. exact E.
        + destruct (E2 I) as [E3 E4]. destruct (Ks _ _ E1 E3 E4) as (n & r & E). exists (S n), r. exact E.
      - destruct (IH (st (smem (fch s))) (fstep_ s (ATx false))) as (n & r & E).
        { rewrite Ef. reflexivity. }
        { rewrite Ef. cbn [chan fch step thr_of]. rewrite Et. cbn [pstep]. rewrite Ea. reflexivity. }
        exists (S n), r. rewrite <- E. reflexivity. }
    1: destruct (IH (st (smem (fch s))) (fstep_ s (ATx false))) as (n & r & E).
    4: destruct (IH (fstep_ s (ATx false))) as (n & r & E).
    7: destruct (IH (snd (take (smem (fch s)) c)) (fstep_ s (ATx false))) as (n & r & E).
    10: destruct (IH (snd (peek (smem (fch s)) c)) (fstep_ s (ATx false))) as (n & r & E).
    13: destruct (IH (fstep_ s (ATx false))) as (n & r & E).
    16: destruct (IH (fstep_ s (ATx false))) as (n & r & E).
    19: destruct (IH (fstep_ s (ATx false))) as (n & r & E).
    22: destruct (IH (fstep_ s (ATx false))) as (n & r & E).
    all: try (rewrite Ef; reflexivity).
    all: try (rewrite Ef; cbn [chan fch step thr_of]; rewrite Et; cbn [pstep]; try destruct (take (smem (fch s)) c); try destruct (peek (smem (fch s)) c); reflexivity).
    all: exists (S n), r; rewrite <- E; reflexivity.
  Qed.

  (** Whatever the fiber and the overflow handler answer. *)
  Theorem run_ends s (o : out Y C) (e : option N) : live s ->
    exists l, (forall a, In a l -> own o e a) /\
      (fgen (frun_ s l) = Susp \/ fgen (frun_ s l) = Ended).
  Proof.
    unfold own. assert (forall t s, fgen s = At t -> live s -> exists l, (forall a, In a l -> own o e a) /\
      (fgen (frun_ s l) = Susp \/ fgen (frun_ s l) = Ended)) as Kt.
    { unfold own. induction t as [m k IH|k IH|v k IH| |]; intros s0 Eg L.
      - assert (live (fstep_ s0 AGo)) as L1 by now apply live_step.
        assert (fgen (fstep_ s0 AGo) = InCall k) as E1 by (cbn [fstep]; rewrite Eg; reflexivity).
        pose proof L1 as L2. unfold live in L2. rewrite E1 in L2. destruct L2 as (m' & p & E2 & _).
        destruct (call_ends m' k p _ E1 E2) as (n & r & E3).
        set (s1 := frun_ s0 (AGo :: repeat (ATx false) n)).
        assert (live s1) as L3.
        { unfold s1. cbn [frun]. generalize (fstep_ s0 AGo) L1. clear - body_tidy. induction n; intros s L; cbn [repeat frun]; auto. apply IHn, live_step, L. }
        destruct (IH r s1 E3 L3) as (l & H1 & H2).
        exists ((AGo :: repeat (ATx false) n) ++ l). split.
        + intros a [A|A]%in_app_iff; [|auto]. destruct A as [A|A]; [auto|]. apply repeat_spec in A. auto.
        + rewrite frun_app. exact H2.
      - destruct (IH o (fstep_ (fstep_ s0 AGo) (AOut o))) as (l & H1 & H2).
        { cbn [fstep]. rewrite Eg. reflexivity. }
        { now apply live_step, live_step. }
        exists (AGo :: AOut o :: l). split; [|exact H2]. intros a [<-|[<-|A]]; auto.
      - destruct (IH e (fstep_ (fstep_ s0 AGo) (AOver e))) as (l & H1 & H2).
        { cbn [fstep]. rewrite Eg. reflexivity. }
        { now apply live_step, live_step. }
        exists (AGo :: AOver e :: l). split; [|exact H2]. intros a [<-|[<-|A]]; auto.
      - exists [AGo]. split; [intros a [<-|[]]; auto|]. left. cbn [frun fstep]. rewrite Eg. reflexivity.
      - exists [AGo]. split; [intros a [<-|[]]; auto|]. right. cbn [frun fstep]. rewrite Eg. reflexivity. }
    unfold own in Kt. intros L. destruct (fgen s) as [|t|k|k|k|] eqn:Eg.
    - exists []. split; [intros a []|auto].
    - now apply (Kt t).
    - pose proof L as L2. unfold live in L2. rewrite Eg in L2. destruct L2 as (m' & p & E2 & _).
      destruct (call_ends m' k p _ Eg E2) as (n & r & E3).
      destruct (Kt (k r) (frun_ s (repeat (ATx false) n)) E3) as (l & H1 & H2).
      { generalize s L. clear - body_tidy. induction n; intros s L; cbn [repeat frun]; auto. apply IHn, live_step, L. }
      exists (repeat (ATx false) n ++ l). split.
      + intros a [A|A]%in_app_iff; [|auto]. apply repeat_spec in A. auto.
      + rewrite frun_app. exact H2.
    - destruct (Kt (k o) (fstep_ s (AOut o))) as (l & H1 & H2).
      { cbn [fstep]. rewrite Eg. reflexivity. }
      { now apply live_step. }
      exists (AOut o :: l). split; [|exact H2]. intros a [<-|A]; auto.
    - destruct (Kt (k e) (fstep_ s (AOver e))) as (l & H1 & H2).
      { cbn [fstep]. rewrite Eg. reflexivity. }
      { now apply live_step. }
      exists (AOver e :: l). split; [|exact H2]. intros a [<-|A]; auto.
    - exists []. split; [intros a []|auto].
  Qed.
End Progress.

(** ** Runs that start after the receiving half was closed. *)
Section Late.
  Context {O R Y C : Type}.
  Variable side_of : O -> side.
  Variable consuming : O -> bool.
  Variable code : O -> prog R.
  Variable at_ : bool.
  Variable api : O -> bool.
  Variable closes : O -> bool.
  Variable body : gtree O R Y C.
  Notation drv := (driving (R := R) (Y := Y) (C := C) closes).
  Lemma late_kept s l o e : (forall a, In a l -> own o e a) ->
    d_late (drv (flog (frun side_of consuming code at_ api body s l))) = d_late (drv (flog s)).
  Proof.
    revert s. induction l as [|a l IH]; intros s H; cbn [frun]; auto. rewrite IH by (intros b Hb; apply H; now right).
    assert (forall f g, f <> FRun -> d_late (drv (flog (tell s f g))) = d_late (drv (flog s))) as Kt.
    { intros f g He. cbn [tell flog]. rewrite driving_snoc. destruct (drv (flog s)). destruct f as [| |[]| |[]| | |[]]; cbn; congruence. }
    assert (forall b g, d_late (drv (flog (chan side_of consuming code at_ s b g))) = d_late (drv (flog s))) as Kc.
    { intros b g. cbn [chan flog]. generalize (skipn (length (slog (fch s))) (slog (step side_of consuming code at_ (fch s) b))) as q.
      intros q. induction q as [|f q IHq] using rev_ind; [cbn [map]; now rewrite app_nil_r|].
      rewrite map_app, app_assoc. cbn [map]. rewrite driving_snoc. rewrite <- IHq. destruct (drv (flog s ++ map FCh q)). destruct f; reflexivity. }
    destruct (H a (or_introl eq_refl)) as [->|[->|[->| ->]]]; cbn [fstep].
    - destruct (fgen s) as [|[]| | | |]; auto; apply Kt; discriminate.
    - destruct (fgen s) as [|[]| | | |]; auto; destruct (stx (fch s)) as [|? []|]; auto.
    - destruct (fgen s) as [|[]| | | |]; auto; apply Kt; discriminate.
    - destruct (fgen s) as [|[]| | | |]; auto; apply Kt; discriminate.
  Qed.
  Lemma late_res (l : list (fev O R Y C)) : d_bad (drv l) = false -> d_late (drv l) = true -> d_res (drv l) = false.
  Proof.
    induction l as [|e l IH] using rev_ind; [auto|]. rewrite driving_snoc. destruct (drv l) as [i r lt dn er en ru ys bg cl bad].
    cbn in IH. destruct e as [| |[]| |[]| | |[]]; cbn; auto.
    - intros B ->. rewrite !orb_true_r in B. rewrite orb_true_l in B. discriminate.
    - intros [B _]%orb_false_elim. auto.
    - intros B L. apply IH; auto. repeat (apply orb_false_elim in B; destruct B as [B ?]). auto.
    - intros B L. apply IH; auto. repeat (apply orb_false_elim in B; destruct B as [B ?]). auto.
  Qed.
End Late.
