(** A printing context gets its messages through if it and the probe both go on for ever. *)
Require Import NArith Arith List Bool Lia.
From Verif Require Import Stream StreamSpec StreamProofs PrintSpec Print PrintProofs Panic.
Import ListNotations.
Open Scope N_scope.

Definition fair (sched : nat -> who) : Prop := forall w n, exists m, (n <= m)%nat /\ sched m = w.
Definition shift (k : nat) (sched : nat -> who) : nat -> who := fun n => sched (k + n)%nat.

Lemma fair_shift k sched : fair sched -> fair (shift k sched).
Proof.
  intros F w n. destruct (F w (k + n)%nat) as (m & L & E). exists (m - k)%nat. split; [lia|].
  unfold shift. now replace (k + (m - k))%nat with m by lia.
Qed.
Lemma after_add p s sched n : forall m, after p s sched (n + m) = after p (after p s sched n) (shift n sched) m.
Proof.
  induction m as [|m IH]; [now rewrite Nat.add_0_r|]. rewrite Nat.add_succ_r. cbn [after]. now rewrite IH.
Qed.
Lemma after_one p s sched n : after p s sched (S n) = after p (turn p s (sched 0%nat)) (shift 1 sched) n.
Proof. exact (after_add p s sched 1 n). Qed.

Definition caught (x : ssys) : bool := match srp x with RIdle => sr (smem x) =? sw (smem x) | _ => false end.
Definition mu (x : ssys) (un : list frame) : nat := rmeas x un + (if sw (smem x) =? 0 then 0 else 3).
Definition rank (x : ssys) (f : frame) : nat :=
  let L := length (enc f) in
  match swp x with
  | WIdle => L + 7 | WReadR => L + 6
  | WReadW r0 => if r0 =? sr (smem x) then L + 4 else L + 10
  | WByte todo _ _ => length todo + 2 | WCommit _ => 1
  | WMark _ => 2 | WMarkW => 1 | WRes _ => L + 8
  end.
Definition whole (x : ssys) (un : list frame) (f : frame) : nat :=
  mu x un * (length (enc f) + 20) + (if caught x then 1 + rank x f else 0).

Record going (s : psys) (p : N) (f : frame) (r : list frame) (un : list frame) : Prop := {
  go_inv : sinv (pm s) un;
  go_pend : pend s p = f :: r;
  go_start : startable f = true;
  go_fits : elen f < ssize (smem (pm s));
  go_cur : busy (swp (pm s)) = true -> sfr (pm s) = f /\ pcur s = p
}.

Lemma rank_bound x un f : sinv x un -> (busy (swp x) = true -> sfr x = f) -> (1 + rank x f < length (enc f) + 20)%nat.
Proof.
  intros [_ _ _ W] C. unfold rank. destruct (swp x) as [| |r0|todo a next|next|a| |b]; try lia.
  - destruct (r0 =? sr (smem x)); lia.
  - cbn in W. rewrite (C eq_refl) in W. destruct W as (_ & _ & _ & done & E & _). rewrite E, app_length. lia.
Qed.

Lemma decide_cases size r w f : decide size r w f = WRes false \/
  (exists next, decide size r w f = WByte (enc f) w next) \/ decide size r w f = WMark w.
Proof.
  unfold decide. destruct (_ <=? _).
  - destruct (_ =? r); eauto.
  - destruct (_ && _); auto.
Qed.

(** A step of the probe. *)
Lemma probe_step s p f r un : going s p f r un ->
  exists un', going (turn p s Probe) p f r un' /\ prog (turn p s Probe) = prog s /\
    (caught (pm s) = true -> whole (pm (turn p s Probe)) un' f = whole (pm s) un f /\ caught (pm (turn p s Probe)) = true) /\
    (caught (pm s) = false -> (whole (pm (turn p s Probe)) un' f < whole (pm s) un f)%nat).
Proof.
  intros [I P S F C]. cbn [turn pstep sstep].
  pose proof (rstep_cases (pm s)) as (_ & E1 & E2).
  pose proof (ssize_step (pm s) LR) as E3. cbn [sstep] in E3.
  assert (E4 : sw (smem (fst (rstep (pm s)))) = sw (smem (pm s))).
  { unfold rstep. destruct (srp (pm s)); cbn; auto; [now destruct (_ =? _)|now destruct (_ <? _)]. }
  destruct (caught (pm s)) eqn:Ct.
  - exists un. unfold caught in Ct. destruct (srp (pm s)) eqn:R; try discriminate.
    assert (N : rstep (pm s) = (pm s, [])) by (unfold rstep; now rewrite R, Ct).
    rewrite N. cbn [fst snd pm prog]. split; [now constructor|]. split; [reflexivity|].
    split; [|congruence]. intros _. split; [reflexivity|]. unfold caught. now rewrite R.
  - destruct (rstep_measure (pm s) un I) as [[R E]|(un' & I' & L)].
    { unfold caught in Ct. rewrite R in Ct. apply N.eqb_neq in Ct. contradiction. }
    exists un'. destruct (rstep (pm s)) as [x tr]. cbn [fst snd pm prog] in *.
    assert (G : going (Psys x (pmask s) (prog s) (pend s) (pcur s) (plog s ++ reads tr)) p f r un').
    { constructor; cbn [pm pend pcur]; auto.
      - now rewrite E3.
      - rewrite E1, E2. exact C. }
    split; [exact G|]. split; [reflexivity|]. split; [discriminate|]. intros _. unfold whole. rewrite Ct.
    assert (M : (mu x un' < mu (pm s) un)%nat) by (unfold mu; rewrite E4; lia).
    pose proof (rank_bound x un' f (go_inv _ _ _ _ _ G) (fun H => proj1 (go_cur _ _ _ _ _ G H))) as B.
    assert (mu x un' * (length (enc f) + 20) + (length (enc f) + 20) <= mu (pm s) un * (length (enc f) + 20))%nat by nia.
    destruct (caught x); lia.
Qed.

Lemma quiet x x' un f : sr (smem x') = sr (smem x) -> sw (smem x') = sw (smem x) -> srp x' = srp x ->
  (caught x = true -> (rank x' f < rank x f)%nat) ->
  (whole x' un f <= whole x un f)%nat /\ (caught x = false -> caught x' = false) /\
  (caught x = true -> (whole x' un f < whole x un f)%nat).
Proof.
  intros E1 E2 E3 H.
  assert (Ec : caught x' = caught x) by (unfold caught; now rewrite E1, E2, E3).
  assert (Em : mu x' un = mu x un) by (unfold mu, rmeas, flag; now rewrite E1, E2, E3).
  unfold whole. rewrite Ec, Em. destruct (caught x); [specialize (H eq_refl)|]; repeat split; intros; try congruence; lia.
Qed.

(** A step of the context, its transaction not yet through. *)
Lemma ctx_step s p f r un : going s p f r un ->
  let s' := turn p s Ctx in
  prog s' = prog s /\ ssize (smem (pm s')) = ssize (smem (pm s)) /\
  ((pend s' p = r /\ busy (swp (pm s')) = false /\ exists un', sinv (pm s') un') \/
   (going s' p f r un /\ (whole (pm s') un f <= whole (pm s) un f)%nat /\
    (caught (pm s) = false -> caught (pm s') = false) /\
    (caught (pm s) = true -> (whole (pm s') un f < whole (pm s) un f)%nat))).
Proof.
  intros G. pose proof G as [I P S F C]. cbn [turn]. unfold own. rewrite P.
  pose proof (sinv_wstep (pm s) un I) as (un' & I' & E').
  pose proof I as [Hsz _ (sk & HL & _) W]. destruct (lay_bounds _ _ _ _ _ _ HL) as [Br Bw].
  destruct (swp (pm s)) as [| |r0|todo a next|next|a| |b] eqn:Ew.
  - (* the next attempt *)
    cbn [pstep]. rewrite Ew, P. cbn [sstep]. rewrite Ew, S. cbn [fst prog pm smem].
    split; [reflexivity|]. split; [reflexivity|]. right.
    pose proof (sinv_step (pm s) un (LWrite f) I) as (u & Iu & Eu). cbn [sstep] in Iu, Eu. rewrite Ew, S in Iu, Eu.
    cbn in Eu. subst u. split.
    + constructor; cbn [pm pend pcur smem sfr]; auto.
    + apply quiet; auto. intros _. unfold rank. cbn [swp]. rewrite Ew. lia.
  - cbn [pstep sstep]. unfold wstep in *. rewrite Ew in *. cbn [fst snd prog pm smem] in *. cbn in E'. subst un'.
    destruct (C eq_refl) as [C1 C2].
    split; [reflexivity|]. split; [reflexivity|]. right. split.
    + constructor; cbn [pm pend pcur smem sfr]; auto.
    + apply quiet; auto. intros _. unfold rank. cbn [swp smem]. rewrite Ew, N.eqb_refl. lia.
  - cbn [pstep sstep]. unfold wstep in *. rewrite Ew in *. cbn [fst snd prog pm smem] in *. cbn in E'. subst un'.
    destruct (C eq_refl) as [C1 C2]. rewrite C1 in *.
    split; [reflexivity|]. split; [reflexivity|]. right. split.
    + constructor; cbn [pm pend pcur smem sfr]; auto.
    + apply quiet; auto. intros Ct. unfold rank. cbn [swp smem]. rewrite Ew.
      destruct (N.eqb_spec r0 (sr (smem (pm s)))) as [->|Ne].
      * unfold caught in Ct. destruct (srp (pm s)); try discriminate. apply N.eqb_eq in Ct. rewrite Ct.
        assert (Fl : flen f < 256). { unfold startable in S. apply andb_prop in S. destruct S as [_ S]. now apply N.ltb_lt. }
        destruct (decide_same (ssize (smem (pm s))) (sw (smem (pm s))) f Hsz Bw F Fl) as [[nx ->]|[-> _]]; lia.
      * destruct (decide_cases (ssize (smem (pm s))) r0 (sw (smem (pm s))) f) as [->|[[nx ->]| ->]]; lia.
  - cbn [pstep sstep]. unfold wstep in *. rewrite Ew in *. destruct (C eq_refl) as [C1 C2].
    destruct todo as [|b todo]; cbn [fst snd prog pm smem] in *; cbn in E'; subst un';
    (split; [reflexivity|]); (split; [reflexivity|]); right; split;
      try (constructor; cbn [pm pend pcur smem sfr]; auto);
      apply quiet; auto; intros _; unfold rank; cbn [swp]; rewrite Ew; cbn [length]; lia.
  - cbn [pstep sstep]. unfold wstep in *. rewrite Ew in *. cbn [fst snd prog pm smem pend] in *.
    destruct (C eq_refl) as [C1 C2].
    split; [reflexivity|]. split; [reflexivity|]. left. rewrite C2, upd_same, P. eauto.
  - cbn [pstep sstep]. unfold wstep in *. rewrite Ew in *. cbn [fst snd prog pm smem] in *. cbn in E'. subst un'.
    destruct (C eq_refl) as [C1 C2].
    split; [reflexivity|]. split; [reflexivity|]. right. split.
    + constructor; cbn [pm pend pcur smem sfr]; auto.
    + apply quiet; auto. intros _. unfold rank. cbn [swp]. rewrite Ew. lia.
  - cbn [pstep sstep]. unfold wstep in *. rewrite Ew in *. cbn [fst snd prog pm smem] in *. cbn in E'. subst un'.
    destruct (C eq_refl) as [C1 C2]. cbn in W. destruct W as (W1 & W2 & _).
    split; [reflexivity|]. split; [reflexivity|]. right. split.
    + constructor; cbn [pm pend pcur smem sfr]; auto.
    + set (x' := Ssys _ _ _ _). assert (Cf : caught x' = false).
      { unfold caught, x'. cbn [srp smem set_w sr sw]. destruct (srp (pm s)); auto. now apply N.eqb_neq. }
      assert (Em : (mu x' un <= mu (pm s) un)%nat).
      { unfold mu, rmeas, flag, x'. cbn [srp smem set_w sr sw]. rewrite N.eqb_refl.
        destruct (N.ltb_spec (sw (smem (pm s))) (sr (smem (pm s)))); [lia|].
        destruct (N.eqb_spec (sw (smem (pm s))) 0); [lia|]. destruct (0 <? _); lia. }
      unfold whole. rewrite Cf. destruct (caught (pm s)); repeat split; intros; try congruence; nia.
  - cbn [pstep sstep]. unfold wstep in *. rewrite Ew in *. cbn [fst snd prog pm smem] in *.
    destruct b; cbn [pm prog smem]; cbn in E'; subst un';
    (split; [reflexivity|]); (split; [reflexivity|]); right; split;
      try (constructor; cbn [pm pend pcur smem sfr]; auto; discriminate);
      apply quiet; auto; intros _; unfold rank; cbn [swp]; rewrite Ew; lia.
Qed.

Definition helpful (s : psys) : who := if caught (pm s) then Ctx else Probe.

(** Its first transaction goes through. *)
Lemma one_frame p f r : forall k s un, going s p f r un -> whole (pm s) un f = k ->
  forall sched, fair sched -> exists n un', let s' := after p s sched n in
    pend s' p = r /\ busy (swp (pm s')) = false /\ sinv (pm s') un' /\ prog s' = prog s /\
    ssize (smem (pm s')) = ssize (smem (pm s)).
Proof.
  induction k as [k IH] using lt_wf_ind. intros s un G E sched F.
  (* when the helpful party next goes on *)
  destruct (F (helpful s) 0%nat) as (m & _ & Em).
  revert s un G E sched F Em. induction m as [|m IHm]; intros s un G E sched F Em.
  - assert (Q : after p s sched 1 = turn p s (sched 0%nat)) by reflexivity. unfold helpful in Em.
    destruct (caught (pm s)) eqn:Ct; rewrite Em in Q.
    + destruct (ctx_step s p f r un G) as (Ep & Es & [(P' & B' & un' & I')|(G' & L1 & _ & L2)]).
      * exists 1%nat, un'. cbv zeta. rewrite Q. auto.
      * destruct (IH _ (eq_ind _ (fun k => (_ < k)%nat) (L2 Ct) _ E) _ un G' eq_refl (shift 1 sched) (fair_shift 1 _ F))
          as (n & un' & H). exists (S n), un'. cbv zeta in H |- *. rewrite after_one, Em.
        rewrite Ep, Es in H. exact H.
    + destruct (probe_step s p f r un G) as (un1 & G' & Ep & _ & L2).
      destruct (IH _ (eq_ind _ (fun k => (_ < k)%nat) (L2 Ct) _ E) _ un1 G' eq_refl (shift 1 sched) (fair_shift 1 _ F))
          as (n & un' & H). exists (S n), un'. cbv zeta in H |- *. rewrite after_one, Em.
      rewrite Ep in H. replace (ssize (smem (pm s))) with (ssize (smem (pm (turn p s Probe)))); [exact H|].
      cbn [turn pstep]. pose proof (ssize_step (pm s) LR) as Z. now destruct (sstep (pm s) LR).
  - (* anyone else before then *)
    assert (Again : forall w un1, sched 0%nat = w -> going (turn p s w) p f r un1 -> prog (turn p s w) = prog s ->
      ssize (smem (pm (turn p s w))) = ssize (smem (pm s)) ->
      (whole (pm (turn p s w)) un1 f < k)%nat \/ (whole (pm (turn p s w)) un1 f = k /\ helpful (turn p s w) = helpful s) ->
      exists n un', let s' := after p s sched n in
        pend s' p = r /\ busy (swp (pm s')) = false /\ sinv (pm s') un' /\ prog s' = prog s /\
        ssize (smem (pm s')) = ssize (smem (pm s))).
    { intros w un1 Ew G' Ep Es [L|[E1 E2]].
      - destruct (IH _ L _ un1 G' eq_refl (shift 1 sched) (fair_shift 1 _ F)) as (n & un' & H).
        exists (S n), un'. cbv zeta in H |- *. rewrite after_one, Ew. rewrite Ep, Es in H. exact H.
      - destruct (IHm _ un1 G' E1 (shift 1 sched) (fair_shift 1 _ F)) as (n & un' & H).
        { rewrite E2. exact Em. }
        exists (S n), un'. cbv zeta in H |- *. rewrite after_one, Ew. rewrite Ep, Es in H. exact H. }
    destruct (sched 0%nat) eqn:E0.
    + destruct (ctx_step s p f r un G) as (Ep & Es & [(P' & B' & un' & I')|(G' & L1 & L0 & L2)]).
      * exists 1%nat, un'. cbv zeta. replace (after p s sched 1) with (turn p s Ctx); [auto|]. cbn. now rewrite E0.
      * apply (Again Ctx un); auto. unfold helpful. destruct (caught (pm s)).
        -- left. rewrite <- E. now apply L2.
        -- rewrite (L0 eq_refl). apply Nat.le_lteq in L1. rewrite E in L1. destruct L1; auto.
    + destruct (probe_step s p f r un G) as (un1 & G' & Ep & L1 & L2).
      assert (Es : ssize (smem (pm (turn p s Probe))) = ssize (smem (pm s))).
      { cbn [turn pstep]. pose proof (ssize_step (pm s) LR) as Z. now destruct (sstep (pm s) LR). }
      apply (Again Probe un1); auto. unfold helpful. destruct (caught (pm s)).
      -- destruct (L1 eq_refl) as [Q1 Q2]. right. rewrite Q2. now rewrite <- E.
      -- left. rewrite <- E. now apply L2.
Qed.

Definition okp (s : psys) (p : N) : Prop :=
  busy (swp (pm s)) = false /\ (exists un, sinv (pm s) un).
Definition sized (size : N) (f : frame) : Prop := startable f = true /\ elen f < size.

(** All its transactions go through. *)
Lemma all_frames p : forall r s, okp s p -> pend s p = r -> Forall (sized (ssize (smem (pm s)))) r ->
  forall sched, fair sched -> exists n, let s' := after p s sched n in
    pend s' p = [] /\ okp s' p /\ prog s' = prog s /\ ssize (smem (pm s')) = ssize (smem (pm s)).
Proof.
  induction r as [|f r IH]; intros s (B & un & I) P O sched F.
  - exists 0%nat. cbn. repeat split; eauto.
  - inversion O as [|? ? [O1 O2] O3]; subst.
    assert (G : going s p f r un) by (constructor; auto; congruence).
    destruct (one_frame p f r _ s un G eq_refl sched F) as (n & un' & P' & B' & I' & E1 & E2).
    destruct (IH (after p s sched n)) with (sched := shift n sched) as (m & H); auto using fair_shift.
    + split; eauto.
    + now rewrite E2.
    + exists (n + m)%nat. cbv zeta in H |- *. rewrite after_add. rewrite E1, E2 in H. exact H.
Qed.

Lemma okp_probe s p : okp s p -> okp (turn p s Probe) p /\ pend (turn p s Probe) = pend s /\
  prog (turn p s Probe) = prog s /\ pmask (turn p s Probe) = pmask s /\
  ssize (smem (pm (turn p s Probe))) = ssize (smem (pm s)).
Proof.
  intros (B & un & I). destruct (sinv_rstep (pm s) un I) as (un' & I' & _).
  pose proof (rstep_cases (pm s)) as (_ & _ & E). pose proof (ssize_step (pm s) LR) as Z.
  unfold okp. cbn [turn pstep sstep] in Z |- *. destruct (rstep (pm s)) as [x tr]. cbn [fst pm pend prog pmask] in *.
  rewrite E. eauto 8.
Qed.

(** The whole program of the context is run. *)
Lemma call_sized t cs size : 66 < size -> Forall (sized size) (call_frames t cs).
Proof.
  intros H. apply Forall_forall. intros f If. split; [now apply (call_frames_ok t cs)|].
  apply in_flat_map in If. destruct If as (c & _ & If).
  destruct (proj1 (proj2 (chunk_frames_spec _ _)) f If) as [_ L]. rewrite elen_eq. lia.
Qed.

Lemma all_prims p : forall ps s, okp s p -> prog s p = ps -> 66 < ssize (smem (pm s)) ->
  Forall (sized (ssize (smem (pm s)))) (pend s p) ->
  forall sched, fair sched -> exists n, reset (after p s sched n) p = true.
Proof.
  induction ps as [|x ps IH]; intros s O P L Fs sched F.
  - destruct (all_frames p _ s O eq_refl Fs sched F) as (n & E & _ & Ep & _). exists n.
    unfold reset, own. now rewrite E, Ep, P.
  - destruct (all_frames p _ s O eq_refl Fs sched F) as (n & E & O' & Ep & Es).
    set (s1 := after p s sched n) in *.
    assert (Go : exists m, okp (after p s (sched) m) p /\ prog (after p s sched m) p = ps /\
      ssize (smem (pm (after p s sched m))) = ssize (smem (pm s)) /\
      Forall (sized (ssize (smem (pm s)))) (pend (after p s sched m) p)).
    { destruct (fair_shift n _ F Ctx 0%nat) as (m & _ & Em).
      assert (H : forall k s2 sch, okp s2 p -> pend s2 p = [] -> prog s2 p = x :: ps ->
        ssize (smem (pm s2)) = ssize (smem (pm s)) -> sch k = Ctx ->
        exists m, okp (after p s2 sch m) p /\ prog (after p s2 sch m) p = ps /\
          ssize (smem (pm (after p s2 sch m))) = ssize (smem (pm s)) /\
          Forall (sized (ssize (smem (pm s)))) (pend (after p s2 sch m) p)).
      { induction k as [|k IHk]; intros s2 sch O2 E2 P2 S2 K.
        - exists 1%nat. replace (after p s2 sch 1) with (pstep s2 (PStep p)) by (cbn [after]; rewrite K; cbn [turn]; unfold own; now rewrite E2, P2). cbn [pstep]. rewrite E2, P2.
          destruct x as [e|t cs]; cbn [pm prog pend smem]; rewrite upd_same.
          + rewrite E2. auto.
          + rewrite upd_same. split; [exact O2|]. split; [reflexivity|]. split; [exact S2|].
            destruct (is_enabled _ _); [|constructor]. now apply call_sized.
        - destruct (sch 0%nat) eqn:K0.
          + exists 1%nat. replace (after p s2 sch 1) with (pstep s2 (PStep p)) by (cbn [after]; rewrite K0; cbn [turn]; unfold own; now rewrite E2, P2). cbn [pstep]. rewrite E2, P2.
            destruct x as [e|t cs]; cbn [pm prog pend smem]; rewrite upd_same.
            * rewrite E2. auto.
            * rewrite upd_same. split; [exact O2|]. split; [reflexivity|]. split; [exact S2|].
              destruct (is_enabled _ _); [|constructor]. now apply call_sized.
          + destruct (okp_probe s2 p O2) as (O3 & E3 & P3 & _ & S3).
            destruct (IHk (turn p s2 Probe) (shift 1 sch)) as (m' & H'); auto; try congruence.
            exists (S m'). rewrite after_one, K0. exact H'. }
      destruct (H m s1 (shift n sched)) as (m' & H'); auto; try congruence.
      exists (n + m')%nat. rewrite after_add. exact H'. }
    destruct Go as (m & O2 & P2 & S2 & F2).
    destruct (IH (after p s sched m) O2 P2) with (sched := shift m sched) as (k & R); auto using fair_shift.
    + now rewrite S2.
    + now rewrite S2.
    + exists (m + k)%nat. now rewrite after_add.
Qed.

(** * What has been written on the way *)
Definition told (s0 : psys) (p : N) (t : target) (cs : list bytes) (s : psys) : Prop :=
  (busy (swp (pm s)) = true -> pcur s = p /\ exists r, pend s p = sfr (pm s) :: r) /\
  pmask s = pmask s0 /\
  (forall f, In f (pend s p) -> startable f = true) /\
  exists l, plog s = plog s0 ++ l /\
    ((prog s p = [MPrint t cs] /\ pend s p = [] /\ calls_of p l = [] /\ frames_of p l = []) \/
     let on := is_enabled (pmask s0) (stream_of t) in
     (prog s p = [] /\ calls_of p l = [on] /\
      frames_of p l ++ pend s p = if on then call_frames t cs else [])).

Lemma reads_quiet c tr : calls_of c (reads tr) = [] /\ frames_of c (reads tr) = [].
Proof. induction tr as [|[] tr IH]; cbn; auto. Qed.

Lemma told_turn s0 p t cs s w : told s0 p t cs s -> told s0 p t cs (turn p s w).
Proof.
  intros H. pose proof H as (B & M & O & l & El & C). destruct w; cbn [turn].
  - unfold own. destruct (pend s p) as [|f r] eqn:Ep.
    + destruct C as [(P & _ & C1 & C2)|(P & C1 & C2)]; rewrite P; [|exact H].
      cbn [pstep]. rewrite Ep, P.
      assert (Nb : busy (swp (pm s)) = false).
      { destruct (busy _) eqn:E; auto. destruct (B eq_refl) as (_ & r & E'). discriminate. }
      unfold told. cbn [pm pmask prog pend pcur plog]. rewrite !upd_same, Nb.
      split; [discriminate|]. split; [exact M|]. split.
      { intros f. destruct (is_enabled _ _); [apply call_frames_ok|intros []]. }
      exists (l ++ [EvCall p (stream_of t) (is_enabled (pmask s0) (stream_of t))]).
      rewrite El, M, <- app_assoc. split; [reflexivity|]. right. cbv zeta. split; [reflexivity|].
      rewrite calls_of_app, frames_of_app, C1, C2. cbn. now rewrite N.eqb_refl.
    + destruct C as [(_ & E & _)|(P & C1 & C2)]; [discriminate|].
      destruct (swp (pm s)) eqn:Ew.
      1: { cbn [pstep sstep]. rewrite Ew, Ep. destruct (startable f) eqn:S; [|rewrite (O f (or_introl eq_refl)) in S; discriminate].
           cbn [fst]. unfold told. cbn [pm pmask prog pend pcur plog swp sfr]. rewrite Ep.
           split; [eauto|]. split; [exact M|]. split; [exact O|]. exists l. split; [exact El|]. right. auto. }
      all: cbn [pstep sstep]; pose proof (wstep_cases (pm s)) as W;
        destruct (wstep (pm s)) as [x tr]; cbn [fst snd] in W;
        (destruct W as [(g & -> & Bz & -> & Nb)|(_ & _ & Nw & Es & Bz)];
         [rewrite Ew in Bz; destruct (B Bz) as (Ec & r' & E'); injection E' as -> ->;
          unfold told; cbn [pm pmask prog pend pcur plog]; rewrite Ec, upd_same, Ep, Nb;
          split; [discriminate|]; split; [exact M|]; split; [intros g Hg; apply O; now right|];
          exists (l ++ [EvWrote p (sfr (pm s))]); rewrite El, <- app_assoc; split; [reflexivity|];
          right; split; [exact P|]; rewrite calls_of_app, frames_of_app, C1; cbn; rewrite N.eqb_refl, <- app_assoc; auto
         |rewrite Ew in Bz;
          assert (Q : told s0 p t cs (Psys x (pmask s) (prog s) (pend s) (pcur s) (plog s)));
          [unfold told; cbn [pm pmask prog pend pcur plog]; rewrite Ep, Es;
           split; [intros Hb; apply B, Bz, Hb|]; split; [exact M|]; split; [exact O|]; exists l; split; [exact El|]; right; auto
          |destruct tr as [|[] [|]]; try exact Q; exfalso; eapply Nw; reflexivity]]).
  - cbn [pstep sstep]. pose proof (rstep_cases (pm s)) as (_ & E1 & E2). destruct (rstep (pm s)) as [x tr].
    cbn [fst snd] in *. unfold told. cbn [pm pmask prog pend pcur plog]. rewrite E1, E2.
    split; [exact B|]. split; [exact M|]. split; [exact O|]. exists (l ++ reads tr).
    rewrite El, <- app_assoc. split; [reflexivity|].
    rewrite calls_of_app, frames_of_app. destruct (reads_quiet p tr) as [-> ->]. now rewrite !app_nil_r.
Qed.
Lemma told_after s0 p t cs s sched n : told s0 p t cs s -> told s0 p t cs (after p s sched n).
Proof. intros H. induction n as [|n IH]; cbn; auto using told_turn. Qed.

(** * What can have been written *)
Fixpoint total (fs : list frame) : N := match fs with [] => 0 | f :: r => elen f + total r end.
Lemma total_app a b : total (a ++ b) = total a + total b.
Proof. induction a as [|f a IH]; cbn [app total]; [reflexivity|]. rewrite IH. apply N.add_assoc. Qed.
Lemma seg_total b fs : forall a e, seg b a fs e -> a + total fs = e.
Proof.
  induction fs as [|f r IH]; cbn [seg total]; intros a e H; [subst; lia|]. destruct H as (_ & _ & _ & H). apply IH in H. lia.
Qed.
Lemma sinv_total x un : sinv x un -> total un < ssize (smem x).
Proof.
  intros [_ _ (sk & H & _) _]. destruct H as [H1 H2 H3 _|p1 p2 e H1 H2 -> H3 H4 _ H5 _].
  - apply seg_total in H3. lia.
  - apply seg_total in H3, H5. rewrite total_app. lia.
Qed.

(** Frames written are shorter than the buffer; without reads they are all in it. *)
Definition held (s0 : psys) (p : N) (read : bool) (s : psys) : Prop :=
  exists l un, plog s = plog s0 ++ l /\ sinv (pm s) un /\
    ssize (smem (pm s)) = ssize (smem (pm s0)) /\
    (forall f, In f (frames_of p l) -> elen f < ssize (smem (pm s0))) /\
    (read = false -> total (frames_of p l) <= total un).

Lemma held_turn s0 p t cs read s w : (w = Probe -> read = true) -> told s0 p t cs s -> held s0 p read s ->
  held s0 p read (turn p s w).
Proof.
  intros R T H. pose proof T as (B & _ & O & _). pose proof H as (l & un & El & I & Z & S & Q). destruct w; cbn [turn].
  - unfold own. destruct (pend s p) as [|f r] eqn:Ep.
    + destruct (prog s p) as [|x xs] eqn:P; [exact H|]. cbn [pstep]. rewrite Ep, P.
      destruct x as [e|t' cs']; unfold held; cbn [pm plog].
      * exists (l ++ [EvEval p e]), un. rewrite El, <- app_assoc, frames_of_app. cbn. rewrite app_nil_r. auto 6.
      * eexists (l ++ [EvCall p _ _]), un. rewrite El, <- app_assoc, frames_of_app. cbn. rewrite app_nil_r. eauto 6.
    + destruct (swp (pm s)) eqn:Ew.
      1: { cbn [pstep]. rewrite Ew, Ep. destruct (sinv_step (pm s) un (LWrite f) I) as (un' & I' & E').
           pose proof (ssize_step (pm s) (LWrite f)) as Z'.
           assert (un' = un).
           { cbn [sstep] in E'. rewrite Ew in E'. destruct (startable f); cbn in E'; exact E'. } subst un'.
           exists l, un. cbn [pm plog]. rewrite Z'. auto. }
      all: cbn [pstep sstep]; pose proof (wstep_cases (pm s)) as W; destruct (sinv_wstep (pm s) un I) as (un' & I' & E');
        pose proof (ssize_step (pm s) LW) as Z'; cbn [sstep] in Z';
        destruct (wstep (pm s)) as [x tr]; cbn [fst snd] in *;
        (destruct W as [(g & -> & Bz & -> & Nb)|(Wr & Gt & Nw & Es & Bz)];
         [cbn in E'; destruct E' as [-> E'];
          rewrite Ew in Bz; destruct (B Bz) as (Ec & _); unfold held; cbn [pm plog];
          exists (l ++ [EvWrote (pcur s) (sfr (pm s))]), (un ++ [sfr (pm s)]);
          rewrite El, <- app_assoc, frames_of_app, Ec, Z'; cbn; rewrite N.eqb_refl, !total_app, <- Z;
          split; [reflexivity|]; split; [exact I'|]; split; [reflexivity|]; split;
          [intros h Hh; apply in_app_or in Hh; destruct Hh as [Hh|[<-|[]]]; [rewrite Z; now apply S|exact E']
          |intros Hr; specialize (Q Hr); apply N.add_le_mono; [exact Q|apply N.le_refl]]
         |assert (U : un' = un);
          [destruct tr as [|[] [|]]; cbn in E'; try contradiction; auto; try discriminate; exfalso; eapply Nw; reflexivity|];
          subst un';
          assert (Hd : held s0 p read (Psys x (pmask s) (prog s) (pend s) (pcur s) (plog s)));
          [exists l, un; cbn [pm plog]; rewrite Z'; auto 6
          |destruct tr as [|[] [|]]; try exact Hd; exfalso; eapply Nw; reflexivity]]).
  - cbn [pstep sstep]. destruct (sinv_rstep (pm s) un I) as (un' & I' & _).
    pose proof (ssize_step (pm s) LR) as Z'. cbn [sstep] in Z'. destruct (rstep (pm s)) as [x tr]. cbn [fst] in *.
    exists (l ++ reads tr), un'. cbn [pm plog]. rewrite El, <- app_assoc, frames_of_app, (proj2 (reads_quiet p tr)), app_nil_r, Z'.
    split; [reflexivity|]. split; [exact I'|]. split; [exact Z|]. split; [exact S|]. rewrite (R eq_refl). discriminate.
Qed.

Lemma held_after s0 p t cs read s sched : (forall n, sched n = Probe -> read = true) -> told s0 p t cs s ->
  held s0 p read s -> forall n, held s0 p read (after p s sched n).
Proof.
  intros R T H. induction n as [|n IH]; [exact H|]. cbn [after].
  eapply held_turn; eauto using told_after.
Qed.

(** * The handlers *)
Lemma panic_prims info : expand (begin_panic info) =
  Some [MPrint Stderr (fst info ++ (if snd info then [[newline]] else []))].
Proof. now destruct info as [a []]. Qed.
Lemma alloc_prims sz : expand (alloc_error_handler sz) =
  Some [MPrint Stderr ([firstn 21 alloc_text] ++ sz ++ [skipn 23 alloc_text ++ [newline]])].
Proof. reflexivity. Qed.
