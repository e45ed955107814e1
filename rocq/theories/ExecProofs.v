(** Proofs about the executor. *)
Require Import NArith List Bool Arith Lia.
From Verif Require Import AtomicSpec Treiber TreiberProofs DrainSpec Drain DrainProofs P04_List ExecSpec Exec.
Import ListNotations.
Open Scope N_scope.

(** ** Logs *)

Lemma lives_app x a : forall s b, lives x s (a ++ b) =
  match lives x s a with Some s' => lives x s' b | None => None end.
Proof. induction a as [|e a IH]; intros s b; simpl; [easy|]. destruct (life1 x s e); auto. Qed.
Lemma wakes_app t a : forall s b, wakes t s (a ++ b) =
  match wakes t s a with Some s' => wakes t s' b | None => None end.
Proof. induction a as [|e a IH]; intros s b; simpl; [easy|]. destruct (wake1 t s e); auto. Qed.
Lemma calls_app a : forall s b, calls s (a ++ b) =
  match calls s a with Some s' => calls s' b | None => None end.
Proof. induction a as [|e a IH]; intros s b; simpl; [easy|]. destruct (call1 s e); auto. Qed.
Lemma chain_of_app a b : chain_of (a ++ b) = chain_of a ++ chain_of b.
Proof. induction a as [|[] a IH]; simpl; auto. now rewrite IH. Qed.
Lemma chain_of_map l : chain_of (map XD l) = l.
Proof. induction l; simpl; congruence. Qed.
Lemma polled_app a b : polled (a ++ b) = polled a ++ polled b.
Proof. induction a as [|[] a IH]; simpl; auto. now rewrite IH. Qed.

(** ** Ownership *)

Lemma full_where s l q x : dinv s l q -> In x (full q) -> In x l \/ dcarry (dpo s) = Some x.
Proof.
  intros [_ _ _ HQ]. destruct (dpo s), q as [l0|f k t|f k y t]; simpl in HQ; try easy; simpl.
  - subst. auto.
  - destruct HQ as (-> & _). auto.
  - destruct t as [|y t]; [easy|]. destruct HQ as (-> & -> & _). auto.
  - destruct HQ as (-> & -> & _). auto.
  - destruct HQ as (-> & -> & -> & _). auto.
  - destruct HQ as (-> & -> & -> & _). auto.
  - destruct HQ as (-> & -> & -> & _). auto.
  - destruct HQ as (-> & -> & _). rewrite !in_app_iff. simpl. intuition congruence.
Qed.

Lemma held_apart s l q x : dinv s l q -> In x (held (dsh s)) ->
  ~ In x (full q) /\ forall t, carry (dth s t) <> Some x.
Proof.
  intros HI Hx. pose proof HI as [HO _ _ _]. split.
  - intros F. destruct (full_where _ _ _ _ HI F) as [H|H].
    + now apply (own_lh _ _ _ _ _ HO x).
    + now destruct (own_cr _ _ _ _ _ HO 0%nat x H) as (_ & _ & ? & _).
  - intros t H. now destruct (own_cr _ _ _ _ _ HO (S t) x H) as (_ & _ & ? & _).
Qed.

Lemma carried_apart s l q x t : dinv s l q -> carry (dth s t) = Some x -> ~ In x (full q).
Proof.
  intros HI Hx F. pose proof HI as [HO _ _ _]. destruct (full_where _ _ _ _ HI F) as [H|H].
  - now destruct (own_cr _ _ _ _ _ HO (S t) x Hx) as (_ & ? & _).
  - assert (0%nat = S t) by (eapply (own_cr2 _ _ _ _ _ HO); [exact H|exact Hx]). discriminate.
Qed.

Lemma carried_once s l q x t t' : dinv s l q ->
  carry (dth s t) = Some x -> carry (dth s t') = Some x -> t = t'.
Proof.
  intros [HO _ _ _] A B. assert (S t = S t') by (eapply (own_cr2 _ _ _ _ _ HO); [exact A|exact B]).
  now injection H.
Qed.

(** ** Steps of the chain *)

Definition add_free (e : devent) : Prop := match e with EAdd _ | EVisit _ _ => False | _ => True end.

Lemma sys_carry s l q lb : dinv s l q -> sys lb = true ->
  (snd (drstep true s lb) = [] /\ (forall t, carry (dth (fst (drstep true s lb)) t) = carry (dth s t))) \/
  (exists t x, snd (drstep true s lb) = [EAdd x] /\ carry (dth s t) = Some x /\
     dpo (fst (drstep true s lb)) = dpo s /\
     (forall t', carry (dth (fst (drstep true s lb)) t') = if Nat.eqb t' t then None else carry (dth s t'))) \/
  (exists e, snd (drstep true s lb) = [e] /\ add_free e /\
     (forall t, carry (dth (fst (drstep true s lb)) t) = carry (dth s t)) /\
     (forall p c n, dpo s <> DFilter p c n)).
Proof.
  intros HI Hs. pose proof (di_push _ _ _ HI) as HP.
  destruct lb as [t x|t sp|t|x|x v|x|x| |sp| |b]; try discriminate; cbn [drstep].
  - pose proof (HP t) as Pt. destruct (dth s t) as [|y|y cur|y cur| | | | | |r] eqn:Et; try (left; auto; fail).
    + cbn [taccess fst snd dth]. left. split; [easy|]. intros t'.
      destruct (Nat.eq_dec t' t) as [->|]; rewrite ?upd_same, ?upd_other by easy; [now rewrite Et|easy].
    + cbn [taccess fst snd dth]. left. split; [easy|]. intros t'.
      destruct (Nat.eq_dec t' t) as [->|]; rewrite ?upd_same, ?upd_other by easy; [now rewrite Et|easy].
    + cbn [taccess]. destruct (negb sp && (hd (dsh s) =? cur)); cbn [fst snd dth dpo].
      * right. left. exists t, y. split; [easy|]. split; [now rewrite Et|]. split; [easy|]. intros t'.
        destruct (Nat.eqb_spec t' t) as [->|]; rewrite ?upd_same, ?upd_other by easy; easy.
      * left. split; [easy|]. intros t'.
        destruct (Nat.eq_dec t' t) as [->|]; rewrite ?upd_same, ?upd_other by easy; [now rewrite Et|easy].
  - pose proof (HP t) as Pt. destruct (dth s t) as [| | | | | | | | |r] eqn:Et; try (left; auto; fail).
    left. cbn [fst snd dth]. split; [easy|]. intros t'. destruct r; try easy.
    destruct (Nat.eq_dec t' t) as [->|]; rewrite ?upd_same, ?upd_other by easy; [now rewrite Et|easy].
  - left. destruct (mem_N x (held (dsh s))); auto.
  - left. destruct (mem_N x (held (dsh s))); auto.
  - left. destruct (mem_N x (dead (dsh s)) && negb (x =? 0)); auto.
  - destruct (dpo s) eqn:Ed; try (left; auto; fail).
    right. right. exists EStart. cbn. repeat split; auto. easy.
  - destruct (dpo s) eqn:Ed; cbn [daccess]; try (left; auto; fail).
    + destruct (c =? 0); [|left; auto]. right. right. exists EEnd. cbn. repeat split; auto. easy.
    + destruct (p =? 0); left; auto.
    + destruct (negb sp && _); left; auto.
    + right. right. exists (EOut x). cbn. repeat split; auto. easy.
  - left. destruct (dpo s); auto. destruct (p =? 0); auto. destruct (hd (dsh s) =? c); auto.
Qed.

Lemma sys_filter s lb p c n : sys lb = true -> dpo s = DFilter p c n ->
  dpo (fst (drstep true s lb)) = DFilter p c n.
Proof.
  intros Hs E. destruct lb as [t x|t sp|t|x|x v|x|x| |sp| |b]; try discriminate; cbn [drstep].
  - destruct (dth s t); try (destruct (taccess _ _ _ _ _)); easy.
  - destruct (dth s t); easy.
  - destruct (mem_N x (held (dsh s))); easy.
  - destruct (mem_N x (held (dsh s))); easy.
  - destruct (mem_N x (dead (dsh s)) && negb (x =? 0)); easy.
  - now rewrite E.
  - now rewrite E.
  - now rewrite E.
Qed.

(** ** The invariant *)

Definition inchain (q : dspec) (call : bool) (x : N) : life :=
  match q with
  | QOut _ _ y _ => if y =? x then LDone else LWaits
  | QRun _ _ (y :: _) => if call && (y =? x) then LPolled else LWaits
  | _ => LWaits
  end.

Definition whr (d : drstate) (q : dspec) (call : bool) (x : N) (st : life) : Prop :=
  (In x (full q) -> st = inchain q call x) /\
  (forall t, carry (dth d t) = Some x -> st = LMade) /\
  (~ In x (full q) -> (forall t, carry (dth d t) <> Some x) -> st = LNone).

Definition fok (st : life) (f : fiber) : Prop :=
  match st with
  | LMade | LWaits => alive f = true
  | LPolled => kind f <> KOnce -> alive f = true
  | _ => True
  end.

Definition is_some (x : N) (o : option N) : bool := match o with Some y => y =? x | None => false end.
Definition wexp (c w : option N) : adding :=
  match c with
  | Some x => WAdding x (is_some x w)
  | None => match w with Some x => WOwes x | None => WIdle end
  end.

Definition cur (d : dpos) (call : bool) : option N :=
  if call then match d with DFilter _ c _ => Some c | _ => None end else None.

(** Nothing has gone wrong. *)
Definition fine (e : xev) : Prop :=
  match e with XErr _ | XDead | XReady _ false => False | _ => True end.

Record xinv (nodes : list N) (link : N -> N) (s : xst) (q : dspec) : Prop := {
  x_run : exists ls, drrun true (drinit nodes link) ls = (xd s, chain_of (xlog s));
  x_d : exists l, dinv (xd s) l q;
  x_call : xcall s = true -> exists p c n, dpo (xd s) = DFilter p c n;
  x_life : forall x, exists st, lives x LNone (xlog s) = Some st /\ whr (xd s) q (xcall s) x st /\
             fok st (xfib s x);
  x_wown : forall t x y, carry (dth (xd s) t) = Some x -> xwake s t = Some y -> x = y;
  x_wake : forall t, wakes t WIdle (xlog s) = Some (wexp (carry (dth (xd s) t)) (xwake s t));
  x_calls : calls None (xlog s) = Some (cur (dpo (xd s)) (xcall s));
  x_fine : Forall fine (xlog s);
  x_go : xstop s = false
}.

Lemma whr_same d d' q q' call call' x st :
  (In x (full q') <-> In x (full q)) ->
  (forall t, carry (dth d' t) = Some x <-> carry (dth d t) = Some x) ->
  (In x (full q) -> inchain q' call' x = inchain q call x) ->
  whr d q call x st -> whr d' q' call' x st.
Proof.
  intros F C I (A & B & E). split; [|split].
  - intros H. apply F in H. rewrite I by easy. now apply A.
  - intros t H. apply C in H. eauto.
  - intros H K. apply E; [now rewrite <- F|]. intros t Ht. apply (K t). now apply C.
Qed.

(** What an event of the chain does to its contents. *)
Lemma full_accept q e q' : NoDup (full q) -> daccept q e = Some q' ->
  match e with
  | EAdd x => full q' = x :: full q
  | EOut x => exists f k t, q = QOut f k x t /\ q' = QRun f k t
  | _ => full q' = full q
  end.
Proof.
  intros Hn H. pose proof (full_event q e q' Hn H) as E. destruct e; simpl in E; auto.
  simpl in H. destruct q as [| |f k y t]; try discriminate. destruct (N.eqb_spec x y); [|discriminate].
  subst. injection H as <-. eauto.
Qed.

Lemma one_of e q q' : daccepts q [e] = Some q' -> daccept q e = Some q'.
Proof. simpl. now destruct (daccept q e). Qed.

Lemma drrun_snoc ls lb nodes link d c : drrun true (drinit nodes link) ls = (d, c) ->
  drrun true (drinit nodes link) (ls ++ [lb]) = (fst (drstep true d lb), c ++ snd (drstep true d lb)).
Proof.
  intros E. rewrite drrun_app, E. cbn [fst snd drrun]. destruct (drstep true d lb). cbn.
  now rewrite app_nil_r.
Qed.

Lemma step_d s l q lb : dinv s l q ->
  exists l' q', daccepts q (snd (drstep true s lb)) = Some q' /\ dinv (fst (drstep true s lb)) l' q'.
Proof. apply dinv_step. Qed.

Lemma life_other x y s e : y <> x ->
  match e with
  | XMake _ z _ | XPoll z | XPend z | XReady z _ | XDrop z
  | XD (EAdd z) | XD (EVisit z _) | XD (EOut z) => z = y
  | _ => True
  end -> life1 x s e = Some s.
Proof.
  intros Hne. destruct e as [[z| |z b|z|]| | | | |z b| | |]; simpl; intros H; subst; try easy;
    try (destruct b); destruct (N.eqb_spec y x); easy.
Qed.

Lemma inchain_add q q' call x z : daccept q (EAdd x) = Some q' -> inchain q' call z = inchain q call z.
Proof. simpl. intros [= <-]. destruct q; reflexivity. Qed.

Lemma inchain_new q q' call x : ~ In x (full q) -> daccept q (EAdd x) = Some q' -> inchain q' call x = LWaits.
Proof.
  intros H E. rewrite (inchain_add _ _ _ _ _ E). destruct q as [l|f k [|y t]|f k y t]; simpl; try easy.
  - destruct (N.eqb_spec y x); [|now rewrite andb_false_r]. subst. exfalso. apply H. simpl.
    rewrite !in_app_iff. simpl. auto.
  - destruct (N.eqb_spec y x); [|easy]. subst. exfalso. apply H. simpl. rewrite !in_app_iff. simpl. auto.
Qed.

(** Adding [x]: whatever the build. *)
Lemma wexp_added x w : (forall y, w = Some y -> x = y) ->
  (if is_some x w then WOwes x else WIdle) = wexp None w.
Proof.
  intros H. destruct w as [y|]; simpl; [|easy]. rewrite (H y) by easy. now rewrite N.eqb_refl.
Qed.

Section Steps.
Variables (nodes : list N) (link : N -> N).

Lemma step_sys s q lb : xinv nodes link s q -> exists q', xinv nodes link (xstep s (XSys lb)) q'.
Proof.
  intros [(ls & R) (l & HI) HC HL HWo HW HK HF HS]. destruct s as [d f c w st lg].
  cbn [xd xfib xcall xwake xstop xlog] in *. subst st. cbn [xstep].
  destruct (sys lb) eqn:Hs; [|exists q; constructor; cbn; eauto].
  pose proof (sys_carry d l q lb HI Hs) as Hc.
  pose proof (drrun_snoc _ lb _ _ _ _ R) as R2.
  pose proof (fun p a n => sys_filter d lb p a n Hs) as Hfl.
  destruct (dinv_step true d l q lb HI) as (l' & q' & Ha & HI'). pose proof (full_nd _ _ _ HI) as Hnd.
  destruct (drstep true d lb) as [d' e] eqn:Ed. cbn [fst snd] in *.
  assert (HC' : c = true -> exists p a n, dpo d' = DFilter p a n).
  { intros Hcc. destruct (HC Hcc) as (p & a & n & E). exists p, a, n. now apply Hfl. }
  assert (Hcur : cur (dpo d') c = cur (dpo d) c).
  { unfold cur. destruct c; [|easy]. destruct (HC eq_refl) as (p & a & n & E). now rewrite E, (Hfl _ _ _ E). }
  exists q'. destruct Hc as [(-> & Cs)|[(t & x & -> & Cx & Dp & Cs)|(e0 & -> & Af & Cs & Nf)]];
    cbn [map] in *.
  - simpl in Ha. injection Ha as <-.
    constructor; cbn [xd xfib xcall xwake xstop xlog]; rewrite ?app_nil_r in *; eauto.
    + intros x. destruct (HL x) as (st & A & B & C). exists st. split; [easy|]. split; [|easy].
      revert B. apply whr_same; [easy| |easy]. intros t. now rewrite Cs.
    + intros t x y. rewrite Cs. apply HWo.
    + intros t. rewrite Cs. apply HW.
    + now rewrite Hcur.
  - apply one_of in Ha. pose proof (full_accept _ _ _ Hnd Ha) as Fq. cbn in Fq.
    assert (Nx : ~ In x (full q)) by exact (carried_apart d l q x t HI Cx).
    constructor; cbn [xd xfib xcall xwake xstop xlog]; eauto.
    + exists (ls ++ [lb]). rewrite R2. now rewrite chain_of_app.
    + intros y. destruct (HL y) as (st & A & B & C). rewrite lives_app, A. cbn [lives].
      destruct (N.eq_dec y x) as [->|Hne].
      * assert (st = LMade) by (eapply B; eauto). subst st. exists LWaits. cbn [life1].
        rewrite N.eqb_refl. split; [easy|]. split; [|exact C]. split; [|split].
        -- intros _. symmetry. eapply inchain_new; eauto.
        -- intros t'. rewrite Cs. destruct (Nat.eqb_spec t' t); [easy|]. intros H.
           exfalso. apply n. exact (carried_once d l q x t' t HI H Cx).
        -- rewrite Fq. simpl. tauto.
      * rewrite (life_other y x) by auto. exists st. split; [easy|]. split; [|easy].
        revert B. apply whr_same.
        -- rewrite Fq. simpl. split; [intros [H|H]; congruence|auto].
        -- intros t'. rewrite Cs. destruct (Nat.eqb_spec t' t); [|easy]. subst. rewrite Cx.
           split; [easy|congruence].
        -- intros _. eapply inchain_add; eauto.
    + intros t' y z. rewrite Cs. destruct (Nat.eqb t' t); [easy|]. apply HWo.
    + intros t'. rewrite wakes_app, HW. cbn [wakes]. rewrite Cs.
      destruct (Nat.eqb_spec t' t) as [->|Hne].
      * rewrite Cx. cbn [wexp wake1]. rewrite N.eqb_refl. f_equal.
        apply wexp_added. intros y Hy. eapply HWo; eauto.
      * destruct (carry (dth d t')) as [y|] eqn:Cy; cbn [wexp wake1].
        -- destruct (N.eqb_spec x y); [|easy]. subst. exfalso. apply Hne. exact (carried_once d l q y t' t HI Cy Cx).
        -- now destruct (w t').
    + rewrite calls_app, HK, Hcur. reflexivity.
    + apply Forall_app. split; [easy|]. repeat constructor.
  - apply one_of in Ha. pose proof (full_accept _ _ _ Hnd Ha) as Fq.
    assert (Hcf : c = false).
    { destruct c; [|easy]. destruct (HC eq_refl) as (p & a & n & E). now apply Nf in E. }
    subst c.
    constructor; cbn [xd xfib xcall xwake xstop xlog]; eauto.
    + exists (ls ++ [lb]). rewrite R2. now rewrite chain_of_app.
    + intros y. destruct (HL y) as (st & A & B & C). rewrite lives_app, A. cbn [lives].
      destruct e0 as [x| |x b|x|]; try easy.
      * exists st. split; [easy|]. split; [|easy]. revert B. apply whr_same.
        -- now rewrite Fq.
        -- intros t. now rewrite Cs.
        -- intros _. simpl in Ha. destruct q; try discriminate. injection Ha as <-. simpl.
           now destruct l0.
      * destruct Fq as (f0 & k & t0 & -> & ->). cbn [full dcontents] in *.
        destruct (N.eq_dec y x) as [->|Hne].
        -- assert (Inx : In x (f0 ++ k ++ x :: t0)) by (rewrite !in_app_iff; simpl; auto).
           assert (st = LDone).
           { rewrite (proj1 B Inx). simpl. now rewrite N.eqb_refl. }
           subst st. cbn [life1]. rewrite N.eqb_refl. exists LNone. split; [easy|]. split; [|easy].
           split; [|split].
           ++ intros H. exfalso. rewrite app_assoc in Hnd. apply NoDup_remove_2 in Hnd.
              apply Hnd. rewrite <- app_assoc. exact H.
           ++ intros t. rewrite Cs. intros H. exfalso. exact (carried_apart d l _ x t HI H Inx).
           ++ easy.
        -- rewrite (life_other y x) by auto. exists st. split; [easy|]. split; [|easy].
           revert B. apply whr_same.
           ++ cbn [full dcontents]. rewrite !in_app_iff. simpl. intuition congruence.
           ++ intros t. now rewrite Cs.
           ++ intros _. simpl. destruct t0; destruct (N.eqb_spec x y); congruence.
      * exists st. split; [easy|]. split; [|easy]. revert B. apply whr_same.
        -- now rewrite Fq.
        -- intros t. now rewrite Cs.
        -- intros _. simpl in Ha. destruct q as [|f0 k [|z t0]|]; try discriminate. injection Ha as <-. easy.
    + intros t y z. rewrite Cs. apply HWo.
    + intros t. rewrite wakes_app, HW. cbn [wakes]. rewrite Cs. destruct e0; easy.
    + rewrite calls_app, HK. cbn. destruct e0; easy.
    + apply Forall_app. split; [easy|]. repeat constructor.
Qed.

Lemma step_add s q t x k cs wake : xinv nodes link s q ->
  exists q', xinv nodes link (xstep s (XAdd t x k cs wake)) q'.
Proof.
  intros X. pose proof X as [(ls & R) (l & HI) HC HL HWo HW HK HF HS].
  destruct s as [d f c w st lg]. cbn [xd xfib xcall xwake xstop xlog] in *. subst st. cbn [xstep].
  destruct (dth d t) eqn:Et; try (exists q; exact X). destruct (w t) eqn:Ew; try (exists q; exact X).
  destruct (mem_N x (held (dsh d))) eqn:Eh; [|exists q; exact X].
  pose proof Eh as Hx. apply mem_N_In in Hx. destruct (held_apart _ _ _ _ HI Hx) as [Nf Nc].
  pose proof (full_nd _ _ _ HI) as Hnd.
  set (wk := match k with KExec => wake | _ => false end).
  destruct cs.
  - pose proof (drrun_snoc _ (APush x) _ _ _ _ R) as R2.
    destruct (dinv_step true d l q (APush x) HI) as (l' & q' & Ha & HI').
    cbn [drstep] in *. rewrite Eh in *. cbn [fst snd map] in *. apply one_of in Ha.
    pose proof (full_accept _ _ _ Hnd Ha) as Fq. cbn in Fq.
    exists q'. constructor; cbn [xd xfib xcall xwake xstop xlog]; eauto.
    + exists (ls ++ [APush x]). rewrite R2. now rewrite chain_of_app.
    + intros y. destruct (HL y) as (st & A & B & C). rewrite lives_app, A. cbn [lives].
      unfold set_fib. destruct (N.eqb_spec y x) as [->|Hne].
      * assert (st = LNone) by (apply B; auto). subst st. cbn [life1]. rewrite N.eqb_refl. cbn [life1].
        exists LWaits. split; [easy|]. split; [|easy]. split; [|split].
        -- intros _. symmetry. eapply inchain_new; eauto.
        -- cbn [dth]. intros t' H. now apply Nc in H.
        -- rewrite Fq. simpl. tauto.
      * rewrite (life_other y x) by auto. rewrite (life_other y x) by auto.
        exists st. split; [easy|]. split; [|easy]. revert B. apply whr_same.
        -- rewrite Fq. simpl. split; [intros [H|H]; congruence|auto].
        -- easy.
        -- intros _. eapply inchain_add; eauto.
    + cbn [dth]. intros t' y z. destruct (Nat.eq_dec t' t) as [->|Hne]; rewrite ?upd_same, ?upd_other by easy.
      * now rewrite Et.
      * apply HWo.
    + intros t'. rewrite wakes_app, HW. cbn [dth wakes wake1].
      destruct (Nat.eqb_spec t t') as [->|Hne].
      * rewrite upd_same, Et, Ew. cbn [carry wexp wake1]. rewrite N.eqb_refl. now destruct wk.
      * rewrite upd_other by auto. destruct (carry (dth d t')) as [y|] eqn:Cy; cbn [wexp wake1].
        -- destruct (N.eqb_spec x y); [|easy]. subst. now apply Nc in Cy.
        -- now destruct (w t').
    + rewrite calls_app, HK. reflexivity.
    + apply Forall_app. split; [easy|]. repeat constructor.
  - pose proof (drrun_snoc _ (ACall t x) _ _ _ _ R) as R2.
    destruct (dinv_step true d l q (ACall t x) HI) as (l' & q' & Ha & HI').
    cbn [drstep] in *. rewrite Et, Eh in *. cbn [fst snd map] in *. simpl in Ha. injection Ha as <-.
    exists q. constructor; cbn [xd xfib xcall xwake xstop xlog]; eauto.
    + exists (ls ++ [ACall t x]). rewrite R2. now rewrite chain_of_app.
    + intros y. destruct (HL y) as (st & A & B & C). rewrite lives_app, A. cbn [lives].
      unfold set_fib. destruct (N.eqb_spec y x) as [->|Hne].
      * assert (st = LNone) by (apply B; auto). subst st. cbn [life1]. rewrite N.eqb_refl.
        exists LMade. split; [easy|]. split; [|easy]. split; [|split]; try easy.
        intros _ H. exfalso. apply (H t). cbn [dth]. now rewrite upd_same.
      * rewrite (life_other y x) by auto.
        exists st. split; [easy|]. split; [|easy]. revert B. apply whr_same; try easy.
        intros t'. cbn [dth]. destruct (Nat.eq_dec t' t) as [->|]; rewrite ?upd_same, ?upd_other by easy; [|easy].
        rewrite Et. simpl. split; congruence.
    + cbn [dth]. intros t' y z. destruct (Nat.eq_dec t' t) as [->|Hne]; rewrite ?upd_same, ?upd_other by easy.
      * cbn [carry]. destruct wk; congruence.
      * apply HWo.
    + intros t'. rewrite wakes_app, HW. cbn [dth wakes wake1].
      destruct (Nat.eqb_spec t t') as [->|Hne].
      * rewrite !upd_same, Et, Ew. cbn [carry wexp]. f_equal. f_equal. destruct wk; simpl; [|easy].
        now rewrite N.eqb_refl.
      * now rewrite !upd_other by auto.
    + rewrite calls_app, HK. reflexivity.
    + apply Forall_app. split; [easy|]. repeat constructor.
Qed.

Lemma step_wake s q t : xinv nodes link s q -> exists q', xinv nodes link (xstep s (XWakeup t)) q'.
Proof.
  intros X. pose proof X as [(ls & R) (l & HI) HC HL HWo HW HK HF HS].
  destruct s as [d f c w st lg]. cbn [xd xfib xcall xwake xstop xlog] in *. subst st. cbn [xstep].
  destruct (dth d t) eqn:Et; try (exists q; exact X). destruct (w t) as [x|] eqn:Ew; try (exists q; exact X).
  exists q. constructor; cbn [xd xfib xcall xwake xstop xlog]; eauto.
  - exists ls. rewrite R, chain_of_app. simpl. now rewrite app_nil_r.
  - intros y. destruct (HL y) as (st & A & B & C). rewrite lives_app, A. cbn. eauto.
  - intros t' y z. destruct (Nat.eq_dec t' t) as [->|Hne]; rewrite ?upd_same, ?upd_other by easy; [easy|].
    apply HWo.
  - intros t'. rewrite wakes_app, HW. cbn [wakes wake1]. destruct (Nat.eqb_spec t t') as [->|Hne].
    + rewrite upd_same, Et, Ew. cbn [carry wexp]. now rewrite N.eqb_refl.
    + now rewrite upd_other by auto.
  - rewrite calls_app, HK. reflexivity.
  - apply Forall_app. split; [easy|]. repeat constructor.
Qed.

(** The fiber that is visited. *)
Lemma visited d l q p c n : dinv d l q -> dpo d = DFilter p c n ->
  exists f k t, q = QRun f k (c :: t) /\ In c (full q).
Proof.
  intros [_ _ _ HQ] E. rewrite E in HQ. destruct q as [|f k [|y t]|]; simpl in HQ; try easy.
  destruct HQ as (-> & _). exists f, k, t. split; [easy|]. simpl. rewrite !in_app_iff. simpl. auto.
Qed.

Lemma step_begin s q : xinv nodes link s q -> exists q', xinv nodes link (xstep s XBegin) q'.
Proof.
  intros X. pose proof X as [(ls & R) (l & HI) HC HL HWo HW HK HF HS].
  destruct s as [d f c w st lg]. cbn [xd xfib xcall xwake xstop xlog] in *. subst st. cbn [xstep].
  destruct (dpo d) as [| |p x n| | | | |] eqn:Ed; try (exists q; exact X). destruct c; [exists q; exact X|].
  destruct (visited _ _ _ _ _ _ HI Ed) as (f0 & k & t0 & Eq & Inx).
  destruct (HL x) as (sx & Ax & Bx & Cx).
  assert (sx = LWaits) by (rewrite (proj1 Bx Inx), Eq; reflexivity). subst sx. simpl in Cx.
  unfold begin_. rewrite Cx.
  exists q. constructor; cbn [xd xfib xcall xwake xstop xlog]; eauto.
  - exists ls. rewrite R, chain_of_app. simpl. now rewrite app_nil_r.
  - intros y. destruct (HL y) as (st & A & B & C). rewrite lives_app, A. cbn [lives].
    unfold set_fib. destruct (N.eqb_spec y x) as [->|Hne].
    + assert (st = LWaits) by congruence. subst st. cbn [life1]. rewrite N.eqb_refl. exists LPolled.
      split; [easy|]. split; [|simpl; now destruct (kind (f x))]. split; [|split].
      * intros _. rewrite Eq. simpl. now rewrite N.eqb_refl.
      * intros t H. exfalso. exact (carried_apart d l _ x t HI H Inx).
      * tauto.
    + rewrite (life_other y x) by auto. exists st. split; [easy|]. split; [|easy]. revert B.
      apply whr_same; try easy. intros _. rewrite Eq. simpl. destruct (N.eqb_spec x y); congruence.
  - intros t. rewrite wakes_app, HW. reflexivity.
  - rewrite calls_app, HK, Ed. reflexivity.
  - apply Forall_app. split; [easy|]. repeat constructor.
Qed.

(** What remains when a future ends with an error. *)
Definition stopped (s : xst) : Prop := xstop s = true /\
  exists s0 q p x n e, xinv nodes link s0 q /\ xcall s0 = true /\ dpo (xd s0) = DFilter p x n /\
    xd s = xd s0 /\ xlog s = xlog s0 ++ [XReady x false; XErr e].

Lemma step_end s q a : xinv nodes link s q ->
  (exists q', xinv nodes link (xstep s (XEnd a)) q') \/ stopped (xstep s (XEnd a)).
Proof.
  intros X. pose proof X as [(ls & R) (l & HI) HC HL HWo HW HK HF HS].
  destruct s as [d f c w st lg]. cbn [xd xfib xcall xwake xstop xlog] in *. subst st. cbn [xstep].
  destruct (dpo d) as [| |p x n| | | | |] eqn:Ed; try (left; exists q; exact X).
  destruct c; [|left; exists q; exact X].
  destruct (end_ (f x) a) as [[fx b] err] eqn:Ee. destruct err as [e|].
  { right. split; [easy|]. exists (Xst d f true w false lg), q, p, x, n, e. auto. }
  left. destruct (visited _ _ _ _ _ _ HI Ed) as (f0 & k & t0 & Eq & Inx).
  pose proof (drrun_snoc _ (DAnswer b) _ _ _ _ R) as R2. pose proof (full_nd _ _ _ HI) as Hnd.
  destruct (dinv_step true d l q (DAnswer b) HI) as (l' & q' & Ha & HI').
  cbn [drstep] in *. rewrite Ed in *. cbn [fst snd map] in *. apply one_of in Ha.
  pose proof (full_accept _ _ _ Hnd Ha) as Fq. cbn beta iota in Fq.
  assert (Eq' : q' = if b then QOut f0 k x t0 else QRun f0 (k ++ [x]) t0).
  { rewrite Eq in Ha. simpl in Ha. rewrite N.eqb_refl in Ha. now injection Ha as <-. }
  destruct (HL x) as (sx & Ax & Bx & Cx).
  assert (sx = LPolled) by (rewrite (proj1 Bx Inx), Eq; simpl; now rewrite N.eqb_refl). subst sx.
  assert (Hfx : b = false -> alive fx = true).
  { intros ->. unfold end_ in Ee. simpl in Cx. destruct (kind (f x)), a as [|[?|]]; try discriminate;
      injection Ee as <-; now apply Cx. }
  assert (Hwk : forall t, wakes t WIdle (lg ++ (if b then [XReady x true; XDrop x] else [XPend x]) ++ [XD (EVisit x b)]) =
    Some (wexp (carry (dth d t)) (w t))).
  { intros t. rewrite wakes_app, HW. now destruct b. }
  assert (Hlg : chain_of (lg ++ (if b then [XReady x true; XDrop x] else [XPend x]) ++ [XD (EVisit x b)]) =
    chain_of lg ++ [EVisit x b]) by (rewrite chain_of_app; now destruct b).
  exists q'. constructor; cbn [xd xfib xcall xwake xstop xlog]; eauto.
  - exists (ls ++ [DAnswer b]). now rewrite R2, Hlg.
  - easy.
  - intros y. destruct (HL y) as (st & A & B & C). rewrite lives_app, A.
    unfold set_fib. destruct (N.eqb_spec y x) as [->|Hne].
    + assert (st = LPolled) by congruence. subst st. exists (if b then LDone else LWaits).
      split; [destruct b; cbn; now rewrite !N.eqb_refl|]. split; [|destruct b; simpl; auto]. split; [|split].
      * intros _. rewrite Eq'. destruct b; simpl; [now rewrite N.eqb_refl|]. now destruct t0.
      * cbn [dth]. intros t H. exfalso. exact (carried_apart d l _ x t HI H Inx).
      * rewrite Fq. tauto.
    + exists st. split.
      { destruct b; cbn [app lives]; repeat rewrite (life_other y x) by auto; easy. }
      split; [|easy]. revert B. apply whr_same.
      * now rewrite Fq.
      * easy.
      * intros _. rewrite Eq', Eq. destruct b; simpl.
        -- destruct (N.eqb_spec x y); congruence.
        -- destruct t0; destruct (N.eqb_spec x y); congruence.
  - rewrite calls_app, HK. cbn [cur]. destruct b; cbn; rewrite !N.eqb_refl; cbn; now rewrite ?N.eqb_refl.
  - apply Forall_app. split; [easy|]. destruct b; repeat constructor.
Qed.

Lemma xinv_init : NoDup nodes -> ~ In 0 nodes -> xinv nodes link (xinit nodes link) (QIdle []).
Proof.
  intros Hnd H0. constructor; cbn; auto; try easy.
  - exists []. reflexivity.
  - exists []. now apply dinv_init.
  - intros x. exists LNone. split; [easy|]. split; [|easy]. split; [easy|]. split; easy.
Qed.

Lemma stopped_step s a : xstop s = true -> xstep s a = s.
Proof. destruct s as [d f c w st lg]. cbn. now intros ->. Qed.

Theorem xinv_run l : NoDup nodes -> ~ In 0 nodes ->
  (exists q, xinv nodes link (xrun nodes link l) q) \/ stopped (xrun nodes link l).
Proof.
  intros Hnd H0. unfold xrun. induction l as [|a l IH] using rev_ind.
  - left. exists (QIdle []). now apply xinv_init.
  - rewrite fold_left_app. cbn [fold_left]. set (s := fold_left xstep l (xinit nodes link)) in *.
    destruct IH as [(q & X)|S1].
    + destruct a as [lb|t x k cs wake|t| |a].
      * left. eapply step_sys; eauto.
      * left. eapply step_add; eauto.
      * left. eapply step_wake; eauto.
      * left. eapply step_begin; eauto.
      * eapply step_end; eauto.
    + right. rewrite stopped_step by apply S1. exact S1.
Qed.

End Steps.
