(** Properties of futures run by a software-managed thread: C93. *)
Require Import NArith List Bool Arith Lia.
From Verif Require Import AtomicSpec Treiber DrainSpec Drain DrainProofs P04_List ExecSpec Exec ExecProofs P21_Exec.
From Verif Require Import SoftSpec Soft SoftProofs SoftInv SoftRun P10_Soft TasksSpec Tasks TasksProofs.
Import ListNotations.
Open Scope N_scope.

(** A wakeup that does not wait any more was run or cleared. *)
Lemma waits_no i p b : forall w, w <> WNo -> fold_left (wstep i p) b w = WNo ->
  In (EResume i p) b \/ In (EClear i p) b.
Proof.
  induction b as [|e b IH]; intros w W H; [contradiction|]. cbn [fold_left] in H.
  destruct e; cbn [wstep] in H; try (destruct (IH _ W H); simpl; auto; fail).
  - assert (K : (if is_ i p i0 p0 then match w with WNo => WSet | _ => w end else w) <> WNo) by (destruct (is_ i p i0 p0), w; congruence).
    destruct (IH _ K H); simpl; auto.
  - assert (K : (if is_ i p i0 p0 then match w with WSet => WTold | _ => w end else w) <> WNo) by (destruct (is_ i p i0 p0), w; congruence).
    destruct (IH _ K H); simpl; auto.
  - destruct (is_ i p i0 p0) eqn:E; [|destruct (IH _ W H); simpl; auto].
    apply andb_prop in E as (E1 & E2). apply N.eqb_eq in E1, E2. subst. simpl. auto.
  - destruct (is_ i p i0 p0) eqn:E; [|destruct (IH _ W H); simpl; auto].
    apply andb_prop in E as (E1 & E2). apply N.eqb_eq in E1, E2. subst. simpl. auto.
Qed.

(** A drain that has started and is over has ended. *)
Lemma drain_ends c : forall q l, (match q with QIdle _ => False | _ => True end) -> daccepts q c = Some (QIdle l) ->
  exists m z, c = m ++ EEnd :: z /\ inner m.
Proof.
  induction c as [|e c IH]; intros q l Q H; cbn [daccepts] in H.
  - injection H as ->. contradiction.
  - destruct (daccept q e) as [q'|] eqn:A; [|discriminate].
    assert (K : e = EEnd \/ (e <> EStart /\ e <> EEnd /\ match q' with QIdle _ => False | _ => True end)).
    { destruct e; auto; right; (split; [|split]); try discriminate; destruct q; cbn in A; try discriminate; try contradiction;
        repeat match type of A with context [match ?c with _ => _ end] => destruct c; try discriminate end;
        injection A as <-; exact I. }
    destruct K as [->|(K1 & K2 & K3)]; [exists [], c; split; [reflexivity|split; intros []]|].
    destruct (IH _ _ K3 H) as (m & z & -> & I1 & I2). exists (e :: m), z. split; [reflexivity|].
    split; intros [X|X]; auto.
Qed.

Lemma chain_split c : forall m e z, chain_of c = m ++ e :: z ->
  exists m' z', c = m' ++ XD e :: z' /\ chain_of m' = m.
Proof.
  induction c as [|x c IH]; intros m e z E; [destruct m; discriminate|].
  assert (K : chain_of c = m ++ e :: z -> (forall d, x <> XD d) ->
    exists m' z', x :: c = m' ++ XD e :: z' /\ chain_of m' = m).
  { intros E' Nx. destruct (IH _ _ _ E') as (m' & z' & -> & M). exists (x :: m'), z'. split; [reflexivity|].
    destruct x; auto. destruct (Nx e0 eq_refl). }
  destruct x; try (apply K; [exact E|discriminate]). clear K. cbn [chain_of] in E. destruct m as [|y m].
  - injection E as <- _. exists [], c. auto.
  - injection E as <- E. destruct (IH _ _ _ E) as (m' & z' & -> & M). exists (XD e0 :: m'), z'. cbn. now rewrite M.
Qed.

Lemma exec_split l : forall m e z, exec_of l = m ++ e :: z -> exists m' z', l = m' ++ TX e :: z' /\ exec_of m' = m /\ exec_of z' = z.
Proof.
  induction l as [|x l IH]; intros m e z E; [destruct m; discriminate|]. destruct x as [x|x]; cbn [exec_of] in E.
  - destruct (IH _ _ _ E) as (m' & z' & -> & M & Z). exists (TS x :: m'), z'. auto.
  - destruct m as [|y m].
    + injection E as <- <-. exists [], l. auto.
    + injection E as <- E. destruct (IH _ _ _ E) as (m' & z' & -> & M & Z). exists (TX x :: m'), z'. cbn. now rewrite M.
Qed.

Lemma idle_bodies s : idle s -> bodies (stk s) = [].
Proof.
  unfold idle. induction (stk s) as [|f r IH]; intros H; [reflexivity|].
  rewrite (H f ltac:(now left)). cbn [bodies]. apply IH. intros g G. apply H. now right.
Qed.
Lemma idle_owed i s : idle s -> ~ owes i (stk s).
Proof. intros H (f & F & G). rewrite (H f F) in G. exact G. Qed.

Section Tasks.
Variable count : N.
Hypothesis small : 1 <= count <= 32.
Variable atomics : bool.
Variable me : N.
Hypothesis mine : me < count.
Variable nodes : list N.
Variable link : N -> N.
Hypothesis distinct : NoDup nodes.
Hypothesis nonnull : ~ In 0 nodes.
Variable l : list tact.
Let s := trun count atomics me nodes link l.

Let V : tinv count atomics me nodes link s := tinv_run count small atomics me mine nodes link l.

Lemma not_bad : m_bad (moved me (soft_of (tlog s))) = false -> tbad s = false.
Proof.
  intros M. destruct (tbad s) eqn:Tb; [exfalso|reflexivity]. destruct (v_bad _ _ _ _ _ _ V Tb) as (a & p & q & E & Q).
  destruct (v_soft _ _ _ _ _ _ V) as (ls & Es). rewrite (v_slog _ _ _ _ _ _ V), E in M.
  unfold moved in M. rewrite fold_left_app in M. cbn [fold_left mvstep] in M.
  rewrite Es in E. exact (C70_no_reentrance_partial count atomics ls a me p [] small E M q Q).
Qed.

(** Every start of the thread drains its fibers. *)
Lemma started a p b : m_bad (moved me (soft_of (tlog s))) = false -> tlog s = a ++ TS (EResume me p) :: b ->
  exists c, b = TX (XD EStart) :: c.
Proof.
  intros M E. exact (v_pair _ _ _ _ _ _ V (not_bad M) a _ b E (ex_intro _ p eq_refl)).
Qed.

(** A run that has started and is over. *)
Lemma run_over a p b z c : m_bad (moved me (soft_of (tlog s))) = false ->
  tlog s = a ++ TS (EResume me p) :: b ++ z ->
  b <> [] -> daccepts (QIdle []) (chain_of (exec_of (a ++ TS (EResume me p) :: b))) = Some (QIdle c) ->
  exists m y, exec_of b = XD EStart :: m ++ XD EEnd :: y /\ inner (chain_of m) /\
    polled m = content (chain_of (exec_of a)) /\ NoDup (polled m).
Proof.
  intros M E Nb D. destruct (started a p (b ++ z) M E) as (c0 & Eb).
  destruct b as [|e b]; [contradiction|]. simpl in Eb. injection Eb as -> Eb.
  rewrite exec_of_app in D. cbn [exec_of] in D. rewrite chain_of_app in D. cbn [chain_of] in D.
  rewrite daccepts_app in D. destruct (daccepts (QIdle []) (chain_of (exec_of a))) as [q|]; [|discriminate].
  cbn [daccepts] in D. destruct (daccept q EStart) as [q'|] eqn:A; [|discriminate].
  assert (Q : match q' with QIdle _ => False | _ => True end) by (destruct q; cbn in A; try discriminate; injection A as <-; exact I).
  destruct (drain_ends _ _ _ Q D) as (m0 & z0 & Ez & In0). destruct (chain_split _ _ _ _ Ez) as (m & y & Ey & Em).
  exists m, y. cbn [exec_of]. rewrite Ey. split; [reflexivity|]. rewrite Em. split; [exact In0|].
  destruct (v_exec _ _ _ _ _ _ V) as (lx & Ex). pose proof (v_xlog _ _ _ _ _ _ V) as X. rewrite Ex, E in X.
  rewrite exec_of_app in X. cbn [exec_of app] in X. rewrite exec_of_app, Ey, <- app_assoc in X. symmetry in X.
  apply (C87_run nodes link lx distinct nonnull _ _ _ X). now rewrite Em.
Qed.

Lemma idle_over : idle (ts s) -> tbad s = false ->
  exists c, daccepts (QIdle []) (chain_of (exec_of (tlog s))) = Some (QIdle c).
Proof.
  intros D Tb. pose proof (idle_bodies _ D) as Bd. apply rest_accepts with (1 := distinct) (2 := nonnull) (3 := V).
  - destruct (xstop (tx s)) eqn:St; [|reflexivity]. destruct (v_stop _ _ _ _ _ _ V St) as (q & Q). rewrite Bd in Q. destruct Q.
  - destruct (v_rest _ _ _ _ _ _ V) as [R|(q & Q)]; [exact R|]. rewrite Bd in Q. destruct Q.
Qed.

(** Every wakeup that was not cancelled is followed by a complete run. *)
Lemma wakeup_run a b : idle (ts s) -> m_bad (moved me (soft_of (tlog s))) = false ->
  (forall p, In (TS (EPend me p)) b -> sure p (soft_of (tlog s))) ->
  tlog s = a ++ TS (EWake me) :: b -> (forall p, ~ In (TS (EClear me p)) b) ->
  exists c p d m y, b = c ++ TS (EResume me p) :: d /\ exec_of d = XD EStart :: m ++ XD EEnd :: y /\ inner (chain_of m) /\
    polled m = content (chain_of (exec_of (a ++ TS (EWake me) :: c))) /\ NoDup (polled m).
Proof.
  intros D M Su E Cl. destruct (v_soft _ _ _ _ _ _ V) as (ls & Es). pose proof (v_slog _ _ _ _ _ _ V) as SL.
  rewrite Es in SL. pose proof SL as SL0. rewrite E, soft_of_app in SL0. cbn [soft_of] in SL0. symmetry in SL0.
  destruct (owes_run count small atomics me ls _ _ SL0) as [(p & P)|P].
  2: { exfalso. rewrite Es in D. exact (idle_owed me _ D P). }
  apply soft_in in P. specialize (Su p P). apply in_split in P. destruct P as (b1 & b2 & ->).
  pose proof (C45_every_wakeup_partial count atomics ls me p small) as W. unfold soft, hist in W. fold (soft count atomics ls) in W.
  rewrite Es in D. specialize (W D). unfold soft in W. rewrite <- SL in W. specialize (W Su).
  rewrite E in W. unfold waits in W. rewrite soft_of_app in W. cbn [soft_of] in W. rewrite soft_of_app in W. cbn [soft_of] in W.
  rewrite fold_left_app in W. cbn [fold_left] in W. rewrite fold_left_app in W. cbn [fold_left] in W.
  apply waits_no in W.
  2: { cbn [wstep]. unfold is_. rewrite !N.eqb_refl. cbn [andb]. match goal with |- match ?x with _ => _ end <> _ => destruct x end; discriminate. }
  destruct W as [W|W]; apply soft_in in W; [|destruct (Cl p); apply in_or_app; right; right; exact W].
  apply in_split in W. destruct W as (b3 & d & ->).
  set (c := b1 ++ TS (EPend me p) :: b3).
  assert (Ec : b1 ++ TS (EPend me p) :: b3 ++ TS (EResume me p) :: d = c ++ TS (EResume me p) :: d).
  { unfold c. rewrite <- app_assoc. reflexivity. }
  rewrite Ec in *. assert (E1 : tlog s = (a ++ TS (EWake me) :: c) ++ TS (EResume me p) :: d).
  { rewrite E. now rewrite <- app_assoc. }
  rewrite <- Es in D. destruct (idle_over D (not_bad M)) as (k & K). rewrite E1 in K.
  destruct (started _ _ _ M E1) as (d0 & Ed0).
  assert (Nd : d <> []) by (rewrite Ed0; discriminate).
  assert (E2 : tlog s = (a ++ TS (EWake me) :: c) ++ TS (EResume me p) :: d ++ []) by (rewrite app_nil_r; exact E1).
  destruct (run_over _ _ d [] k M E2 Nd K) as (m & y & R). exists c, p, d, m, y. split; [reflexivity|exact R].
Qed.
End Tasks.

(** A complete run of the thread: the body starts, and returns.  In between all fibers that were
    there at the start are polled once.  Missing: changes of the thread's priority (C70). *)
Theorem C93_run_partial : forall count atomics me nodes link l, 1 <= count <= 32 -> me < count -> NoDup nodes -> ~ In 0 nodes ->
  let s := trun count atomics me nodes link l in
  m_bad (moved me (soft_of (tlog s))) = false ->
  forall a p b z, tlog s = a ++ TS (EResume me p) :: b ++ TS (EDone me) :: z ->
  exists m y, exec_of b = XD EStart :: m ++ XD EEnd :: y /\ inner (chain_of m) /\
    polled m = content (chain_of (exec_of a)) /\ NoDup (polled m).
Proof.
  intros count atomics me nodes link l small mine Hnd H0 s M a p b z E.
  assert (Nb : b <> []).
  { intros ->. destruct (started count small atomics me mine nodes link l a p _ M E) as (c & C). discriminate. }
  assert (E' : tlog s = (a ++ TS (EResume me p) :: b) ++ TS (EDone me) :: z) by (rewrite E, <- app_assoc; reflexivity).
  destruct (done_accepts count small atomics me mine nodes link l Hnd H0 _ _ E') as (c & C).
  exact (run_over count small atomics me mine nodes link Hnd H0 l a p b _ c M E Nb C).
Qed.
Print Assumptions C93_run_partial.

Lemma in_polled x m : In x (polled m) -> In (XPoll x) m.
Proof. induction m as [|[] m IH]; simpl; auto. intros [->|H]; auto. Qed.

(** Once the system is idle, every wakeup of the thread has made it poll every fiber that was
    there at the time of the wakeup.  Missing: what C45 and C70 miss: threads woken while their
    priority is being run, calls of will_preempt without preempt, more than 32 threads, changes
    of the thread's priority. *)
Theorem C93_woken_polled_partial : forall count atomics me nodes link l,
  1 <= count <= 32 -> me < count -> NoDup nodes -> ~ In 0 nodes ->
  let s := trun count atomics me nodes link l in
  idle (ts s) -> m_bad (moved me (soft_of (tlog s))) = false ->
  forall a b x, tlog s = a ++ TS (EWake me) :: b ->
  (forall p, In (TS (EPend me p)) b -> sure p (soft_of (tlog s))) ->
  (forall p, ~ In (TS (EClear me p)) b) ->
  In x (content (chain_of (exec_of a))) ->
  In (TX (XPoll x)) b \/ In (TX (XD (EOut x))) b.
Proof.
  intros count atomics me nodes link l small mine Hnd H0 s D M a b x E Su Cl Hx.
  destruct (wakeup_run count small atomics me mine nodes link Hnd H0 l a b D M Su E Cl) as (c & p & d & m & y & -> & Ed & _ & P & _).
  destruct (in_dec N.eq_dec x (polled m)) as [I|I].
  - left. apply in_or_app. right. right. apply exec_in. rewrite Ed. right. apply in_or_app. left. now apply in_polled.
  - right. rewrite P in I. apply in_or_app. left. apply exec_in, chain_of_In.
    destruct (in_dec N.eq_dec x (outs (chain_of (exec_of c)))) as [O|O].
    + clear -O. induction (chain_of (exec_of c)) as [|[] r IH]; simpl in *; auto. destruct O as [->|O]; auto.
    + exfalso. apply I. rewrite exec_of_app. cbn [exec_of]. rewrite chain_of_app. unfold content. rewrite fold_left_app.
      apply content_keeps; [|left; exact Hx]. intros K. apply O. clear -K.
      induction (chain_of (exec_of c)) as [|[] r IH]; simpl in *; auto; destruct K as [K|K]; try discriminate; auto.
      injection K as ->. now left.
Qed.
Print Assumptions C93_woken_polled_partial.

Lemma lives_polled x b : forall st, st = LMade \/ st = LWaits -> lives x st b <> None -> In (XD (EOut x)) b -> In (XPoll x) b.
Proof.
  induction b as [|e b IH]; intros st Hs L H; [destruct H|]. cbn [lives] in L. destruct (life1 x st e) as [s'|] eqn:E; [|easy].
  destruct (in_dec (fun a b : N => N.eq_dec a b) x (polled [e])) as [P|P].
  - left. destruct e; simpl in P; try contradiction. destruct P as [->|[]]. reflexivity.
  - right. assert (K : (s' = LMade \/ s' = LWaits) /\ e <> XD (EOut x)).
    { destruct e as [[z| |z c|z|]|u z w|u z|z|z|z c|z|z|]; try destruct c; cbn in E; try (destruct (N.eqb_spec z x));
        try (injection E as <-; split; [exact Hs|congruence]);
        try (subst z; exfalso; apply P; now left);
        destruct Hs as [-> | ->]; try discriminate; injection E as <-; (split; [auto|congruence]). }
    destruct K as (K1 & K2). destruct H as [H|H]; [contradiction|]. exact (IH s' K1 L H).
Qed.

(** A future passed to [exec] of the thread is polled, whatever the thread was doing at that
    time.  Missing: as before. *)
Theorem C93_exec_polled_partial : forall count atomics me nodes link l,
  1 <= count <= 32 -> me < count -> NoDup nodes -> ~ In 0 nodes ->
  let s := trun count atomics me nodes link l in
  idle (ts s) -> m_bad (moved me (soft_of (tlog s))) = false ->
  forall a t x w b c, tlog s = a ++ TX (XMake t x w) :: b ++ TX (XWake t x) :: c ->
  (forall p, In (TS (EPend me p)) c -> sure p (soft_of (tlog s))) ->
  (forall p, ~ In (TS (EClear me p)) c) ->
  In (TX (XPoll x)) (b ++ c).
Proof.
  intros count atomics me nodes link l small mine Hnd H0 s D M a t x w b c E Su Cl.
  pose proof (tinv_run count small atomics me mine nodes link l) as V. fold s in V.
  assert (E1 : tlog s = (a ++ TX (XMake t x w) :: b) ++ TX (XWake t x) :: c) by (rewrite E, <- app_assoc; reflexivity).
  destruct (v_wake _ _ _ _ _ _ V _ _ _ E1 (ex_intro _ t (ex_intro _ x eq_refl))) as (c' & ->).
  assert (E2 : tlog s = ((a ++ TX (XMake t x w) :: b) ++ [TX (XWake t x)]) ++ TS (EWake me) :: c') by (rewrite E1, <- !app_assoc; reflexivity).
  destruct (wakeup_run count small atomics me mine nodes link Hnd H0 l _ c' D M
    (fun p P => Su p (or_intror P)) E2 (fun p P => Cl p (or_intror P))) as (k & p & d & m & y & -> & Ed & Im & _ & _).
  pose proof (v_xlog _ _ _ _ _ _ V) as X. rewrite E in X. destruct (v_exec _ _ _ _ _ _ V) as (lx & Ex). rewrite Ex in X.
  rewrite exec_of_app in X. cbn [exec_of] in X. rewrite exec_of_app in X. cbn [exec_of] in X. rewrite exec_of_app in X.
  cbn [exec_of] in X. rewrite Ed in X. symmetry in X.
  assert (G : In (XPoll x) (exec_of b) \/ In (XPoll x) (exec_of k) \/ In (XPoll x) (exec_of d)).
  { destruct (in_dec N.eq_dec x (outs (chain_of (exec_of b ++ exec_of k)))) as [O|O].
    - assert (O' : In (XD (EOut x)) (exec_of b ++ exec_of k)).
      { apply chain_of_In. clear -O. induction (chain_of (exec_of b ++ exec_of k)) as [|[] r IH]; simpl in *; auto. destruct O as [->|O]; auto. }
      destruct (C87_life nodes link lx Hnd H0) as (L & _). specialize (L x). rewrite X, lives_app in L.
      destruct (lives x LNone (exec_of a)) as [st|]; [|easy]. cbn [lives life1] in L. rewrite N.eqb_refl in L. destruct st; try easy.
      assert (L' : lives x LMade (exec_of b ++ exec_of k) <> None).
      { rewrite lives_app in L |- *. destruct (lives x LMade (exec_of b)) as [st|]; [|easy]. cbn [lives life1] in L.
        rewrite lives_app in L. now destruct (lives x st (exec_of k)). }
      pose proof (lives_polled x _ LMade (or_introl eq_refl) L' O') as P. apply in_app_or in P. tauto.
    - right. right. rewrite Ed. right. apply in_or_app. left. apply in_polled.
      apply (C87_exec_polled nodes link lx Hnd H0 _ _ _ _ _ _ _ _ X Im).
      intros K. apply O. apply chain_of_In in K. clear -K.
      induction (chain_of (exec_of b ++ exec_of k)) as [|[] r IH]; simpl in *; auto; destruct K as [K|K]; try discriminate; auto.
      injection K as ->. now left. }
  apply in_or_app. destruct G as [G|[G|G]]; apply exec_in in G.
  - now left.
  - right. right. apply in_or_app. now left.
  - right. right. apply in_or_app. right. now right.
Qed.
Print Assumptions C93_exec_polled_partial.

(** ** Cases *)
Definition goes (n : nat) : list tact := repeat (TSoft (Go false)) n.
Definition exec1 (t : nat) (x : N) : list tact := [TExec (XAdd t x KExec true true); TExec (XWakeup t)].
Definition chain1 : tact := TExec (XSys (DStep false)).

(** A future that wakes its own thread while it is polled, in order to be polled again, is not
    polled again: the system is idle, the future is pending. *)
Definition yields : list tact :=
  TSoft Irq :: exec1 1 5 ++ goes 12 ++
  [chain1; TExec XBegin; TSoft (Do (SetPending 0))] ++ goes 12 ++
  [TExec (XEnd Again); chain1; TSoft (Do Return)] ++ goes 12.
Theorem C93_woken_polled_refuted : forall atomics : bool, exists l a b x,
  let s := trun 1 atomics 0 [5; 6] (fun _ => 0) l in
  idle (ts s) /\ m_bad (moved 0 (soft_of (tlog s))) = false /\
  tlog s = a ++ TS (EWake 0) :: b /\ In x (content (chain_of (exec_of a))) /\ In (TX (XPend x)) b /\
  (forall p, ~ In (TS (EClear 0 p)) b) /\ ~ In (TX (XPoll x)) b /\ ~ In (TX (XD (EOut x))) b.
Proof.
  intros atomics. exists yields, (firstn 11 (tlog (trun 1 atomics 0 [5; 6] (fun _ => 0) yields))),
    (skipn 12 (tlog (trun 1 atomics 0 [5; 6] (fun _ => 0) yields))), 5.
  destruct atomics; vm_compute;
    (split; [intros f [H|[]]; auto|]); (split; [reflexivity|]); (split; [reflexivity|]); (split; [auto|]); (split; [tauto|]);
    (split; [intros p H|split; intros H]); decompose [or] H; try discriminate; contradiction.
Qed.
Print Assumptions C93_woken_polled_refuted.

(** A future that a running future passes to [exec] of its own thread is not polled. *)
Definition spawns : list tact :=
  TSoft Irq :: exec1 1 5 ++ goes 12 ++
  [chain1; TExec XBegin] ++ exec1 2 6 ++ goes 12 ++
  [TExec (XEnd (Finish None)); chain1; chain1; chain1; chain1; chain1; TSoft (Do Return)] ++ goes 12.
Theorem C93_exec_polled_refuted : forall atomics : bool, exists l a t x w b c,
  let s := trun 1 atomics 0 [5; 6] (fun _ => 0) l in
  idle (ts s) /\ m_bad (moved 0 (soft_of (tlog s))) = false /\
  tlog s = a ++ TX (XMake t x w) :: b ++ TX (XWake t x) :: c /\
  (forall p, ~ In (TS (EClear 0 p)) c) /\ ~ In (TX (XPoll x)) (b ++ c).
Proof.
  intros atomics. exists spawns, (firstn 11 (tlog (trun 1 atomics 0 [5; 6] (fun _ => 0) spawns))), 2%nat, 6, true,
    [TX (XD (EAdd 6))], (skipn 14 (tlog (trun 1 atomics 0 [5; 6] (fun _ => 0) spawns))).
  destruct atomics; vm_compute;
    (split; [intros f [H|[]]; auto|]); (split; [reflexivity|]); (split; [reflexivity|]);
    (split; [intros p H|intros H]); decompose [or] H; try discriminate; contradiction.
Qed.
Print Assumptions C93_exec_polled_refuted.

(** A future is pending, is woken up by a handler, and completes; in the meantime another one is
    added by a handler that preempts the poll, and polled afterwards. *)
Definition works : list tact :=
  TSoft Irq :: exec1 1 5 ++ goes 12 ++
  [chain1; TExec XBegin; TExec (XEnd Again); chain1; TSoft (Do Return)] ++ goes 12 ++
  [TSoft Irq; TSoft (Do (SetPending 0))] ++ goes 12 ++
  [chain1; TExec XBegin; TSoft Irq; TExec (XAdd 2 6 KExec true true); TSoft (Do Return);
   TExec (XEnd (Finish None)); chain1; chain1; chain1; chain1; chain1; chain1; TSoft (Do Return)] ++ goes 12 ++
  [TExec (XWakeup 2)] ++ goes 12 ++
  [chain1; TExec XBegin; TExec (XEnd (Finish None)); chain1; chain1; chain1; chain1; TSoft (Do Return)] ++ goes 12.
Example C93_case : forall b : bool, let s := trun 1 b 0 [5; 6] (fun _ => 0) works in
  stk (ts s) = [FIrq; FIrq] /\ m_bad (moved 0 (soft_of (tlog s))) = false /\ y_stuck (conds 0 (soft_of (tlog s))) = false /\
  y_will (conds 0 (soft_of (tlog s))) = false /\
  tlog s =
    [TX (XMake 1 5 true); TX (XD (EAdd 5)); TX (XWake 1 5); TS (EWake 0); TS (EPend 0 0); TS (EMark 0 0); TS (ESel 0);
     TS (ETake 0 0); TS (EResume 0 0); TX (XD EStart); TX (XPoll 5); TX (XPend 5); TX (XD (EVisit 5 false)); TX (XD EEnd);
     TS (EDone 0); TS EBack; TS (EWoken 0);
     TS (EWake 0); TS (EPend 0 0); TS (EMark 0 0); TS (ESel 0); TS (ETake 0 0); TS (EResume 0 0); TX (XD EStart);
     TX (XPoll 5); TX (XMake 2 6 true); TX (XD (EAdd 6)); TX (XReady 5 true); TX (XDrop 5); TX (XD (EVisit 5 true));
     TX (XD (EOut 5)); TX (XD EEnd); TS (EDone 0); TS EBack; TS (EWoken 0);
     TX (XWake 2 6); TS (EWake 0); TS (EPend 0 0); TS (EMark 0 0); TS (ESel 0); TS (ETake 0 0); TS (EResume 0 0);
     TX (XD EStart); TX (XPoll 6); TX (XReady 6 true); TX (XDrop 6); TX (XD (EVisit 6 true)); TX (XD (EOut 6));
     TX (XD EEnd); TS (EDone 0); TS EBack; TS (EWoken 0)].
Proof. intros []; vm_compute; auto. Qed.
