(** Executions of the soft-thread machine with at most 32 threads. *)
Require Import NArith List Bool Lia Arith.
From Verif Require Import SoftSpec Soft SoftProofs SoftInv SoftInv2 SoftCredit.
Import ListNotations.
Open Scope N_scope.
Local Arguments N.sub : simpl never.
Local Arguments N.add : simpl never.
Local Arguments N.eqb : simpl never.
Local Arguments N.ltb : simpl never.
Local Opaque hC hP cell N.ltb N.eqb.

(** [P] holds of every event of a history and the history before it. *)
Definition always (P : list sev -> sev -> Prop) (l : list sev) : Prop := forall a e b, l = a ++ e :: b -> P a e.

Lemma always_snoc P l e : always P l -> P l e -> always P (l ++ [e]).
Proof.
  intros A H a f b E. destruct b as [|g b].
  - apply snoc_inj in E as (<- & <-). exact H.
  - destruct (exists_last (l := g :: b) ltac:(discriminate)) as (b' & z & Z). rewrite Z in E.
    change (a ++ f :: b' ++ [z]) with (a ++ (f :: b') ++ [z]) in E. rewrite app_assoc in E. apply snoc_inj in E as (-> & _).
    now apply (A a f b').
Qed.

Record sinv (count : N) (s : sst) : Prop := Sinv {
  i_base : base count s;
  i_ends : ends (stk s);
  i_A : invA count s;
  i_L : invL s;
  i_M : invM s;
  i_calls : chosen (slog s) = calls (stk s);
  i_Y : invY s;
  i_C : invC s;
  i_P : invP s;
  i_K : invK s;
  i_T : forall i, invT i s
}.

Section Small.
Variable count : N.
Hypothesis small : 1 <= count <= 32.
Variable atomics : bool.

Lemma sinv_init : sinv count sinit.
Proof.
  split; eauto using base_init, invA_init, invM_init, invY_init, invC_init, invP_init, invK_init, invT_init; try easy.
Qed.
Lemma sinv_step s s' : sinv count s -> tr count s s' -> sinv count s'.
Proof.
  intros [] H.
  split; eauto using base_step, ends_step, invA_step, invL_step, invM_step, calls_step, invY_step, invC_step, invP_step, invK_step.
  intros i. eapply invT_step; eauto.
Qed.

Lemma srun_app l l' s : srun count atomics s (l ++ l') = srun count atomics (srun count atomics s l) l'.
Proof. revert s. induction l; simpl; auto. Qed.
Lemma sinv_run l : sinv count (srun count atomics sinit l).
Proof.
  induction l as [|a l IH] using rev_ind; [apply sinv_init|]. rewrite srun_app. simpl.
  eapply sinv_step; eauto. apply step_tr; auto. apply IH.
Qed.

Lemma run_always (P : list sev -> sev -> Prop) :
  (forall s s' e, sinv count s -> tr count s s' -> slog s' = slog s ++ [e] -> P (slog s) e) ->
  forall l, always P (slog (srun count atomics sinit l)).
Proof.
  intros H l. induction l as [|a l IH] using rev_ind.
  - intros [|] e b E; discriminate.
  - rewrite srun_app. simpl. pose proof (sinv_run l) as I. set (s := srun count atomics sinit l) in *.
    pose proof (step_tr count small atomics s a (i_base _ _ I)) as T.
    destruct (one_event _ _ _ T) as [E|(e & E)]; rewrite E; auto. apply always_snoc; eauto.
Qed.

(** ** What a step that logs an event looks like *)
Lemma at_resume s s' i p : sinv count s -> tr count s s' -> slog s' = slog s ++ [EResume i p] ->
  exists ptr prev b w r, stk s = FLoop ptr (p + 1) prev (RCall i b w) :: r /\ hC s = p + 1 /\ p < 27 /\
    forall l, any (loopF l) r -> 1 <= l <= p.
Proof.
  clear small. intros I H E. pose proof (i_ends _ _ I) as En. destruct H; norm; evt E.
  - subst e. rewrite H1 in En. now exfalso.
  - injection E as -> <-. destruct (uniq count s _ _ _ _ _ (i_base _ _ I) H1) as (U1 & U2 & U3 & U4). rewrite H1.
    replace (pri - 1 + 1) with pri by lia. exists ptr, prev, b, w, r. repeat apply conj; auto; try lia. intros l A. apply U4 in A. lia.
Qed.
Lemma at_sel s s' p : sinv count s -> tr count s s' -> slog s' = slog s ++ [ESel p] ->
  hC s < p + 1 /\ p < 27 /\ forall l, p + 1 < l <= 27 -> hP s l = false.
Proof.
  clear small. intros I H E. pose proof (i_ends _ _ I) as En. destruct H; norm; evt E.
  - subst e. rewrite H1 in En. now exfalso.
  - injection E as <-. repeat split; try lia. intros l L. apply H2. lia.
  - injection E as <-. repeat split; try lia. intros l L. apply H2. lia.
Qed.
Lemma at_next s s' p : sinv count s -> tr count s s' -> slog s' = slog s ++ [ENext p] ->
  exists ptr pri prev q r, stk s = FLoop ptr pri prev q :: r /\ (q = RNext \/ exists c, q = RNextC c) /\
    hC s = pri /\ prev < p + 1 < pri /\ p < 27 /\
    (forall l, p + 1 < l < pri -> hP s l = false).
Proof.
  clear small. intros I H E. pose proof (i_ends _ _ I) as En. destruct H; norm; evt E.
  - subst e. rewrite H1 in En. now exfalso.
  - injection E as <-. destruct (uniq count s _ _ _ _ _ (i_base _ _ I) ltac:(eassumption)) as (U1 & U2 & U3 & U4).
    exists ptr, pri, prev, RNext, r. repeat split; auto; try lia; intros l L; apply H2; lia.
  - injection E as <-. destruct (uniq count s _ _ _ _ _ (i_base _ _ I) ltac:(eassumption)) as (U1 & U2 & U3 & U4).
    exists ptr, pri, prev, (RNextC c), r. repeat split; eauto; try lia; intros l L; apply H2; lia.
Qed.
Lemma at_back s s' : sinv count s -> tr count s s' -> slog s' = slog s ++ [EBack] ->
  exists ptr pri prev q r, stk s = FLoop ptr pri prev q :: r /\ (q = RNext \/ exists c, q = RNextC c) /\ hC s = pri /\ prev < pri <= 27 /\
    (forall l, prev < l < pri -> hP s l = false) /\ wf count r prev.
Proof.
  clear small. intros I H E. pose proof (i_ends _ _ I) as En. pose proof (b_wf _ _ (i_base _ _ I)) as W. destruct H; norm; evt E.
  - subst e. rewrite H1 in En. now exfalso.
  - destruct (uniq count s _ _ _ _ _ (i_base _ _ I) ltac:(eassumption)) as (U1 & U2 & U3 & U4).
    exists ptr, pri, prev, RNext, r. rewrite H6 in W. simpl in W. repeat split; auto; try lia; tauto.
  - destruct (uniq count s _ _ _ _ _ (i_base _ _ I) ltac:(eassumption)) as (U1 & U2 & U3 & U4).
    exists ptr, pri, prev, (RNextC c), r. rewrite H6 in W. simpl in W. repeat split; eauto; try lia; tauto.
Qed.
Lemma at_is s s' i p b : sinv count s -> tr count s s' -> slog s' = slog s ++ [EIs i p b] -> b = cell s (p + 1) i /\ p < 27.
Proof.
  clear small. intros I H E. pose proof (i_ends _ _ I) as En. pose proof (b_wf _ _ (i_base _ _ I)) as W. destruct H; norm; evt E.
  - subst e. rewrite H1 in En. now exfalso.
  - injection E as -> -> <-. rewrite H1 in W. simpl in W. tauto.
Qed.

(** A level above the one that is being run, or the one being run. *)
Lemma see_le s l i : sinv count s -> any (seeF l i) (stk s) -> 1 <= l <= hC s.
Proof.
  clear small. intros I H. eapply wf_loop; [apply (b_wf _ _ (i_base _ _ I))|]. revert H. apply any_imp. intros f. apply see_loop.
Qed.
Lemma call_le s l i : sinv count s -> any (callF l i) (stk s) -> 1 <= l <= hC s.
Proof.
  clear small. intros I H. eapply wf_loop; [apply (b_wf _ _ (i_base _ _ I))|]. revert H. apply any_imp. intros f. apply call_loop.
Qed.
Lemma told_above s j q : sinv count s -> waits j q (slog s) = WTold -> hC s < q + 1 -> q < 27 /\ hP s (q + 1) = true.
Proof.
  clear small. intros I E L. pose proof (i_M _ _ I j q) as M. rewrite E in M. destruct M as (P & M). split; auto.
  destruct M as [(_ & [M|M])|M]; auto; [apply (see_le s) in M|apply (call_le s) in M]; auto; lia.
Qed.
(** At the end of a row only the header can tell about a waiting thread. *)
Lemma told_row s ptr pri prev q r j x : sinv count s -> stk s = FLoop ptr pri prev q :: r -> (q = RNext \/ exists c, q = RNextC c) ->
  waits j x (slog s) = WTold -> prev < x + 1 -> x < 27 /\ hP s (x + 1) = true.
Proof.
  clear small. intros I K Q T L. pose proof (i_M _ _ I j x) as M. rewrite T in M. destruct M as (P & M). split; auto.
  destruct (uniq count s _ _ _ _ _ (i_base _ _ I) K) as (_ & _ & _ & U).
  assert (N1 : ~ any (seeF (x + 1) j) (stk s)).
  { rewrite K. destruct Q as [-> |(c & ->)]; simpl; (intros [?|J]; [tauto|]); assert (Y : any (loopF (x + 1)) r)
    by (revert J; apply any_imp; intros f; apply see_loop); apply U in Y; lia. }
  assert (N2 : ~ any (callF (x + 1) j) (stk s)).
  { rewrite K. destruct Q as [-> |(c & ->)]; simpl; (intros [?|J]; [tauto|]); assert (Y : any (loopF (x + 1)) r)
    by (revert J; apply any_imp; intros f; apply call_loop); apply U in Y; lia. }
  tauto.
Qed.
(** Which is then above of what the scheduler looks at next. *)
Lemma row_sure s ptr pri prev q r x : sinv count s -> stk s = FLoop ptr pri prev q :: r ->
  x < 27 -> hP s (x + 1) = true -> sure x (slog s) -> x + 1 < pri.
Proof.
  clear small. intros I K L T (S1 & S2). pose proof (i_Y _ _ I) as Y. replace x with (x + 1 - 1) in S1, S2 by lia.
  destruct (uniq count s _ _ _ _ _ (i_base _ _ I) K) as (_ & U & _).
  destruct (N.lt_trichotomy (x + 1) pri) as [Z|[Z|Z]]; auto.
  - rewrite (y_S _ Y (x + 1)) in S1; auto; [discriminate|]. rewrite K. simpl. auto.
  - pose proof (y_B _ Y (x + 1) ltac:(lia) T S1 S2) as O. now rewrite K in O.
Qed.
Lemma lvls_lt l c k : wf count l c -> In k (lvls l) -> k < c.
Proof.
  clear small. intros W H. apply lvls_in in H as (m & -> & H). eapply wf_loop in H; eauto. lia.
Qed.
Lemma wf_prev l c : wf count l c -> c = 0 \/ In (c - 1) (lvls l).
Proof.
  clear small. revert c. induction l as [|f l IH]; simpl; [auto|]. intros c W. destruct f; try (apply IH, W). right. left. f_equal. apply W.
Qed.
Definition quietF (s : sst) : Prop := forall f, In f (stk s) -> f = FIrq.
Lemma any_in P l : any P l <-> exists f, In f l /\ P f.
Proof.
  clear small. induction l as [|g l IH]; simpl; [split; [easy|now intros (? & ? & _)]|]. rewrite IH. split.
  - intros [?|(f & ? & ?)]; eauto.
  - intros (f & [-> |?] & ?); eauto.
Qed.
Lemma idle_low s : sinv count s -> quietF s -> hC s = 0.
Proof.
  clear small. intros I D. pose proof (b_wf _ _ (i_base _ _ I)) as W. unfold quietF in D. revert W D. generalize (hC s) as c.
  generalize (stk s) as r. induction r as [|f r IH]; simpl; auto. intros c W D. rewrite (D f) in W by auto.
  apply IH; [apply W|auto].
Qed.
Lemma idle_owes s : quietF s -> ~ owes (stk s).
Proof.
  clear small. unfold quietF. induction (stk s) as [|f r IH]; simpl; auto. intros D. rewrite (D f) by auto. apply IH. auto.
Qed.
Lemma idle_told s i p : sinv count s -> quietF s -> waits i p (slog s) <> WNo -> p < 27 /\ hP s (p + 1) = true.
Proof.
  clear small. intros I D T. pose proof (i_M _ _ I i p) as M.
  assert (N1 : ~ any (callF (p + 1) i) (stk s)) by (rewrite any_in; intros (f & F & X); now rewrite (D f F) in X).
  assert (N2 : ~ any (headF (p + 1)) (stk s)) by (rewrite any_in; intros (f & F & X); now rewrite (D f F) in X).
  assert (N3 : ~ any (seeF (p + 1) i) (stk s)) by (rewrite any_in; intros (f & F & X); now rewrite (D f F) in X).
  assert (P : p < 27) by (destruct (waits i p (slog s)); [easy|apply M|apply M]). split; auto.
  assert (C : cell s (p + 1) i = true) by (destruct (waits i p (slog s)); [easy|tauto|tauto]).
  pose proof (a_known _ _ (i_A _ _ I) (p + 1) i ltac:(lia) C). tauto.
Qed.
Lemma bodies_in l j q : In (j, q) (bodies l) -> (exists pri, q = pri - 1 /\ any (useF pri j) l /\ any (loopF pri) l).
Proof.
  clear small. induction l as [|f l IH]; simpl; [easy|].
  destruct f as [| | | | | | |? pri ? []| | | |]; simpl; try (intros H; destruct (IH H) as (x & ? & ? & ?); exists x; tauto).
  intros [E|H]; [|destruct (IH H) as (x & ? & ? & ?); exists x; tauto]. injection E as -> <-. exists pri. tauto.
Qed.

(** ** Memory *)
Lemma access_ok s c : c < 28 -> access count s c = s.
Proof.
  intros H. unfold access, pending_size. rewrite row1 by auto. change (1 + 1 * PRIORITY_LEVELS) with 28.
  destruct (N.leb_spec 28 c); [lia|]. rewrite orb_false_r. now destruct s.
Qed.
Lemma nexted_oob s ptr pri prev r c : oob (nexted count s ptr pri prev r c) = oob s.
Proof. clear small. unfold nexted. destruct (next_new c pri prev) as (p, c'). now destruct (p =? prev). Qed.

Lemma oob_step s a : base count s -> oob s = false -> oob (sstep count atomics s a) = false.
Proof.
  intros B O. pose proof (b_wf _ _ B) as W. destruct a as [|o|spur]; simpl; auto.
  - unfold opstep. destruct (stk s) as [|f r]; auto.
    destruct f as [| | | | | | |ptr pri prev []| | | |]; auto; destruct o; auto;
      try (destruct (_ <? _); auto; fail); destruct (_ && _); auto.
  - unfold fstep. destruct (stk s) as [|f r]; auto.
    destruct f as [|e|i auto|i p auto|i p auto| |c|ptr pri prev q|i|i p|i|i p]; auto;
      try (simpl in W; destruct W as ((Wi & Wp) & W); rewrite ?cell_at, ?access_ok by lia); cbv zeta.
    + destruct (_ =? 0); auto.
    + destruct (_ <? _); destruct auto; auto.
    + rewrite access_ok by lia. destruct (start_new (pm s 0)) as [[[p prev] c']|]; auto. destruct atomics; auto.
    + rewrite access_ok by lia. destruct (_ && _); [destruct (start_new c) as [[[p prev] c']|]; auto|].
      destruct (start_new (pm s 0)) as [[[p prev] c']|]; auto.
    + simpl in W. destruct W as (W1 & W2 & (W3 & _) & _).
      destruct q as [i|i b w|i b w|i b w|i b w| |c]; unfold lstep; cbv zeta beta; rewrite ?access_ok by lia; auto.
      * destruct (_ =? 0); auto. destruct (_ <=? _); auto.
      * destruct (negb _); auto.
      * destruct (_ && _); auto.
      * destruct atomics; auto. now rewrite nexted_oob.
      * destruct (_ && _); auto. now rewrite nexted_oob.
    + auto.
    + auto.
Qed.
Lemma oob_run l : oob (srun count atomics sinit l) = false.
Proof.
  induction l as [|a l IH] using rev_ind; [reflexivity|]. rewrite srun_app. simpl. apply oob_step; auto. apply sinv_run.
Qed.
End Small.
