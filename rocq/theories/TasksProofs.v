(** Lemmas about the executor on a software-managed thread. *)
Require Import NArith List Bool Arith Lia.
From Verif Require Import AtomicSpec Treiber TreiberProofs DrainSpec Drain DrainProofs P04_List ExecSpec Exec ExecProofs.
From Verif Require Import MutexList SoftSpec Soft SoftProofs SoftInv SoftRun TasksSpec Tasks.
Import ListNotations.
Open Scope N_scope.

Lemma soft_of_app a b : soft_of (a ++ b) = soft_of a ++ soft_of b.
Proof. induction a as [|[] a IH]; simpl; auto. now rewrite IH. Qed.
Lemma exec_of_app a b : exec_of (a ++ b) = exec_of a ++ exec_of b.
Proof. induction a as [|[] a IH]; simpl; auto. now rewrite IH. Qed.
Lemma soft_of_TS l : soft_of (map TS l) = l.
Proof. induction l; simpl; congruence. Qed.
Lemma soft_of_TX l : soft_of (map TX l) = [].
Proof. induction l; simpl; auto. Qed.
Lemma exec_of_TX l : exec_of (map TX l) = l.
Proof. induction l; simpl; congruence. Qed.
Lemma exec_of_TS l : exec_of (map TS l) = [].
Proof. induction l; simpl; auto. Qed.
Lemma soft_in l e : In e (soft_of l) <-> In (TS e) l.
Proof.
  induction l as [|[f|f] l IH]; simpl; [tauto| |].
  - rewrite IH. intuition congruence.
  - rewrite IH. intuition congruence.
Qed.
Lemma exec_in l e : In e (exec_of l) <-> In (TX e) l.
Proof.
  induction l as [|[f|f] l IH]; simpl; [tauto| |].
  - rewrite IH. intuition congruence.
  - rewrite IH. intuition congruence.
Qed.
Lemma skipn_prefix {A} (a b : list A) : skipn (length a) (a ++ b) = b.
Proof. rewrite skipn_app, skipn_all, Nat.sub_diag. reflexivity. Qed.

(** ** Events that follow one another *)
Definition followed (P : tev -> Prop) (f : tev) (l : list tev) : Prop :=
  forall a e b, l = a ++ e :: b -> P e -> exists c, b = f :: c.
Lemma followed_app P f l m : followed P f l -> followed P f m -> followed P f (l ++ m).
Proof.
  intros L M a e b E Pe. apply app_eq_app in E. destruct E as (k & [(E1 & E2)|(E1 & E2)]).
  - destruct k as [|g k]; simpl in E2.
    + rewrite app_nil_r in E1. subst. apply (M [] e b); auto.
    + injection E2 as -> ->. destruct (L a g k E1 Pe) as (c & ->). exists (c ++ m). reflexivity.
  - apply (M k e b); auto.
Qed.
Lemma followed_none P f l : (forall e, In e l -> ~ P e) -> followed P f l.
Proof. intros H a e b -> Pe. exfalso. apply (H e); [apply in_elt|exact Pe]. Qed.
Lemma followed_two (P : tev -> Prop) f g : ~ P g -> followed P g [f; g].
Proof.
  intros H a e b E Pe. destruct a as [|x [|y [|z a]]]; injection E; intros; subst; try discriminate; eauto; try easy.
Qed.

(** ** Steps of the scheduler *)
Section Small.
Variable count : N.
Hypothesis small : 1 <= count <= 32.
Variable atomics : bool.
Variable me : N.
Notation sstep := (Soft.sstep count atomics).

Lemma soft_log s a : sinv count s ->
  exists es, slog (sstep s a) = slog s ++ es /\
    (forall i p, In (EResume i p) es -> es = [EResume i p] /\
       exists ptr pri prev b w r spur, stk s = FLoop ptr pri prev (RCall i b w) :: r /\ a = Go spur).
Proof.
  intros B. pose proof (step_tr count small atomics s a (i_base _ _ B)) as T. remember (sstep s a) as s' eqn:Es.
  assert (N0 : slog s' = slog s -> exists es, slog s' = slog s ++ es /\
    (forall i p, In (EResume i p) es -> es = [EResume i p] /\
       exists ptr pri prev b w r spur, stk s = FLoop ptr pri prev (RCall i b w) :: r /\ a = Go spur)).
  { intros E. exists []. rewrite app_nil_r. split; [exact E|]. intros i p []. }
  assert (N1 : forall e, slog s' = slog s ++ [e] -> (forall i p, e <> EResume i p) -> exists es, slog s' = slog s ++ es /\
    (forall i p, In (EResume i p) es -> es = [EResume i p] /\
       exists ptr pri prev b w r spur, stk s = FLoop ptr pri prev (RCall i b w) :: r /\ a = Go spur)).
  { intros e E Ne. exists [e]. split; [exact E|]. intros i p [X|[]]. destruct (Ne i p X). }
  destruct T; try (apply N0; congruence); try (eapply N1; [eassumption|intros; discriminate]).
  - pose proof (i_ends _ _ B) as Z. rewrite H1 in Z. eapply N1; [eassumption|]. intros i p ->. exact Z.
  - exists [EResume i (pri - 1)]. split; [assumption|]. intros j p [X|[]]. injection X as <- <-. split; [reflexivity|].
    exists ptr, pri, prev, b, w, r. destruct a as [|o|spur].
    + subst s'. cbn [Soft.sstep set_stk slog] in H0. apply (f_equal (@length _)) in H0. rewrite app_length in H0. simpl in H0. lia.
    + subst s'. cbn [Soft.sstep] in H0. unfold opstep in H0. rewrite H1 in H0.
      apply (f_equal (@length _)) in H0. rewrite app_length in H0. simpl in H0. lia.
    + exists spur. auto.
Qed.

Lemma soft_bodies s a q : sinv count s -> In (me, q) (bodies (stk s)) ->
  In (me, q) (bodies (stk (sstep s a))) \/
  (a = Do Return /\ exists ptr pri prev b w r, stk s = FLoop ptr pri prev (RBody me b w) :: r).
Proof.
  intros B I. pose proof (step_tr count small atomics s a (i_base _ _ B)) as T. remember (sstep s a) as s' eqn:Es.
  destruct T; try (left; clear Es; try subst s';
    repeat match goal with
    | X : stk s' = _ |- _ => rewrite X; clear X
    | X : stk s = _ |- _ => rewrite X in I; clear X
    | X : ?f = FStart \/ ?f = _ |- _ => destruct X as [-> | ->]
    | X : ?f = RNext \/ ?f = _ |- _ => destruct X as [-> | ->]
    end; unfold adv; cbn [bodies app] in *;
    repeat match goal with |- context [if ?c then _ else _] => destruct c end; cbn [bodies app] in *; solve [auto]).
  - left. rewrite H2. rewrite H1 in I. cbn [bodies app] in *. right. exact I.
  - rewrite H1 in I. simpl in I. destruct I as [I|I].
    + injection I as -> <-. right. split; [|eauto 9]. destruct a as [|o|spur].
      * subst s'. cbn [Soft.sstep set_stk slog] in H0. apply (f_equal (@length _)) in H0. rewrite app_length in H0. simpl in H0. lia.
      * subst s'. cbn [Soft.sstep] in H0. unfold opstep in H0. rewrite H1 in H0. destruct o; auto;
          repeat match type of H0 with context [if ?c then _ else _] => destruct c end;
          simpl in H0; try (apply app_inv_head in H0; discriminate);
          apply (f_equal (@length _)) in H0; rewrite app_length in H0; simpl in H0; lia.
      * subst s'. cbn [Soft.sstep] in H0. unfold fstep in H0. rewrite H1 in H0. cbn [lstep] in H0.
        apply (f_equal (@length _)) in H0. rewrite app_length in H0. simpl in H0. lia.
    + left. rewrite H2. unfold adv. destruct (_ =? _); exact I.
Qed.

(** A call that wakes the thread up is in progress and has not set it pending yet. *)
Definition owes (l : list frame) : Prop :=
  exists f, In f l /\ match f with FPrio i _ | FCell i _ _ => i = me | _ => False end.
Lemma owes_cons f l : owes l -> owes (f :: l).
Proof. intros (g & I & G). exists g. split; [now right|exact G]. Qed.
Lemma owes_tl f l : owes (f :: l) -> match f with FPrio i _ | FCell i _ _ => i <> me | _ => True end -> owes l.
Proof. intros (g & [->|I] & G) F; [destruct g; contradiction|]. exists g. auto. Qed.

Lemma owes_step s a : sinv count s ->
  (exists p, slog (sstep s a) = slog s ++ [EPend me p]) \/
  ((owes (stk s) -> owes (stk (sstep s a))) /\
   (slog (sstep s a) = slog s \/
    exists e, slog (sstep s a) = slog s ++ [e] /\ (e = EWake me -> owes (stk (sstep s a))))).
Proof.
  intros B. pose proof (step_tr count small atomics s a (i_base _ _ B)) as T. remember (sstep s a) as s' eqn:Es. clear Es.
  destruct T;
    try (right; split; [|first [left; congruence|right; eexists; split; [eassumption|discriminate]]];
      repeat match goal with
      | X : stk s' = _ |- _ => rewrite X; clear X
      | X : stk s = _ |- _ => rewrite X; clear X
      | X : ?f = FStart \/ ?f = _ |- _ => destruct X as [-> | ->]
      | X : ?f = RNext \/ ?f = _ |- _ => destruct X as [-> | ->]
      end; intros O; unfold adv;
      repeat match goal with |- context [if ?c then _ else _] => destruct c end; cbn [app];
      solve [exact O|repeat apply owes_cons; first [exact O|exact (owes_tl _ _ O I)]]).
  - subst s'. right. auto.
  - right. split; [intros O; rewrite H1 in O; rewrite H2; exact (owes_tl _ _ O Logic.I)|]. right. exists e. split; auto.
    intros ->. pose proof (i_ends _ _ B) as Z. rewrite H1 in Z. simpl in Z. contradiction.
  - right. split; [intros O; rewrite H2; now apply owes_cons|]. right. exists (EWake i). split; auto.
    intros K. injection K as ->. rewrite H2. exists (FPrio me auto). split; [now left|reflexivity].
  - right. split; [|left; assumption]. intros (g & G1 & G2). rewrite H1 in G1. rewrite H2. destruct G1 as [<-|G1].
    + eexists. split; [now left|exact G2].
    + exists g. split; [now right|exact G2].
  - destruct (N.eq_dec i me) as [->|Ne]; [left; eauto|]. right. split; [|right; eexists; split; [eassumption|discriminate]].
    intros O. rewrite H4 in O. rewrite H6. apply owes_cons. exact (owes_tl _ _ O Ne).
  - destruct (N.eq_dec i me) as [->|Ne]; [left; eauto|]. right. split; [|right; eexists; split; [eassumption|discriminate]].
    intros O. rewrite H4 in O. rewrite H6. apply owes_cons. exact (owes_tl _ _ O Ne).
Qed.

Lemma owes_run l : forall a b, slog (srun count atomics sinit l) = a ++ EWake me :: b ->
  (exists p, In (EPend me p) b) \/ owes (stk (srun count atomics sinit l)).
Proof.
  induction l as [|x l IH] using rev_ind; intros a b E.
  - simpl in E. destruct a; discriminate.
  - rewrite srun_app in *. cbn [srun] in *.
    destruct (owes_step (srun count atomics sinit l) x (sinv_run count small atomics l)) as [(p & L)|(O & L)].
    + rewrite L in E. destruct b as [|y b _] using rev_ind.
      * apply app_inj_tail in E as (_ & E). discriminate.
      * rewrite app_comm_cons, app_assoc in E. apply app_inj_tail in E as (_ & <-). left. exists p. apply in_or_app. right. now left.
    + destruct L as [L|(e & L & L')].
      * rewrite L in E. destruct (IH _ _ E); auto.
      * rewrite L in E. destruct b as [|y b _] using rev_ind.
        -- apply app_inj_tail in E as (_ & E). auto.
        -- rewrite app_comm_cons, app_assoc in E. apply app_inj_tail in E as (E & _).
           destruct (IH _ _ E) as [(p & P)|P]; auto. left. exists p. apply in_or_app. now left.
Qed.
Lemma soft_done s a : sinv count s ->
  (slog (sstep s a) = slog s ++ [EDone me] /\ a = Do Return /\
     exists ptr pri prev b w r, stk s = FLoop ptr pri prev (RBody me b w) :: r) \/
  (forall es, slog (sstep s a) = slog s ++ es -> ~ In (EDone me) es).
Proof.
  intros B. pose proof (step_tr count small atomics s a (i_base _ _ B)) as T. remember (sstep s a) as s' eqn:Es.
  assert (N0 : slog s' = slog s -> forall es, slog s' = slog s ++ es -> ~ In (EDone me) es).
  { intros E es E'. rewrite E in E'. rewrite <- (app_nil_r (slog s)) in E' at 1. apply app_inv_head in E'. subst. intros []. }
  assert (N1 : forall e, slog s' = slog s ++ [e] -> e <> EDone me -> forall es, slog s' = slog s ++ es -> ~ In (EDone me) es).
  { intros e E Ne es E'. rewrite E in E'. apply app_inv_head in E'. subst. intros [X|[]]. auto. }
  destruct T; try (right; apply N0; congruence); try (right; eapply N1; [eassumption|discriminate]).
  - right. eapply N1; [eassumption|]. intros ->. pose proof (i_ends _ _ B) as Z. rewrite H1 in Z. simpl in Z. contradiction.
  - destruct (N.eq_dec i me) as [->|Ne]; [|right; eapply N1; [eassumption|congruence]].
    left. split; [assumption|]. split; [|eauto 9]. destruct a as [|o|spur].
    + subst s'. cbn [Soft.sstep set_stk slog] in H0. apply (f_equal (@length _)) in H0. rewrite app_length in H0. simpl in H0. lia.
    + subst s'. cbn [Soft.sstep] in H0. unfold opstep in H0. rewrite H1 in H0. destruct o; auto;
        repeat match type of H0 with context [if ?c then _ else _] => destruct c end;
        simpl in H0; try (apply app_inv_head in H0; discriminate);
        apply (f_equal (@length _)) in H0; rewrite app_length in H0; simpl in H0; lia.
    + subst s'. cbn [Soft.sstep] in H0. unfold fstep in H0. rewrite H1 in H0. cbn [lstep] in H0.
      apply (f_equal (@length _)) in H0. rewrite app_length in H0. simpl in H0. lia.
Qed.
End Small.

(** ** Steps of the fibers *)
Lemma no_wake_map e t y : ~ In (XWake t y) (map XD e).
Proof. intros H. apply in_map_iff in H as (z & Z & _). discriminate. Qed.
Lemma exec_log x a : exists es, xlog (Exec.xstep x a) = xlog x ++ es /\
  (match a with XWakeup _ => True | _ => forall t y, ~ In (XWake t y) es end).
Proof.
  assert (N0 : exists es, xlog x = xlog x ++ es /\ (match a with XWakeup _ => True | _ => forall t y, ~ In (XWake t y) es end)).
  { exists []. rewrite app_nil_r. split; auto. destruct a; auto; intros t0 y []. }
  destruct x as [d f c w st lg]. unfold Exec.xstep. destruct st; [exact N0|]. destruct a as [l|t x k cs wake|t| |an].
  - destruct (sys l); [|exact N0]. destruct (drstep true d l) as [d' e]. cbn [xlog]. eexists. split; [reflexivity|].
    intros. apply no_wake_map.
  - destruct (dth d t); try exact N0. destruct (w t); try exact N0. destruct (mem_N x (held (dsh d))); [|exact N0].
    destruct (drstep true d (if cs then APush x else ACall t x)) as [d' e]. cbn [xlog]. eexists. split; [reflexivity|].
    intros t0 y [H|H]; [discriminate|]. now apply no_wake_map in H.
  - destruct (dth d t); try exact N0. destruct (w t); try exact N0. cbn [xlog]. eexists. split; [reflexivity|exact I].
  - destruct (dpo d); try exact N0. destruct c; [exact N0|]. destruct (begin_ (f c0)); cbn [xlog]; eexists; (split; [reflexivity|]);
      intros t y [H|[]]; discriminate.
  - destruct (dpo d); try exact N0. destruct c; [|exact N0]. destruct (end_ (f c0) an) as [[fx b] [e|]].
    + cbn [xlog]. eexists. split; [reflexivity|]. intros t y [H|[H|[]]]; discriminate.
    + destruct (drstep true d (DAnswer b)) as [d' e]. cbn [xlog]. eexists. split; [reflexivity|].
      intros t y H. apply in_app_or in H as [H|H]; [|now apply no_wake_map in H].
      destruct b; simpl in H; intuition discriminate.
Qed.

Definition calm (a : xact) : bool :=
  match a with XSys (DStart | DStep _ | DCutCs) | XBegin | XEnd _ => false | _ => true end.
Lemma chain_calm d l : calm (XSys l) = true -> sys l = true -> dpo (fst (drstep true d l)) = dpo d.
Proof.
  intros C S. destruct l; try discriminate; cbn [drstep].
  - destruct (dth d t); try reflexivity; destruct (taccess _ _ _ _ _); reflexivity.
  - destruct (dth d t); reflexivity.
  - destruct (mem_N _ _); reflexivity.
  - destruct (mem_N _ _); reflexivity.
  - destruct (_ && _); reflexivity.
Qed.
Lemma exec_calm x a : calm a = true ->
  dpo (xd (Exec.xstep x a)) = dpo (xd x) /\ xstop (Exec.xstep x a) = xstop x.
Proof.
  intros C. destruct x as [d f c w st lg]. unfold Exec.xstep. destruct st; [auto|]. destruct a as [l|t x k cs wake|t| |an]; try discriminate.
  - destruct (sys l) eqn:S; [|auto]. pose proof (chain_calm d l C S) as K. destruct (drstep true d l) as [d' e]. auto.
  - destruct (dth d t) eqn:E; auto. destruct (w t); auto. destruct (mem_N x (held (dsh d))) eqn:M; auto.
    destruct cs; cbn [drstep]; rewrite ?E, ?M; cbn [xd xstop dpo]; auto.
  - destruct (dth d t); auto. destruct (w t); auto.
Qed.
Lemma exec_stop x a : xstop x = false -> xstop (Exec.xstep x a) = true -> a = XBegin \/ exists b, a = XEnd b.
Proof.
  destruct x as [d f c w st lg]. intros S0. cbn [xstop] in S0. subst st. unfold Exec.xstep. destruct a as [l|t x k cs wake|t| |an]; eauto; intros H; exfalso; revert H.
  - destruct (sys l); [|discriminate]. destruct (drstep true d l) as [d' e]. discriminate.
  - destruct (dth d t); try discriminate. destruct (w t); try discriminate. destruct (mem_N x (held (dsh d))); [|discriminate].
    destruct (drstep true d (if cs then APush x else ACall t x)) as [d' e]. discriminate.
  - destruct (dth d t); try discriminate. destruct (w t); discriminate.
Qed.
Lemma exec_start x : xstop x = false -> at_rest (xd x) = true ->
  xlog (Exec.xstep x (XSys DStart)) = xlog x ++ [XD EStart] /\ xstop (Exec.xstep x (XSys DStart)) = false.
Proof.
  destruct x as [d f c w st lg]. cbn [xd xstop]. intros S R. subst st. unfold at_rest in R. cbn [Exec.xstep sys drstep].
  destruct (dpo d); try discriminate. auto.
Qed.
Lemma exec_wakeup x t y : xstop x = false -> dth (xd x) t = TIdle -> xwake x t = Some y ->
  xlog (Exec.xstep x (XWakeup t)) = xlog x ++ [XWake t y].
Proof.
  destruct x as [d f c w st lg]. cbn [xd xstop xwake]. intros S D W. subst st. cbn [Exec.xstep]. rewrite D, W. reflexivity.
Qed.

(** ** The invariant *)
Lemma by_soft_log s s1 es : slog s1 = slog (ts s) ++ es -> tlog (by_soft s s1) = tlog s ++ map TS es.
Proof. intros E. unfold by_soft. cbn [tlog]. now rewrite E, skipn_prefix. Qed.
Lemma by_exec_log s x1 es : xlog x1 = xlog (tx s) ++ es -> tlog (by_exec s x1) = tlog s ++ map TX es.
Proof. intros E. unfold by_exec. cbn [tlog]. now rewrite E, skipn_prefix. Qed.

Section Inv.
Variable count : N.
Hypothesis small : 1 <= count <= 32.
Variable atomics : bool.
Variable me : N.
Hypothesis mine : me < count.
Variable nodes : list N.
Variable link : N -> N.
Notation sstep := (Soft.sstep count atomics).
Notation tstep := (tstep count atomics me).

Definition starts (e : tev) : Prop := exists p, e = TS (EResume me p).
Definition wakers (e : tev) : Prop := exists t x, e = TX (XWake t x).
Record tinv (s : tst) : Prop := {
  v_soft : exists ls, ts s = srun count atomics Soft.sinit ls;
  v_exec : exists lx, tx s = xrun nodes link lx;
  v_slog : soft_of (tlog s) = slog (ts s);
  v_xlog : exec_of (tlog s) = xlog (tx s);
  v_rest : at_rest (xd (tx s)) = true \/ exists q, In (me, q) (bodies (stk (ts s)));
  v_stop : xstop (tx s) = true -> exists q, In (me, q) (bodies (stk (ts s)));
  v_pair : tbad s = false -> followed starts (TX (XD EStart)) (tlog s);
  v_wake : followed wakers (TS (EWake me)) (tlog s);
  v_bad : tbad s = true -> exists a p q, slog (ts s) = a ++ [EResume me p] /\ In (me, q) (running a)
}.

Lemma tinv_init : tinv (tinit nodes link).
Proof.
  constructor; cbn; auto; try discriminate.
  - exists []. reflexivity.
  - exists []. reflexivity.
  - intros _ a e b E. destruct a; discriminate.
  - intros a e b E. destruct a; discriminate.
Qed.

Lemma soft_next s a : (exists ls, s = srun count atomics Soft.sinit ls) -> exists ls, sstep s a = srun count atomics Soft.sinit ls.
Proof. intros (ls & ->). exists (ls ++ [a]). now rewrite srun_app. Qed.
Lemma exec_next x a : (exists lx, x = xrun nodes link lx) -> exists lx, Exec.xstep x a = xrun nodes link lx.
Proof. intros (lx & ->). exists (lx ++ [a]). unfold xrun. now rewrite fold_left_app. Qed.

Lemma starts_TX l : forall e, In e (map TX l) -> ~ starts e.
Proof. intros e H (p & ->). apply in_map_iff in H as (z & Z & _). discriminate. Qed.
Lemma wakers_TS l : forall e, In e (map TS l) -> ~ wakers e.
Proof. intros e H (p & z & ->). apply in_map_iff in H as (y & Y & _). discriminate. Qed.

(** A step of the scheduler that neither starts nor ends the thread. *)
Lemma soft_tinv s a : tinv s -> tbad s = false -> xstop (tx s) = false ->
  (forall ptr pri prev b w r, stk (ts s) = FLoop ptr pri prev (RCall me b w) :: r -> forall p, a <> Go p) ->
  (forall ptr pri prev b w r, stk (ts s) = FLoop ptr pri prev (RBody me b w) :: r -> a = Do Return ->
     at_rest (xd (tx s)) = true) ->
  tinv (by_soft s (sstep (ts s) a)).
Proof.
  intros V Tb St Hc Hr.
  assert (B : sinv count (ts s)) by (destruct (v_soft _ V) as (ls & ->); now apply sinv_run).
  destruct (soft_log count small atomics (ts s) a B) as (es & L & N0).
  pose proof (by_soft_log s _ es L) as TL. constructor; rewrite ?TL.
  - apply soft_next, (v_soft _ V).
  - apply (v_exec _ V).
  - rewrite soft_of_app, soft_of_TS, (v_slog _ V). symmetry. exact L.
  - rewrite exec_of_app, exec_of_TS, app_nil_r. apply (v_xlog _ V).
  - cbn [by_soft ts tx]. destruct (v_rest _ V) as [R|(q & Q)]; [auto|].
    destruct (soft_bodies count small atomics me (ts s) a q B Q) as [Q'|(Ea & ptr & pri & prev & b & w & r & K)]; [eauto|].
    left. exact (Hr _ _ _ _ _ _ K Ea).
  - cbn [by_soft ts tx]. congruence.
  - intros _. apply followed_app; [now apply (v_pair _ V)|]. apply followed_none. intros e He (p & ->).
    apply in_map_iff in He as (z & Z & Iz). injection Z as ->.
    destruct (N0 _ _ Iz) as (_ & ptr & pri & prev & b & w & r & spur & K & Ea). exact (Hc _ _ _ _ _ _ K _ Ea).
  - apply followed_app; [apply (v_wake _ V)|]. apply followed_none, wakers_TS.
  - cbn [by_soft tbad]. congruence.
Qed.

(** A step of the fibers. *)
Lemma exec_tinv s a : tinv s -> tbad s = false -> xstop (tx s) = false ->
  (calm a = true \/ top_body (ts s) me = true) -> match a with XWakeup _ => False | _ => True end ->
  tinv (by_exec s (Exec.xstep (tx s) a)).
Proof.
  intros V Tb St Hc Hw. destruct (exec_log (tx s) a) as (es & L & N0).
  pose proof (by_exec_log s _ es L) as TL.
  assert (Top : top_body (ts s) me = true -> exists q, In (me, q) (bodies (stk (ts s)))).
  { unfold top_body. destruct (stk (ts s)) as [|[| | | | | | |ptr pri prev []| | | |] r]; try discriminate.
    intros E. apply N.eqb_eq in E. subst. exists (pri - 1). now left. }
  constructor; rewrite ?TL.
  - apply (v_soft _ V).
  - apply exec_next, (v_exec _ V).
  - rewrite soft_of_app, soft_of_TX, app_nil_r. apply (v_slog _ V).
  - rewrite exec_of_app, exec_of_TX, (v_xlog _ V). symmetry. exact L.
  - cbn [by_exec ts tx]. destruct Hc as [C|C]; [|right; now apply Top]. destruct (v_rest _ V) as [R|R]; [|auto].
    left. unfold at_rest in *. destruct (exec_calm (tx s) a C) as (-> & _). exact R.
  - cbn [by_exec ts tx]. intros S1. destruct Hc as [C|C]; [|now apply Top].
    destruct (exec_calm (tx s) a C) as (_ & Y). congruence.
  - intros _. apply followed_app; [now apply (v_pair _ V)|]. apply followed_none, starts_TX.
  - apply followed_app; [apply (v_wake _ V)|]. apply followed_none. intros e He (t & x & ->).
    apply in_map_iff in He as (z & Z & Iz). injection Z as ->. destruct a; try exact (N0 _ _ Iz). contradiction.
  - cbn [by_exec tbad]. congruence.
Qed.

Lemma tstep_tinv s a : tinv s -> tinv (tstep s a).
Proof.
  intros V. unfold Tasks.tstep. destruct (xstop (tx s)) eqn:St; [exact V|]. destruct (tbad s) eqn:Tb; [exact V|]. cbn [orb].
  assert (B : sinv count (ts s)) by (destruct (v_soft _ V) as (ls & ->); now apply sinv_run).
  destruct a as [a|a].
  - unfold tsoft. pose proof (soft_tinv s a V Tb St) as G.
    destruct (stk (ts s)) as [|[| | | | | | |ptr pri prev q| | | |] r] eqn:K; try (apply G; congruence).
    destruct q as [| | |i b w|i b w| |]; try (apply G; congruence).
    + destruct a as [|o|spur]; try (apply G; congruence). destruct (N.eqb_spec i me) as [->|Ne]; [|apply G; congruence].
      clear G. assert (S1 : sstep (ts s) (Go spur) = semit (set_stk (ts s) (FLoop ptr pri prev (RBody me b w) :: r)) (EResume me (pri - 1))).
      { cbn [Soft.sstep]. unfold fstep. rewrite K. reflexivity. }
      rewrite S1. set (s1 := semit _ _) in *.
      assert (L : slog s1 = slog (ts s) ++ [EResume me (pri - 1)]) by reflexivity.
      pose proof (by_soft_log s s1 _ L) as TL. destruct (at_rest (xd (tx s))) eqn:R.
      * cbn [by_soft tx]. destruct (exec_start (tx s) St R) as (XL & XS).
        pose proof (by_exec_log (by_soft s s1) _ _ XL) as TL2. rewrite TL in TL2. constructor; rewrite ?TL2.
        -- rewrite <- S1. apply soft_next, (v_soft _ V).
        -- apply exec_next, (v_exec _ V).
        -- rewrite !soft_of_app, (v_slog _ V). cbn [map soft_of]. rewrite app_nil_r. symmetry. exact L.
        -- rewrite !exec_of_app, (v_xlog _ V). cbn [map exec_of]. rewrite app_nil_r. symmetry. exact XL.
        -- right. exists (pri - 1). now left.
        -- cbn [by_exec by_soft ts tx]. congruence.
        -- intros _. rewrite <- app_assoc. apply followed_app; [now apply (v_pair _ V)|]. cbn [map app].
           apply followed_two. intros (p & E). discriminate.
        -- apply followed_app; [apply followed_app; [apply (v_wake _ V)|apply followed_none, wakers_TS]|].
           apply followed_none. intros e [<-|[]] (t & x & E). discriminate.
        -- cbn [by_exec by_soft tbad]. congruence.
      * constructor; cbn [ts tx tbad tlog]; rewrite ?TL.
        -- cbn [by_soft ts]. rewrite <- S1. apply soft_next, (v_soft _ V).
        -- apply (v_exec _ V).
        -- rewrite soft_of_app, soft_of_TS, (v_slog _ V). reflexivity.
        -- rewrite exec_of_app, exec_of_TS, app_nil_r. apply (v_xlog _ V).
        -- right. exists (pri - 1). now left.
        -- intros _. exists (pri - 1). now left.
        -- discriminate.
        -- apply followed_app; [apply (v_wake _ V)|apply followed_none, wakers_TS].
        -- intros _. destruct (v_rest _ V) as [R'|(q & Q)]; [congruence|]. exists (slog (ts s)), (pri - 1), q. split; [reflexivity|].
           destruct (i_L _ _ B) as (_ & L2). now rewrite L2.
    + destruct a as [|[]|spur]; try (apply G; congruence). destruct (N.eqb_spec i me) as [->|Ne]; [|apply G; congruence].
      destruct (at_rest (xd (tx s))) eqn:R; [|exact V]. apply G; congruence.
  - unfold texec. pose proof (exec_tinv s a V Tb St) as G. destruct a as [l|t x k cs wake|t| |an].
    + destruct l; try (destruct (top_user (ts s)); [apply G; auto|exact V]); try exact V;
        (destruct (top_body (ts s) me) eqn:T; [apply G; auto|exact V]).
    + destruct (top_user (ts s)); [apply G; auto|exact V].
    + clear G. destruct (top_user (ts s)) eqn:T; [|exact V]. destruct (dth (xd (tx s)) t) eqn:D; try exact V.
      destruct (xwake (tx s) t) as [y|] eqn:W; [|exact V].
      pose proof (exec_wakeup (tx s) t y St D W) as XL. destruct (exec_calm (tx s) (XWakeup t) eq_refl) as (XR & XS).
      pose proof (by_exec_log s _ _ XL) as TL. cbn [by_exec ts].
      assert (S1 : sstep (ts s) (Do (SetPending me)) = semit (set_stk (ts s) (FPrio me true :: stk (ts s))) (EWake me)).
      { cbn [Soft.sstep]. unfold opstep. rewrite (proj2 (N.ltb_lt _ _) mine). unfold top_user in T.
        destruct (stk (ts s)) as [|[| | | | | | |ptr pri prev q| | | |] r]; try discriminate; auto.
        destruct q; try discriminate; auto. }
      rewrite S1. set (s1 := semit _ _) in *. set (x1 := Exec.xstep _ _) in *.
      assert (L : slog s1 = slog (ts (by_exec s x1)) ++ [EWake me]) by reflexivity.
      pose proof (by_soft_log (by_exec s x1) s1 _ L) as TL2. fold (by_exec s x1). rewrite TL in TL2. constructor; rewrite ?TL2.
      * rewrite <- S1. apply soft_next, (v_soft _ V).
      * apply exec_next, (v_exec _ V).
      * rewrite !soft_of_app, (v_slog _ V). cbn [map soft_of]. rewrite app_nil_r. symmetry. exact L.
      * rewrite !exec_of_app, (v_xlog _ V). cbn [map exec_of]. rewrite app_nil_r. symmetry. exact XL.
      * cbn [by_soft by_exec ts tx]. unfold at_rest in *. rewrite XR. destruct (v_rest _ V) as [R|(q & Q)]; [now left|right]. now exists q.
      * cbn [by_soft by_exec ts tx]. congruence.
      * intros _. apply followed_app; [apply followed_app; [now apply (v_pair _ V)|apply followed_none, starts_TX]|].
        apply followed_none. intros e [<-|[]] (p & E). discriminate.
      * rewrite <- app_assoc. apply followed_app; [apply (v_wake _ V)|]. cbn [map app].
        apply followed_two. intros (p & z & E). discriminate.
      * cbn [by_exec by_soft tbad]. congruence.
    + destruct (top_body (ts s) me) eqn:T; [apply G; auto|exact V].
    + destruct (top_body (ts s) me) eqn:T; [apply G; auto|exact V].
Qed.

Theorem tinv_run l : tinv (trun count atomics me nodes link l).
Proof.
  unfold trun. induction l as [|a l IH] using rev_ind; [apply tinv_init|]. rewrite fold_left_app. now apply tstep_tinv.
Qed.
(** What a step logs. *)
Lemma tstep_log s a : tinv s -> exists new, tlog (tstep s a) = tlog s ++ new /\
  (~ In (TS (EDone me)) new \/ new = [TS (EDone me)] /\ at_rest (xd (tx s)) = true /\ xstop (tx s) = false).
Proof.
  intros V. assert (N0 : exists new, tlog s = tlog s ++ new /\
    (~ In (TS (EDone me)) new \/ new = [TS (EDone me)] /\ at_rest (xd (tx s)) = true /\ xstop (tx s) = false)).
  { exists []. rewrite app_nil_r. auto. }
  unfold Tasks.tstep. destruct (xstop (tx s)) eqn:St; [exact N0|]. destruct (tbad s) eqn:Tb; [exact N0|]. cbn [orb].
  assert (B : sinv count (ts s)) by (destruct (v_soft _ V) as (ls & ->); now apply sinv_run).
  assert (Tx : forall es, ~ In (TS (EDone me)) (map TX es)).
  { intros es H. apply in_map_iff in H as (z & Z & _). discriminate. }
  destruct a as [a|a].
  - assert (G : (forall ptr pri prev b w r, stk (ts s) = FLoop ptr pri prev (RBody me b w) :: r -> a = Do Return ->
        at_rest (xd (tx s)) = true) ->
      exists new, tlog (by_soft s (sstep (ts s) a)) = tlog s ++ new /\
        (~ In (TS (EDone me)) new \/ new = [TS (EDone me)] /\ at_rest (xd (tx s)) = true /\ false = false)).
    { intros Hr. destruct (soft_log count small atomics (ts s) a B) as (es & L & _). rewrite (by_soft_log s _ es L).
      exists (map TS es). split; [reflexivity|].
      destruct (soft_done count small atomics me (ts s) a B) as [(L' & -> & ptr & pri & prev & b & w & r & K)|Z].
      - right. rewrite L in L'. apply app_inv_head in L'. subst es. split; [reflexivity|]. split; [|reflexivity]. exact (Hr _ _ _ _ _ _ K eq_refl).
      - left. intros H. apply in_map_iff in H as (z & Y & Iz). injection Y as ->. exact (Z es L Iz). }
    unfold tsoft. destruct (stk (ts s)) as [|[| | | | | | |ptr pri prev q| | | |] r] eqn:K; try (apply G; congruence).
    destruct q as [| | |i b w|i b w| |]; try (apply G; congruence).
    + destruct a as [|o|spur]; try (apply G; congruence). destruct (N.eqb_spec i me) as [->|Ne]; [|apply G; congruence].
      clear G. assert (S1 : slog (sstep (ts s) (Go spur)) = slog (ts s) ++ [EResume me (pri - 1)]).
      { cbn [Soft.sstep]. unfold fstep. rewrite K. reflexivity. }
      pose proof (by_soft_log s _ _ S1) as TL. destruct (at_rest (xd (tx s))) eqn:R.
      * destruct (exec_start (tx s) St R) as (XL & XS). rewrite (by_exec_log (by_soft s _) _ _ XL), TL, <- app_assoc.
        eexists. split; [reflexivity|]. left. simpl. intuition discriminate.
      * cbn [tlog]. rewrite TL. eexists. split; [reflexivity|]. left. simpl. intuition discriminate.
    + destruct a as [|[]|spur]; try (apply G; congruence). destruct (N.eqb_spec i me) as [->|Ne]; [|apply G; congruence].
      destruct (at_rest (xd (tx s))) eqn:R; [apply G; congruence|exact N0].
  - assert (G : exists new, tlog (by_exec s (Exec.xstep (tx s) a)) = tlog s ++ new /\
        (~ In (TS (EDone me)) new \/ new = [TS (EDone me)] /\ at_rest (xd (tx s)) = true /\ false = false)).
    { destruct (exec_log (tx s) a) as (es & L & _). rewrite (by_exec_log s _ es L). eauto. }
    unfold texec. destruct a as [l|t x k cs wake|t| |an].
    + destruct l; try (destruct (top_user (ts s)); [exact G|exact N0]); try exact N0;
        (destruct (top_body (ts s) me) eqn:T; [exact G|exact N0]).
    + destruct (top_user (ts s)); [exact G|exact N0].
    + clear G. destruct (top_user (ts s)) eqn:T; [|exact N0]. destruct (dth (xd (tx s)) t) eqn:D; try exact N0.
      destruct (xwake (tx s) t) as [y|] eqn:W; [|exact N0].
      pose proof (by_exec_log s _ _ (exec_wakeup (tx s) t y St D W)) as TL. set (x1 := Exec.xstep _ _) in *.
      assert (L : slog (sstep (ts (by_exec s x1)) (Do (SetPending me))) = slog (ts (by_exec s x1)) ++ [EWake me]).
      { cbn [by_exec ts Soft.sstep]. unfold opstep. rewrite (proj2 (N.ltb_lt _ _) mine). unfold top_user in T.
        destruct (stk (ts s)) as [|[| | | | | | |ptr pri prev q| | | |] r]; try discriminate; auto.
        destruct q; try discriminate; auto. }
      rewrite (by_soft_log _ _ _ L), TL, <- app_assoc. eexists. split; [reflexivity|]. left. simpl. intuition discriminate.
    + destruct (top_body (ts s) me) eqn:T; [exact G|exact N0].
    + destruct (top_body (ts s) me) eqn:T; [exact G|exact N0].
Qed.

(** The chain is not being drained when the machine has not stopped and the drain is at rest. *)
Lemma rest_accepts s : NoDup nodes -> ~ In 0 nodes -> tinv s -> xstop (tx s) = false -> at_rest (xd (tx s)) = true ->
  exists c, daccepts (QIdle []) (chain_of (exec_of (tlog s))) = Some (QIdle c).
Proof.
  intros Hnd H0 V St R. rewrite (v_xlog _ V). destruct (v_exec _ V) as (lx & E). rewrite E in St, R |- *.
  destruct (xinv_run nodes link lx Hnd H0) as [(q & [(ls & Rn) (c & HI) _ _ _ _ _ _ _])|(St' & _)]; [|congruence].
  destruct (run_wf true nodes link ls Hnd H0) as [_ (c' & q' & HI' & Ha)]. rewrite Rn in HI', Ha. cbn [fst snd] in HI', Ha.
  exists c'. rewrite Ha. f_equal. apply (idle_q (xd (xrun nodes link lx))); [exact HI'|].
  unfold at_rest in R. destruct (dpo _); congruence.
Qed.

Lemma done_accepts l : NoDup nodes -> ~ In 0 nodes -> forall a b, tlog (trun count atomics me nodes link l) = a ++ TS (EDone me) :: b ->
  exists c, daccepts (QIdle []) (chain_of (exec_of a)) = Some (QIdle c).
Proof.
  intros Hnd H0. induction l as [|x l IH] using rev_ind; intros a b E; [destruct a; discriminate|].
  pose proof (tinv_run l) as V. unfold trun in *. rewrite fold_left_app in E. cbn [fold_left] in E.
  set (s := fold_left _ l _) in *. destruct (tstep_log s x V) as (new & L & D). rewrite L in E.
  apply app_eq_app in E. destruct E as (k & [(E1 & E2)|(E1 & E2)]).
  - destruct k as [|g k]; simpl in E2.
    + rewrite app_nil_r in E1. subst a. destruct D as [D|(_ & R & St)]; [destruct D; rewrite <- E2; now left|].
      exact (rest_accepts s Hnd H0 V St R).
    + injection E2 as <- E2. exact (IH _ _ E1).
  - destruct D as [D|(D & R & St)]; [destruct D; rewrite E2; apply in_elt|]. rewrite D in E2.
    destruct k as [|g k]; [|destruct k; discriminate]. rewrite app_nil_r in E1. subst a. exact (rest_accepts s Hnd H0 V St R).
Qed.
End Inv.
