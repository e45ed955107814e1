(** Invariants of the soft-thread machine with at most 32 threads. *)
Require Import NArith List Bool Lia.
From Verif Require Import SoftSpec Soft SoftProofs.
Import ListNotations.
Open Scope N_scope.
Local Arguments N.sub : simpl never.
Local Arguments N.add : simpl never.
Local Arguments N.eqb : simpl never.
Local Arguments N.ltb : simpl never.
Local Opaque hC hP cell N.ltb N.eqb.

(** ** Frames *)
Fixpoint any (P : frame -> Prop) (l : list frame) : Prop :=
  match l with [] => False | f :: r => P f \/ any P r end.

(** Whether the loop at [q] will run thread [i] because of what it has read. *)
Definition snap (q : lpos) (i : N) : Prop :=
  match q with
  | RBit k _ w => k <= i /\ N.testbit w i = true
  | RMod k _ w => i = k \/ k < i /\ N.testbit w i = true
  | RCall k _ w | RBody k _ w => k < i /\ N.testbit w i = true
  | _ => False
  end.
Definition see (q : lpos) (i : N) : Prop := match q with RLoad _ => True | _ => snap q i end.

Definition seeF (l i : N) (f : frame) : Prop :=
  match f with FLoop _ l' _ q => l' = l /\ see q i | _ => False end.
Definition snapF (l i : N) (f : frame) : Prop :=
  match f with FLoop _ l' _ q => l' = l /\ snap q i | _ => False end.
Definition callF (l i : N) (f : frame) : Prop :=
  match f with FLoop _ l' _ (RCall k _ _) => l' = l /\ k = i | _ => False end.
Definition headF (l : N) (f : frame) : Prop :=
  match f with FHead _ p _ => p + 1 = l | _ => False end.
Definition loopF (l : N) (f : frame) : Prop :=
  match f with FLoop _ l' _ _ => l' = l | _ => False end.

Lemma any_imp (P Q : frame -> Prop) l : (forall f, P f -> Q f) -> any P l -> any Q l.
Proof. intros H. induction l; simpl; auto. intros [?|?]; auto. Qed.

Lemma wf_loop count l c k : wf count l c -> any (loopF k) l -> 1 <= k <= c.
Proof.
  revert c. induction l as [|f l IH]; simpl; [easy|]. intros c W [H|H].
  - destruct f; simpl in H; try easy. subst. destruct W as (-> & ? & _). lia.
  - destruct f; try (apply IH; [apply W|exact H]). destruct W as (-> & ? & _ & W). specialize (IH _ W H). lia.
Qed.
Lemma see_loop l i f : seeF l i f -> loopF l f.
Proof. destruct f; simpl; tauto. Qed.
Lemma call_loop l i f : callF l i f -> loopF l f.
Proof. destruct f as [| | | | | | |? ? ? []| | | |]; simpl; tauto. Qed.
Lemma snap_see l i f : snapF l i f -> seeF l i f.
Proof. destruct f as [| | | | | | |? ? ? []| | | |]; simpl; tauto. Qed.

(** The hypotheses of a transition. *)
Ltac norm :=
  try match goal with X : ?s' = ?s |- _ => is_var s'; is_var s; match type of s with sst => subst s' end end;
  try match goal with Q : quiet _ _ |- _ => destruct Q as (? & ? & ? & ?) end;
  try match goal with X : ?f = FStart \/ _ |- _ => destruct X as [-> | ->] end;
  try match goal with X : ?q = RNext \/ _ |- _ => destruct X as [-> | ->] end.
Ltac getcell Hl :=
  match goal with
  | X : forall l j, 1 <= l <= 27 -> cell ?s' l j = _ |- context [cell ?s' _ _] => rewrite X by exact Hl
  | X : forall l j, cell ?s' l j = _ |- context [cell ?s' _ _] => rewrite X
  end.
Ltac gethp Hl :=
  match goal with
  | X : forall l, 1 <= l <= 27 -> hP ?s' l = _ |- context [hP ?s' _] => rewrite X by exact Hl
  | X : forall l, hP ?s' l = _ |- context [hP ?s' _] => rewrite X
  end.
Ltac logs :=
  match goal with X : slog ?s' = _ |- _ => rewrite X end;
  try match goal with X : stk ?s' = _ |- context [stk ?s'] => rewrite X end.

Section Small.
Variable count : N.
Hypothesis small : 1 <= count <= 32.

Lemma see_adv l i ptr pri prev k w : i < count -> k < i -> N.testbit w i = true -> pri = l ->
  snapF l i (adv count ptr pri prev k w).
Proof.
  clear small. intros Hi Hk T ->. unfold adv. simpl. split; auto. destruct (N.eqb_spec (k + 1) count); [lia|]. simpl. split; auto. lia.
Qed.
Lemma adv_see l i ptr pri prev k w : seeF l i (adv count ptr pri prev k w) -> pri = l /\ k < i /\ N.testbit w i = true.
Proof.
  clear small. unfold adv. simpl. intros (-> & H). destruct (N.eqb_spec (k + 1) count); simpl in H; [easy|]. split; auto. split; [lia|tauto].
Qed.
Lemma adv_call l i ptr pri prev k w : callF l i (adv count ptr pri prev k w) -> False.
Proof. unfold adv. simpl. destruct (k + 1 =? count); auto. Qed.
Lemma adv_loop l ptr pri prev k w : loopF l (adv count ptr pri prev k w) <-> pri = l.
Proof. reflexivity. Qed.
Lemma adv_head l ptr pri prev k w : headF l (adv count ptr pri prev k w) -> False.
Proof. auto. Qed.

(** ** Pending threads are known to the scheduler *)
Record invA (s : sst) : Prop := InvA {
  a_lt : forall l i, 1 <= l <= 27 -> cell s l i = true -> i < count;
  a_known : forall l i, 1 <= l <= 27 -> cell s l i = true ->
    hP s l = true \/ any (headF l) (stk s) \/ any (seeF l i) (stk s)
}.

Lemma invA_step s s' : base count s -> invA s -> tr count s s' -> invA s'.
Proof.
  intros B [A1 A2] H. pose proof (b_wf _ _ B) as W. split.
  - intros l i Hl. destruct H; norm; try (eapply A1; eauto; fail); getcell Hl; try (eapply A1; eauto; fail).
    + rewrite orb_true_iff, andb_true_iff, !N.eqb_eq. intros [?|(-> & ->)]; eauto. rewrite H4 in W. simpl in W. apply W.
    + rewrite andb_true_iff. intros (? & _). eauto.
    + rewrite andb_true_iff. intros (? & _). eauto.
  - intros l i Hl. destruct H; norm; try (eapply A2; eauto; fail); getcell Hl; gethp Hl; intros Hc;
      match goal with X : stk s' = _ |- _ => rewrite X end;
      try (specialize (A1 l i Hl); specialize (A2 l i Hl));
      try match goal with X : stk s = _ |- _ => rewrite X in A2, W end; cbn [any app headF seeF see snap] in *;
      try (specialize (A2 Hc); tauto).
    + apply orb_true_iff in Hc as [Hc|Hc]; [specialize (A2 Hc); tauto|].
      apply andb_true_iff in Hc as (Hc & _). apply N.eqb_eq in Hc. auto.
    + specialize (A2 Hc). destruct (N.eqb_spec l (p + 1)) as [E|E]; [left; apply orb_true_r|]. rewrite orb_false_r.
      destruct (hC s <? p + 1), auto; simpl; intuition congruence.
    + specialize (A2 Hc). destruct (N.eqb_spec l p) as [E|E]; [auto|]. simpl. rewrite andb_true_r. tauto.
    + specialize (A2 Hc). destruct (N.eqb_spec l p) as [E|E]; [auto|]. simpl. rewrite andb_true_r. tauto.
    + specialize (A2 Hc). destruct (N.eq_dec pri l) as [E|E]; [subst; rewrite H2 in Hc; discriminate|]. tauto.
    + specialize (A2 Hc). destruct (N.eq_dec pri l) as [E|E]; [|tauto]. subst. right; right; left. split; auto.
      split; [lia|]. now rewrite H2.
    + specialize (A2 Hc). destruct A2 as [?|[?|[(E & K1 & K2)|?]]]; try tauto. right; right; left. split; auto.
      destruct (N.eq_dec i i0); [auto|right; split; auto; lia].
    + specialize (A2 Hc). destruct A2 as [?|[[?|?]|[(E & K1 & K2)|?]]]; try tauto. right; right; left.
      apply snap_see, see_adv; auto. destruct (N.eq_dec i i0); [congruence|lia].
    + specialize (A2 Hc). destruct A2 as [?|[?|[(E & [K1|(K1 & K2)])|?]]]; try tauto. right; right; left. split; auto.
      right. split; auto. rewrite H2. now rewrite E.
    + apply andb_true_iff in Hc as (Hc & Hn). specialize (A2 Hc).
      destruct A2 as [?|[?|[(E & [K1|(K1 & K2)])|?]]]; try tauto.
      * subst. rewrite !N.eqb_refl in Hn. discriminate.
      * right; right; left. split; auto. split; auto. rewrite H5. now rewrite E.
    + specialize (A2 Hc). destruct A2 as [?|[[?|?]|[(E & K1 & K2)|?]]]; try tauto. right; right; left.
      apply snap_see, see_adv; auto.
    + specialize (A2 Hc). destruct (N.eqb_spec l p) as [E|E]; [auto|]. simpl. rewrite andb_true_r. tauto.
    + specialize (A2 Hc). destruct (N.eqb_spec l p) as [E|E]; [auto|]. simpl. rewrite andb_true_r. tauto.
    + apply andb_true_iff in Hc as (Hc & _). specialize (A2 Hc). tauto.
Qed.

Lemma invA_init : invA sinit.
Proof. split; intros l i Hl; rewrite cell_init; discriminate. Qed.

(** ** The history *)

(** The events of one more step. *)
Lemma waits_app i p l e : waits i p (l ++ [e]) = wstep i p (waits i p l) e.
Proof. unfold waits. now rewrite fold_left_app. Qed.
Lemma levels_app l e : levels (l ++ [e]) =
  match e with ESel p => p :: levels l | ENext p => p :: tl (levels l) | EBack => tl (levels l) | _ => levels l end.
Proof. unfold levels. now rewrite fold_left_app. Qed.
Lemma running_app l e : running (l ++ [e]) =
  match e with EResume i p => (i, p) :: running l | EDone _ => tl (running l) | _ => running l end.
Proof. unfold running. now rewrite fold_left_app. Qed.
Lemma conds_app p l e : conds p (l ++ [e]) = ystep p (conds p l) e.
Proof. unfold conds. now rewrite fold_left_app. Qed.
Lemma prio_app i l e : prio i (l ++ [e]) = match e with EPrio i' p => if i' =? i then p else prio i l | _ => prio i l end.
Proof. unfold prio. rewrite fold_left_app. simpl. destruct e; auto. Qed.
Lemma moved_app i l e : moved i (l ++ [e]) = mvstep i (moved i l) e.
Proof. unfold moved. now rewrite fold_left_app. Qed.
Lemma pending_app i p l e : pending i p (l ++ [e]) =
  match e with
  | EPend i' p' => pending i p l || is_ i p i' p'
  | ETake i' p' | EClear i' p' => pending i p l && negb (is_ i p i' p')
  | _ => pending i p l
  end.
Proof. unfold pending. now rewrite fold_left_app. Qed.
Lemma wakeups_app i p l e : wakeups i p (l ++ [e]) =
  match e with EPend i' p' => if is_ i p i' p' then S (wakeups i p l) else wakeups i p l | _ => wakeups i p l end.
Proof.
  clear small. unfold wakeups. rewrite filter_app, app_length. simpl. destruct e; simpl; try lia. destruct (is_ _ _ _ _); simpl; lia.
Qed.
Lemma runs_app i p l e : runs i p (l ++ [e]) =
  match e with EResume i' p' => if is_ i p i' p' then S (runs i p l) else runs i p l | _ => runs i p l end.
Proof.
  clear small. unfold runs. rewrite filter_app, app_length. simpl. destruct e; simpl; try lia. destruct (is_ _ _ _ _); simpl; lia.
Qed.
Lemma is_true i p i' p' : is_ i p i' p' = true <-> i = i' /\ p = p'.
Proof. unfold is_. now rewrite andb_true_iff, !N.eqb_eq. Qed.

(** ** The levels being run *)
Fixpoint lvls (l : list frame) : list N :=
  match l with [] => [] | FLoop _ pri _ _ :: r => (pri - 1) :: lvls r | _ :: r => lvls r end.
Fixpoint bodies (l : list frame) : list (N * N) :=
  match l with [] => [] | FLoop _ pri _ (RBody i _ _) :: r => (i, pri - 1) :: bodies r | _ :: r => bodies r end.

(** Only [e] was logged by a step that also changed the stack. *)
Definition invL (s : sst) : Prop :=
  levels (slog s) = lvls (stk s) /\ running (slog s) = bodies (stk s).
(** The events that are logged when a function returns. *)
Fixpoint ends (l : list frame) : Prop :=
  match l with
  | [] => True
  | FEnd (EWoken _ | EWill _ _) :: r => ends r
  | FEnd _ :: _ => False
  | _ :: r => ends r
  end.
Lemma ends_step s s' : ends (stk s) -> tr count s s' -> ends (stk s').
Proof.
  intros E H. destruct H; norm; try exact E; match goal with X : stk s' = _ |- _ => rewrite X end;
    try match goal with X : stk s = _ |- _ => rewrite X in E end;
    try match goal with |- context [hC s <? ?p + 1] => destruct (hC s <? p + 1), auto end;
    cbn [ends app] in E |- *; try exact E.
  - destruct e; easy.
  - destruct auto; exact E.
Qed.

Lemma invL_step s s' : ends (stk s) -> invL s -> tr count s s' -> invL s'.
Proof.
  intros En [A1 A2] H. split.
  - destruct H; norm; auto; logs; rewrite ?levels_app, A1;
      try match goal with X : stk s = _ |- _ => rewrite X in * end; simpl in *; auto.
    + destruct e; easy.
    + destruct (hC s <? p + 1), auto; reflexivity.
  - destruct H; norm; auto; logs; rewrite ?running_app, A2;
      try match goal with X : stk s = _ |- _ => rewrite X in * end; simpl in *; auto.
    + destruct e; easy.
    + destruct (hC s <? p + 1), auto; reflexivity.
    + unfold adv. destruct (i + 1 =? count); reflexivity.
    + unfold adv. destruct (i + 1 =? count); reflexivity.
Qed.

Lemma lvls_in l k : In k (lvls l) <-> exists m, k = m - 1 /\ any (loopF m) l.
Proof.
  induction l as [|f l IH]; simpl; [split; [easy|now intros (m & _ & ?)]|].
  destruct f; simpl; rewrite IH; try (split; [intros (m & ? & ?); eauto|intros (m & ? & [[]|?]); eauto]; fail).
  split.
  - intros [<-|(m & ? & ?)]; eauto.
  - intros (m & ? & [<-|?]); eauto.
Qed.

(** ** Waiting threads *)
Definition invM (s : sst) : Prop := forall i p,
  match waits i p (slog s) with
  | WNo => True
  | WSet => p < 27 /\ (cell s (p + 1) i = true \/ any (callF (p + 1) i) (stk s))
  | WTold => p < 27 /\ (cell s (p + 1) i = true /\ (hP s (p + 1) = true \/ any (seeF (p + 1) i) (stk s)) \/
                       any (callF (p + 1) i) (stk s))
  end.

Lemma invM_step s s' : base count s -> invA s -> ends (stk s) -> invM s -> tr count s s' -> invM s'.
Proof.
  intros B [A1 _] En M H i p. specialize (M i p). pose proof (b_wf _ _ B) as W.
  destruct (N.lt_ge_cases p 27) as [Hp|Hp].
  2: { destruct H; norm; auto; logs; rewrite ?waits_app;
       try match goal with X : stk s = _ |- _ => rewrite X in * end;
       destruct (waits i p (slog s)); try (destruct M; lia); simpl; auto.
       - destruct e; easy.
       - destruct (is_ i p i0 p0) eqn:I; auto. apply is_true in I as (-> & ->). simpl in W. lia.
       - destruct (is_ i p i0 p0) eqn:I; auto. apply is_true in I as (-> & ->). simpl in W. lia.
       - destruct (is_ i p i0 p0) eqn:I; auto.
       - destruct (is_ i p i0 (pri - 1)) eqn:I; auto.
       - destruct (is_ i p i0 p0) eqn:I; auto. }
  assert (Hl : 1 <= p + 1 <= 27) by lia.
  destruct H; norm; auto; try getcell Hl; try gethp Hl; logs; rewrite ?waits_app;
    try match goal with X : stk s = _ |- _ => rewrite X in * end; cbn [wstep any app callF seeF see snap] in *;
    try (destruct (waits i p (slog s)); intuition; fail).
  - destruct e; try easy; simpl; destruct (waits i p (slog s)); tauto.
  - destruct (is_ i p i0 p0) eqn:I.
    + apply is_true in I as (-> & ->). rewrite !N.eqb_refl, orb_true_r. destruct (waits i0 p0 (slog s)); tauto.
    + destruct (waits i p (slog s)); rewrite ?orb_true_iff; tauto.
  - destruct (is_ i p i0 p0) eqn:I; [|destruct (waits i p (slog s)); tauto].
    apply is_true in I as (-> & ->). destruct (waits i0 p0 (slog s)); tauto.
  - assert (K : forall P, any P r -> any P ((if hC s <? p0 + 1 then if auto then [FStart; FEnd (EWoken i0)] else [FEnd (EWill i0 true)]
      else [FEnd (if auto then EWoken i0 else EWill i0 false)]) ++ r)) by (intros P; destruct (hC s <? p0 + 1), auto; simpl; auto).
    pose proof (K (callF (p + 1) i)). pose proof (K (seeF (p + 1) i)).
    destruct (is_ i p i0 p0) eqn:I.
    + apply is_true in I as (-> & ->). rewrite !N.eqb_refl, orb_true_r. destruct (waits i0 p0 (slog s)); tauto.
    + destruct (waits i p (slog s)); rewrite ?orb_true_iff; tauto.
  - destruct (waits i p (slog s)); try tauto. destruct (N.eqb_spec (p + 1) p0) as [E|E]; simpl; rewrite ?andb_true_r; intuition.
  - destruct (waits i p (slog s)); try tauto. destruct (N.eqb_spec (p + 1) p0) as [E|E]; simpl; rewrite ?andb_true_r; intuition.
  - destruct (waits i p (slog s)); try tauto. destruct M as (_ & [(Mc & M)|M]); [|tauto]. split; auto.
    destruct M as [M|[(E & _)|M]]; [tauto| |tauto]. rewrite <- E, H2 in Mc. discriminate.
  - destruct (waits i p (slog s)); try tauto. destruct M as (_ & [(Mc & M)|M]); [|tauto]. split; auto.
    destruct M as [M|[(E & _)|M]]; [tauto| |tauto]. rewrite H2, E. left. split; auto. right; left. split; auto. split; [lia|auto].
  - destruct (waits i p (slog s)); try tauto. destruct M as (_ & [(Mc & M)|M]); [|tauto]. split; auto.
    destruct M as [M|[(E & M1 & M2)|M]]; [tauto| |tauto]. left. split; auto. right; left. split; auto.
    destruct (N.eq_dec i i0); [auto|right; split; auto; lia].
  - destruct (waits i p (slog s)); try tauto. destruct M as (_ & [(Mc & M)|M]); [|tauto]. split; auto.
    destruct M as [M|[(E & M1 & M2)|M]]; [tauto| |tauto]. left. split; auto. right; left.
    apply snap_see, see_adv; eauto. destruct (N.eq_dec i i0); [congruence|lia].
  - destruct (waits i p (slog s)); try tauto. destruct M as (_ & [(Mc & M)|M]); [|tauto]. split; auto.
    destruct M as [M|[(E & M)|M]]; [tauto| |tauto]. left. split; auto. right; left. split; auto.
    destruct M as [M|(M1 & M2)]; [auto|right; split; auto]. now rewrite H2, E.
  - destruct (N.eqb_spec (p + 1) pri) as [E|E]; [destruct (N.eqb_spec i i0) as [E'|E']|]; cbn [andb negb]; rewrite ?andb_true_r, ?andb_false_r.
    + destruct (waits i p (slog s)); auto.
    + destruct (waits i p (slog s)); auto; destruct M as (_ & M); split; auto; [tauto|].
      destruct M as [(Mc & M)|M]; [|tauto].
      destruct M as [M|[(_ & M)|M]]; [tauto| |tauto]. left. split; auto. right; left. split; auto.
      destruct M as [M|(M1 & M2)]; [easy|split; auto]. now rewrite H5, <- E.
    + assert (E' : pri <> p + 1) by congruence. destruct (waits i p (slog s)); tauto.
  - destruct (is_ i p i0 (pri - 1)) eqn:I; auto.
    assert (K : ~ (pri = p + 1 /\ i0 = i)).
    { intros (-> & ->). replace (p + 1 - 1) with p in I by lia. unfold is_ in I. rewrite !N.eqb_refl in I. discriminate. }
    destruct (waits i p (slog s)); tauto.
  - destruct (waits i p (slog s)); try tauto. destruct M as (_ & [(Mc & M)|M]); [|tauto]. split; auto.
    destruct M as [M|[(E & M1 & M2)|M]]; [tauto| |tauto]. left. split; auto. right; left.
    apply snap_see, see_adv; eauto.
  - destruct (waits i p (slog s)); try tauto. destruct (N.eqb_spec (p + 1) p0) as [E|E]; simpl; rewrite ?andb_true_r; intuition.
  - destruct (waits i p (slog s)); try tauto. destruct (N.eqb_spec (p + 1) p0) as [E|E]; simpl; rewrite ?andb_true_r; intuition.
  - destruct (is_ i p i0 p0) eqn:I; auto. unfold is_ in I. replace (p + 1 =? p0 + 1) with (p =? p0).
    + rewrite (andb_comm (p =? p0)), I. simpl. rewrite andb_true_r. destruct (waits i p (slog s)); tauto.
    + apply eq_true_iff_eq. rewrite !N.eqb_eq. lia.
Qed.

Lemma invM_init : invM sinit.
Proof. intros i p. exact I. Qed.
End Small.
