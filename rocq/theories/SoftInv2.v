(** More invariants of the soft-thread machine with at most 32 threads. *)
Require Import NArith List Bool Lia.
From Verif Require Import SoftSpec Soft SoftProofs SoftInv.
Import ListNotations.
Open Scope N_scope.
Local Arguments N.sub : simpl never.
Local Arguments N.add : simpl never.
Local Arguments N.eqb : simpl never.
Local Arguments N.ltb : simpl never.
Local Opaque hC hP cell N.ltb N.eqb.

Lemma chosen_app l e : chosen (l ++ [e]) =
  match e with ETake i p => (i, p) :: chosen l | EResume _ _ => tl (chosen l) | _ => chosen l end.
Proof. unfold chosen. now rewrite fold_left_app. Qed.

Fixpoint calls (l : list frame) : list (N * N) :=
  match l with [] => [] | FLoop _ pri _ (RCall i _ _) :: r => (i, pri - 1) :: calls r | _ :: r => calls r end.

(** Whether the code above the topmost loop is going to look for work. *)
Fixpoint owes (l : list frame) : Prop :=
  match l with
  | [] | FLoop _ _ _ _ :: _ => False
  | (FStart | FStartC _) :: _ => True
  | FEnd (EWill _ true) :: _ => True
  | _ :: r => owes r
  end.

Ltac stacks := match goal with X : stk ?s' = _ |- context [stk ?s'] => rewrite X end.
Ltac from := try match goal with X : stk ?s = _ |- _ => rewrite X in * end.

Lemma marked (b auto : bool) i r P : any P r -> any P ((if b then if auto then [FStart; FEnd (EWoken i)] else [FEnd (EWill i true)]
  else [FEnd (if auto then EWoken i else EWill i false)]) ++ r).
Proof. destruct b, auto; simpl; auto. Qed.
Lemma marked_loop (b auto : bool) i r l : any (loopF l) ((if b then if auto then [FStart; FEnd (EWoken i)] else [FEnd (EWill i true)]
  else [FEnd (if auto then EWoken i else EWill i false)]) ++ r) -> any (loopF l) r.
Proof. destruct b, auto; simpl; tauto. Qed.

Section Small.
Variable count : N.
Hypothesis small : 1 <= count <= 32.

Lemma calls_step s s' : ends (stk s) -> chosen (slog s) = calls (stk s) -> tr count s s' -> chosen (slog s') = calls (stk s').
Proof.
  intros En A H. destruct H; norm; auto; logs; rewrite ?chosen_app, A; from; simpl in *; auto.
  - destruct e; easy.
  - destruct (hC s <? p + 1), auto; reflexivity.
  - unfold adv. destruct (i + 1 =? count); reflexivity.
  - unfold adv. destruct (i + 1 =? count); reflexivity.
Qed.

Lemma uniq s ptr pri prev q r : base count s -> stk s = FLoop ptr pri prev q :: r ->
  1 <= pri <= 27 /\ pri = hC s /\ prev < pri /\ forall l, any (loopF l) r -> 1 <= l <= prev.
Proof.
  clear small. intros B E. pose proof (b_wf _ _ B) as W. rewrite E in W. simpl in W. destruct W as (W1 & W2 & _ & W3).
  repeat split; auto; try lia; eapply wf_loop in H; eauto; lia.
Qed.

(** ** What the scheduler owes *)
Record invY (s : sst) : Prop := InvY {
  y_lv : forall p, y_levels (conds p (slog s)) = lvls (stk s);
  y_S : forall l, any (loopF l) (stk s) -> hP s l = true -> y_stuck (conds (l - 1) (slog s)) = true;
  y_B : forall l, hC s < l <= 27 -> hP s l = true -> y_stuck (conds (l - 1) (slog s)) = false ->
        y_will (conds (l - 1) (slog s)) = false -> owes (stk s)
}.

Lemma invY_step s s' : base count s -> ends (stk s) -> invY s -> tr count s s' -> invY s'.
Proof.
  intros B En [Y1 Y2 Y3] H. pose proof (b_wf _ _ B) as W. split.
  - intros pp. specialize (Y1 pp). destruct H; norm; auto; logs; rewrite ?conds_app; from; simpl in *; rewrite ?Y1; auto.
    + destruct e; easy.
    + destruct (hC s <? p + 1), auto; reflexivity.
  - intros l Hl0. assert (Hl : 1 <= l <= 27).
    { pose proof (wf_le _ _ _ (b_wf _ _ (base_step _ small _ _ B H))).
      pose proof (wf_loop _ _ _ _ (b_wf _ _ (base_step _ small _ _ B H)) Hl0). lia. }
    destruct H; norm; auto; try gethp Hl;
    repeat match goal with X : slog s' = _ |- _ => rewrite X; clear X end;
    repeat match goal with X : stk s' = _ |- _ => rewrite X in Hl0; clear X end; rewrite ?conds_app; from;
    cbn [ystep y_stuck any loopF] in *; try (apply Y2; auto; tauto).
    + intros Hp. specialize (Y2 l (or_intror Hl0) Hp). destruct e; try easy. 
    + apply marked_loop in Hl0. rewrite !orb_true_iff, N.eqb_eq. intros [Hp| ->]; [left; apply Y2; auto|]. right.
      replace (p + 1 - 1) with p by lia. rewrite N.eqb_refl. apply existsb_exists. rewrite Y1. exists p. split; [|apply N.eqb_refl].
      apply lvls_in. exists (p + 1). split; [lia|]. simpl; auto.
    + rewrite !andb_true_iff, !negb_true_iff, !N.eqb_neq. intros (Hp & N). split; [apply Y2; auto; right; destruct Hl0; [congruence|auto]|lia].
    + rewrite !andb_true_iff, !negb_true_iff, !N.eqb_neq. intros (Hp & N). split; [apply Y2; auto; right; destruct Hl0; [congruence|auto]|lia].
    + rewrite !andb_true_iff, !negb_true_iff, !N.eqb_neq. intros (Hp & N). split; [apply Y2; auto; right; destruct Hl0; [congruence|auto]|lia].
    + rewrite !andb_true_iff, !negb_true_iff, !N.eqb_neq. intros (Hp & N). split; [apply Y2; auto; right; destruct Hl0; [congruence|auto]|lia].
  - intros l Hl0 Hh. assert (Hl : 1 <= l <= 27) by lia. revert Hh.
    destruct H; norm; auto; try gethp Hl; try exact (Y3 l Hl0); intros Hh;
    repeat match goal with X : slog s' = _ |- _ => rewrite X; clear X end;
    repeat match goal with X : hC s' = _ |- _ => rewrite X in Hl0; clear X end;
    stacks; rewrite ?conds_app; from; cbn [ystep y_stuck y_will owes] in *; try (apply (Y3 l); auto; fail); auto.
    + destruct e; simpl in *; try easy; intros Sa Wi; try (apply orb_false_iff in Wi as (Wi & ->)); apply (Y3 l); auto.
    + destruct auto; simpl; apply (Y3 l); auto.
    + intros Sa Wi. apply orb_false_iff in Sa as (Sa & _). specialize (Y3 l Hl0).
      destruct (N.ltb_spec (hC s) (p + 1)) as [L|L]; [destruct auto; simpl; auto|].
      destruct (N.eqb_spec l (p + 1)); [lia|]. rewrite orb_false_r in Hh. destruct auto; simpl; auto.
    + rewrite H3 in Hh by lia. discriminate.
    + rewrite H3 in Hh by lia. discriminate.
    + rewrite H2 in Hh by lia. discriminate.
    + rewrite H2 in Hh by lia. discriminate.
    + intros Sa Wi. rewrite andb_true_iff in Hh. destruct Hh as (Hh & _). destruct (uniq s _ _ _ _ _ B ltac:(eassumption)) as (_ & U & _).
      destruct (N.eqb_spec (p - 1) (l - 1)); [lia|]. simpl in Sa. rewrite andb_true_r in Sa. destruct (N.lt_trichotomy l pri) as [L|[L|L]].
      * rewrite H2 in Hh by lia. discriminate.
      * rewrite (Y2 l) in Sa; [discriminate|simpl; auto|auto].
      * apply (Y3 l); auto. lia.
    + intros Sa Wi. rewrite andb_true_iff in Hh. destruct Hh as (Hh & _). destruct (uniq s _ _ _ _ _ B ltac:(eassumption)) as (_ & U & _).
      destruct (N.eqb_spec (p - 1) (l - 1)); [lia|]. simpl in Sa. rewrite andb_true_r in Sa. destruct (N.lt_trichotomy l pri) as [L|[L|L]].
      * rewrite H2 in Hh by lia. discriminate.
      * rewrite (Y2 l) in Sa; [discriminate|simpl; auto|auto].
      * apply (Y3 l); auto. lia.
    + intros Sa Wi. exfalso. destruct (uniq s _ _ _ _ _ B ltac:(eassumption)) as (_ & U & _).
      destruct (N.lt_trichotomy l pri) as [L|[L|L]].
      * rewrite H0 in Hh by lia. discriminate.
      * rewrite (Y2 l) in Sa; [discriminate|simpl; auto|auto].
      * apply (Y3 l); auto. lia.
    + intros Sa Wi. exfalso. destruct (uniq s _ _ _ _ _ B ltac:(eassumption)) as (_ & U & _).
      destruct (N.lt_trichotomy l pri) as [L|[L|L]].
      * rewrite H0 in Hh by lia. discriminate.
      * rewrite (Y2 l) in Sa; [discriminate|simpl; auto|auto].
      * apply (Y3 l); auto. lia.
Qed.

Lemma invY_init : invY sinit.
Proof. split; easy. Qed.
End Small.
