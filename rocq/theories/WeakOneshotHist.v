(** The oneshot on the weak memory: what the users observe (for C84). *)
Require Import NArith List Bool Lia Permutation.
From Verif Require Import Spsc SpscProofs Oneshot OneshotSpec OneshotProofs OneshotMain P06_Oneshot.
From Verif Require Import WeakSC WeakHist.
Import ListNotations.
Open Scope N_scope.

(** What happens to values, in terms of calls, results and destroyed values. *)
Definition e_sent (e : oev) : list N := match e with EInv (Send v) => [v] | _ => [] end.
Definition e_got (e : oev) : list N := match e with ERet (Send _) (ROk | RErr _) => [] | ERet _ (RVal v) => [v] | _ => [] end.
Definition e_back (e : oev) : list N := match e with ERet (Send _) (RErr v) => [v] | _ => [] end.
Definition e_dead (e : oev) : list N := match e with EDropV _ v => [v] | _ => [] end.

Lemma values_maps l :
  v_sent (values l) = flat_map e_sent l /\ v_got (values l) = flat_map e_got l /\
  v_back (values l) = flat_map e_back l /\ v_dead (values l) = flat_map e_dead l /\
  (v_ok (values l) = true <-> exists v, In (ERet (Send v) ROk) l).
Proof.
  induction l as [|e l IH] using rev_ind; [cbn; do 4 (split; [reflexivity|]); split; [discriminate|intros (v & [])]|].
  unfold values in *. rewrite fold_left_app, !flat_map_app. cbn [fold_left flat_map].
  destruct (fold_left vstep l vals0) as [a b c d k f g h i]. cbn [v_sent v_got v_back v_dead v_ok] in IH.
  destruct IH as (I1 & I2 & I3 & I4 & I5). subst a b c d.
  assert (X : forall k', (k' = true <-> k = true \/ exists v, e = ERet (Send v) ROk) ->
     (k' = true <-> exists v, In (ERet (Send v) ROk) (l ++ [e]))).
  { intros k' ->. rewrite I5. split.
    - intros [(v & I)|(v & E)]; exists v; apply in_or_app; [now left|right; rewrite E; now left].
    - intros (v & I). apply in_app_or in I as [I|[E|[]]]; eauto. }
  rewrite !app_nil_r.
  destruct e as [[]|[] []|[]| | | |]; cbn; rewrite ?app_nil_r;
    repeat match goal with |- context [if ?c then _ else _] => destruct c; cbn end;
    repeat (split; [reflexivity|]); try (apply X; split; [auto|]; intros [H|(? & H)]; [auto|discriminate]).
  apply X. split; [eauto|auto].
Qed.

Definition pend_step (b : bool) (e : oev) : bool :=
  match e with
  | EInv (Poll _) | EInv Close | EInv DropRx => false
  | ERet (Poll _) RPending => true
  | _ => b
  end.
Definition polled (l : list oev) (w : N) : Prop := In (EInv (Poll w)) l \/ In (ERet (Poll w) RPending) l.

Lemma wakeups_hist l :
  let b := receiver_wakeups l in
  k_pend b = fold_left pend_step l false /\
  (forall w, k_pw b = Some w -> polled l w) /\ (forall w, k_reg b = Some w -> polled l w) /\
  (k_woken b = true -> exists w, polled l w /\ In (EWake TX w) l).
Proof.
  induction l as [|e l IH] using rev_ind; [cbn; repeat split; auto; discriminate|].
  cbv zeta in *. unfold receiver_wakeups in *. rewrite !fold_left_app. cbn [fold_left].
  destruct (fold_left kstep l rwake0) as [dn pw reg pend woken late badp begun spur closed].
  cbn [k_pend k_pw k_reg k_woken] in IH. destruct IH as (I1 & I2 & I3 & I4). subst pend.
  assert (M : forall w, polled l w -> polled (l ++ [e]) w).
  { intros w [H|H]; [left|right]; apply in_or_app; now left. }
  assert (M4 : woken = true -> exists w, polled (l ++ [e]) w /\ In (EWake TX w) (l ++ [e])).
  { intros H. destruct (I4 H) as (w & P & Q). exists w. split; [auto|apply in_or_app; now left]. }
  assert (N1 : forall w, e = EInv (Poll w) \/ e = ERet (Poll w) RPending -> polled (l ++ [e]) w).
  { intros w [-> | ->]; [left|right]; apply in_or_app; right; now left. }
  destruct e as [[]|[] []|[] w| | | |]; cbn -[In app] in *; repeat split; auto; try discriminate;
    try (intros w' E; first [injection E as <-; auto; fail|destruct reg; cbn in E; injection E as <-; auto; fail|auto; fail]).
  intros E. apply orb_true_iff in E as [E|E]; auto.
  exists w. unfold is_waker, first in E. split.
  - destruct reg as [r|]; [apply N.eqb_eq in E; subst; auto|]. destruct pw as [r|]; [apply N.eqb_eq in E; subst; auto|discriminate].
  - apply in_or_app. right. now left.
Qed.

Lemma woken_gone : forall at_ sched, let x := orun at_ sched in
  stx x = Gone -> k_pend (receiver_wakeups (slog x)) = true -> k_woken (receiver_wakeups (slog x)) = true.
Proof.
  start_. intros G E1. rewrite G in HT. cbn in HT. unfold tidle in HT. cbn in HT.
  destruct HT as (_ & _ & _ & _ & E2 & _). 
  destruct (j_k2 E2) as (F1 & F2 & F3 & F4).
  destruct (j_k6 (j_k5 E1)) as [_ F5]. destruct rw_; try contradiction.
  rewrite F1, F2, F3 in F5. intuition discriminate.
Qed.
