(** Every execution of a oneshot channel satisfies the invariant of [OneshotProofs]. *)
Require Import NArith List Bool Lia.
Require Import Verif.Spsc Verif.SpscProofs Verif.Oneshot Verif.OneshotSpec Verif.OneshotProofs.
Require Import Verif.OneshotTx Verif.OneshotRx.
Import ListNotations.
Open Scope N_scope.

Definition g0 : TG := mkT WNone TAlive false None None false false false false None false false false.
Definition h0 : RG := mkR WNone false false RdNo false TkNo None false false false false true None false false false false false.

Transparent enc.
Lemma J0 : J mem0 obs0 g0 h0.
Proof. constructor; cbn; auto; try discriminate; try tauto; intros; intuition discriminate. Qed.
Opaque enc.

Ltac jc := constructor; [cbn; autorewrite with enc; fin | cbn; fin ..];
  try (solve [rewrite ?orb_true_r; auto | intros; fwd; subst; rewrite ?orb_true_l, ?orb_true_r; auto | match goal with H : ?a -> ?x = true, H' : ?a |- _ => rewrite (H H') end; auto]); dbg; fail.

Lemma callt o : oside o = TX -> forall m b g h, J m b g h -> tidle false g ->
    exists g', J m (ostep b (EInv o)) g' h /\ wp TX oconsuming ostep J tidle o (ocode o) g'.
Proof.
  intros Eo m b g h HJ Hi. destruct o; try discriminate Eo; cbn [ocode].
  - eexists; split; [|exact (wp_send v g Hi)].
    revert m b h HJ. destruct g as [w p1 s1 v1 s2 o1 pn nl z pw d1 c1 n1]. jopen.
    unfold tidle in Hi. cbn in *. fwd. subst. jc.
  - eexists; split; [|exact (wp_poll_canceled w g Hi)].
    revert m b h HJ. destruct g as [w' p1 s1 v1 s2 o1 pn nl z pw d1 c1 n1]. jopen.
    unfold tidle in Hi. cbn in *. fwd. subst. jc.
  - eexists; split; [|exact (wp_is_canceled g Hi)].
    revert m b h HJ. destruct g as [w' p1 s1 v1 s2 o1 pn nl z pw d1 c1 n1]. jopen.
    unfold tidle in Hi. cbn in *. fwd. subst. jc.
  - eexists; split; [|exact (wp_drop_tx g Hi)].
    revert m b h HJ. destruct g as [w' p1 s1 v1 s2 o1 pn nl z pw d1 c1 n1]. jopen.
    unfold tidle in Hi. cbn in *. fwd. subst. jc.
Qed.

Lemma callr o : oside o = RX -> forall m b g h, J m b g h -> ridle false h ->
    exists h', J m (ostep b (EInv o)) g h' /\ wp RX oconsuming ostep Jr ridle o (ocode o) h'.
Proof.
  intros Eo m b g h HJ Hi. destruct o; try discriminate Eo; cbn [ocode].
  1: eexists; split; [|exact (wp_close h Hi)].
  2: eexists; split; [|exact (wp_try_recv h Hi)].
  3: eexists; split; [|exact (wp_poll w h Hi)].
  4: eexists; split; [|exact (wp_is_terminated h Hi)].
  5: eexists; split; [|exact (wp_drop_rx h Hi)].
  all: apply (proj1 (conj HJ I)) in HJ || idtac.
  all: change (Jr m b h g) in HJ; revert m b g HJ; destruct h as [w_ cl hf d sc tk1 wk1 fr1 pn nl cz nd pw cd cn n1 tm rcb0]; ropen;
    unfold ridle in Hi; cbn in *; fwd; subst; destruct d; try contradiction; destruct tt_; cbn in *; jc.
Qed.

Theorem oneshot_ok at_ sched :
  sys_ok oconsuming obs0 ostep J tidle ridle (orun at_ sched).
Proof.
  apply (sys_ok_run oside oconsuming ocode at_ obs0 ostep J tidle ridle g0 h0 ostep_acc J0).
  - repeat split.
  - repeat split.
  - exact callt.
  - exact callr.
Qed.
