(** Every execution of a pulse channel satisfies the invariant of [PulseProofs]. *)
Require Import NArith List Bool Lia.
Require Import Verif.Spsc Verif.SpscProofs Verif.Pulse Verif.PulseSpec Verif.PulseProofs.
Require Import Verif.PulseTx Verif.PulseRx.
Import ListNotations.
Open Scope N_scope.

Definition g0 : TG := mkT WNone TAlive false None None false false false false None false false false TxNo SpNo.
Definition h0 : RG := mkR WNone false false RdNo false TkNo None false false false false true None false false false false false 0.

Transparent enc.
Lemma J0 cap : 1 < cap -> J cap mem0 obs0 g0 h0.
Proof. intros Hc. constructor; cbn; auto; try discriminate; try tauto; intros; try lia; intuition discriminate. Qed.
Opaque enc.

Ltac jc := constructor; [cbn; autorewrite with enc; fin | cbn; rewrite ?N.eqb_refl; fin ..];
  try (solve [rewrite ?orb_true_r; auto | intros; fwd; subst; rewrite ?orb_true_l, ?orb_true_r; auto
    | match goal with H : ?a -> ?x = true, H' : ?a |- _ => rewrite (H H') end; auto
    | match goal with H : match ?x with _ => _ end |- _ => is_var x; destruct x end; cbn in *;
      try match goal with H : existsb _ _ = true |- _ => rewrite H end; rewrite ?orb_true_r; auto ]); dbg; fail.

Section Calls.
  Variable bits : N.
  Hypothesis Hb : 5 < bits.
  Notation cap := (CAPACITY bits).

Lemma callt o : pside o = TX -> forall m b g h, J cap m b g h -> tidle false g ->
    exists g', J cap m (ostep cap b (EInv o)) g' h /\ wp TX pconsuming (ostep cap) (J cap) tidle o (pcode bits o) g'.
Proof.
  intros Eo m b g h HJ Hi. destruct o; try discriminate Eo; cbn [pcode].
  1: eexists; split; [|exact (wp_send bits Hb n g Hi)].
  2: eexists; split; [|exact (wp_saturating_send bits Hb n g Hi)].
  3: eexists; split; [|exact (wp_send_err cap v g Hi)].
  4: eexists; split; [|exact (wp_poll_canceled cap w g Hi)].
  5: eexists; split; [|exact (wp_is_canceled cap g Hi)].
  6: eexists; split; [|exact (wp_drop_tx cap g Hi)].
  all: revert m b h HJ; destruct g as [w' p1 s1 v1 s2 o1 pn nl z pw d1 c1 n1 ttx1 tsp1]; jopen;
    unfold tidle in Hi; cbn in *; fwd; subst; jc.
Qed.

Lemma callr o : pside o = RX -> forall m b g h, J cap m b g h -> ridle false h ->
    exists h', J cap m (ostep cap b (EInv o)) g h' /\ wp RX pconsuming (ostep cap) (Jr cap) ridle o (pcode bits o) h'.
Proof.
  intros Eo m b g h HJ Hi. destruct o; try discriminate Eo; cbn [pcode].
  1: eexists; split; [|exact (wp_close cap h Hi)].
  2: eexists; split; [|exact (wp_try_next cap h Hi)].
  3: eexists; split; [|exact (wp_poll_next cap w h Hi)].
  4: eexists; split; [|exact (wp_is_terminated cap h Hi)].
  5: eexists; split; [|exact (wp_drop_rx cap h Hi)].
  all: change (Jr cap m b h g) in HJ; revert m b g HJ; destruct h as [w_ cl hf d sc tk1 wk1 fr1 pn nl cz nd pw cd cn tm rcb0 rx0 tn0]; ropen;
    unfold ridle in Hi; cbn in *; fwd; subst; destruct d; try contradiction; destruct tt_; cbn in *; jc.
Qed.

Theorem pulse_ok at_ sched :
  sys_ok pconsuming obs0 (ostep cap) (J cap) tidle ridle (prun bits at_ sched).
Proof.
  apply (sys_ok_run pside pconsuming (pcode bits) at_ obs0 (ostep cap) (J cap) tidle ridle g0 h0 (ostep_acc cap) (J0 cap (cap_pos bits Hb))).
  - repeat split.
  - repeat split.
  - exact callt.
  - exact callr.
Qed.
End Calls.
