(** The pulse channel on the weak memory: what the users observe (for C84). *)
Require Import NArith List Bool Lia Permutation.
From Verif Require Import Spsc SpscProofs Pulse PulseSpec PulseProofs PulseMain P07_Pulse.
From Verif Require Import WeakSC WeakHist.
Import ListNotations.
Open Scope N_scope.

Definition e_accepted (e : pev) : list N := match e with ERet (Send n) ROk => [n] | _ => [] end.
Definition e_canceled (e : pev) : list N := match e with ERet (Send n) RClosed => [n] | _ => [] end.
Definition e_received (e : pev) : list N :=
  match e with ERet TryNext (RVal n) | ERet (PollNext _) (RVal n) => [n] | _ => [] end.
Definition sum (l : list N) : N := fold_right N.add 0 l.
Lemma sum_app a b : sum (a ++ b) = sum a + sum b.
Proof. unfold sum. induction a as [|x a IH]; cbn; auto. rewrite IH. lia. Qed.
Lemma sum_perm a b : Permutation a b -> sum a = sum b.
Proof. unfold sum. intros H. induction H; cbn; lia. Qed.
Lemma sums l : accepted l = sum (flat_map e_accepted l) /\ canceled l = sum (flat_map e_canceled l) /\ received l = sum (flat_map e_received l).
Proof.
  induction l as [|e l IH] using rev_ind; [cbn; auto|].
  unfold accepted, canceled, received in *. rewrite !fold_left_app, !flat_map_app, !sum_app. cbn [fold_left flat_map].
  destruct IH as (-> & -> & ->). destruct e as [[]|[] []| | | | |]; cbn; repeat split; lia.
Qed.

Section Same.
  Variables a b : list pev.
  Hypothesis same : forall s, hist pside s a = hist pside s b.
  Lemma same_totals : accepted a = accepted b /\ canceled a = canceled b /\ received a = received b /\
    sending a = sending b /\ saturates a = saturates b /\ closing a = closing b.
  Proof.
    destruct (sums a) as (-> & -> & ->), (sums b) as (-> & -> & ->). repeat split.
    1-3: apply sum_perm, (same_perm pside a b same); now intros [] H; try reflexivity; destruct H.
    - unfold sending. apply (same_fold pside a b same _ TX). now intros x [[]|[] []| | | | |]; cbn; try discriminate.
    - unfold saturates. apply (same_existsb pside a b same). intros [[]|[] []| | | | |]; cbn; auto; discriminate.
    - unfold closing. apply (same_existsb pside a b same). intros [[]|[] []| | | | |]; cbn; auto; discriminate.
  Qed.
End Same.

Lemma pend_count : forall bits at_ sched, 5 < bits -> let x := prun bits at_ sched in
  n_pend (pulse_counter (CAPACITY bits) (slog x)) = N.shiftr (st (smem x)) PARAM_BITS.
Proof. start_. rewrite j_st. symmetry. apply count_enc. Qed.
