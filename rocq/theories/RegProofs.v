(** Concurrent updates of register fields, for both back-ends. *)
Require Import NArith List Bool Arith Lia.
From Verif Require Import AtomicSpec Atomics AtomicsProofs Bitfield BitfieldProofs.
Import ListNotations.
Open Scope N_scope.

(** A field accessor of a read-write register as an operation on the register
    word (reg/atomic.rs:135-197, reg/soft_atomic.rs:121-184: [modify] with the
    accessor as closure). *)
Definition reg_field_op (n : N) (f : field) (o : fop) : op := Modify (apply_fop n f o).

(** [t] only touches fields all of whose bits it owns. *)
Definition owned_update (n : N) (owner : N -> nat) (t : nat) (o : op) : Prop :=
  exists f fo, o = reg_field_op n f fo /\
    f_off f + f_width f <= n /\ 0 < f_width f /\
    (forall v, fo = FWriteBits v -> v < 2 ^ n) /\
    (forall i, f_off f <= i < f_off f + f_width f -> owner i = t).

Lemma owned_fits n owner t o : owned_update n owner t o -> fits n o.
Proof. intros (f & fo & -> & H1 & H2 & H3 & _) w Hw. simpl. now apply apply_fop_lt. Qed.

Lemma owned_keeps n owner t o i :
  owned_update n owner t o -> owner i <> t -> keeps n i o.
Proof.
  intros (f & fo & -> & H1 & H2 & H3 & H4) Hi w Hw. simpl.
  apply apply_fop_frame; auto.
  destruct (N.lt_ge_cases i (f_off f)); [auto|].
  destruct (N.lt_ge_cases i (f_off f + f_width f)); [|auto].
  exfalso. apply Hi. apply H4. lia.
Qed.

Lemma owned_local n owner t o i : owned_update n owner t o -> local n i o.
Proof.
  intros (f & fo & -> & H1 & H2 & H3 & H4) w w' Hw Hw' E. simpl.
  assert (f_off f < n) by lia.
  destruct fo; simpl;
    rewrite ?set_bit_bits, ?clear_bit_bits, ?toggle_bit_bits, ?write_bit_bits by easy.
  1-4: now rewrite E.
  rewrite !write_bits_bits by (auto; now apply H3). now rewrite E.
Qed.

Lemma owned_bits n owner w0 tr s t i :
  aexec w0 tr s -> w0 < 2 ^ n -> owner i = t ->
  (forall t' o, In (Inv t' o) tr -> owned_update n owner t' o) ->
  ath s t = AIdle ->
  N.testbit (aw s) i = N.testbit (run_ops (ops_of t tr) w0) i.
Proof.
  intros Ha Hw Ho Hall Hi.
  destruct (bit_ownership n w0 tr s t i) as (_ & _ & H); auto.
  - intros. eapply owned_fits; eauto.
  - intros t' o HIn Hne. eapply owned_keeps; eauto. congruence.
  - intros. eapply owned_local; eauto.
  - now rewrite Hi in H.
Qed.

Lemma cas_reg_bits n owner w0 ls t i :
  w0 < 2 ^ n -> owner i = t ->
  let (s, tr) := crun (cinit w0) ls in
  (forall t' o, In (Inv t' o) tr -> owned_update n owner t' o) ->
  cth s t = CIdle ->
  N.testbit (cw s) i = N.testbit (run_ops (ops_of t tr) w0) i.
Proof.
  intros Hw Ho.
  pose proof (crun_sim w0 ls (cinit w0) [] (cinit_sim w0)) as H.
  destruct (crun (cinit w0) ls) as [s tr]. simpl in H.
  destruct H as (a & Ha & Haw & Hr). intros Hall Hi.
  rewrite <- Haw. eapply owned_bits; eauto.
  destruct (Hr t) as [Hc _]. now rewrite Hi in Hc.
Qed.

Lemma soft_reg_bits n owner w0 ie0 ls t i :
  w0 < 2 ^ n -> owner i = t ->
  let (s, tr) := srun (sinit w0 ie0) ls in
  (forall t' o, In (Inv t' o) tr -> owned_update n owner t' o) ->
  (nth_error (rev (stk s)) t = Some SIdle \/ nth_error (rev (stk s)) t = None) ->
  N.testbit (sw s) i = N.testbit (run_ops (ops_of t tr) w0) i.
Proof.
  intros Hw Ho.
  pose proof (srun_sim w0 ie0 ls (sinit w0 ie0) [] (sinit_sim w0 ie0)) as H.
  destruct (srun (sinit w0 ie0) ls) as [s tr]. simpl in H.
  destruct H as (a & Ha & Haw & Hr & Hd & _). intros Hall Hi.
  rewrite <- Haw. eapply owned_bits; eauto.
  destruct Hi as [Hi|Hi].
  - clear -Hi Hr. revert Hi Hr. generalize (stk s). intros st.
    induction st as [|f rest IH]; simpl; intros Hi Hr.
    + destruct t; discriminate.
    + destruct Hr as [Hf Hr].
      destruct (Nat.lt_ge_cases t (length rest)) as [Hlt|Hge].
      * rewrite nth_error_app1 in Hi by (now rewrite rev_length). auto.
      * rewrite nth_error_app2 in Hi by (now rewrite rev_length).
        rewrite rev_length in Hi.
        destruct (t - length rest)%nat as [|k] eqn:E; simpl in Hi.
        -- inversion Hi; subst. replace t with (length rest) by lia. easy.
        -- destruct k; discriminate.
  - apply nth_error_None in Hi. rewrite rev_length in Hi. auto.
Qed.
