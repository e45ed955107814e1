(** Properties of fiber streams of pulses (C54, C77). *)
Require Import PeanoNat NArith List Bool Lia.
Require Import Verif.Spsc Verif.Pulse Verif.PulseSpec
  Verif.Fiber Verif.FiberSpec Verif.FiberProofs Verif.FutureProofs Verif.PulseStreamProofs.
Require Verif.P07_Pulse.
Import P07_Pulse(accepted, canceled, received, saturates).
Import ListNotations.
Open Scope N_scope.

Notation pfact := (fact pop (option N) (option N + N)).
Notation pdriven l := (driving pclose l).

Lemma sends_shape (l : list pev) : Forall (shaped pshape) l ->
  total (sends l) = accepted l + canceled l + total (fulls l).
Proof.
  induction l as [|e l IH] using rev_ind; intros H; [reflexivity|]. apply Forall_app in H. destruct H as [H He].
  specialize (IH H). inversion_clear He as [|? ? S _]. unfold accepted, canceled, sends, fulls, total in *.
  rewrite !fold_left_app, !flat_map_app. rewrite <- !fold_symmetric in * by lia.
  rewrite !fold_left_app. cbn [fold_left].
  destruct e as [[]|[] r| | | | |]; cbn in *; try lia.
  destruct S as [->|[->| ->]]; cbn; lia.
Qed.
Lemma kb_rel (l : list pev) : k_begun (receiver_wakeups l) = true -> einv l = true \/ c_begun (sender_wakeups l) = true.
Proof.
  induction l as [|e l IH] using rev_ind; intros H; [discriminate|].
  rewrite einv_snoc. unfold receiver_wakeups, sender_wakeups in *. rewrite !fold_snoc in *.
  destruct (fold_left kstep l rwake0), (fold_left cstep l cwake0). cbn in IH.
  destruct e as [[]|[] [| | | | |[]| | | | | |]|[]|[]|[]|[]|[]]; cbn in *; rewrite ?orb_true_r, ?orb_false_r; auto.
Qed.
Lemma vb_rel (l : list pev) : v_begun (errors l) = true -> c_begun (sender_wakeups l) = true.
Proof.
  induction l as [|e l IH] using rev_ind; intros H; [discriminate|].
  unfold errors, sender_wakeups in *. rewrite !fold_snoc in *.
  destruct (fold_left vstep l vals0), (fold_left cstep l cwake0). cbn in IH.
  destruct e as [[]|[] [| | | | |[]| | | | | |]|[]|[]|[]|[]|[]]; cbn in *; auto.
Qed.
Lemma back_rel (l : list pev) : c_spur (sender_wakeups l) = false -> c_begun (sender_wakeups l) = false -> v_back (errors l) = [].
Proof.
  induction l as [|e l IH] using rev_ind; intros H C; [reflexivity|].
  unfold errors, sender_wakeups in *. rewrite !fold_snoc in *.
  destruct (fold_left vstep l vals0), (fold_left cstep l cwake0). cbn in IH.
  destruct e as [[]|[] [| | | | |[]| | | | | |]|[]|[]|[]|[]|[]]; cbn in *; try discriminate; auto;
    try (apply orb_false_elim in H; destruct H as [H1 H2]; subst; discriminate || auto).
Qed.

Lemma pulse_tidy sat : tidy pside pconsuming false (pulse_body sat).
Proof.
  assert (tidy pside pconsuming false pulse_break) as Hb by (cbn; auto).
  assert (forall e, tidy pside pconsuming false (pulse_fail e)) as Hf by (cbn; auto).
  assert (forall v (kk : option N -> pulse_tree), (forall e, tidy pside pconsuming false (kk e)) -> tidy pside pconsuming false (overflow sat v kk)) as Hv.
  { intros v kk H. destruct sat; cbn; auto. }
  cbn [pulse_body tidy]. split; [reflexivity|]. split; [reflexivity|]. intros r.
  destruct r; try (destruct b; [exact Hb|]). all: cbn [tidy]; (split; [reflexivity|]); intros [[w|]|[[w|]|w]]; cbn [tidy pconsuming pside]; auto; (split; [reflexivity|]; split; [reflexivity|]);
    intros r1; destruct r1; cbn [tidy]; auto; apply Hv; intros []; cbn [tidy]; auto.
Qed.
Lemma pulse_app bits at_ sat a b : pulse_run bits at_ sat (a ++ b) =
  frun pside pconsuming (pcode bits) at_ pulse_api (pulse_body sat) (pulse_run bits at_ sat a) b.
Proof. apply frun_app. Qed.
Lemma gone bits at_ sat sched : let s := pulse_run bits at_ sat sched in
  (fgen s = Susp -> stx (fch s) = Idle) /\ (fgen s = Ended -> stx (fch s) = Gone).
Proof.
  assert (live pside pconsuming (pulse_run bits at_ sat sched)) as L by (apply live_run, pulse_tidy).
  cbv zeta. unfold live in L. split; intros E; rewrite E in L; auto.
Qed.

(** C77.  For every word width, every behaviour of the fiber and of the overflow handler,
    every interleaving of runs of the thread with the consumer, in both builds, as long as
    no memory is used after being freed (C66).  At any time:
    - the fiber is resumed exactly once per run, and so on (see [dstep]);
    - a poll that starts after the fiber was removed is not Pending;
    - the channel behaves as an atomic counter (see [nstep]); in particular a pack that
      does not fit is dropped as a whole, and no other is;
    - the packs passed to the channel are those the fiber has yielded and completed with,
      in order, the last one possibly on its way while the thread runs; the same holds for
      the errors;
    - the overflow handler is called once for each pack that did not fit, in order, and
      never in saturating streams;
    - nothing is lost to cancellation unless the stream is closed or dropped. *)
Theorem C77_pulse_stream : forall bits at_ sat sched, 5 < bits ->
  let s := pulse_run bits at_ sat sched in
  let c := channel (flog s) in
  uaf (smem (fch s)) = false ->
  d_bad (pdriven (flog s)) = false /\
  p_miss (pulse_end (flog s)) = false /\
  n_bad (pulse_counter (CAPACITY bits) c) = false /\
  saturates c = false /\
  (d_begun (pdriven (flog s)) = false -> canceled c = 0) /\
  exists pack err full,
    packs (flog s) = sends c ++ pack /\ (length pack <= 1)%nat /\
    failures (flog s) = v_sent (errors c) ++ err /\ (length err <= 1)%nat /\
    (if sat then handed (flog s) = [] else fulls c = handed (flog s) ++ full) /\ (length full <= 1)%nat /\
    (fgen s = Susp \/ fgen s = Ended -> pack = [] /\ err = [] /\ full = []).
Proof.
  intros bits at_ sat sched Hb. cbv zeta. intros U.
  destruct (stream_ok bits at_ sat Hb sched U) as (Ec & (sc & Ef) & [B (p & e & f & L1 & L2 & L3 & A) _ _ _ Hm] & He & Hs).
  set (s := pulse_run bits at_ sat sched) in *. rewrite Ef in U.
  destruct (P07_Pulse.C34_atomic_counter bits at_ sc Hb U) as [N1 _].
  destruct (P07_Pulse.C36_receiver_woken bits at_ sc Hb U) as (_ & _ & Kb & _).
  split; [exact B|]. split.
  { destruct (p_miss (pulse_end (flog s))); auto. rewrite Ec, Ef in Hm. specialize (Hm eq_refl). congruence. }
  rewrite <- (proj2 (c_rel _)). rewrite Ec, Ef. split; [exact N1|].
  assert (saturates (slog (prun bits at_ sc)) = false) as Es by (rewrite <- Ef, <- Ec; apply A).
  split; [exact Es|]. split.
  { intros C. apply (P07_Pulse.C34_conservation bits at_ sc Hb U Es). clear - C.
    induction (slog (prun bits at_ sc)) as [|x l IH] using rev_ind; [reflexivity|].
    unfold P07_Pulse.closing in *. rewrite existsb_app. unfold sender_wakeups in *. rewrite fold_snoc in C.
    destruct (fold_left cstep l cwake0). cbn in *. destruct x as [[]|[] [| | | | |[]| | | | | |]|[]|[]|[]|[]|[]]; cbn in *; try discriminate; rewrite ?orb_false_r; auto. }
  rewrite <- Ef, <- Ec.
  assert ((fgen s = Susp \/ fgen s = Ended) \/ ~ (fgen s = Susp \/ fgen s = Ended)) as [E|E].
  { destruct (fgen s); try (right; intros [D|D]; discriminate D); left; auto. }
  - assert (acc sat [] [] [] (flog s)) as ((G1 & G2) & _ & G3 & _) by (destruct E as [E|E]; [apply Hs, E|apply He, E]).
    exists [], [], []. cbn. repeat (split; [auto; fail|]). split; auto.
  - destruct A as ((G1 & G2) & _ & G3 & _). exists p, e, f. repeat (split; [auto; fail|]). tauto.
Qed.
Print Assumptions C77_pulse_stream.

(** When neither the thread nor the consumer is in the middle of anything: the pulses the
    fiber has yielded are those the consumer has received, those pending in the counter
    and those of the packs that did not fit. *)
Theorem C77_conservation : forall bits at_ sat sched, 5 < bits ->
  let s := pulse_run bits at_ sat sched in
  let c := channel (flog s) in
  uaf (smem (fch s)) = false ->
  fgen s = Susp \/ fgen s = Ended -> srx (fch s) = Idle \/ srx (fch s) = Gone ->
  total (packs (flog s)) = received c + n_pend (pulse_counter (CAPACITY bits) c) + total (fulls c).
Proof.
  intros bits at_ sat sched Hb. cbv zeta. intros U E Er.
  pose proof (C77_pulse_stream bits at_ sat sched Hb U) as (_ & _ & _ & Es & _ & p & e & f & A1 & _ & _ & _ & _ & _ & A2). cbv zeta in *.
  destruct (A2 E) as (-> & _). rewrite app_nil_r in A1. destruct (gone bits at_ sat sched) as [G1 G2].
  destruct (stream_ok bits at_ sat Hb sched U) as (Ec & (sc & Ef) & _).
  set (s := pulse_run bits at_ sat sched) in *.
  assert (stx (fch s) = Idle \/ stx (fch s) = Gone) as Et by (destruct E; auto).
  rewrite A1, sends_shape.
  - rewrite Ec, Ef in *. destruct (P07_Pulse.C34_conservation bits at_ sc Hb U Es) as (_ & _ & H). specialize (H Et Er). lia.
  - rewrite Ec, Ef. apply (shaped_run pside pconsuming (pcode bits) at_ pshape (pcode_shape bits)).
Qed.
Print Assumptions C77_conservation.

(** The end of the stream is reported only if the stream has been closed or dropped, or
    the fiber has completed or the overflow handler has failed, and then everything the
    fiber has yielded, except the packs that did not fit, has been received before, and so
    has the error, if any (it counts as soon as the thread has left the generator). *)
Theorem C77_end : forall bits at_ sat sched l w, 5 < bits ->
  let s := pulse_run bits at_ sat sched in
  let c := channel (flog s) in
  uaf (smem (fch s)) = false ->
  flog s = l ++ [FCh (ERet (PollNext w) REnd)] ->
  d_begun (pdriven (flog s)) = true \/
  (d_done (pdriven (flog s)) = true \/ d_err (pdriven (flog s)) = true) /\
  total (packs (flog s)) = received c + total (fulls c) /\
  (fgen s = Ended -> failures (flog s) = v_got (errors c)).
Proof.
  intros bits at_ sat sched l w Hb. cbv zeta. intros U El.
  destruct (stream_ok bits at_ sat Hb sched U) as (Ec & (sc & Ef) & [_ (p & e & f & _ & _ & _ & (A1 & A1') & A3 & A4 & A5) _ Hk _ _] & He & _).
  destruct (gone bits at_ sat sched) as [_ Gg].
  set (s := pulse_run bits at_ sat sched) in *.
  destruct (d_begun (pdriven (flog s))) eqn:Eb; [now left|right].
  pose proof Eb as Eb'. rewrite <- (proj2 (c_rel _)) in Eb'.
  rewrite Ec, Ef in *.
  destruct (P07_Pulse.C36_receiver_woken bits at_ sc Hb U) as (_ & _ & _ & Ks & _).
  destruct (P07_Pulse.C65_cancellation bits at_ sc Hb U) as (_ & _ & Cs).
  assert (exists l', slog (prun bits at_ sc) = l' ++ [ERet (PollNext w) REnd]) as (l' & E').
  { rewrite <- Ec, El, ch_snoc. eauto. }
  assert (k_begun (receiver_wakeups (slog (prun bits at_ sc))) = true) as Kb.
  { rewrite E' in *. unfold receiver_wakeups in *. rewrite fold_snoc in *. destruct (fold_left kstep l' rwake0). cbn in *.
    apply orb_false_elim in Ks. destruct Ks as [_ Ks]. now destruct k_begun. }
  assert (v_end (errors (slog (prun bits at_ sc))) = true) as Ve.
  { assert (v_begun (errors (slog (prun bits at_ sc))) = false) as V.
    { destruct (v_begun (errors (slog (prun bits at_ sc)))) eqn:V; auto. apply vb_rel in V. congruence. }
    rewrite E' in *. unfold errors in *. rewrite fold_snoc in *. destruct (fold_left vstep l' vals0). cbn in *. subst. apply orb_true_r. }
  destruct (P07_Pulse.C36_end_is_final bits at_ sc Hb U Ve) as (_ & _ & _ & Fr & Fv).
  split; [destruct (Hk Kb) as [H|[H|H]]; auto; congruence|].
  destruct (kb_rel _ Kb) as [Ei|Ei]; [|congruence]. destruct (A5 Ei) as [-> ->]. rewrite app_nil_r in *.
  split.
  - rewrite A1, sends_shape; [specialize (Fr A3); lia|]. apply (shaped_run pside pconsuming (pcode bits) at_ pshape (pcode_shape bits)).
  - intros E. rewrite A1', (Fv (Gg E)), (back_rel _ Cs Eb'). apply app_nil_r.
Qed.
Print Assumptions C77_end.

(** The consumer is woken: if its last poll returned Pending and the stream was not
    closed or dropped since, and the fiber was removed, or pulses are pending while the
    thread is not running the fiber, its waker has been woken since that poll
    started. *)
Theorem C77_consumer_woken : forall bits at_ sat sched, 5 < bits ->
  let s := pulse_run bits at_ sat sched in
  let c := channel (flog s) in
  uaf (smem (fch s)) = false ->
  k_pend (receiver_wakeups c) = true ->
  fgen s = Ended \/ fgen s = Susp /\ 0 < n_pend (pulse_counter (CAPACITY bits) c) ->
  k_woken (receiver_wakeups c) = true.
Proof.
  intros bits at_ sat sched Hb. cbv zeta. intros U Hp H.
  destruct (stream_ok bits at_ sat Hb sched U) as (Ec & (sc & Ef) & [_ _ Hd _ _ _] & He & _).
  destruct (gone bits at_ sat sched) as [Gs _].
  set (s := pulse_run bits at_ sat sched) in *. rewrite Ec, Ef in *.
  destruct (P07_Pulse.C36_receiver_woken bits at_ sc Hb U) as (W1 & W2 & _).
  destruct H as [H|[H H']]; [apply W1; auto; apply Hd; now apply He|apply W2; auto].
Qed.
Print Assumptions C77_consumer_woken.

(** Runs end: from every reachable state, the remaining actions of the generator, one
    answer of the fiber and one of the overflow handler bring the run to its end. *)
Theorem C77_run_ends : forall bits at_ sat sched o e,
  exists l, (forall a, In a l -> own o e a) /\
    let s := pulse_run bits at_ sat (sched ++ l) in fgen s = Susp \/ fgen s = Ended.
Proof.
  intros bits at_ sat sched o e.
  destruct (run_ends pside pconsuming (pcode bits) at_ pulse_api (pulse_body sat) (pulse_tidy sat) (pulse_run bits at_ sat sched) o e) as (l & H1 & H2).
  { apply live_run, pulse_tidy. }
  exists l. split; [exact H1|]. cbv zeta. now rewrite pulse_app.
Qed.
Print Assumptions C77_run_ends.

(** A run that starts after close or the destructor of the stream has returned ends with
    the removal of the fiber, which is not resumed. *)
Theorem C77_closed_stream_removes_fiber : forall bits at_ sat sched o e, 5 < bits ->
  let s := pulse_run bits at_ sat sched in
  fgen s = Susp -> d_closed (pdriven (flog s)) = true ->
  exists l, (forall a, In a l -> own o e a) /\
    let s' := pulse_run bits at_ sat (sched ++ ARun :: l) in
    uaf (smem (fch s')) = false -> fgen s' = Ended /\ d_res (pdriven (flog s')) = false.
Proof.
  intros bits at_ sat sched o e Hb. cbv zeta. intros Eg Ec.
  set (s1 := pulse_run bits at_ sat (sched ++ [ARun])).
  destruct (run_ends pside pconsuming (pcode bits) at_ pulse_api (pulse_body sat) (pulse_tidy sat) s1 o e) as (l & H1 & H2).
  { apply live_run, pulse_tidy. }
  exists l. split; [exact H1|]. replace (sched ++ ARun :: l) with ((sched ++ [ARun]) ++ l) by now rewrite <- app_assoc.
  intros U. assert (d_late (pdriven (flog (pulse_run bits at_ sat ((sched ++ [ARun]) ++ l)))) = true) as L.
  { rewrite pulse_app. rewrite (late_kept pside pconsuming (pcode bits) at_ pulse_api pclose (pulse_body sat) _ _ _ _ H1).
    rewrite pulse_app. cbn [frun fstep]. rewrite Eg. cbn [tell flog].
    rewrite driving_snoc. now destruct (pdriven (flog (pulse_run bits at_ sat sched))). }
  destruct (stream_ok bits at_ sat Hb _ U) as (_ & _ & [B _ _ _ _ _] & _ & S1).
  split; [|now apply (late_res pclose)].
  assert (fgen (pulse_run bits at_ sat ((sched ++ [ARun]) ++ l)) = Susp \/ fgen (pulse_run bits at_ sat ((sched ++ [ARun]) ++ l)) = Ended) as H2' by now rewrite (pulse_app bits at_ sat (sched ++ [ARun]) l).
  destruct H2' as [H2'|H2']; auto. destruct (S1 H2') as ((r & n & bg & cl & E) & _). rewrite E in L. discriminate.
Qed.
Print Assumptions C77_closed_stream_removes_fiber.

(** Helpers for concrete schedules: a run of the thread, the fiber and the handler
    answering [o] and [e]; a call of the consumer. *)
Definition turn (o : out (option N) (option N + N)) (e : option N) : list pfact :=
  ARun :: concat (repeat [AGo; ATx false; AOut o; AOver e] 16).
Definition call (o : pop) : list pfact := ARx o :: repeat (ARxStep false) 16.
Definition yields (l : list N) : list pfact := flat_map (fun n => turn (Yielded (Some n)) None) l.
Definition got (l : list pfev) : list pres :=
  flat_map (fun e => match e with FCh (ERet (PollNext _) r) => [r] | _ => [] end) l.

(** A 7-bit word: the counter holds at most three pulses.  The last pack of three does
    not fit; then the fiber completes with an error. *)
Example C77_case :
  let s := pulse_run 7 true false (call (PollNext 7) ++ yields [1; 2] ++ turn (Yielded None) None ++ yields [3] ++
    call (PollNext 7) ++ yields [2] ++ turn (Complete (inr 9)) None ++ call (PollNext 7) ++ call (PollNext 7) ++ call (PollNext 7)) in
  let c := channel (flog s) in
  uaf (smem (fch s)) = false /\ fgen s = Ended /\ srx (fch s) = Idle /\ d_runs (pdriven (flog s)) = 6%nat /\
  packs (flog s) = [1; 2; 3; 2] /\ fulls c = [3] /\ handed (flog s) = [3] /\ failures (flog s) = [9] /\
  got (flog s) = [RPending; RVal 3; RVal 2; RError 9; REnd] /\ received c = 5 /\
  d_begun (pdriven (flog s)) = false.
Proof. vm_compute. repeat split. Qed.
(** The handler fails; the consumer is woken. *)
Example C77_handled_case :
  let s := pulse_run 7 false false (yields [2] ++ turn (Yielded (Some 7)) (Some 4) ++ yields [1] ++
    call (PollNext 7) ++ call (PollNext 7) ++ call (PollNext 7)) in
  uaf (smem (fch s)) = false /\ fgen s = Ended /\ d_err (pdriven (flog s)) = true /\
  packs (flog s) = [2; 7] /\ handed (flog s) = [7] /\ failures (flog s) = [4] /\
  got (flog s) = [RVal 2; RError 4; REnd] /\
  let s' := pulse_run 7 true false (call (PollNext 7) ++ yields [1]) in
  k_pend (receiver_wakeups (channel (flog s'))) = true /\ fgen s' = Susp /\
  n_pend (pulse_counter (CAPACITY 7) (channel (flog s'))) = 1 /\ k_woken (receiver_wakeups (channel (flog s'))) = true.
Proof. vm_compute. repeat split. Qed.
(** A closed stream. *)
Example C77_closed_case :
  let sched := yields [1; 2] ++ call (PollNext 7) ++ call Close in
  let s := pulse_run 32 true true sched in
  fgen s = Susp /\ d_closed (pdriven (flog s)) = true /\
  let s' := pulse_run 32 true true (sched ++ ARun :: concat (repeat [AGo; ATx false] 16)) in
  uaf (smem (fch s')) = false /\ fgen s' = Ended /\ d_runs (pdriven (flog s')) = 3%nat /\ packs (flog s') = [1; 2].
Proof. vm_compute. repeat split. Qed.

(** C54.  The claim as stated is false: a saturating stream does not saturate.  A pack
    that does not fit is dropped as a whole: of two packs of two pulses and a counter for
    three the consumer receives two pulses; of one pack of five, none. *)
Theorem C54_saturation_refuted : exists bits max, 5 < bits /\ max = CAPACITY bits - 1 /\
  forall at_,
  (exists sched, let s := pulse_run bits at_ true sched in
    uaf (smem (fch s)) = false /\ fgen s = Susp /\ srx (fch s) = Idle /\ d_begun (pdriven (flog s)) = false /\
    max < total (packs (flog s)) /\ got (flog s) = [RVal 2] /\ 2 < max) /\
  (exists sched, let s := pulse_run bits at_ true sched in
    uaf (smem (fch s)) = false /\ fgen s = Susp /\ srx (fch s) = Idle /\ d_begun (pdriven (flog s)) = false /\
    max < total (packs (flog s)) /\ got (flog s) = [RPending]).
Proof.
  exists 7, 3. split; [reflexivity|]. split; [reflexivity|]. intros at_. split.
  - exists (yields [2; 2] ++ call (PollNext 7)). destruct at_; vm_compute; repeat split.
  - exists (yields [5] ++ call (PollNext 7)). destruct at_; vm_compute; repeat split.
Qed.
Print Assumptions C54_saturation_refuted.

(** A saturating stream has no overflow handler. *)
Fixpoint nover (t : pulse_tree) : Prop :=
  match t with
  | GCall _ k => forall r, nover (k r)
  | GResume k => forall o, nover (k o)
  | GOver _ _ => False
  | GYield | GEnd => True
  end.
Definition gnover (g : gen pop pres (option N) (option N + N)) : Prop :=
  match g with
  | At t => nover t | InCall k => forall r, nover (k r) | InFib k => forall o, nover (k o) | InOver _ => False | _ => True end.
Definition calm (l : list pfev) : Prop := Forall (fun e => match e with FOverRet _ => False | _ => True end) l.
Lemma nover_body : nover (pulse_body true).
Proof.
  cbn. intros r. destruct r; try (destruct b; [cbn; auto|]). all: cbn; intros [[w|]|[[w|]|w]]; cbn; auto; intros r; destruct r; cbn; auto.
Qed.
Lemma nover_run bits at_ sched : calm (flog (pulse_run bits at_ true sched)).
Proof.
  unfold pulse_run. assert (forall l s, gnover (fgen s) /\ calm (flog s) ->
    let s' := frun pside pconsuming (pcode bits) at_ pulse_api (pulse_body true) s l in gnover (fgen s') /\ calm (flog s')) as K; [|apply (K sched); split; constructor].
  induction l as [|a l IH]; intros s H; cbn [frun]; auto. apply IH. clear IH. destruct H as [Hg Hl].
  assert (forall s a g, gnover g -> calm (flog s) -> gnover (fgen (chan pside pconsuming (pcode bits) at_ s a g)) /\ calm (flog (chan (Y := option N) (C := (option N + N)%type) pside pconsuming (pcode bits) at_ s a g))) as Kc.
  { clear. intros s a g Hg Hl. split; [exact Hg|]. cbn. apply Forall_app. split; [exact Hl|]. apply Forall_forall. intros x Hx. apply in_map_iff in Hx. now destruct Hx as (y & <- & _). }
  assert (forall (s : fst_ pop pres (option N) (option N + N)) e g, match e with FOverRet _ => False | _ => True end -> gnover g -> calm (flog s) -> gnover (fgen (tell s e g)) /\ calm (flog (tell s e g))) as Kt.
  { clear. intros s e g He Hg Hl. split; [exact Hg|]. cbn. apply Forall_app. split; [exact Hl|]. now constructor. }
  destruct a, (fgen s) eqn:Eg; cbn [fstep]; rewrite ?Eg; cbn [gnover] in Hg; try (split; [rewrite ?Eg; exact Hg|exact Hl]);
    try (destruct (pside o); [split; [rewrite ?Eg; exact Hg|exact Hl]|]; destruct (pulse_api o); [now apply Kc|split; [rewrite ?Eg; exact Hg|exact Hl]]);
    try (apply Kc; auto; fail); try (apply Kt; cbn; auto; fail); try contradiction.
  - apply Kt; auto. apply nover_body.
  - destruct t; cbn in Hg; try contradiction; first [apply Kc; cbn; auto; fail|apply Kt; cbn; auto; fail].
  - destruct (stx (fch s)) as [|o p|]; try (split; [rewrite ?Eg; exact Hg|exact Hl]). destruct p; apply Kc; cbn; auto.
Qed.
Lemma nover_err l : calm l -> d_err (pdriven l) = false.
Proof.
  induction l as [|e l IH] using rev_ind; intros H; [reflexivity|]. apply Forall_app in H. destruct H as [H He]. specialize (IH H).
  inversion_clear He as [|? ? Hx _]. rewrite driving_snoc. destruct (pdriven l). cbn in IH. destruct e as [| |[]| |[]| | |[]]; cbn; auto; contradiction.
Qed.

(** What holds instead: a saturating stream loses exactly the packs that did not fit into
    the counter, as a whole ([n_bad] says that a send is refused as full only if the
    pending pulses and its own exceed the maximum), without reporting an error or ending;
    if every pack fits nothing is lost. *)
Theorem C54_whole_packs_partial : forall bits at_ sched, 5 < bits ->
  let s := pulse_run bits at_ true sched in
  let c := channel (flog s) in
  let q := pulse_counter (CAPACITY bits) c in
  uaf (smem (fch s)) = false ->
  n_bad q = false /\ n_pend q < CAPACITY bits /\ handed (flog s) = [] /\ d_err (pdriven (flog s)) = false /\
  (fgen s = Susp \/ fgen s = Ended -> srx (fch s) = Idle \/ srx (fch s) = Gone ->
   total (packs (flog s)) = received c + n_pend q + total (fulls c) /\
   (fulls c = [] -> total (packs (flog s)) = received c + n_pend q)).
Proof.
  intros bits at_ sched Hb. cbv zeta. intros U.
  pose proof (C77_pulse_stream bits at_ true sched Hb U) as (_ & _ & B & _ & _ & p & e & f & _ & _ & _ & _ & H & _). cbv zeta in *.
  destruct (stream_ok bits at_ true Hb sched U) as (Ec & (sc & Ef) & _).
  assert (n_pend (pulse_counter (CAPACITY bits) (channel (flog (pulse_run bits at_ true sched)))) < CAPACITY bits) as Np.
  { rewrite Ec, Ef in *. now apply (P07_Pulse.C34_atomic_counter bits at_ sc Hb). }
  split; [exact B|]. split; [exact Np|]. split; [exact H|]. split.
  - now apply nover_err, nover_run.
  - intros E Er. pose proof (C77_conservation bits at_ true sched Hb U E Er) as C. cbv zeta in C. split; [exact C|].
    intros F. rewrite C, F. cbn. lia.
Qed.
Print Assumptions C54_whole_packs_partial.
