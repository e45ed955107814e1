(** Properties of fiber streams (C53). *)
Require Import PeanoNat NArith List Bool Lia.
Require Import Verif.Spsc Verif.Ring Verif.RingSpec Verif.RingHist Verif.RingMain
  Verif.Fiber Verif.FiberSpec Verif.FiberProofs Verif.FutureProofs Verif.RingStreamProofs.
Require Verif.P08_Ring.
Import ListNotations.
Open Scope N_scope.

Notation fract := (fact rop (option N) (option N + N)).
Notation rdriven l := (driving rclose l).

Lemma refused_hist cap l a b : hist l a b -> q_bad (queue cap l) = false -> cinv l = false -> refused l = too_many l.
Proof.
  induction 1 as [|l o b H IH S|l o a H IH S|l o b e H IH S|l o a e H IH S|l o r b H IH S|l o r a H IH S]; intros B C; [reflexivity|..];
    pose proof (bad_pre _ _ _ B) as B0; specialize (IH B0);
    match type of C with cinv (l ++ [?e]) = _ => destruct (obs_snoc l e) as (E1 & _); rewrite E1 in C end;
    apply orb_false_elim in C; destruct C as [C C']; specialize (IH C); unfold refused, too_many in *; rewrite !flat_map_app, IH; f_equal.
  - destruct e; try discriminate S; reflexivity.
  - destruct e; try discriminate S; reflexivity.
  - assert (q_closed (queue cap l) = true -> False) as N1.
    { intros Q. destruct (facts_hist _ _ _ _ H B0) as [_ F _ _ _ _ _ _ _ _]. rewrite F in C; auto. discriminate. }
    assert (simple o = true -> tres o r (q_closed (queue cap l))) as T.
    { intros So. eapply Kr_tx; [split; [|exact B]|exact So]. do 2 eexists. now apply h_rett with (b := b) (o := o). }
    destruct o; try discriminate S; cbn in *; auto; specialize (T eq_refl); destruct r; try contradiction; auto; now destruct (N1 (proj2 T)).
  - destruct o; try discriminate S; reflexivity.
Qed.
Definition payload (o : rop) : list N := match o with TrySend v | StartSend v | SendErr v | SendOver v => [v] | _ => [] end.
Lemma sending_hist l a b : hist l a b -> sending l = match a with HRun o => payload o | _ => [] end.
Proof.
  induction 1 as [|l o b H IH S|l o a H IH S|l o b e H IH S|l o a e H IH S|l o r b H IH S|l o r a H IH S]; [reflexivity|..];
    unfold sending in *; rewrite fold_snoc, IH.
  - destruct o; try discriminate S; reflexivity.
  - destruct o; try discriminate S; reflexivity.
  - destruct e; try discriminate S; reflexivity.
  - destruct e; try discriminate S; reflexivity.
  - rewrite S. unfold hend. now destruct (rconsuming o).
  - now rewrite S.
Qed.

Lemma ring_tidy k : tidy rside rconsuming false (ring_stream k).
Proof.
  assert (tidy rside rconsuming false ring_break) as Hb by (cbn; auto).
  assert (forall e, tidy rside rconsuming false (ring_fail e)) as Hf by (cbn; auto).
  assert (forall sat v (kk : option N -> ring_tree), (forall e, tidy rside rconsuming false (kk e)) -> tidy rside rconsuming false (overflow sat v kk)) as Hv.
  { intros [] v kk H; cbn; auto. }
  assert (forall sat, tidy rside rconsuming false (ring_body sat)) as Hr.
  { intros sat. cbn [ring_body tidy]. split; [reflexivity|]. split; [reflexivity|]. intros r.
    destruct r; try (destruct b; [exact Hb|]). all: cbn [tidy]; (split; [reflexivity|]); intros [[w|]|[[w|]|w]]; cbn [tidy rconsuming rside]; auto; (split; [reflexivity|]; split; [reflexivity|]);
      intros r1; destruct r1; cbn [tidy]; auto; apply Hv; intros []; cbn [tidy]; auto. }
  destruct k; cbn [ring_stream]; auto.
  cbn [ring_over_body tidy]. split; [reflexivity|]. split; [reflexivity|]. intros r.
  destruct r; try (destruct b; [exact Hb|]). all: cbn [tidy]; (split; [reflexivity|]); intros [[w|]|[[w|]|w]]; cbn [tidy rconsuming rside]; auto; (split; [reflexivity|]; split; [reflexivity|]);
    intros r1; destruct r1; cbn [tidy]; auto.
Qed.

Lemma stream_log bits cap at_ k sched : let s := ring_run bits cap at_ k sched in
  channel (flog s) = slog (fch s) /\ exists sc, fch s = rrun bits cap at_ sc.
Proof.
  unfold ring_run. assert (forall l s, channel (flog s) = slog (fch s) /\ (exists sc, fch s = rrun bits cap at_ sc) ->
    let s' := frun rside rconsuming (rcode bits cap) at_ ring_api (ring_stream k) s l in channel (flog s') = slog (fch s') /\ exists sc, fch s' = rrun bits cap at_ sc) as K.
  { induction l as [|a l IH]; intros s H; cbn [frun]; auto. apply IH. destruct H. split; [now apply fstep_log|now apply fstep_run]. }
  apply K. split; [reflexivity|]. exists []. reflexivity.
Qed.

(** C53.  For every behaviour of the fiber and of the overflow handler, every way of
    adding the stream, every interleaving of runs of the thread with the consumer, in
    both builds.  The full statement would have neither [fits] (see
    C37_max_capacity_refuted) nor [q_racy] (see C53_preempted_poll_refuted).

    At any time:
    - the fiber is resumed exactly once per run, and so on (see [dstep]);
    - a poll that starts after the fiber was removed is not Pending;
    - nothing is overwritten except in overwriting streams;
    - of what the fiber has yielded and completed with, and the errors, in order, every
      item but the last was accepted by the channel or refused; the last may be on its
      way while the thread runs;
    - items are refused only because the channel is full, unless the stream is closed or
      dropped; never because it is full in overwriting streams; the overflow handler gets
      exactly the values refused because the channel is full, in order. *)
Theorem C53_ring_stream_partial : forall bits cap at_ k sched, fits bits cap ->
  let s := ring_run bits cap at_ k sched in
  let c := channel (flog s) in
  q_racy (queue cap c) = false ->
  d_bad (rdriven (flog s)) = false /\
  p_miss (stream_end (flog s)) = false /\
  (k <> Overwriting -> overwritten c = []) /\
  (d_begun (rdriven (flog s)) = false -> refused c = too_many c) /\
  exists items fly full,
    shuffle (incoming c) (refused c) items /\ produced (flog s) = items ++ fly /\ (length fly <= 1)%nat /\
    match k with
    | Handled => too_many c = handed (flog s) ++ full
    | Saturating => handed (flog s) = []
    | Overwriting => too_many c = []
    end /\ (length full <= 1)%nat /\
    (fgen s = Susp \/ fgen s = Ended -> fly = [] /\ full = []).
Proof.
  intros bits cap at_ k sched F. cbv zeta. intros R.
  destruct (stream_log bits cap at_ k sched) as [Ec _].
  rewrite Ec in R. destruct (stream_ok bits cap at_ k sched F R) as (_ & _ & ((a & b & Hh) & B) & [H1 H2 (fly & full & L1 & L2 & (items & A1 & A2) & A3) H4 H5 H6 H7] & He & Hs).
  set (s := ring_run bits cap at_ k sched) in *.
  split; [exact H1|]. split; [exact H7|]. split; [|split].
  - unfold hnd in A3. destruct k; intros K; [congruence|apply A3..].
  - rewrite (proj2 (d_rel _)), Ec. intros C. eapply refused_hist; eauto.
  - assert ((fgen s = Susp \/ fgen s = Ended) \/ ~ (fgen s = Susp \/ fgen s = Ended)) as [E|E].
    { destruct (fgen s); try (right; intros [D|D]; discriminate D); left; auto. }
    + assert (acc k [] [] (flog s)) as ((it & G1 & G2) & G3) by (destruct E as [E|E]; [apply Hs, E|apply He, E]).
      exists it, [], []. repeat (split; [auto; fail|]). split; [|auto]. unfold hnd in G3. destruct k; apply G3.
    + exists items, fly, full. repeat (split; [auto; fail|]). split; [|split; [auto|tauto]]. unfold hnd in A3. destruct k; apply A3.
Qed.
Print Assumptions C53_ring_stream_partial.

(** When neither the thread nor the consumer is in the middle of anything: the items
    delivered (or destroyed with the stream), those overwritten and those pending
    are the accepted ones, in order; with the refused ones they are everything the fiber
    has produced, in order. *)
Theorem C53_order_partial : forall bits cap at_ k sched, fits bits cap ->
  let s := ring_run bits cap at_ k sched in
  let c := channel (flog s) in
  let q := queue cap c in
  q_racy q = false ->
  fgen s = Susp \/ fgen s = Ended -> srx (fch s) = Idle \/ srx (fch s) = Gone ->
  r_bad (ring_error c) = false /\
  shuffle (incoming c) (refused c) (produced (flog s)) /\
  exists out, shuffle (outgoing c) (overwritten c) out /\
    out ++ q_pend q ++ (match q_err q with Some e => [e] | None => [] end) = incoming c.
Proof.
  intros bits cap at_ k sched F. cbv zeta. intros R E Er. pose proof (C53_ring_stream_partial bits cap at_ k sched F R) as (_ & _ & _ & _ & items & fly & full & S1 & S2 & _ & _ & _ & S3).
  cbv zeta in *. destruct (S3 E) as [-> _]. rewrite app_nil_r in S2.
  assert (live rside rconsuming (ring_run bits cap at_ k sched)) as L by (apply live_run, ring_tidy).
  destruct (stream_log bits cap at_ k sched) as (Ec & sc & Ef).
  set (s := ring_run bits cap at_ k sched) in *. rewrite S2. rewrite Ec in *. 
  assert (stx (fch s) = Idle \/ stx (fch s) = Gone) as Et by (unfold live in L; destruct E as [E|E]; rewrite E in L; auto).
  rewrite Ef in *.
  split; [now apply P08_Ring.C40_error_once_partial with (bits := bits)|]. split; [exact S1|].
  now apply (P08_Ring.C40_order_partial bits cap at_ sc F R).
Qed.
Print Assumptions C53_order_partial.

(** The end of the stream is reported only if the stream has been closed or dropped, or
    the fiber has completed, or the overflow handler has failed, and everything the channel
    has accepted has been delivered or overwritten before.  (If the error is still
    being sent it may already have been delivered.) *)
Theorem C53_end_partial : forall bits cap at_ k sched l w, fits bits cap ->
  let s := ring_run bits cap at_ k sched in
  let c := channel (flog s) in
  q_racy (queue cap c) = false ->
  flog s = l ++ [FCh (ERet (PollNext w) REnd)] ->
  d_begun (rdriven (flog s)) = true \/
  (d_done (rdriven (flog s)) = true \/ d_err (rdriven (flog s)) = true) /\
  exists fly, (fly = [] \/ fly = sending c) /\ shuffle (outgoing c) (overwritten c) (incoming c ++ fly).
Proof.
  intros bits cap at_ k sched l w F. cbv zeta. intros R El.
  destruct (stream_log bits cap at_ k sched) as [Ec _].
  pose proof R as R'. rewrite Ec in R'. destruct (stream_ok bits cap at_ k sched F R') as (_ & _ & Hk & [_ _ _ _ H5 _ _] & _).
  set (s := ring_run bits cap at_ k sched) in *. rewrite <- Ec in Hk. rewrite El in *. clear El Ec R R'. rewrite ch_snoc in *.
  destruct (d_begun (rdriven (l ++ [FCh (ERet (PollNext w) REnd)]))) eqn:Eb; [now left|right].
  rewrite (proj2 (d_rel _)), ch_snoc in Eb. pose proof (Kr_pre _ _ _ Hk) as Hk0. pose proof Hk0 as [_ B0]. pose proof Hk as ((a & b & Hh) & B).
  assert (q_closed (queue cap (channel l)) = false) as Ecl.
  { destruct (q_closed (queue cap (channel l))) eqn:E; auto. destruct (Kr_facts _ _ Hk0) as (a0 & b0 & _ & [_ G _ _ _ _ _ _ _ _]).
    destruct (obs_snoc (channel l) (ERet (PollNext w) REnd)) as (O1 & _). rewrite O1, (G E) in Eb. discriminate. }
  assert (q_txend (queue cap (channel l)) = true /\ q_pend (queue cap (channel l)) = [] /\ q_err (queue cap (channel l)) = None) as (E1 & E2 & E3).
  { destruct (Kr_rx _ _ _ _ Hk eq_refl) as [G|[[_ G]|[_ G]]]; try discriminate.
    destruct (Kr_facts _ _ Hk0) as (a0 & b0 & _ & [_ _ _ _ _ Ge _ _ _ _]). destruct (Ge G) as [D|D]; [congruence|exact D]. }
  split.
  - destruct (Kr_facts _ _ Hk) as (a0 & b0 & _ & [_ _ _ _ _ _ Gt _ _ _]).
    assert (q_txend (queue cap (channel l ++ [ERet (PollNext w) REnd])) = true) as Et by (rewrite queue_snoc; now apply txend_mono).
    destruct (H5 (Gt Et)) as [G|[G|G]]; auto. discriminate G.
  - pose proof (hist_ret _ _ _ Hh _ _ _ eq_refl) as Hr. cbn [rside] in Hr. destruct Hr as [-> Hr].
    pose proof (sending_hist _ _ _ Hh) as Hs. destruct (flow_hist _ _ _ _ Hh B) as [(rem & W1 & W2) Wg _ _].
    assert (exists rx, queue cap (channel l ++ [ERet (PollNext w) REnd]) = with_rx (queue cap (channel l)) rx) as [rx Eq].
    { rewrite queue_snoc in *. destruct (queue cap (channel l)) as [pe er cl te re tx rx bd ra]. cbn in *.
      destruct rx as [| | | | | |[|] [|]|r']; cbn in *; try discriminate; match goal with |- context [if ?b then _ else _] => destruct b end; try discriminate; eexists; reflexivity. }
    rewrite Eq in *. cbn [with_rx q_pend q_err q_txend q_tx q_rx] in *. rewrite E2, E3 in W2. cbn in W2, W1. rewrite !app_nil_r in W2. rewrite app_nil_r in W1. subst rem.
    specialize (Wg E1). rewrite Hs. destruct a as [|o|].
    + destruct Wg.
    + destruct Wg as [Wc Wt]. destruct (q_tx (queue cap (channel l))); try contradiction.
      exists (fl_in (HRun o) (TRet r d)). split.
      * destruct o; cbn; auto; destruct r; auto.
      * cbn [fl_ovr] in W1. replace (ovr o r) with (@nil N) in W1 by (destruct o; cbn in *; try discriminate; auto; destruct r; auto). now rewrite app_nil_r in W1.
    + exists []. split; auto. cbn in W1. now rewrite !app_nil_r in *.
Qed.
Print Assumptions C53_end_partial.

(** The consumer is woken: if its last poll returned Pending and the stream was not
    closed or dropped since, and the fiber was removed, or an item is pending while the
    thread is not running the fiber, its waker has been woken since that poll
    started.  The first part needs no assumption about the interleaving. *)
Theorem C53_consumer_woken_partial : forall bits cap at_ k sched, fits bits cap ->
  let s := ring_run bits cap at_ k sched in
  let c := channel (flog s) in
  k_pend (receiver_wakeups c) = true ->
  (fgen s = Ended -> k_woken (receiver_wakeups c) = true) /\
  (q_racy (queue cap c) = false -> fgen s = Susp \/ fgen s = Ended -> q_pend (queue cap c) <> [] -> k_woken (receiver_wakeups c) = true).
Proof.
  intros bits cap at_ k sched F. cbv zeta.
  assert (live rside rconsuming (ring_run bits cap at_ k sched)) as L by (apply live_run, ring_tidy).
  destruct (stream_log bits cap at_ k sched) as (Ec & sc & Ef).
  rewrite Ec. unfold live in L. intros Hp.
  assert (fgen (ring_run bits cap at_ k sched) = Susp \/ fgen (ring_run bits cap at_ k sched) = Ended ->
    stx (rrun bits cap at_ sc) = Idle \/ stx (rrun bits cap at_ sc) = Gone) as Et by (rewrite <- Ef; intros [E|E]; rewrite E in L; auto).
  pose proof (P08_Ring.C41_receiver_woken_partial bits cap at_ sc F) as W. cbv zeta in W. rewrite Ef in *. specialize (W Hp). split.
  - intros E. destruct (W (Et (or_intror E))) as [W1 _]. apply W1. rewrite E in L. exact L.
  - intros R E. destruct (W (Et E)) as [_ W1]. auto.
Qed.
Print Assumptions C53_consumer_woken_partial.

Lemma ring_app bits cap at_ k a b : ring_run bits cap at_ k (a ++ b) =
  frun rside rconsuming (rcode bits cap) at_ ring_api (ring_stream k) (ring_run bits cap at_ k a) b.
Proof. apply frun_app. Qed.
(** Runs end: from every reachable state, the remaining actions of the generator, one
    answer of the fiber and one of the overflow handler bring the run to its end. *)
Theorem C53_run_ends : forall bits cap at_ k sched o e,
  exists l, (forall a, In a l -> own o e a) /\
    let s := ring_run bits cap at_ k (sched ++ l) in fgen s = Susp \/ fgen s = Ended.
Proof.
  intros bits cap at_ k sched o e.
  destruct (run_ends rside rconsuming (rcode bits cap) at_ ring_api (ring_stream k) (ring_tidy k) (ring_run bits cap at_ k sched) o e) as (l & H1 & H2).
  { apply live_run, ring_tidy. }
  exists l. split; [exact H1|]. cbv zeta. now rewrite ring_app.
Qed.
Print Assumptions C53_run_ends.

(** A run that starts after close or the destructor of the stream has returned ends with
    the removal of the fiber, which is not resumed. *)
Theorem C53_closed_stream_removes_fiber_partial : forall bits cap at_ k sched o e, fits bits cap ->
  let s := ring_run bits cap at_ k sched in
  fgen s = Susp -> d_closed (rdriven (flog s)) = true ->
  exists l, (forall a, In a l -> own o e a) /\
    let s' := ring_run bits cap at_ k (sched ++ ARun :: l) in
    q_racy (queue cap (channel (flog s'))) = false -> fgen s' = Ended /\ d_res (rdriven (flog s')) = false.
Proof.
  intros bits cap at_ k sched o e F. cbv zeta. intros Eg Ec.
  set (s1 := ring_run bits cap at_ k (sched ++ [ARun])).
  destruct (run_ends rside rconsuming (rcode bits cap) at_ ring_api (ring_stream k) (ring_tidy k) s1 o e) as (l & H1 & H2).
  { apply live_run, ring_tidy. }
  exists l. split; [exact H1|]. replace (sched ++ ARun :: l) with ((sched ++ [ARun]) ++ l) by now rewrite <- app_assoc.
  intros R. assert (d_late (rdriven (flog (ring_run bits cap at_ k ((sched ++ [ARun]) ++ l)))) = true) as L.
  { rewrite ring_app. rewrite (late_kept rside rconsuming (rcode bits cap) at_ ring_api rclose (ring_stream k) _ _ _ _ H1).
    rewrite ring_app. cbn [frun fstep]. rewrite Eg. cbn [tell flog].
    rewrite driving_snoc. now destruct (rdriven (flog (ring_run bits cap at_ k sched))). }
  destruct (stream_log bits cap at_ k ((sched ++ [ARun]) ++ l)) as [El _]. rewrite El in R.
  destruct (stream_ok bits cap at_ k _ F R) as (_ & _ & _ & [B _ _ _ _ _ _] & _ & S1).
  split; [|now apply (late_res rclose)].
  assert (fgen (ring_run bits cap at_ k ((sched ++ [ARun]) ++ l)) = Susp \/ fgen (ring_run bits cap at_ k ((sched ++ [ARun]) ++ l)) = Ended) as H2' by now rewrite (ring_app bits cap at_ k (sched ++ [ARun]) l).
  destruct H2' as [H2'|H2']; auto. destruct (S1 H2') as ((r & n & bg & cl & E) & _). rewrite E in L. discriminate.
Qed.
Print Assumptions C53_closed_stream_removes_fiber_partial.

(** Helpers for concrete schedules: a run of the thread, the fiber and the handler
    answering [o] and [e]; a call of the consumer. *)
Definition turn (o : out (option N) (option N + N)) (e : option N) : list fract :=
  ARun :: concat (repeat [AGo; ATx false; AOut o; AOver e] 16).
Definition call (o : rop) : list fract := ARx o :: repeat (ARxStep false) 16.
Definition yields (l : list N) : list fract := flat_map (fun v => turn (Yielded (Some v)) None) l.
Definition cdone (o : option N) : list fract := turn (Complete (inl o)) None.
Definition got (l : list rfev) : list rres :=
  flat_map (fun e => match e with FCh (ERet (PollNext _) r) => [r] | _ => [] end) l.

(** An overwriting stream of capacity 2: polled, three values, polled, the completion,
    polled to the end. *)
Definition case1 : list fract :=
  call (PollNext 7) ++ yields [1; 2; 3] ++ call (PollNext 7) ++ cdone (Some 4) ++
  call (PollNext 7) ++ call (PollNext 7) ++ call (PollNext 7).
Example C53_case :
  let s := ring_run 32 2 true Overwriting case1 in
  let c := channel (flog s) in
  fits 32 2 /\ q_racy (queue 2 c) = false /\ fgen s = Ended /\ d_runs (rdriven (flog s)) = 4%nat /\
  produced (flog s) = [1; 2; 3; 4] /\ overwritten c = [1] /\ refused c = [] /\
  got (flog s) = [RPending; RVal 2; RVal 3; RVal 4; REnd] /\
  d_begun (rdriven (flog s)) = false /\ d_done (rdriven (flog s)) = true /\ outgoing c = [2; 3; 4].
Proof. vm_compute. repeat split; discriminate. Qed.
(** The same with a saturating stream, and an instance of C53_consumer_woken_partial. *)
Example C53_saturating_case :
  let s := ring_run 32 2 true Saturating case1 in
  let c := channel (flog s) in
  q_racy (queue 2 c) = false /\ fgen s = Ended /\
  produced (flog s) = [1; 2; 3; 4] /\ overwritten c = [] /\ refused c = [3] /\ too_many c = [3] /\
  got (flog s) = [RPending; RVal 1; RVal 2; RVal 4; REnd] /\
  let s' := ring_run 32 2 true Saturating (call (PollNext 7) ++ yields [1]) in
  k_pend (receiver_wakeups (channel (flog s'))) = true /\ fgen s' = Susp /\
  q_pend (queue 2 (channel (flog s'))) = [1] /\ k_woken (receiver_wakeups (channel (flog s'))) = true.
Proof. vm_compute. repeat split. Qed.
(** A handler that accepts the first overflow and fails on the second one; the fiber is
    not resumed again. *)
Example C53_handled_case :
  let s := ring_run 32 2 false Handled (call (PollNext 7) ++ yields [1; 2; 3] ++ turn (Yielded (Some 5)) (Some 9) ++
    yields [8] ++ call (PollNext 7) ++ call (PollNext 7) ++ call (PollNext 7) ++ call (PollNext 7)) in
  let c := channel (flog s) in
  q_racy (queue 2 c) = false /\ fgen s = Ended /\
  produced (flog s) = [1; 2; 3; 5; 9] /\ handed (flog s) = [3; 5] /\ refused c = [3; 5] /\ incoming c = [1; 2; 9] /\
  got (flog s) = [RPending; RVal 1; RVal 2; RError 9; REnd] /\ d_err (rdriven (flog s)) = true.
Proof. vm_compute. repeat split. Qed.
(** A closed stream. *)
Example C53_closed_case :
  let sched := yields [1; 2] ++ call (PollNext 7) ++ call Close in
  let s := ring_run 32 2 true Saturating sched in
  fgen s = Susp /\ d_closed (rdriven (flog s)) = true /\
  let s' := ring_run 32 2 true Saturating (sched ++ ARun :: concat (repeat [AGo; ATx false] 16)) in
  q_racy (queue 2 (channel (flog s'))) = false /\ fgen s' = Ended /\ d_runs (rdriven (flog s')) = 3%nat /\ produced (flog s') = [1; 2].
Proof. vm_compute. repeat split. Qed.

(** The claim as stated is false: a poll frees the slot before it reads the value.  If the
    thread runs the fiber in between and the stream was full, the poll delivers the value
    just yielded in place of the oldest one, which is lost; a later poll reads an
    uninitialised slot.  Nothing was reported as overflowing. *)
Theorem C53_preempted_poll_refuted : exists bits cap (sched : bool -> list fract), fits bits cap /\
  forall at_ k, let s := ring_run bits cap at_ k (sched at_) in
  produced (flog s) = [1; 2; 3] /\ refused (channel (flog s)) = [] /\ overwritten (channel (flog s)) = [] /\
  got (flog s) = [RVal 3; RVal 2; RVal 0] /\ bad (smem (fch s)) = true.
Proof.
  exists 32, 2, (fun at_ : bool => yields [1; 2] ++ ARx (PollNext 7) :: repeat (ARxStep false) (if at_ then 2%nat else 1%nat) ++
    yields [3] ++ repeat (ARxStep false) 12 ++ call (PollNext 7) ++ call (PollNext 7)).
  split; [vm_compute; repeat split; discriminate|]. intros [] []; vm_compute; repeat split.
Qed.
Print Assumptions C53_preempted_poll_refuted.
