(** Properties of the ring channel (C33, C37-C42, C67). *)
Require Import NArith List Bool Lia.
Require Import Verif.Spsc Verif.Ring Verif.RingSpec Verif.RingHist Verif.RingMain.
Import ListNotations.
Open Scope N_scope.

Definition go (s : side) (n : nat) : list (act rop) := repeat (Step s false) n.
Definition whole (o : rop) : list (act rop) := Call o :: go (rside o) 12.

Lemma both_racy bits cap at_ sched : fits bits cap -> let l := slog (rrun bits cap at_ sched) in
  u_both (calls l) = false -> q_racy (queue cap l) = false.
Proof.
  intros F l U. apply (pre_not_racy bits cap F at_ sched).
  now apply (both_pre _ _ _ (run_hist bits cap at_ sched)).
Qed.

(** ** Calls one after another (C37, C39). *)

(** The claim as stated is false for the largest capacity that the constructor accepts
    (8192 on a 32-bit machine): the length field overflows when the channel becomes
    full, and the receiver reports that it is empty. *)
Definition fill (n : nat) : list (act rop) :=
  flat_map (fun i => Call (TrySend (N.of_nat i)) :: go TX 6) (seq 0 n).

(** What the history then is. *)
Definition told (n : nat) : list (ev rop rres) :=
  flat_map (fun i => [EInv (TrySend (N.of_nat i)); EAcc TX; EAcc TX; ESync TX; ERet (TrySend (N.of_nat i)) ROk]) (seq 0 n).

Lemma run_then {O R} so co cd at_ (a : list (act O)) : forall x b, @run O R so co cd at_ x (a ++ b) = run so co cd at_ (run so co cd at_ x a) b.
Proof. induction a; simpl; auto. Qed.

(** The state word after [n] sends. *)
Lemma word n : n < 8192 -> get_length 32 (n * 2 ^ 19) = n /\ get_cursor 32 (n * 2 ^ 19) = 0 /\
  has (n * 2 ^ 19) CLOSED = false /\ has (n * 2 ^ 19) RXW = false.
Proof.
  intros H. assert (B : forall i, i < 19 -> N.testbit (n * 2 ^ 19) i = false) by (intros; now apply N.mul_pow2_bits_low).
  assert (K : forall k, k < 19 -> has (n * 2 ^ 19) (2 ^ k) = false).
  { intros k Hk. unfold has. replace (N.land _ _) with 0; auto. symmetry. apply N.bits_inj. intros i.
    rewrite N.land_spec, N.bits_0. rewrite N.pow2_bits_eqb. destruct (N.eqb_spec k i) as [<-|]; rewrite ?andb_false_r; auto.
    rewrite B; auto. }
  split; [|split; [|split]].
  - unfold get_length. change (PARAM_BITS + COUNT_BITS 32) with 19. rewrite N.shiftr_div_pow2. now rewrite N.div_mul.
  - unfold get_cursor. apply N.bits_inj. intros i. rewrite N.land_spec, N.bits_0. change (COUNT_BITS 32) with 13.
    destruct (N.lt_ge_cases i 13).
    + rewrite N.shiftr_spec by lia. rewrite B; auto. unfold PARAM_BITS. lia.
    + rewrite N.ones_spec_high by auto. apply andb_false_r.
  - apply (K 4); lia.
  - apply (K 2); lia.
Qed.

Lemma fill_run n : N.of_nat n <= 8192 -> exists c,
  rrun 32 8192 false (fill n) = Sys (Mem ((N.of_nat n * 2 ^ 19) mod 2 ^ 32) c false false false) Idle Idle (told n) /\
  forall i, N.of_nat n <= i -> c (CBuf i) = None.
Proof.
  induction n as [|n IH]; intros Hn.
  - exists (fun _ => None). easy.
  - destruct IH as (c & E & Hc); [lia|]. unfold fill, told, rrun in *. rewrite seq_S, !flat_map_app, run_then, E.
    simpl plus. cbn [flat_map]. rewrite !app_nil_r.
    remember (N.of_nat n) as v eqn:Hv. assert (V : v < 8192) by lia.
    replace (N.of_nat (S n)) with (v + 1) by lia. rewrite (N.mod_small (v * 2 ^ 19)) by (change (2 ^ 32) with (8192 * 2 ^ 19); nia).
    destruct (word v V) as (W1 & W2 & W3 & W4). set (w := v * 2 ^ 19) in *.
    exists (upd c (CBuf v) (Some v)). split.
    + unfold go. simpl repeat. cbn -[get_length get_cursor has add_length N.eqb w add_cursor N.pow N.modulo].
      rewrite W1. destruct (N.eqb_spec v 8192); [lia|].
      cbn -[get_length get_cursor has add_length N.eqb w add_cursor N.pow N.modulo]. rewrite W2, W3, W4.
      assert (A : add_cursor 0 v 8192 = v).
      { unfold add_cursor. destruct (N.leb_spec 8192 (0 + v)); lia. }
      rewrite A. cbn -[get_length get_cursor has add_length N.eqb w add_cursor N.pow N.modulo]. unfold write, touch, set_st; cbn [cells st freed uaf bad orb]. rewrite Hc by lia.

      unfold add_length. rewrite W3. simpl negb. cbv iota. rewrite <- !app_assoc. simpl app.
      f_equal. f_equal. f_equal. subst w. change (N.shiftl 1 (PARAM_BITS + COUNT_BITS 32)) with (2 ^ 19). lia.
    + intros i Hi. unfold upd. cbn. destruct (N.eqb_spec i v); [lia|]. apply Hc. lia.
Qed.

Lemma told_S n : told (S n) = told n ++
  [EInv (TrySend (N.of_nat n)); EAcc TX; EAcc TX; ESync TX; ERet (TrySend (N.of_nat n)) ROk].
Proof. unfold told. rewrite seq_S, flat_map_app. reflexivity. Qed.
Lemma told_facts n : calls (told n) = busy0 /\ len (incoming (told n)) = N.of_nat n /\ outgoing (told n) = [].
Proof.
  induction n as [|n (I1 & I2 & I3)]; [easy|]. rewrite told_S. unfold calls, incoming, outgoing, len in *.
  rewrite fold_left_app, !flat_map_app, app_length, I1, I3. repeat split. simpl. lia.
Qed.
Lemma last_app_ {A} (a b : list A) d : b <> [] -> last (a ++ b) d = last b d.
Proof.
  intros H. induction a as [|x a IH]; auto. simpl. rewrite IH. destruct (a ++ b) eqn:E; auto.
  apply app_eq_nil in E as (_ & ->). easy.
Qed.

Lemma full_empty n cap : N.of_nat n = 8192 -> cap = 8192 ->
  let x := rrun 32 cap false (fill n ++ whole TryNext) in
  u_both (calls (slog x)) = false /\ uaf (smem x) = false /\ bad (smem x) = false /\
  len (incoming (slog x)) = cap /\ outgoing (slog x) = [] /\
  last (visible (slog x)) (ERet Close RUnit) = ERet TryNext REmpty.
Proof.
  intros Hn ->. destruct (fill_run n) as (c & E & _); [lia|].
  unfold rrun in *. cbv zeta. rewrite run_then, E, Hn. clear E.
  change ((8192 * 2 ^ 19) mod 2 ^ 32) with 0.
  destruct (told_facts n) as (T1 & T2 & T3). remember (told n) as l eqn:Hl. clear Hl.
  assert (K : exists m, run rside rconsuming (rcode 32 8192) false (Sys (Mem 0 c false false false) Idle Idle l) (whole TryNext) =
    Sys m Idle Idle (((l ++ [EInv TryNext]) ++ [ESync RX]) ++ [ERet TryNext REmpty]) /\ uaf m = false /\ bad m = false).
  { eexists. split; [|split].
    - vm_compute. reflexivity.
    - reflexivity.
    - reflexivity. }
  destruct K as (m & -> & K1 & K2). cbn [slog smem]. rewrite <- !app_assoc. cbn [app].
  unfold calls, incoming, outgoing, visible, len in *.
  rewrite fold_left_app, !flat_map_app, filter_app, T1, T3, last_app_ by easy.
  rewrite app_length. repeat split; auto. cbn [flat_map length app]. lia.
Qed.

Theorem C37_max_capacity_refuted : exists bits at_ sched,
  bits = 32 /\
  let cap := MAX_CAPACITY bits in
  let x := rrun bits cap at_ sched in
  u_both (calls (slog x)) = false /\ uaf (smem x) = false /\ bad (smem x) = false /\
  len (incoming (slog x)) = cap /\ outgoing (slog x) = [] /\
  last (visible (slog x)) (ERet Close RUnit) = ERet TryNext REmpty.
Proof.
  exists 32, false, (fill (N.to_nat (MAX_CAPACITY 32)) ++ whole TryNext). split; [reflexivity|].
  exact (full_empty _ _ (N2Nat.id (MAX_CAPACITY 32)) eq_refl).
Qed.
Print Assumptions C37_max_capacity_refuted.

(** For every smaller capacity, every word width and both builds: as long as no two
    calls overlap, every call returns, and has destroyed, exactly what a sequential
    bounded queue says ([seq_call]): values come out in order, each once; Full is
    reported if and only if [cap] values are pending, and the value is returned; Empty
    and Pending only when nothing is pending; and there are never more than [cap]
    pending values.  What is missing from the full statement is the capacity
    [MAX_CAPACITY]. *)
Theorem C37_bounded_fifo_partial : forall bits cap at_ sched, fits bits cap ->
  let l := slog (rrun bits cap at_ sched) in
  u_both (calls l) = false ->
  f_bad (sequential_queue cap l) = false /\
  (stx (rrun bits cap at_ sched) = Idle -> srx (rrun bits cap at_ sched) = Idle ->
   len (z_pend (f_st (sequential_queue cap l))) <= cap).
Proof.
  intros bits cap at_ sched F l U. pose proof (both_racy bits cap at_ sched F U) as R.
  destruct (queue_ok bits cap F at_ sched R) as (B & L).
  assert (0 < cap) as Hc by (destruct F as (_ & _ & ? & _); lia).
  destruct (seq_sim cap l _ _ Hc (run_hist bits cap at_ sched) U B) as (S & _ & _ & S4).
  split; [exact S|]. intros E1 E2. rewrite E1, E2 in S4. rewrite (S4 eq_refl eq_refl). exact L.
Qed.
Print Assumptions C37_bounded_fifo_partial.

(** Capacity 2: the third value is refused, two come out in order, then nothing is left. *)
Example C37_case :
  let x := rrun 32 2 true (whole (TrySend 1) ++ whole (TrySend 2) ++ whole (TrySend 3) ++ whole TryNext ++
                           whole (TrySend 4) ++ whole (PollNext 9) ++ whole TryNext ++ whole TryNext) in
  fits 32 2 /\ u_both (calls (slog x)) = false /\
  visible (slog x) =
    [EInv (TrySend 1); ERet (TrySend 1) ROk; EInv (TrySend 2); ERet (TrySend 2) ROk;
     EInv (TrySend 3); ERet (TrySend 3) (RFull 3); EInv TryNext; ERet TryNext (RVal 1);
     EInv (TrySend 4); ERet (TrySend 4) ROk; EInv (PollNext 9); ERet (PollNext 9) (RVal 2);
     EInv TryNext; ERet TryNext (RVal 4); EInv TryNext; ERet TryNext REmpty].
Proof. vm_compute. repeat split; discriminate. Qed.

Lemma f_bad_last cap l o r : f_bad (sequential_queue cap (l ++ [ERet o r])) = false ->
  r = fst (fst (seq_call cap (f_st (sequential_queue cap l)) o)) /\
  f_st (sequential_queue cap (l ++ [ERet o r])) = snd (seq_call cap (f_st (sequential_queue cap l)) o).
Proof.
  unfold sequential_queue. rewrite fold_left_app. cbn.
  destruct (seq_call cap (f_st (fold_left (fstep cap) l seq0)) o) as [[r' d] s]. cbn.
  intros E. apply orb_false_iff in E as (_ & E). apply negb_false_iff, andb_true_iff in E as (E & _).
  split; [now apply rres_eqb_ok|reflexivity].
Qed.

(** For every capacity but the largest: a call of send_overwrite that overlaps no other
    call, where [s] is the content of the queue before it.  On a closed channel the
    value is returned and nothing changes; on a full one exactly the oldest value is
    removed and returned and the new one appended; otherwise the new one is appended.
    What is missing from the full statement is [MAX_CAPACITY], and calls that overlap
    (see C38). *)
Theorem C39_overwrite_partial : forall bits cap at_ sched, fits bits cap ->
  forall l v r, slog (rrun bits cap at_ sched) = l ++ [ERet (SendOver v) r] ->
  u_both (calls (l ++ [ERet (SendOver v) r])) = false ->
  let s := f_st (sequential_queue cap l) in
  let s' := f_st (sequential_queue cap (l ++ [ERet (SendOver v) r])) in
  (z_closed s = true -> r = RNot v None /\ s' = s) /\
  (z_closed s = false -> len (z_pend s) < cap -> r = ROver None /\ z_pend s' = z_pend s ++ [v]) /\
  (z_closed s = false -> len (z_pend s) = cap ->
     exists o rest, z_pend s = o :: rest /\ r = ROver (Some o) /\ z_pend s' = rest ++ [v]).
Proof.
  intros bits cap at_ sched F l v r E U s s'.
  pose proof (C37_bounded_fifo_partial bits cap at_ sched F) as K. cbn zeta in K. rewrite E in K.
  destruct (K U) as (K1 & _). destruct (f_bad_last _ _ _ _ K1) as (E1 & E2). fold s in E1, E2. fold s' in E2.
  cbn [seq_call] in *. assert (0 < cap) as Hc by (destruct F as (_ & _ & ? & _); lia).
  split; [|split].
  - intros C. rewrite C in *. auto.
  - intros C L. rewrite C in *. destruct (z_pend s) as [|o rest] eqn:P; try rewrite P in *.
    + cbn in *. now rewrite E2.
    + assert (len (o :: rest) =? cap = false) as L' by (apply N.eqb_neq; lia). rewrite L' in *. cbn in *. now rewrite E2.
  - intros C L. rewrite C in *. destruct (z_pend s) as [|o rest] eqn:P; try rewrite P in *.
    + change (0 = cap) in L. lia.
    + rewrite L, N.eqb_refl in *. cbn in *. exists o, rest. now rewrite E2.
Qed.
Print Assumptions C39_overwrite_partial.

Example C39_case :
  let x := rrun 64 2 true (whole (SendOver 1) ++ whole (SendOver 2) ++ whole (SendOver 3) ++ whole TryNext ++
                           whole TryNext ++ whole Close ++ whole (SendOver 4)) in
  fits 64 2 /\ u_both (calls (slog x)) = false /\
  visible (slog x) =
    [EInv (SendOver 1); ERet (SendOver 1) (ROver None); EInv (SendOver 2); ERet (SendOver 2) (ROver None);
     EInv (SendOver 3); ERet (SendOver 3) (ROver (Some 1)); EInv TryNext; ERet TryNext (RVal 2);
     EInv TryNext; ERet TryNext (RVal 3); EInv Close; ERet Close RUnit;
     EInv (SendOver 4); ERet (SendOver 4) (RNot 4 None)].
Proof. vm_compute. repeat split; discriminate. Qed.

(** ** Preemption (C38). *)

(** The claim as stated is false: a receiving call frees the slot before it reads the
    value.  Preempted in between by a send into the full buffer it delivers the new
    value instead of the oldest one; the oldest one is lost, and the last receive reads
    an uninitialised slot. *)
Theorem C38_preempted_receive_refuted : exists bits cap (sched : bool -> list (act rop)), fits bits cap /\
  forall at_ : bool, let x := rrun bits cap at_ (sched at_) in
  visible (slog x) =
    [EInv (TrySend 1); ERet (TrySend 1) ROk; EInv (TrySend 2); ERet (TrySend 2) ROk;
     EInv TryNext; EInv (TrySend 3); ERet (TrySend 3) ROk; ERet TryNext (RVal 3);
     EInv TryNext; ERet TryNext (RVal 2); EInv TryNext; ERet TryNext (RVal 0)] /\
  bad (smem x) = true.
Proof.
  exists 32, 2, (fun at_ : bool => whole (TrySend 1) ++ whole (TrySend 2) ++ Call TryNext :: go RX (if at_ then 2 else 1) ++
                       whole (TrySend 3) ++ go RX 9 ++ whole TryNext ++ whole TryNext).
  split; [vm_compute; repeat split; discriminate|]. intros []; vm_compute; repeat split.
Qed.
Print Assumptions C38_preempted_receive_refuted.

(** A send can also preempt the receiver's destructor: it reports that the channel is
    closed, but the value it returns has been destroyed by the receiver. *)
Theorem C38_preempted_drop_refuted : exists bits cap at_ sched, fits bits cap /\
  let x := rrun bits cap at_ sched in
  visible (slog x) =
    [EInv (TrySend 1); ERet (TrySend 1) ROk; EInv (TrySend 2); ERet (TrySend 2) ROk;
     EInv DropRx; EInv (TrySend 3); EDropV RX 3; EDropV RX 2; ERet DropRx RUnit;
     ERet (TrySend 3) (RClosed 0)] /\
  bad (smem x) = true.
Proof.
  exists 32, 2, true, (whole (TrySend 1) ++ whole (TrySend 2) ++ Call DropRx :: go RX 2 ++
                       Call (TrySend 3) :: go TX 2 ++ go RX 12 ++ go TX 12).
  vm_compute. repeat split; discriminate.
Qed.
Print Assumptions C38_preempted_drop_refuted.

(** Nor do send_overwrite and send_err keep to their contracts then.  The call of
    send_overwrite finds room, and yet the oldest value is gone: it is neither returned nor
    received. *)
Theorem C39_preempted_receive_refuted : exists bits cap (sched : bool -> list (act rop)), fits bits cap /\
  forall at_ : bool, let x := rrun bits cap at_ (sched at_) in
  visible (slog x) =
    [EInv (TrySend 1); ERet (TrySend 1) ROk; EInv (TrySend 2); ERet (TrySend 2) ROk;
     EInv TryNext; EInv (SendOver 3); ERet (SendOver 3) (ROver None); ERet TryNext (RVal 3);
     EInv TryNext; ERet TryNext (RVal 2); EInv TryNext; ERet TryNext (RVal 0)] /\
  bad (smem x) = true.
Proof.
  exists 32, 2, (fun at_ : bool => whole (TrySend 1) ++ whole (TrySend 2) ++ Call TryNext :: go RX (if at_ then 2 else 1) ++
                       whole (SendOver 3) ++ go RX 9 ++ whole TryNext ++ whole TryNext).
  split; [vm_compute; repeat split; discriminate|]. intros []; vm_compute; repeat split.
Qed.
Print Assumptions C39_preempted_receive_refuted.

(** The error arrives although the value 1, accepted before it, has not been received and
    never will be. *)
Theorem C40_preempted_receive_refuted : exists bits cap (sched : bool -> list (act rop)), fits bits cap /\
  forall at_ : bool, let x := rrun bits cap at_ (sched at_) in
  visible (slog x) =
    [EInv (TrySend 1); ERet (TrySend 1) ROk; EInv (TrySend 2); ERet (TrySend 2) ROk;
     EInv TryNext; EInv (TrySend 3); ERet (TrySend 3) ROk;
     EInv (SendErr 4); ERet (SendErr 4) ROk; ERet TryNext (RVal 3);
     EInv TryNext; ERet TryNext (RVal 2); EInv TryNext; ERet TryNext (RVal 0);
     EInv TryNext; ERet TryNext (RError 4); EInv TryNext; ERet TryNext REnd] /\
  bad (smem x) = true.
Proof.
  exists 32, 2, (fun at_ : bool => whole (TrySend 1) ++ whole (TrySend 2) ++ Call TryNext :: go RX (if at_ then 2 else 1) ++
                       whole (TrySend 3) ++ whole (SendErr 4) ++ go RX 9 ++ whole TryNext ++ whole TryNext ++
                       whole TryNext ++ whole TryNext).
  split; [vm_compute; repeat split; discriminate|]. intros []; vm_compute; repeat split.
Qed.
Print Assumptions C40_preempted_receive_refuted.

(** What holds, for every capacity but the largest, every word width, every
    interleaving of accesses and both builds: unless the sender has counted a slot as
    free while the receiver might still be reading it ([q_racy]: the first look of a
    send happened inside a receiving call that had taken its value from a full queue, or
    inside the receiver's destructor), all calls behave like operations on one atomic
    bounded queue, each taking effect at one of its accesses ([qstep]). *)
Theorem C38_atomic_queue_partial : forall bits cap at_ sched, fits bits cap ->
  let q := queue cap (slog (rrun bits cap at_ sched)) in
  q_racy q = false -> q_bad q = false /\ len (q_pend q) <= cap.
Proof. intros bits cap at_ sched F q R. exact (queue_ok bits cap F at_ sched R). Qed.
Print Assumptions C38_atomic_queue_partial.

(** In particular when the sender never touches the channel during a call of the
    receiver: the receiver may run at a higher priority and preempt the sender
    anywhere. *)
Theorem C38_receiver_preempts_partial : forall bits cap at_ sched, fits bits cap ->
  let l := slog (rrun bits cap at_ sched) in
  u_pre (calls l) = false ->
  q_bad (queue cap l) = false /\ len (q_pend (queue cap l)) <= cap.
Proof.
  intros bits cap at_ sched F l U. apply (queue_ok bits cap F at_ sched).
  now apply (pre_not_racy bits cap F at_ sched).
Qed.
Print Assumptions C38_receiver_preempts_partial.

(** The receiver preempts send_overwrite between its two updates; and the sender
    preempts a receiving call that took its value from a queue with room. *)
Example C38_case :
  (let x := rrun 32 2 true (whole (TrySend 5) ++ whole (TrySend 6) ++ Call (SendOver 7) :: go TX 3 ++
                            whole TryNext ++ go TX 12) in
   fits 32 2 /\ u_pre (calls (slog x)) = false /\ u_both (calls (slog x)) = true /\
   q_pend (queue 2 (slog x)) = [7] /\
   visible (slog x) =
     [EInv (TrySend 5); ERet (TrySend 5) ROk; EInv (TrySend 6); ERet (TrySend 6) ROk;
      EInv (SendOver 7); EInv TryNext; ERet TryNext (RVal 6); ERet (SendOver 7) (ROver (Some 5))]) /\
  (let x := rrun 32 3 true (whole (TrySend 5) ++ whole (TrySend 6) ++ Call TryNext :: go RX 2 ++
                            whole (TrySend 7) ++ go RX 12) in
   u_pre (calls (slog x)) = true /\ q_racy (queue 3 (slog x)) = false /\
   q_pend (queue 3 (slog x)) = [6; 7] /\ outgoing (slog x) = [5]).
Proof. vm_compute. repeat split; discriminate. Qed.

(** ** Everything accepted comes out, in order; the error last (C38, C40). *)

(** Between calls, under the condition of [C38_atomic_queue_partial]: the values the
    receiver got or destroyed, and those returned to the sender as overwritten, each in
    their own order, make up a prefix of the accepted values (the final error counts as
    the last one); the rest is pending. *)
Theorem C40_order_partial : forall bits cap at_ sched, fits bits cap ->
  let x := rrun bits cap at_ sched in
  let l := slog x in
  let q := queue cap l in
  q_racy q = false ->
  (stx x = Idle \/ stx x = Gone) -> (srx x = Idle \/ srx x = Gone) ->
  (exists out, shuffle (outgoing l) (overwritten l) out /\
     out ++ q_pend q ++ (match q_err q with Some e => [e] | None => [] end) = incoming l) /\
  (srx x = Gone -> q_pend q = [] /\ q_err q = None).
Proof.
  intros bits cap at_ sched F x l q R Ht Hr. destruct (queue_ok bits cap F at_ sched R) as (B & _).
  pose proof (run_hist bits cap at_ sched) as H. cbn zeta in H. fold x l in H.
  pose proof (flow_hist cap l _ _ H B) as [(rem & S1 & S2) _ _ _].
  assert (fl_out (hs_of (srx x)) (q_rx q) = []) as E1.
  { destruct (q_match _ _ _ _ H B) as (_ & M & _). fold q in M. destruct Hr as [E|E]; rewrite E in *; reflexivity. }
  assert (fl_ovr (hs_of (stx x)) (q_tx q) = [] /\ fl_in (hs_of (stx x)) (q_tx q) = []) as (E2 & E3).
  { destruct Ht as [E|E]; rewrite E; split; reflexivity. }
  fold q in S1, S2. rewrite E1, E2, !app_nil_r in S1. rewrite E3, app_nil_r in S2. split; [exists rem; split; assumption|].
  intros E. destruct (inv1 bits cap F at_ sched R) as (g & h & (v & c & _ & _ & []) & _ & Hr'). fold x l q in a_gone, Hr'.
  rewrite E in Hr'. destruct Hr' as (_ & _ & _ & _ & Hh). destruct (a_gone Hh) as (_ & ? & ?). auto.
Qed.
Print Assumptions C40_order_partial.

(** At any time, under the same condition: the error is received at most once, only
    after send_err was called with it, and never if send_err returned it; nothing but
    the end of the stream is reported after it; and if send_err succeeded, the end is
    not reported before it ([ring_error]).  What is missing from the full statement are
    the histories excluded by the condition, and [MAX_CAPACITY]. *)
Theorem C40_error_once_partial : forall bits cap at_ sched, fits bits cap ->
  let l := slog (rrun bits cap at_ sched) in
  q_racy (queue cap l) = false -> r_bad (ring_error l) = false.
Proof.
  intros bits cap at_ sched F l R. destruct (queue_ok bits cap F at_ sched R) as (B & _).
  now destruct (error_hist cap l _ _ (run_hist bits cap at_ sched) B).
Qed.
Print Assumptions C40_error_once_partial.

(** The error arrives in the middle of a receiving call; the values come first. *)
Example C40_case :
  (let x := rrun 32 4 true (whole (TrySend 1) ++ whole (TrySend 2) ++ whole TryNext ++ Call TryNext :: go RX 1 ++
                            whole (SendErr 9) ++ go RX 12 ++ whole TryNext ++ whole TryNext) in
   fits 32 4 /\ q_racy (queue 4 (slog x)) = false /\
   incoming (slog x) = [1; 2; 9] /\ outgoing (slog x) = [1; 2; 9] /\
   r_got (ring_error (slog x)) = true /\ r_acc (ring_error (slog x)) = true /\ stx x = Gone /\
   last (visible (slog x)) (ERet Close RUnit) = ERet TryNext REnd) /\
  (let x := rrun 32 4 true (whole (TrySend 1) ++ whole Close ++ whole (SendErr 9) ++ whole TryNext ++ whole DropRx) in
   visible (slog x) =
     [EInv (TrySend 1); ERet (TrySend 1) ROk; EInv Close; ERet Close RUnit; EInv (SendErr 9);
      ERet (SendErr 9) (RBack 9); EInv TryNext; ERet TryNext (RVal 1); EInv DropRx; ERet DropRx RUnit]).
Proof. vm_compute. repeat split; discriminate. Qed.

(** ** Wakeups (C41). *)

(** The claim as stated is false of the sender: poll_ready has returned Pending, then the
    sender's own send_overwrite is preempted by a receiving call after it has removed
    the oldest value.  The receiving call takes another value and leaves a free slot,
    but wakes nobody, and no later receiving call does. *)
Theorem C41_lost_wakeup_refuted : exists bits cap at_ sched, fits bits cap /\
  let x := rrun bits cap at_ sched in
  u_pre (calls (slog x)) = false /\ bad (smem x) = false /\ uaf (smem x) = false /\
  q_pend (queue cap (slog x)) = [] /\
  visible (slog x) =
    [EInv (TrySend 5); ERet (TrySend 5) ROk; EInv (TrySend 6); ERet (TrySend 6) ROk;
     EInv (PollReady 1); ERet (PollReady 1) RPending;
     EInv (SendOver 7); EInv TryNext; ERet TryNext (RVal 6); ERet (SendOver 7) (ROver (Some 5));
     EInv TryNext; ERet TryNext (RVal 7)].
Proof.
  exists 32, 2, true, (whole (TrySend 5) ++ whole (TrySend 6) ++ whole (PollReady 1) ++
                       Call (SendOver 7) :: go TX 3 ++ whole TryNext ++ go TX 12 ++ whole TryNext).
  vm_compute. repeat split; discriminate.
Qed.
Print Assumptions C41_lost_wakeup_refuted.

(** For every capacity but the largest, word width and interleaving, in both builds.  If
    the last poll_next returned Pending and no call of the sender is in progress, a waker
    passed to poll_next has been woken since that poll started, provided that
    - the sender is gone (it was dropped, or send_err has returned), or
    - the queue is not empty (under the condition of [C38_atomic_queue_partial]). *)
Theorem C41_receiver_woken_partial : forall bits cap at_ sched, fits bits cap ->
  let x := rrun bits cap at_ sched in
  let k := receiver_wakeups (slog x) in
  let q := queue cap (slog x) in
  k_pend k = true -> stx x = Idle \/ stx x = Gone ->
  (stx x = Gone -> k_woken k = true) /\
  (q_racy q = false -> q_pend q <> [] -> k_woken k = true).
Proof.
  intros bits cap at_ sched F x k q E C. apply (rx_woken bits cap F at_ sched E).
  fold x. destruct C as [-> | ->]; exact I.
Qed.
Print Assumptions C41_receiver_woken_partial.

(** Likewise for the sender: if its last poll (poll_ready, poll_flush or poll_close)
    returned Pending and no call of the receiver is in progress, a waker passed to a
    poll has been woken since that poll started, provided that
    - the receiver is closed or gone, or
    - there is room again (poll_ready) or nothing is pending (poll_flush), under the
      condition of [C38_atomic_queue_partial].
    Excluded are the histories in which a value was asked for on a closed channel after a
    poll ([s_stale], see C42); and [s_pend] is reset by send_overwrite.  These are what is
    missing from the full statement. *)
Theorem C41_sender_woken_partial : forall bits cap at_ sched, fits bits cap ->
  let x := rrun bits cap at_ sched in
  let b := sender_wakeups (slog x) in
  let q := queue cap (slog x) in
  forall k, s_stale b = false -> s_pend b = Some k -> srx x = Idle \/ srx x = Gone ->
  (s_closed b = true \/ srx x = Gone -> s_woken b = true) /\
  (q_racy q = false -> q_closed q = true \/ is_ready cap q k = true -> s_woken b = true).
Proof.
  intros bits cap at_ sched F x b q k E1 E2 C. apply (tx_woken bits cap F at_ sched E1 k E2).
  fold x. destruct C as [-> | ->]; exact I.
Qed.
Print Assumptions C41_sender_woken_partial.

(** The value arrives between the receiver's look at the queue and the registration of
    its waker; the slot is freed between the sender's look and its registration. *)
Example C41_case :
  (let x := rrun 32 2 true (whole (PollNext 3) ++ whole (PollNext 3) ++ whole (TrySend 5)) in
   fits 32 2 /\ k_pend (receiver_wakeups (slog x)) = true /\ stx x = Idle /\
   q_pend (queue 2 (slog x)) = [5] /\ k_woken (receiver_wakeups (slog x)) = true) /\
  (let x := rrun 32 2 true (Call (PollNext 3) :: go RX 3 ++ whole (TrySend 5) ++ go RX 12) in
   outgoing (slog x) = [5]) /\
  (let x := rrun 32 2 true (whole (TrySend 5) ++ whole (TrySend 6) ++ whole (PollReady 8) ++ whole TryNext) in
   let b := sender_wakeups (slog x) in
   s_stale b = false /\ s_pend b = Some KReady /\ srx x = Idle /\
   is_ready 2 (queue 2 (slog x)) KReady = true /\ s_woken b = true) /\
  (let x := rrun 32 2 true (whole (TrySend 5) ++ whole (PollFlush 8) ++ whole Close) in
   let b := sender_wakeups (slog x) in
   s_stale b = false /\ s_pend b = Some KFlush /\ srx x = Idle /\ s_closed b = true /\ s_woken b = true).
Proof. vm_compute. repeat split; discriminate. Qed.

(** The claim of C33 is false of the ring channel, too, for both halves. *)
Definition woken (w : N) (l : list rev_) : bool :=
  existsb (fun e => match e with EWake _ w' => w =? w' | _ => false end) l.
Theorem C33_ring_latest_waker_refuted : exists bits cap at_ sched sched', fits bits cap /\
  (let x := rrun bits cap at_ sched in
   visible (slog x) =
     [EInv (PollNext 1); ERet (PollNext 1) RPending; EInv (PollNext 2); ERet (PollNext 2) RPending;
      EInv (TrySend 5); EWake TX 1; ERet (TrySend 5) ROk; EInv DropTx; EWake TX 1; ERet DropTx RUnit] /\
   woken 2 (slog x) = false) /\
  (let x := rrun bits cap at_ sched' in
   visible (slog x) =
     [EInv (TrySend 5); ERet (TrySend 5) ROk; EInv (TrySend 6); ERet (TrySend 6) ROk;
      EInv (PollReady 1); ERet (PollReady 1) RPending; EInv (PollReady 2); ERet (PollReady 2) RPending;
      EInv TryNext; EWake RX 1; ERet TryNext (RVal 5)] /\
   woken 2 (slog x) = false).
Proof.
  exists 32, 2, true, (whole (PollNext 1) ++ whole (PollNext 2) ++ whole (TrySend 5) ++ whole DropTx),
    (whole (TrySend 5) ++ whole (TrySend 6) ++ whole (PollReady 1) ++ whole (PollReady 2) ++ whole TryNext).
  vm_compute. repeat split; discriminate.
Qed.
Print Assumptions C33_ring_latest_waker_refuted.

(** ** Memory (C42, C67). *)

(** The claim of C42 as stated is false: close takes the sender's waker out of its cell
    and leaves the flags in place; a receiving call on the closed channel then uses the
    cell, which is uninitialised (the model delivers 0). *)
Theorem C42_consumed_waker_refuted : exists bits cap at_ sched, fits bits cap /\
  let x := rrun bits cap at_ sched in
  u_both (calls (slog x)) = false /\ uaf (smem x) = false /\ bad (smem x) = true /\
  visible (slog x) =
    [EInv (TrySend 1); ERet (TrySend 1) ROk; EInv (TrySend 2); ERet (TrySend 2) ROk;
     EInv (PollReady 7); ERet (PollReady 7) RPending; EInv Close; EWake RX 7; ERet Close RUnit;
     EInv TryNext; EWake RX 0; ERet TryNext (RVal 1)].
Proof.
  exists 32, 2, true, (whole (TrySend 1) ++ whole (TrySend 2) ++ whole (PollReady 7) ++ whole Close ++ whole TryNext).
  vm_compute. repeat split; discriminate.
Qed.
Print Assumptions C42_consumed_waker_refuted.

(** What holds: if a sender's poll was called before close returned, and no value was
    asked for after close returned ([s_stale]), and the conditions of C38 and C67 hold,
    no uninitialised cell is used and no initialised one overwritten; this includes both
    wakers. *)
Theorem C42_wakers_partial : forall bits cap at_ sched, fits bits cap ->
  let x := rrun bits cap at_ sched in
  s_stale (sender_wakeups (slog x)) = false -> q_racy (queue cap (slog x)) = false -> ends_overlap (slog x) = false ->
  bad (smem x) = false.
Proof.
  intros bits cap at_ sched F x E1 E2 E3.
  apply (memory_ok bits cap F at_ sched). now repeat split.
Qed.
Print Assumptions C42_wakers_partial.

Example C42_case :
  let x := rrun 32 2 true (whole (TrySend 1) ++ whole (TrySend 2) ++ whole (PollReady 7) ++ whole TryNext ++
                           whole (PollFlush 8) ++ whole Close ++ whole (PollFlush 8) ++ whole DropRx) in
  fits 32 2 /\ s_stale (sender_wakeups (slog x)) = false /\ q_racy (queue 2 (slog x)) = false /\
  ends_overlap (slog x) = false /\ s_polled (sender_wakeups (slog x)) = true /\ woken 7 (slog x) = true.
Proof. vm_compute. repeat split; discriminate. Qed.

(** The claim of C67 is false when the calls consuming the two halves overlap: the
    sender's destructor takes the receiver's waker out of the freed block. *)
Theorem C67_use_after_free_refuted : exists bits cap at_ sched, fits bits cap /\
  let x := rrun bits cap at_ sched in
  uaf (smem x) = true /\
  visible (slog x) =
    [EInv (PollNext 7); ERet (PollNext 7) RPending; EInv DropTx; EInv DropRx; ERet DropRx RUnit;
     EWake TX 7; ERet DropTx RUnit].
Proof.
  exists 32, 2, true, (whole (PollNext 7) ++ Call DropTx :: go TX 2 ++ whole DropRx ++ go TX 9).
  vm_compute. repeat split; discriminate.
Qed.
Print Assumptions C67_use_after_free_refuted.

(** What holds when they do not overlap: the block is freed at most once, when both
    halves have ended, and exactly then once both calls have returned.  If moreover the
    conditions of C38 and C42 hold, nothing is used after being freed, and once both
    halves are gone every slot, the error and both wakers have been moved out. *)
Theorem C67_freed_once_partial : forall bits cap at_ sched, fits bits cap ->
  let x := rrun bits cap at_ sched in
  ends_overlap (slog x) = false ->
  (freed (smem x) = true -> stx x <> Idle /\ srx x <> Idle) /\
  (stx x = Gone -> srx x = Gone -> freed (smem x) = true /\ cells (smem x) CRxW = None) /\
  (q_racy (queue cap (slog x)) = false -> s_stale (sender_wakeups (slog x)) = false ->
   uaf (smem x) = false /\
   (stx x = Gone -> srx x = Gone ->
    cells (smem x) CErr = None /\ cells (smem x) CTxW = None /\ forall i, i < cap -> cells (smem x) (CBuf i) = None)).
Proof.
  intros bits cap at_ sched F x E. destruct (freed_once bits cap F at_ sched E) as (F1 & F2).
  split; [exact F1|]. split.
  - intros G1 G2. split; [exact (F2 G1 G2)|exact (rx_waker_gone bits cap F at_ sched G1 G2)].
  - intros R S. split; [now apply (memory_ok bits cap F at_ sched)|]. intros G1 G2.
    destruct (buffer_gone bits cap F at_ sched R G1 G2) as (B1 & B2).
    split; [exact B1|]. split; [exact (tx_waker_gone bits cap F at_ sched S G1 G2)|exact B2].
Qed.
Print Assumptions C67_freed_once_partial.

Example C67_case :
  let x := rrun 32 2 true (whole (PollNext 7) ++ whole (TrySend 1) ++ whole (TrySend 2) ++ whole (PollReady 5) ++
                           whole (SendErr 3) ++ whole DropRx) in
  fits 32 2 /\ ends_overlap (slog x) = false /\ q_racy (queue 2 (slog x)) = false /\
  s_stale (sender_wakeups (slog x)) = false /\ stx x = Gone /\ srx x = Gone /\ freed (smem x) = true /\
  outgoing (slog x) = [1; 2; 3].
Proof. vm_compute. repeat split; discriminate. Qed.
