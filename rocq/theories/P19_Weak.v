(** Channels between cores: data races between the halves (C81-C83), and what the users
    observe (C84). *)
Require Import NArith List Bool Arith Lia Permutation.
From Verif Require Import Spsc WeakSpec Weak WeakProofs WeakSC WeakHist.
From Verif Require Oneshot Pulse Ring RingMain OneshotSpec PulseSpec WeakOneshot WeakPulse WeakRing.
From Verif Require RingSpec P06_Oneshot P07_Pulse P08_Ring WeakOneshotHist WeakPulseHist WeakSlots WeakRingHist.
Import ListNotations.
Open Scope nat_scope.

(** The accesses of an execution of each channel. *)
Definition oacc (l : list (wact Oneshot.oop)) : exec :=
  accesses (wlog (wrun Oneshot.oside Oneshot.oconsuming Oneshot.ocode l)).
Definition pacc (bits : N) (l : list (wact Pulse.pop)) : exec :=
  accesses (wlog (wrun Pulse.pside Pulse.pconsuming (Pulse.pcode bits) l)).
Definition racc (bits cap : N) (l : list (wact Ring.rop)) : exec :=
  accesses (wlog (wrun Ring.rside Ring.rconsuming (Ring.rcode bits cap) l)).

(** [n] steps of a half, without spurious failures and with the latest values. *)
Definition go {O} (s : side) (n : nat) : list (wact O) := repeat (WStep s false 0) n.

(** What happens before what: a set closed under the order. *)
Definition stepb (l : exec) (i j : nat) : bool :=
  match nth_error l i, nth_error l j with
  | Some (s, a), Some (t, b) =>
      (i <? j) && (match s, t with TX, TX | RX, RX => true | _, _ => false end) ||
      match a, b with
      | AUpd o n, (ARead o' m | AUpd o' m) => releases o && acquires o' && (n <? m)
      | _, _ => false
      end
  | _, _ => false
  end.
Definition closed (l : exec) (x : nat -> bool) : bool :=
  forallb (fun i => forallb (fun j => negb (x i) || negb (stepb l i j) || x j) (seq 0 (length l))) (seq 0 (length l)).
Lemma some_lt {A} (l : list A) i x : nth_error l i = Some x -> i < length l.
Proof. intros E. apply nth_error_Some. congruence. Qed.
Lemma closed_hb l x i j : closed l x = true -> hb l i j -> x i = true -> x j = true.
Proof.
  intros C H. assert (S : forall i j, i < length l -> j < length l -> stepb l i j = true -> x i = true -> x j = true).
  { intros a b A B S X. unfold closed in C. rewrite forallb_forall in C. specialize (C a). rewrite in_seq, forallb_forall in C.
    specialize (C ltac:(lia) b). rewrite in_seq in C. specialize (C ltac:(lia)). rewrite X, S in C. exact C. }
  induction H as [i j s a b L Ei Ej|i j (s & o & n & s' & o' & m & Ei & Ro & Ej & Ao & L)|i j k H1 IH1 H2 IH2]; auto.
  - apply S; [eapply some_lt; eauto|eapply some_lt; eauto|]. unfold stepb. rewrite Ei, Ej. apply Nat.ltb_lt in L. rewrite L. now destruct s.
  - apply S; [eapply some_lt; eauto|destruct Ej; eapply some_lt; eauto|].
    unfold stepb. rewrite Ei. apply Nat.ltb_lt in L. destruct Ej as [-> | ->]; rewrite Ro, Ao, L; apply orb_true_r.
Qed.
Lemma race_witness (cl : access -> access -> Prop) l i j x y s t a b :
  i <> j -> nth_error l i = Some (s, a) -> nth_error l j = Some (t, b) -> cl a b ->
  closed l x = true -> x i = true -> x j = false -> closed l y = true -> y j = true -> y i = false -> racing cl l.
Proof.
  intros N Ei Ej C Cx Xi Xj Cy Yj Yi. exists i, j, s, t, a, b. repeat (split; auto); intros H.
  - apply (closed_hb _ _ _ _ Cx) in H; congruence.
  - apply (closed_hb _ _ _ _ Cy) in H; congruence.
Qed.
Definition among (l : list nat) (i : nat) : bool := existsb (Nat.eqb i) l.
(** The set of what access [i] happens before, and [i]. *)
Definition after (l : exec) (i : nat) : list nat :=
  Nat.iter (length l) (fun x => filter (fun j => among x j || existsb (fun i => stepb l i j) x) (seq 0 (length l))) [i].
Definition raceb (l : exec) (i j : nat) : bool :=
  negb (i =? j) && closed l (among (after l i)) && among (after l i) i && negb (among (after l i) j) &&
  closed l (among (after l j)) && among (after l j) j && negb (among (after l j) i).
Lemma raceb_racing (cl : access -> access -> Prop) l i j s t a b :
  nth_error l i = Some (s, a) -> nth_error l j = Some (t, b) -> cl a b -> raceb l i j = true -> racing cl l.
Proof.
  intros Ei Ej C H. unfold raceb in H. rewrite !andb_true_iff, !negb_true_iff, Nat.eqb_neq in H.
  destruct H as ((((((N & A) & B) & C1) & D) & E) & F).
  exact (race_witness cl l i j _ _ s t a b N Ei Ej C A B C1 D E F).
Qed.

(** A cell is accessed, and the block freed, concurrently. *)
Definition cell_free (a b : access) : Prop := b = AFree /\ exists c w, a = ACell c w.

Lemma stepb_hb l i j : stepb l i j = true -> hb l i j.
Proof.
  unfold stepb. destruct (nth_error l i) as [[s a]|] eqn:Ei; [|discriminate].
  destruct (nth_error l j) as [[t b]|] eqn:Ej; [|discriminate]. intros H. apply orb_true_iff in H as [H|H].
  - apply andb_true_iff in H as (L & E). apply Nat.ltb_lt in L. assert (s = t) as -> by now destruct s, t. eapply hb_po; eauto.
  - destruct a as [|o n| |]; try discriminate. apply hb_sw.
    destruct b as [o' m|o' m| |]; try discriminate; rewrite !andb_true_iff, Nat.ltb_lt in H; destruct H as ((A & B) & C);
      exists s, o, n, t, o', m; auto 6.
Qed.
Lemma after_hb l i j : among (after l i) j = true -> j = i \/ hb l i j.
Proof.
  unfold after. generalize (length l) at 1. intros n. revert j. induction n as [|n IH]; intros j; cbn.
  - destruct (Nat.eqb_spec j i); auto. discriminate.
  - set (x := Nat.iter _ _ _) in *. unfold among at 1. rewrite existsb_exists. intros (k & I & E). apply Nat.eqb_eq in E as <-.
    apply filter_In in I as (_ & E). apply orb_true_iff in E as [E|E]; auto.
    apply existsb_exists in E as (k & I & E). apply stepb_hb in E.
    assert (K : among x k = true) by (unfold among; apply existsb_exists; exists k; split; auto; apply Nat.eqb_refl).
    destruct (IH _ K) as [->|H]; [auto|right; eapply hb_trans; eauto].
Qed.
Definition clashb (a b : access) : bool :=
  match a, b with ACell c w, ACell d v => cell_eqb c d && (w || v) | _, _ => false end.
Definition freeb (l : exec) : bool :=
  forallb (fun i => forallb (fun j =>
    match nth_error l i, nth_error l j with
    | Some (_, a), Some (_, b) => (i =? j) || negb (clashb a b) || among (after l i) j || among (after l j) i
    | _, _ => true
    end) (seq 0 (length l))) (seq 0 (length l)).
Lemma freeb_free l : freeb l = true -> ~ racing clash l.
Proof.
  intros F (i & j & s & t & a & b & N & Ei & Ej & C & H1 & H2).
  unfold freeb in F. rewrite forallb_forall in F. specialize (F i). rewrite forallb_forall in F.
  specialize (F ltac:(apply in_seq; apply some_lt in Ei; lia) j ltac:(apply in_seq; apply some_lt in Ej; lia)).
  rewrite Ei, Ej in F. assert (B : clashb a b = true).
  { destruct a, b; cbn in C |- *; try contradiction. destruct C as (-> & C). apply andb_true_iff. split; [destruct (cell_eqb_spec c0 c0); congruence|].
    now apply orb_true_iff. }
  rewrite B in F. cbn in F. apply Nat.eqb_neq in N as N'. rewrite N' in F. cbn in F. apply orb_true_iff in F as [F|F]; apply after_hb in F as [F|F]; auto.
Qed.
(** What a race is, on the smallest cases.  A cell is written by one half and read by the
    other after the state word was updated by the first and read by the second: a race,
    unless the update releases and the read acquires. *)
Definition mp (o o' : ord) : exec :=
  [(TX, ACell (CBuf 0) true); (TX, AUpd o 0); (RX, ARead o' 1); (RX, ACell (CBuf 0) false)].
Example race_pass : forall o o', racing clash (mp o o') <->
  ~ ((o = Release \/ o = AcqRel) /\ (o' = Acquire \/ o' = AcqRel)).
Proof.
  assert (F : forall o o', freeb (mp o o') = true -> ~ ((o = Release \/ o = AcqRel) /\ (o' = Acquire \/ o' = AcqRel)) -> False)
    by (intros [] []; vm_compute; intuition discriminate).
  assert (G : forall o o', freeb (mp o o') = false -> raceb (mp o o') 0 3 = true) by (intros [] []; vm_compute; auto).
  intros o o'. destruct (freeb (mp o o')) eqn:E.
  - split; intros H; [now apply freeb_free in E|exfalso; eauto].
  - split; [|intros _; refine (raceb_racing clash (mp o o') 0 3 TX RX (ACell (CBuf 0) true) (ACell (CBuf 0) false) eq_refl eq_refl _ (G _ _ E)); cbn; auto].
    intros _. destruct o, o'; vm_compute in E; try discriminate; intuition discriminate.
Qed.
(** Later updates, by whichever half and with whichever ordering, do not matter; reading an
    older value does not help; reading concurrently is no race. *)
Example race_sequence :
  ~ racing clash [(TX, ACell (CBuf 0) true); (TX, AUpd Release 0); (RX, ARead Relaxed 1); (RX, AUpd Relaxed 1);
                  (RX, ARead Acquire 2); (RX, ACell (CBuf 0) true)] /\
  racing clash [(TX, ACell (CBuf 0) true); (TX, AUpd Release 0); (RX, ARead Acquire 0); (RX, ACell (CBuf 0) true)] /\
  ~ racing clash [(TX, ACell (CBuf 0) false); (RX, ACell (CBuf 0) false); (RX, ACell (CBuf 1) true)].
Proof.
  split; [apply freeb_free; reflexivity|]. split; [|apply freeb_free; reflexivity].
  eapply (raceb_racing _ _ 0 3); [reflexivity|reflexivity|cbn; auto|reflexivity].
Qed.

(** ** C81: the oneshot *)

(** The sender registers a waker with poll_canceled; then the receiver is dropped and
    takes the waker; then the sender is dropped and frees the block.  The calls do not
    overlap, but nothing orders the receiver's access to the waker before the freeing:
    the last updates of the state word acquire and do not release. *)
Definition o_drops : list (wact Oneshot.oop) :=
  WCall (Oneshot.PollCanceled 5) :: go TX 4 ++ WCall Oneshot.DropRx :: go RX 5 ++ WCall Oneshot.DropTx :: go TX 4.
Theorem C81_free_race_refuted : exists l, racing cell_free (oacc l).
Proof.
  exists o_drops. apply (raceb_racing _ _ 5 8 RX TX (ACell CTxW true) AFree); [vm_compute; reflexivity..| |vm_compute; reflexivity].
  split; eauto.
Qed.
Print Assumptions C81_free_race_refuted.

(** In every execution, accesses to the value and to both wakers that could conflict are
    ordered.  Missing: the freeing, see above. *)
Theorem C81_cells_partial : forall l, ~ racing clash (oacc l).
Proof. exact WeakOneshot.oneshot_cells. Qed.
Print Assumptions C81_cells_partial.

(** A value is sent and received, on old values of the state word first: both halves
    access the cell, and the receiver registers its waker, which the sender takes. *)
Definition o_send : list (wact Oneshot.oop) :=
  WCall (Oneshot.Poll 7) :: go RX 5 ++ WCall (Oneshot.Send 9) :: WStep TX false 0 :: WStep TX false 1 :: go TX 6 ++
  WCall (Oneshot.Poll 7) :: WStep RX false 1 :: go RX 6.
Example C81_cells_case :
  oacc o_send = [(RX, ARead Relaxed 0); (RX, AUpd Acquire 0); (RX, ACell CRxW true); (RX, AUpd AcqRel 1);
    (TX, ACell (CBuf 0) true); (TX, ARead Acquire 1); (TX, ARead Acquire 2); (TX, AUpd AcqRel 2); (TX, ACell CRxW true);
    (RX, ARead Relaxed 2); (RX, ARead Relaxed 3); (RX, AUpd Acquire 3); (RX, ACell (CBuf 0) true)].
Proof. vm_compute. reflexivity. Qed.

(** ** C82: the pulse channel *)

Definition p_drops : list (wact Pulse.pop) :=
  WCall (Pulse.PollCanceled 5) :: go TX 4 ++ WCall Pulse.DropRx :: go RX 5 ++ WCall Pulse.DropTx :: go TX 4.
(** As [C81_free_race_refuted]. *)
Theorem C82_free_race_refuted : exists bits l, (5 < bits)%N /\ racing cell_free (pacc bits l).
Proof.
  exists 32%N, p_drops. split; [reflexivity|].
  apply (raceb_racing _ _ 5 8 RX TX (ACell CTxW true) AFree); [vm_compute; reflexivity..| |vm_compute; reflexivity].
  split; eauto.
Qed.
Print Assumptions C82_free_race_refuted.

(** In every execution, for every word width, accesses to the error and to both wakers
    that could conflict are ordered.  Missing: the freeing. *)
Theorem C82_cells_partial : forall bits l, ~ racing clash (pacc bits l).
Proof. exact WeakPulse.pulse_cells. Qed.
Print Assumptions C82_cells_partial.

(** The receiver waits, the sender wakes it twice and sends an error, which is received. *)
Definition p_send : list (wact Pulse.pop) :=
  WCall (Pulse.PollNext 7) :: go RX 5 ++ WCall (Pulse.Send 3) :: go TX 6 ++ WCall (Pulse.SendErr 9) :: go TX 8 ++
  WCall Pulse.TryNext :: go RX 6 ++ WCall Pulse.TryNext :: go RX 6.
Example C82_cells_case :
  pacc 32 p_send = [(RX, ARead Relaxed 0); (RX, AUpd Acquire 0); (RX, ACell CRxW true); (RX, AUpd AcqRel 1);
    (TX, ARead Acquire 2); (TX, AUpd Acquire 2); (TX, ACell CRxW false);
    (TX, ACell CErr true); (TX, ARead Acquire 3); (TX, AUpd AcqRel 3); (TX, ACell CRxW true);
    (RX, ARead Relaxed 4); (RX, AUpd Acquire 4); (RX, ARead Relaxed 5); (RX, AUpd Relaxed 5);
    (RX, ARead Relaxed 6); (RX, AUpd Acquire 6); (RX, ACell CErr true)].
Proof. vm_compute. reflexivity. Qed.

(** ** C83: the ring *)

Definition r_drops : list (wact Ring.rop) :=
  WCall (Ring.PollClose 5) :: go TX 4 ++ WCall Ring.DropRx :: go RX 5 ++ WCall Ring.DropTx :: go TX 4.
(** As [C81_free_race_refuted]. *)
Theorem C83_free_race_refuted : exists bits cap l, RingMain.fits bits cap /\ racing cell_free (racc bits cap l).
Proof.
  exists 32%N, 2%N, r_drops. split; [vm_compute; repeat split; discriminate|].
  apply (raceb_racing _ _ 5 8 RX TX (ACell CTxW true) AFree); [vm_compute; reflexivity..| |vm_compute; reflexivity].
  split; eauto.
Qed.
Print Assumptions C83_free_race_refuted.

(** Two values are sent, one is received, another is sent.  The calls do not overlap
    (so C38 does not apply), but nothing orders the read of the slot before the write
    that reuses it: the receiver claims the slot before it reads, and never releases. *)
Definition r_wrap : list (wact Ring.rop) :=
  WCall (Ring.TrySend 7) :: go TX 4 ++ WCall (Ring.TrySend 8) :: go TX 4 ++
  WCall Ring.TryNext :: go RX 4 ++ WCall (Ring.TrySend 9) :: go TX 4.
Theorem C83_buffer_race_refuted : exists bits cap l, RingMain.fits bits cap /\ racing clash (racc bits cap l).
Proof.
  exists 32%N, 2%N, r_wrap. split; [vm_compute; repeat split; discriminate|].
  apply (raceb_racing _ _ 8 10 RX TX (ACell (CBuf 0) true) (ACell (CBuf 0) true)); [vm_compute; reflexivity..| |vm_compute; reflexivity].
  split; auto.
Qed.
Print Assumptions C83_buffer_race_refuted.

(** The channel is full and closed while the sender registers in poll_ready: the receiver
    looks at the waker that the sender takes back. *)
Definition r_waker : list (wact Ring.rop) :=
  WCall (Ring.TrySend 7) :: go TX 4 ++ WCall (Ring.TrySend 8) :: go TX 4 ++ WCall (Ring.PollReady 5) :: go TX 2 ++
  WCall Ring.Close :: go RX 3 ++ go TX 2 ++ WCall Ring.TryNext :: go RX 5 ++ go TX 3.
Theorem C83_waker_race_refuted : exists bits cap l, RingMain.fits bits cap /\
  racing (fun a b => clash a b /\ exists w, a = ACell CTxW w) (racc bits cap l).
Proof.
  exists 32%N, 2%N, r_waker. split; [vm_compute; repeat split; discriminate|].
  apply (raceb_racing _ _ 16 17 RX TX (ACell CTxW false) (ACell CTxW true)); [vm_compute; reflexivity..| |vm_compute; reflexivity].
  split; [split; auto|eauto].
Qed.
Print Assumptions C83_waker_race_refuted.

(** In every execution, accesses to the error and to the receiver's waker that could
    conflict are ordered; so are those to the sender's waker if close is never called.
    Missing: see the three theorems above. *)
Theorem C83_cells_partial : forall bits cap l, (6 <= bits)%N ->
  ~ racing (fun a b => clash a b /\ exists c w, a = ACell c w /\ (c = CErr \/ c = CRxW)) (racc bits cap l).
Proof.
  intros bits cap l B (i & j & s & t & a & b & N & Ei & Ej & (C & c & w & Ea & Ec) & H1 & H2).
  apply (WeakRing.ring_cells bits cap B false l).
  - apply Forall_forall. intros [] _; cbn; auto. unfold WeakRing.may_call. discriminate.
  - exists i, j, s, t, a, b. repeat (split; auto). exists c, w. split; auto. destruct Ec as [-> | ->]; reflexivity.
Qed.
Print Assumptions C83_cells_partial.

Theorem C83_waker_partial : forall bits cap l, (6 <= bits)%N -> ~ In (WCall Ring.Close) l ->
  ~ racing (fun a b => clash a b /\ exists w, a = ACell CTxW w) (racc bits cap l).
Proof.
  intros bits cap l B X (i & j & s & t & a & b & N & Ei & Ej & (C & w & Ea) & H1 & H2).
  apply (WeakRing.ring_cells bits cap B true l).
  - apply Forall_forall. intros [] I; cbn; auto. intros _ ->. contradiction.
  - exists i, j, s, t, a, b. repeat (split; auto). exists CTxW, w. auto.
Qed.
Print Assumptions C83_waker_partial.

(** The same without close: the sender registers, the receiver wakes it twice. *)
Definition r_wakes : list (wact Ring.rop) :=
  WCall (Ring.TrySend 7) :: go TX 4 ++ WCall (Ring.TrySend 8) :: go TX 4 ++ WCall (Ring.PollReady 5) :: go TX 5 ++
  WCall Ring.TryNext :: go RX 8 ++ WCall Ring.DropRx :: go RX 9.
Example C83_waker_case :
  ~ In (WCall Ring.Close) r_wakes /\
  filter (fun e => match snd e with ACell CTxW _ => true | _ => false end) (racc 32 2 r_wakes) =
    [(TX, ACell CTxW true); (RX, ACell CTxW false); (RX, ACell CTxW true)].
Proof. split; [|vm_compute; reflexivity]. cbn. intuition discriminate. Qed.

(** The receiver's waker is written by the receiver, looked at and taken by the sender;
    the error is written by the sender and taken by the receiver. *)
Definition r_send : list (wact Ring.rop) :=
  WCall (Ring.PollNext 7) :: go RX 5 ++ WCall (Ring.TrySend 3) :: go TX 6 ++ WCall (Ring.SendErr 9) :: go TX 8 ++
  WCall Ring.TryNext :: go RX 8 ++ WCall Ring.TryNext :: go RX 6.
Example C83_cells_case :
  filter (fun e => match snd e with ACell (CErr | CRxW) _ => true | _ => false end) (racc 32 2 r_send) =
    [(RX, ACell CRxW true); (TX, ACell CRxW false); (TX, ACell CErr true); (TX, ACell CRxW true); (RX, ACell CErr true)].
Proof. vm_compute. reflexivity. Qed.

(** The calls of the schedule that send a value. *)
Definition sending (a : wact Ring.rop) : bool :=
  match a with WCall (Ring.TrySend _ | Ring.StartSend _ | Ring.SendOver _) => true | _ => false end.
Lemma sending_spends : sending = spends WeakSlots.spend.
Proof. reflexivity. Qed.

(** A ring of which no slot is used twice, because at most [cap] values are sent: if the
    receiver is not dropped, accesses to the slots that could conflict are ordered; if it
    is not closed either, no two accesses to any cell race.
    Missing: slots used again and the receiver's destructor, for which see
    [C83_buffer_race_refuted] and [C38_preempted_drop_refuted]. *)
Theorem C83_slots_partial : forall bits cap l, RingMain.fits bits cap -> ~ In (WCall Ring.DropRx) l ->
  length (filter sending l) <= N.to_nat cap ->
  ~ racing (fun a b => clash a b /\ exists i w, a = ACell (CBuf i) w) (racc bits cap l).
Proof.
  intros bits cap l F D L (i & j & s & t & a & b & N & Ei & Ej & (C & n & w & Ea) & H1 & H2).
  apply (WeakSlots.ring_slots bits cap F l).
  - apply Forall_forall. intros [] I; cbn; auto. unfold WeakSlots.may_call. intros ->. contradiction.
  - exact L.
  - exists i, j, s, t, a, b. repeat (split; auto). exists (CBuf n), w. auto.
Qed.
Print Assumptions C83_slots_partial.
Theorem C83_few_partial : forall bits cap l, RingMain.fits bits cap -> ~ In (WCall Ring.DropRx) l -> ~ In (WCall Ring.Close) l ->
  length (filter sending l) <= N.to_nat cap -> ~ racing clash (racc bits cap l).
Proof.
  intros bits cap l F D X L (i & j & s & t & a & b & N & Ei & Ej & C & H1 & H2).
  destruct a as [| |c w|]; try contradiction. destruct c as [n| | |].
  - apply (C83_slots_partial bits cap l F D L). exists i, j, s, t, (ACell (CBuf n) w), b. repeat (split; auto). eauto.
  - apply (C83_cells_partial bits cap l (proj1 F)). exists i, j, s, t, (ACell CErr w), b. repeat (split; auto). eauto.
  - apply (C83_cells_partial bits cap l (proj1 F)). exists i, j, s, t, (ACell CRxW w), b. repeat (split; auto). eauto.
  - apply (C83_waker_partial bits cap l (proj1 F) X). exists i, j, s, t, (ACell CTxW w), b. repeat (split; auto). eauto.
Qed.
Print Assumptions C83_few_partial.

(** All slots are used, one is read while another is written, and the sender waits. *)
Definition r_few : list (wact Ring.rop) :=
  WCall (Ring.PollNext 7) :: go RX 5 ++ WCall (Ring.TrySend 3) :: go TX 6 ++ WCall (Ring.SendOver 4) :: go TX 2 ++
  WCall Ring.TryNext :: go RX 2 ++ go TX 6 ++ WCall (Ring.PollFlush 5) :: go TX 4 ++ go RX 4 ++ WCall (Ring.PollNext 8) :: go RX 8 ++
  WCall (Ring.SendErr 9) :: go TX 6 ++ WCall Ring.TryNext :: go RX 6.
Example C83_few_case :
  RingMain.fits 32 2 /\ ~ In (WCall Ring.DropRx) r_few /\ ~ In (WCall Ring.Close) r_few /\ length (filter sending r_few) = 2 /\
  filter (fun e => match snd e with ACell (CBuf _) _ => true | _ => false end) (racc 32 2 r_few) =
    [(TX, ACell (CBuf 0) true); (TX, ACell (CBuf 1) true); (RX, ACell (CBuf 0) true); (RX, ACell (CBuf 1) true)].
Proof.
  split; [vm_compute; repeat split; discriminate|]. split; [cbn; intuition discriminate|]. split; [cbn; intuition discriminate|].
  vm_compute. auto.
Qed.

(** ** C84: what the users observe *)

(** The weak execution [x] and the sequential one [y] are the same for each half, and
    leave the same memory behind. *)
Definition alike {O R} (side_of : O -> side) (x : wsys O R) (y : sys O R) : Prop :=
  (forall s, hist side_of s (calls (wlog x)) = hist side_of s (slog y)) /\
  wt (wtx x) = stx y /\ wt (wrx x) = srx y /\
  hd 0%N (whist x) = st (smem y) /\ forall c, wcells x c = cells (smem y) c.

Definition owrun := wrun Oneshot.oside Oneshot.oconsuming Oneshot.ocode.
Definition pwrun bits := wrun Pulse.pside Pulse.pconsuming (Pulse.pcode bits).
Definition rwrun bits cap := wrun Ring.rside Ring.rconsuming (Ring.rcode bits cap).

(** Every execution of a oneshot on the weak memory is, for each half, the same as one in
    which all accesses happen one after the other: same calls, results, wakeups and
    destroyed values in the same order. *)
Theorem C84_oneshot : forall l, exists sched, alike Oneshot.oside (owrun l) (Oneshot.orun true sched).
Proof.
  intros l. destruct (weak_sc Oneshot.oside Oneshot.oconsuming Oneshot.ocode l) as (sched & A & B & C & D).
  { intros n. apply WeakOneshot.oneshot_cells. }
  exists sched. split; [exact A|]. split; [exact (B TX)|]. split; [exact (B RX)|]. split; [exact C|exact D].
Qed.
Print Assumptions C84_oneshot.

Theorem C84_pulse : forall bits l, exists sched, alike Pulse.pside (pwrun bits l) (Pulse.prun bits true sched).
Proof.
  intros bits l. destruct (weak_sc Pulse.pside Pulse.pconsuming (Pulse.pcode bits) l) as (sched & A & B & C & D).
  { intros n. apply WeakPulse.pulse_cells. }
  exists sched. split; [exact A|]. split; [exact (B TX)|]. split; [exact (B RX)|]. split; [exact C|exact D].
Qed.
Print Assumptions C84_pulse.

(** For the ring, only executions without data races at any moment (C83). *)
Theorem C84_ring_partial : forall bits cap l, (forall n, ~ racing clash (racc bits cap (firstn n l))) ->
  exists sched, alike Ring.rside (rwrun bits cap l) (Ring.rrun bits cap true sched).
Proof.
  intros bits cap l H. destruct (weak_sc Ring.rside Ring.rconsuming (Ring.rcode bits cap) l H) as (sched & A & B & C & D).
  exists sched. split; [exact A|]. split; [exact (B TX)|]. split; [exact (B RX)|]. split; [exact C|exact D].
Qed.
Print Assumptions C84_ring_partial.

(** The sender sees an old value of the state word: is_canceled returns false although
    close has returned on the other core.  In the sequential execution it comes first. *)
Definition o_old : list (wact Oneshot.oop) :=
  WCall Oneshot.Close :: go RX 3 ++ WCall Oneshot.IsCanceled :: WStep TX false 1 :: go TX 1.
Definition o_first : list (act Oneshot.oop) :=
  Call Oneshot.IsCanceled :: repeat (Step TX false) 2 ++ Call Oneshot.Close :: repeat (Step RX false) 3.
Example C84_oneshot_case :
  calls (wlog (owrun o_old)) = [EInv Oneshot.Close; ERet Oneshot.Close Oneshot.RUnit;
                                EInv Oneshot.IsCanceled; ERet Oneshot.IsCanceled (Oneshot.RBool false)] /\
  visible (slog (Oneshot.orun true o_first)) =
    [EInv Oneshot.IsCanceled; ERet Oneshot.IsCanceled (Oneshot.RBool false); EInv Oneshot.Close; ERet Oneshot.Close Oneshot.RUnit] /\
  forall s, hist Oneshot.oside s (calls (wlog (owrun o_old))) = hist Oneshot.oside s (slog (Oneshot.orun true o_first)).
Proof. repeat split; try (vm_compute; reflexivity). intros []; vm_compute; reflexivity. Qed.

Example C84_pulse_case :
  calls (wlog (pwrun 32 p_send)) =
    [EInv (Pulse.PollNext 7); ERet (Pulse.PollNext 7) Pulse.RPending; EInv (Pulse.Send 3); EWake TX 7; ERet (Pulse.Send 3) Pulse.ROk;
     EInv (Pulse.SendErr 9); EWake TX 7; ERet (Pulse.SendErr 9) Pulse.ROk; EInv Pulse.TryNext; ERet Pulse.TryNext (Pulse.RVal 3);
     EInv Pulse.TryNext; ERet Pulse.TryNext (Pulse.RError 9)].
Proof. vm_compute. reflexivity. Qed.

(** An execution of the ring without races: two values sent, one received. *)
Definition r_two : list (wact Ring.rop) :=
  WCall (Ring.TrySend 7) :: go TX 4 ++ WCall (Ring.TrySend 8) :: go TX 4 ++ WCall Ring.TryNext :: go RX 4.
Example C84_ring_case :
  (forall n, ~ racing clash (racc 32 2 (firstn n r_two))) /\
  calls (wlog (rwrun 32 2 r_two)) =
    [EInv (Ring.TrySend 7); ERet (Ring.TrySend 7) Ring.ROk; EInv (Ring.TrySend 8); ERet (Ring.TrySend 8) Ring.ROk;
     EInv Ring.TryNext; ERet Ring.TryNext (Ring.RVal 7)].
Proof.
  split; [|vm_compute; reflexivity]. intros n. apply freeb_free.
  do 15 (destruct n as [|n]; [vm_compute; reflexivity|]). unfold r_two. rewrite firstn_all2; [vm_compute; reflexivity|cbn; lia].
Qed.

(** In particular executions with at most [cap] values sent, in which the receiver is
    neither closed nor dropped. *)
Theorem C84_ring_few_partial : forall bits cap l, RingMain.fits bits cap -> ~ In (WCall Ring.DropRx) l -> ~ In (WCall Ring.Close) l ->
  length (filter sending l) <= N.to_nat cap -> exists sched, alike Ring.rside (rwrun bits cap l) (Ring.rrun bits cap true sched).
Proof.
  intros bits cap l F D X L. apply C84_ring_partial. intros n. apply C83_few_partial; auto.
  - intros I. apply D. rewrite <- (firstn_skipn n l). apply in_or_app. auto.
  - intros I. apply X. rewrite <- (firstn_skipn n l). apply in_or_app. auto.
  - rewrite <- (firstn_skipn n l), filter_app, app_length in L. lia.
Qed.
Print Assumptions C84_ring_few_partial.

(** What such a ring delivers between cores: when no call is in progress, the values
    received (with the error, if any, as the last one) are the first ones of those
    accepted, in the same order.
    Missing: as for [C83_slots_partial], and the receiver's close. *)
Theorem C84_ring_order_partial : forall bits cap l, RingMain.fits bits cap -> ~ In (WCall Ring.DropRx) l -> ~ In (WCall Ring.Close) l ->
  length (filter sending l) <= N.to_nat cap ->
  let x := rwrun bits cap l in
  let c := calls (wlog x) in
  (wt (wtx x) = Idle \/ wt (wtx x) = Gone) -> wt (wrx x) = Idle ->
  exists rest, RingSpec.outgoing c ++ rest = RingSpec.incoming c.
Proof.
  intros bits cap l F D X L x c Ht Hr. destruct (C84_ring_few_partial bits cap l F D X L) as (sched & A & B1 & B2 & _ & _).
  fold x c in A, B1, B2. set (y := Ring.rrun bits cap true sched) in *.
  destruct (WeakRingHist.run_calls bits cap l D) as (C1 & C2). fold (rwrun bits cap l) in C1, C2. fold x c in C1, C2.
  assert (S : WeakRingHist.sends (slog y) = WeakRingHist.sends c).
  { unfold WeakRingHist.sends.
    assert (H : forall m, filter WeakRingHist.sendev m = filter WeakRingHist.sendev (hist Ring.rside TX m)).
    { induction m as [|e m IH]; auto. cbn. destruct e as [o| | | | | |]; cbn; auto; [|now destruct (seqb _ _)..].
      destruct o; cbn; rewrite IH; reflexivity. }
    rewrite (H c), (H (slog y)), A. reflexivity. }
  assert (Q : existsb WeakRingHist.drops (slog y) = false).
  { rewrite <- C1. symmetry. apply (same_existsb Ring.rside _ _ A). now intros []. }
  assert (L' : (N.of_nat (WeakRingHist.sends (slog y)) <= cap)%N).
  { rewrite S. rewrite sending_spends in L. lia. }
  pose proof (WeakRingHist.few_run cap (slog y) Q L') as [R _ _ _].
  destruct (P08_Ring.C38_atomic_queue_partial bits cap true sched F) as (B & _); [exact R|].
  destruct (P08_Ring.C40_order_partial bits cap true sched F) as ((out & Sh & E) & _); [exact R|fold y; rewrite <- B1; exact Ht|left; fold y; rewrite <- B2; exact Hr|].
  fold y in Sh, E, B. rewrite (WeakRingHist.few_over cap (slog y) Q L' B) in Sh. apply WeakRingHist.shuffle_nil in Sh. subst out.
  assert (O1 : RingSpec.outgoing c = RingSpec.outgoing (slog y)).
  { assert (H : forall m, RingSpec.outgoing m = RingSpec.outgoing (hist Ring.rside RX m)).
    { induction m as [|e m IH]; auto. cbn. unfold RingSpec.outgoing in *. cbn.
      destruct e as [o|o r|s w|s w|s w|s|s]; cbn; try destruct s; cbn; try destruct o; cbn; rewrite IH; reflexivity. }
    rewrite (H c), (H (slog y)), A. reflexivity. }
  assert (O2 : RingSpec.incoming c = RingSpec.incoming (slog y)).
  { assert (H : forall m, RingSpec.incoming m = RingSpec.incoming (hist Ring.rside TX m)).
    { induction m as [|e m IH]; auto. cbn. unfold RingSpec.incoming in *. cbn.
      destruct e as [o|o r|s w|s w|s w|s|s]; cbn; try destruct s; cbn; try destruct o; cbn; rewrite IH; reflexivity. }
    rewrite (H c), (H (slog y)), A. reflexivity. }
  rewrite O1, O2, <- E. eauto.
Qed.
Print Assumptions C84_ring_order_partial.
Example C84_ring_order_case :
  let x := rwrun 32 2 r_few in
  wt (wtx x) = Gone /\ wt (wrx x) = Idle /\ RingSpec.outgoing (calls (wlog x)) = [3; 4; 9]%N /\
  RingSpec.incoming (calls (wlog x)) = [3; 4; 9]%N.
Proof. vm_compute. auto. Qed.

(** Values sent through a oneshot between cores: at most one is received, and only if it
    was sent; a sent value is received, returned or destroyed at most once, and exactly
    once when both halves are gone; it is not returned if send succeeded. *)
Theorem C84_values : forall l,
  let x := owrun l in
  let c := calls (wlog x) in
  let sent := flat_map WeakOneshotHist.e_sent c in
  let got := flat_map WeakOneshotHist.e_got c in
  let back := flat_map WeakOneshotHist.e_back c in
  let dead := flat_map WeakOneshotHist.e_dead c in
  length got <= 1 /\ incl (got ++ back ++ dead) sent /\ length (got ++ back ++ dead) <= length sent /\
  (forall v, In (ERet (Oneshot.Send v) Oneshot.ROk) c -> back = []) /\
  (wt (wtx x) = Gone -> wt (wrx x) = Gone -> Permutation sent (got ++ back ++ dead)).
Proof.
  intros l. destruct (C84_oneshot l) as (sched & A & B & C & _ & _). set (x := owrun l) in *. set (y := Oneshot.orun true sched) in *.
  pose proof (P06_Oneshot.values_ok true sched) as V. cbv zeta in V. fold y in V.
  destruct (WeakOneshotHist.values_maps (slog y)) as (M1 & M2 & M3 & M4 & M5). rewrite M1, M2, M3, M4 in V.
  destruct V as (V1 & V2 & V3 & V4 & _ & _ & V5 & _). cbv zeta.
  assert (P : forall f : ev Oneshot.oop Oneshot.ores -> list N, (forall e, ~ user e -> f e = []) ->
     Permutation (flat_map f (calls (wlog x))) (flat_map f (slog y))) by (intros f F; exact (same_perm Oneshot.oside _ _ A f F)).
  assert (P1 := P WeakOneshotHist.e_sent ltac:(intros [] H; try reflexivity; now destruct H)).
  assert (P2 := P WeakOneshotHist.e_got ltac:(intros [] H; try reflexivity; now destruct H)).
  assert (P3 := P WeakOneshotHist.e_back ltac:(intros [] H; try reflexivity; now destruct H)).
  assert (P4 := P WeakOneshotHist.e_dead ltac:(intros [] H; try reflexivity; now destruct H)).
  assert (P5 := Permutation_app P2 (Permutation_app P3 P4)).
  split; [now rewrite (Permutation_length P2)|]. split; [|split; [|split]].
  - intros v I. apply (Permutation_in _ (Permutation_sym P1)), V2, (Permutation_in _ P5 I).
  - now rewrite (Permutation_length P5), (Permutation_length P1).
  - intros v I. apply (same_in Oneshot.oside _ _ A) in I; [|exact Logic.I]. rewrite V4 in P3 by (apply M5; eauto).
    symmetry in P3. now apply Permutation_nil in P3.
  - intros Gt Gr. rewrite P5, P1. rewrite V5 by congruence. reflexivity.
Qed.
Print Assumptions C84_values.

Definition o_dead : list (wact Oneshot.oop) :=
  o_send ++ WCall Oneshot.DropRx :: go RX 5.
Example C84_values_case :
  let x := owrun o_dead in
  flat_map WeakOneshotHist.e_sent (calls (wlog x)) = [9%N] /\ flat_map WeakOneshotHist.e_got (calls (wlog x)) = [9%N] /\
  wt (wtx x) = Gone /\ wt (wrx x) = Gone.
Proof. vm_compute. repeat split. Qed.

(** A receiver that waits is woken: if the sender is gone and the receiver's last call was
    a poll that returned Pending, a waker passed to poll was woken. *)
Theorem C84_wakeup : forall l h w,
  let x := owrun l in
  wt (wtx x) = Gone -> hist Oneshot.oside RX (calls (wlog x)) = h ++ [ERet (Oneshot.Poll w) Oneshot.RPending] ->
  exists w', In (EWake TX w') (calls (wlog x)) /\
    (In (EInv (Oneshot.Poll w')) (calls (wlog x)) \/ In (ERet (Oneshot.Poll w') Oneshot.RPending) (calls (wlog x))).
Proof.
  intros l h w x G H. destruct (C84_oneshot l) as (sched & A & B & _ & _ & _). fold x in A, B. set (y := Oneshot.orun true sched) in *.
  rewrite G in B. symmetry in B. destruct (WeakOneshotHist.wakeups_hist (slog y)) as (K1 & _ & _ & K4).
  assert (K : OneshotSpec.k_pend (OneshotSpec.receiver_wakeups (slog y)) = true).
  { rewrite K1. rewrite <- (same_fold Oneshot.oside _ _ A WeakOneshotHist.pend_step RX false).
    - assert (X : forall (f : bool -> ev Oneshot.oop Oneshot.ores -> bool) l b, (forall b e, ev_of Oneshot.oside RX e = false -> f b e = b) ->
        fold_left f l b = fold_left f (hist Oneshot.oside RX l) b).
      { intros f l0 b F. revert b. induction l0 as [|e l0 IH]; intros b; cbn; auto.
        destruct (ev_of Oneshot.oside RX e) eqn:E; cbn; rewrite <- IH; auto. now rewrite F. }
      rewrite X, H, fold_left_app; [reflexivity|]. now intros b [[]|[] []| | | | |].
    - now intros b [[]|[] []| | | | |]. }
  specialize (K4 (WeakOneshotHist.woken_gone true sched B K)). destruct K4 as (w' & P & Q). exists w'.
  split; [now apply (same_in Oneshot.oside _ _ A)|]. destruct P; [left|right]; now apply (same_in Oneshot.oside _ _ A).
Qed.
Print Assumptions C84_wakeup.

(** The sender is dropped while the receiver registers. *)
Definition o_wake : list (wact Oneshot.oop) :=
  WCall (Oneshot.Poll 7) :: go RX 3 ++ WCall Oneshot.DropTx :: go TX 1 ++ go RX 2 ++ WStep TX false 0 :: go TX 4.
Example C84_wakeup_case :
  wt (wtx (owrun o_wake)) = Gone /\ calls (wlog (owrun o_wake)) =
    [EInv (Oneshot.Poll 7); EInv Oneshot.DropTx; ERet (Oneshot.Poll 7) Oneshot.RPending; EWake TX 7; ERet Oneshot.DropTx Oneshot.RUnit].
Proof. vm_compute. repeat split. Qed.

(** Pulses sent between cores: never more are received than were sent, none are lost, none
    reported as cancelled before close or the receiver's destructor is called.
    The pending ones are those counted in the state word. *)
Theorem C84_pulses : forall bits l, (5 < bits)%N ->
  let x := pwrun bits l in
  let c := calls (wlog x) in
  P07_Pulse.saturates c = false ->
  (P07_Pulse.received c <= P07_Pulse.accepted c + P07_Pulse.canceled c + P07_Pulse.sending c)%N /\
  (P07_Pulse.closing c = false -> P07_Pulse.canceled c = 0%N) /\
  (wt (wtx x) = Idle \/ wt (wtx x) = Gone -> wt (wrx x) = Idle \/ wt (wrx x) = Gone ->
   (P07_Pulse.accepted c + P07_Pulse.canceled c = P07_Pulse.received c + N.shiftr (hd 0%N (whist x)) 5)%N).
Proof.
  intros bits l Hb. destruct (C84_pulse bits l) as (sched & A & B & C & D & _). set (x := pwrun bits l) in *. cbv zeta.
  pose proof (P07_Pulse.conservation bits true sched Hb) as V. pose proof (WeakPulseHist.pend_count bits true sched Hb) as W. cbv zeta in V, W.
  destruct (WeakPulseHist.same_totals _ _ A) as (-> & -> & -> & -> & -> & ->). intros S. specialize (V S). destruct V as (V1 & V2 & V3).
  split; auto. split; auto. rewrite B, C, D. rewrite W in V3. exact V3.
Qed.
Print Assumptions C84_pulses.

Example C84_pulses_case :
  let c := calls (wlog (pwrun 32 (WCall Pulse.TryNext :: go RX 1 ++ WCall (Pulse.Send 3) :: go TX 4 ++ WStep RX false 1 :: go RX 4 ++
                                 WCall (Pulse.Send 2) :: go TX 4))) in
  P07_Pulse.saturates c = false /\ P07_Pulse.accepted c = 5%N /\ P07_Pulse.received c = 3%N.
Proof. vm_compute. repeat split. Qed.
