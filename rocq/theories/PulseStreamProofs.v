(** Every execution of a pulse stream. *)
Require Import PeanoNat NArith List Bool Lia.
Require Import Verif.Spsc Verif.Pulse Verif.PulseSpec
  Verif.Fiber Verif.FiberSpec Verif.FiberProofs Verif.FutureProofs.
Require Verif.P07_Pulse Verif.RingStreamProofs.
Import ListNotations.
Open Scope N_scope.

Definition pshape (o : pop) (r : pres) : Prop :=
  match o with
  | IsCanceled => exists b, r = RBool b
  | Send _ => r = ROk \/ r = RFull \/ r = RClosed
  | SendErr _ => r = ROk \/ exists v, r = RBack v
  | Close | DropRx | DropTx => r = RUnit
  | _ => True
  end.
Lemma leaves_true {R} (P : R -> Prop) (p : prog R) : (forall r, P r) -> leaves P p.
Proof. intros H. induction p; cbn; auto. Qed.
Lemma pcode_shape bits o : leaves (pshape o) (pcode bits o).
Proof.
  destruct o; try (apply leaves_true; exact (fun _ => I)); cbn [pcode]; unfold send, send_err, drop_tx, close, drop_rx, notify, is_canceled; cbn; intros;
    repeat (match goal with
      | |- context [if ?b then _ else _] => destruct b
      | |- context [match checked_add ?a ?b ?c with _ => _ end] => destruct (checked_add a b c) end; cbn; intros); eauto 6.
Qed.

Section Stream.
  Variable bits : N.
  Variable at_ : bool.
  Variable sat : bool.
  Hypothesis Hbits : 5 < bits.
  Notation log := (list pfev).
  Notation sta := (stable (R := pres) (Y := option N) (C := (option N + N)%type) pside pulse_api).
  Notation drv := (driving (R := pres) (Y := option N) (C := (option N + N)%type) pclose).

  Definition Kp (l : list pev) : Prop := exists sc, l = slog (prun bits at_ sc) /\ uaf (smem (prun bits at_ sc)) = false.
  Lemma Kp_sender l : Kp l -> c_bad (sender_wakeups l) = false /\ c_spur (sender_wakeups l) = false.
  Proof. intros (sc & -> & U). destruct (P07_Pulse.C65_cancellation bits at_ sc Hbits U) as (_ & A & B). auto. Qed.
  Lemma Kp_receiver l : Kp l -> k_badp (receiver_wakeups l) = false.
  Proof. intros (sc & -> & U). apply (P07_Pulse.C36_receiver_woken bits at_ sc Hbits U). Qed.
  Lemma last_shape (l : log) o r : Kp (channel (l ++ [FCh (ERet o r)])) -> pshape o r.
  Proof.
    intros (sc & E & _). pose proof (shaped_run pside pconsuming (pcode bits) at_ pshape (pcode_shape bits) sc) as H.
    change (run pside pconsuming (pcode bits) at_ sys0 sc) with (prun bits at_ sc) in H. rewrite <- E, ch_snoc in H.
    apply Forall_app in H. destruct H as [_ H]. now inversion_clear H.
  Qed.

  Notation late l := (c_late (sender_wakeups (channel l))).
  Notation rwk l := (receiver_wakeups (channel l)).

  Lemma c_rel (l : log) : c_closed (sender_wakeups (channel l)) = d_closed (drv l) /\ c_begun (sender_wakeups (channel l)) = d_begun (drv l).
  Proof.
    induction l as [|e l IH] using rev_ind; [split; reflexivity|].
    rewrite driving_snoc. destruct (drv l) as [i r lt dn er en ru ys bg cl bad]. cbn in IH.
    destruct e as [| | [] | | [] | | |e]; try (rewrite ch_other by exact I; exact IH).
    rewrite ch_snoc. unfold sender_wakeups in *. rewrite fold_snoc.
    destruct (fold_left cstep (channel l) cwake0) as [? ? ? ? ? ? ? ? ?]. cbn in IH. destruct IH as [-> ->].
    destruct e as [[]|[] [| | | | |[]| | | | | |]|[]| | | |]; cbn; rewrite ?orb_false_r, ?orb_true_r; auto.
  Qed.
  Lemma p_rel (l : log) : p_end (pulse_end l) = d_ended (drv l).
  Proof.
    induction l as [|e l IH] using rev_ind; [reflexivity|]. unfold pulse_end in *. rewrite fold_snoc, driving_snoc.
    destruct (drv l) as [i r lt dn er en ru ys bg cl bad]. cbn in IH.
    destruct e as [| |[]| |[]| | |[[]|[] []| | | | |]]; cbn; auto.
  Qed.

  Definition lastop (o : pop) : bool := match o with SendErr _ | DropTx => true | _ => false end.
  Definition einv (l : list pev) : bool := existsb (fun e => match e with EInv o => lastop o | _ => false end) l.
  Lemma einv_snoc l e : einv (l ++ [e]) = einv l || match e with EInv o => lastop o | _ => false end.
  Proof. unfold einv. rewrite existsb_app. cbn. now rewrite orb_false_r. Qed.

  (** What has become of the packs and the errors. *)
  Definition hnd (f : list N) (l : log) : Prop := if sat then handed l = [] else fulls (channel l) = handed l ++ f.
  Definition acc (p e f : list N) (l : log) : Prop :=
    (packs l = sends (channel l) ++ p /\ failures l = v_sent (errors (channel l)) ++ e) /\
    P07_Pulse.saturates (channel l) = false /\ hnd f l /\ (einv (channel l) = true -> p = [] /\ e = []).
  (** The sending half still exists. *)
  Definition fresh (l : log) : Prop := einv (channel l) = false.

  Record ok (l : log) : Prop := {
    k_bad : d_bad (drv l) = false;
    k_acc : exists p e f, (length p <= 1)%nat /\ (length e <= 1)%nat /\ (length f <= 1)%nat /\ acc p e f l;
    k_dn : d_ended (drv l) = true -> k_done (rwk l) = true;
    k_ei : k_begun (rwk l) = true -> d_done (drv l) = true \/ d_err (drv l) = true \/ d_begun (drv l) = true;
    k_lt : p_late (pulse_end l) = true -> PulseSpec.k_late (rwk l) = true;
    k_ms : p_miss (pulse_end l) = true -> k_badp (rwk l) = true
  }.
  Definition psus (l : log) := (exists r n, dr pclose false r false false false false n n l) /\ acc [] [] [] l /\ fresh l.
  Definition pend (l : log) := d_ended (drv l) = true /\ acc [] [] [] l.

  Lemma vs_snoc (c : list pev) e : v_sent (errors (c ++ [e])) = v_sent (errors c) ++ match e with EInv (SendErr v) => [v] | _ => [] end.
  Proof.
    unfold errors. rewrite fold_snoc. destruct (fold_left vstep c vals0).
    destruct e as [[]|[] [| | | | |[]| | | | | |]| | | | |]; cbn; rewrite ?app_nil_r; auto.
  Qed.
  Definition plain (e : pev) : Prop :=
    match e with
    | EInv o => match o with SendErr _ | SatSend _ | DropTx => False | _ => True end
    | ERet o _ => match o with Send _ | SatSend _ => False | _ => True end
    | _ => True end.
  Lemma acc_ch p e f l x : plain x -> acc p e f l -> acc p e f (l ++ [FCh x]).
  Proof.
    intros Q ((A1 & A2) & A3 & A4 & A5). unfold acc, hnd, packs, failures, handed, sends, fulls, P07_Pulse.saturates in *.
    rewrite ch_snoc, vs_snoc, einv_snoc, !flat_map_app, existsb_app, A3. cbn.
    destruct x as [[]|[] []| | | | |]; try contradiction; cbn; rewrite ?app_nil_r, ?orb_false_r; auto 6.
  Qed.
  Lemma acc_drop l : acc [] [] [] l -> acc [] [] [] (l ++ [FCh (EInv DropTx)]).
  Proof.
    intros ((A1 & A2) & A3 & A4 & A5). unfold acc, hnd, packs, failures, handed, sends, fulls, P07_Pulse.saturates in *.
    rewrite ch_snoc, vs_snoc, einv_snoc, !flat_map_app, existsb_app, A3. cbn. rewrite ?app_nil_r in *. rewrite orb_true_r in *. auto 8.
  Qed.
  Lemma acc_sta p e f : sta (acc p e f).
  Proof. intros l x Q. destruct x; try contradiction Q. apply acc_ch. destruct e0 as [[]|[]| | | | |]; cbn in *; auto; destruct Q; discriminate. Qed.
  Lemma acc_other p e f l x : (match x with FRun | FResume | FYield | FEnd | FOverRet None | FOut (Yielded None) | FOut (Complete (inl None)) => True | _ => False end) ->
    acc p e f l -> acc p e f (l ++ [x]).
  Proof.
    intros Q H. unfold acc, hnd, packs, failures, handed in *. rewrite ch_other by (destruct x; try contradiction; exact I).
    rewrite !flat_map_app. destruct x as [| |[[]|[[]|]]| |[]| | |]; try contradiction; cbn; rewrite !app_nil_r; auto.
  Qed.
  Lemma acc_out f l x v : (match x with FOut (Yielded (Some w)) | FOut (Complete (inl (Some w))) => w = v | _ => False end) ->
    fresh l -> acc [] [] f l -> acc [v] [] f (l ++ [x]).
  Proof.
    intros Q Hf ((A1 & A2) & A3 & A4 & A5). unfold fresh, acc, hnd, packs, failures, handed in *. rewrite ch_other by (destruct x; try contradiction; exact I).
    rewrite !flat_map_app, A1, A2. destruct x as [| |[[]|[[]|]]| |[]| | |]; try contradiction; subst; cbn; rewrite !app_nil_r; repeat split; auto; intros; congruence.
  Qed.
  Lemma acc_err f l x v : (match x with FOverRet (Some w) | FOut (Complete (inr w)) => w = v | _ => False end) ->
    fresh l -> acc [] [] f l -> acc [] [v] f (l ++ [x]).
  Proof.
    intros Q Hf ((A1 & A2) & A3 & A4 & A5). unfold fresh, acc, hnd, packs, failures, handed in *. rewrite ch_other by (destruct x; try contradiction; exact I).
    rewrite !flat_map_app, A1, A2. destruct x as [| |[[]|[[]|]]| |[]| | |]; try contradiction; subst; cbn; rewrite !app_nil_r; repeat split; auto; intros; congruence.
  Qed.
  Lemma acc_over l v : sat = false -> acc [] [] [v] l -> acc [] [] [] (l ++ [FOver v]).
  Proof.
    intros Ek ((A1 & A2) & A3). unfold acc, hnd, packs, failures, handed in *. rewrite Ek in *. rewrite ch_other by exact I.
    rewrite !flat_map_app, A1, A2. cbn. rewrite !app_nil_r. auto.
  Qed.
  Lemma acc_sent l n r : acc [n] [] [] l -> pshape (Send n) r ->
    acc [] [] (match r with RFull => if sat then [] else [n] | _ => [] end) (l ++ [FCh (ERet (Send n) r)]).
  Proof.
    intros ((A1 & A2) & A3 & A4 & A5) T. unfold acc, hnd, packs, failures, handed, sends, fulls, P07_Pulse.saturates in *.
    rewrite ch_snoc, vs_snoc, !flat_map_app, existsb_app, A1, A2, A3. cbn.
    destruct T as [->|[->| ->]]; cbn; rewrite ?app_nil_r; repeat split; destruct sat; rewrite ?A4, ?app_nil_r; auto.
  Qed.
  Lemma acc_fail l v : acc [] [v] [] l -> acc [] [] [] (l ++ [FCh (EInv (SendErr v))]).
  Proof.
    intros ((A1 & A2) & A3 & A4 & A5). unfold acc, hnd, packs, failures, handed, sends, fulls, P07_Pulse.saturates in *.
    rewrite ch_snoc, vs_snoc, !flat_map_app, existsb_app, A1, A2, A3. cbn. rewrite ?app_nil_r in *. repeat split; auto.
  Qed.

  Lemma fresh_sta : sta fresh.
  Proof.
    intros l x Q H. destruct x; try contradiction Q. unfold fresh in *. rewrite ch_snoc, einv_snoc, H. destruct e as [[]|[]| | | | |]; auto; destruct Q; discriminate.
  Qed.
  Lemma fresh_ch l x : match x with EInv o => lastop o = false | _ => True end -> fresh l -> fresh (l ++ [FCh x]).
  Proof. intros Q H. unfold fresh in *. rewrite ch_snoc, einv_snoc, H. destruct x; auto. Qed.
  Lemma fresh_other l x : match x with FCh _ => False | _ => True end -> fresh l -> fresh (l ++ [x]).
  Proof. intros Q H. unfold fresh in *. now rewrite ch_other. Qed.
  Definition legal (x : pev) : Prop := match x with EInv o | ERet o _ => match o with TryNext | IsTerminated => False | _ => True end | _ => True end.
  Lemma ok_ch l x p e f : (length p <= 1)%nat -> (length e <= 1)%nat -> (length f <= 1)%nat -> acc p e f (l ++ [FCh x]) ->
    legal x ->
    (match x with
     | EInv o => lastop o = true -> d_done (drv l) = true \/ d_err (drv l) = true \/ d_begun (drv l) = true
     | _ => True end) ->
    ok l -> ok (l ++ [FCh x]).
  Proof.
    intros L1 L2 L3 Ha Lg Q [H1 H2 H3 H4 H5 H6].
    assert (d_bad (drv (l ++ [FCh x])) = d_bad (drv l) /\ d_done (drv (l ++ [FCh x])) = d_done (drv l) /\
      d_ended (drv (l ++ [FCh x])) = d_ended (drv l) /\ d_err (drv (l ++ [FCh x])) = d_err (drv l) /\
      (d_begun (drv l) = true -> d_begun (drv (l ++ [FCh x])) = true)) as (E1 & E2 & E3 & E4 & E5).
    { rewrite driving_snoc. destruct (drv l). destruct x; cbn; repeat split; auto. now intros ->. }
    pose proof (p_rel l) as Er.
    constructor; rewrite ?E1, ?E2, ?E3, ?E4; auto.
    - exists p, e, f. auto.
    - intros D. specialize (H3 D). rewrite ch_snoc. unfold receiver_wakeups in *. rewrite fold_snoc.
      destruct (fold_left kstep (channel l) rwake0). cbn in H3. subst. destruct x as [[]|[] []|[]| | | |]; reflexivity.
    - assert (k_begun (rwk l) = true -> d_done (drv l) = true \/ d_err (drv l) = true \/ d_begun (drv (l ++ [FCh x])) = true) as G
        by (intros D; destruct (H4 D) as [?|[?|?]]; auto).
      rewrite ch_snoc. unfold receiver_wakeups in *. rewrite fold_snoc. destruct (fold_left kstep (channel l) rwake0). cbn in G.
      destruct x as [[]|[] []|[]| | | |]; try exact G; intros _; try (destruct (Q eq_refl) as [?|[?|?]]; auto; fail).
      right. right. rewrite driving_snoc. destruct (drv l). cbn. apply orb_true_r.
    - rewrite ch_snoc. unfold receiver_wakeups, pulse_end in *. rewrite !fold_snoc. destruct (fold_left kstep (channel l) rwake0). 
      destruct (fold_left pendstep l (Ending false false false)). cbn in H3, H5, Er.
      destruct x as [[]|[] []|[]| | | |]; try contradiction Lg; cbn; auto; try discriminate. intros D. rewrite H3; auto. congruence.
    - rewrite ch_snoc. unfold receiver_wakeups, pulse_end in *. rewrite !fold_snoc. destruct (fold_left kstep (channel l) rwake0). 
      destruct (fold_left pendstep l (Ending false false false)). cbn in H5, H6, Er.
      destruct x as [[]|[] []|[]| | | |]; try contradiction Lg; cbn; auto; try discriminate; try (intros D; rewrite H6; auto; fail).
      intros [D|D]%orb_prop; [rewrite H6|rewrite H5]; auto using orb_true_r.
  Qed.
  Lemma ok_quiet l e : quiet pside pulse_api e -> ok l -> Kp (channel (l ++ [e])) -> ok (l ++ [e]).
  Proof.
    intros Q H Hk. destruct e; try contradiction Q. destruct (k_acc _ H) as (p & e' & f & L1 & L2 & L3 & A).
    apply (ok_ch l e p e' f); auto.
    - now apply (acc_sta p e' f l (FCh e)).
    - destruct e as [[]|[]| | | | |]; cbn in *; auto; destruct Q; discriminate.
    - destruct e as [[]| | | | | |]; auto; destruct Q; discriminate.
  Qed.
  Lemma ok_other l x p e f : (length p <= 1)%nat -> (length e <= 1)%nat -> (length f <= 1)%nat -> acc p e f (l ++ [x]) ->
    match x with FCh _ => False | FEnd => k_done (rwk l) = true | _ => True end ->
    d_bad (drv (l ++ [x])) = false -> ok l -> ok (l ++ [x]).
  Proof.
    intros L1 L2 L3 Ha Q E [H1 H2 H3 H4 H5 H6].
    assert (channel (l ++ [x]) = channel l) as Ec by (apply ch_other; destruct x; auto; contradiction).
    constructor; rewrite ?Ec; auto.
    - exists p, e, f. auto.
    - rewrite driving_snoc. destruct (drv l). destruct x as [| |[]| |[]| | |]; try contradiction; auto.
    - intros D. specialize (H4 D). rewrite driving_snoc. destruct (drv l). destruct x as [| |[]| |[]| | |]; try contradiction; cbn in *; auto.
    - unfold pulse_end in *. rewrite fold_snoc. destruct (fold_left pendstep l (Ending false false false)). destruct x as [| |[]| |[]| | |]; try contradiction; auto.
    - unfold pulse_end in *. rewrite fold_snoc. destruct (fold_left pendstep l (Ending false false false)). destruct x as [| |[]| |[]| | |]; try contradiction; auto.
  Qed.
  Ltac oth l := apply (ok_other l _ [] [] []); auto.

  Notation gwp_ := (gwp pside pulse_api Kp ok psus pend).
  Definition over (l : log) : Prop :=
    exists r lt dn er ru ys, dr pclose true r lt dn er false ru ys l /\ (dn = true \/ er = true \/ d_begun (drv l) = true).
  Lemma over_sta : sta over.
  Proof.
    intros l e Q (r & lt & dn & er & ru & ys & H & B). exists r, lt, dn, er, ru, ys. split; [eapply dr_stable; eauto|].
    destruct B as [B|[B|B]]; auto. right. right. eapply begun_stable; eauto.
  Qed.
  Lemma over_ch l e : over l -> over (l ++ [FCh e]).
  Proof.
    intros (r & lt & dn & er & ru & ys & H & B). exists r, lt, dn, er, ru, ys. split; [now apply dr_ch|].
    destruct B as [B|[B|B]]; auto. right. right. rewrite driving_snoc. destruct (drv l). cbn in *. subst. destruct e; reflexivity.
  Qed.
  Lemma over_ei l : over l -> d_done (drv l) = true \/ d_err (drv l) = true \/ d_begun (drv l) = true.
  Proof. intros (r & lt & dn & er & ru & ys & (bg & cl & E) & B). rewrite E in *. cbn in *. tauto. Qed.
  Lemma done_sta : sta (fun l => k_done (rwk l) = true).
  Proof.
    intros l e Q H. destruct e; try contradiction Q. rewrite ch_snoc. unfold receiver_wakeups in *. rewrite fold_snoc.
    destruct (fold_left kstep (channel l) rwake0). cbn in H. subst. destruct e as [[]|[] []|[]| | | |]; reflexivity.
  Qed.
  Lemma done_ret (l : log) o r : lastop o = true -> k_done (rwk (l ++ [FCh (ERet o r)])) = true.
  Proof.
    intros Q. rewrite ch_snoc. unfold receiver_wakeups in *. rewrite fold_snoc.
    destruct (fold_left kstep (channel l) rwake0). destruct o; try discriminate; reflexivity.
  Qed.
  Notation sta_and := (RingStreamProofs.sta_and pside pulse_api).
  Lemma g_end l : ok l -> over l -> acc [] [] [] l -> k_done (rwk l) = true -> gwp_ GEnd l.
  Proof.
    intros Ho Hv Ha He. apply (gwp_end _ _ _ _ _ _ (fun l => (over l /\ acc [] [] [] l) /\ k_done (rwk l) = true)); auto.
    - apply sta_and; [apply sta_and; [apply over_sta|apply acc_sta]|apply done_sta].
    - clear. intros l Ho ((Hv & Ha) & He). assert (acc [] [] [] (l ++ [FEnd])) as Ha' by now apply acc_other.
      destruct Hv as (r & lt & dn & er & ru & ys & (bg & cl & E) & B).
      split; [|split; [rewrite driving_snoc, E; reflexivity|exact Ha']].
      oth l. rewrite driving_snoc, E in *. cbn in *. destruct B as [->|[->| ->]]; rewrite ?orb_true_r; reflexivity.
  Qed.
  Lemma g_break l : ok l -> over l -> acc [] [] [] l -> gwp_ pulse_break l.
  Proof.
    intros Ho Hv Ha. apply (gwp_call _ _ _ _ _ _ (fun l => over l /\ acc [] [] [] l) (fun l => over l /\ acc [] [] [] l)); auto.
    - apply sta_and; [apply over_sta|apply acc_sta].
    - apply sta_and; [apply over_sta|apply acc_sta].
    - clear. intros l Ho (Hv & Ha). apply (ok_ch l _ [] [] []); auto; try exact I; [now apply acc_drop|]. intros _. now apply over_ei.
    - clear. intros l (Hv & Ha). split; [now apply over_ch|now apply acc_drop].
    - clear. intros l r Ho (Hv & Ha) Hk. apply g_end.
      + apply (ok_ch l _ [] [] []); auto; try exact I. apply acc_ch; cbn; auto.
      + now apply over_ch.
      + apply acc_ch; cbn; auto.
      + now apply done_ret.
  Qed.
  Lemma g_fail v l : ok l -> over l -> acc [] [v] [] l -> gwp_ (pulse_fail v) l.
  Proof.
    intros Ho Hv Ha. apply (gwp_call _ _ _ _ _ _ (fun l => over l /\ acc [] [v] [] l) (fun l => over l /\ acc [] [] [] l)); auto.
    - apply sta_and; [apply over_sta|apply acc_sta].
    - apply sta_and; [apply over_sta|apply acc_sta].
    - clear. intros l Ho (Hv & Ha). apply (ok_ch l _ [] [] []); auto; try exact I; [now apply acc_fail|]. intros _. now apply over_ei.
    - clear. intros l (Hv & Ha). split; [now apply over_ch|now apply acc_fail].
    - clear. intros l r Ho (Hv & Ha) Hk. apply g_end.
      + apply (ok_ch l _ [] [] []); auto; try exact I. apply acc_ch; cbn; auto.
      + now apply over_ch.
      + apply acc_ch; cbn; auto.
      + now apply done_ret.
  Qed.
  Lemma g_yield n l : ok l -> dr pclose true true false false false false n n l -> acc [] [] [] l /\ fresh l -> gwp_ GYield l.
  Proof.
    intros Ho Hv Ha. apply (gwp_yield _ _ _ _ _ _ (fun l => dr pclose true true false false false false n n l /\ (acc [] [] [] l /\ fresh l))); auto.
    - apply sta_and; [apply dr_stable|apply sta_and; [apply acc_sta|apply fresh_sta]].
    - clear. intros l Ho ((bg & cl & E) & Ha & Hf). assert (acc [] [] [] (l ++ [FYield])) as Ha' by now apply acc_other.
      split; [|split; [exists true, n, bg, cl; rewrite driving_snoc, E; cbn; now rewrite Nat.eqb_refl|split; [exact Ha'|now apply fresh_other]]].
      oth l. rewrite driving_snoc, E. cbn. now rewrite Nat.eqb_refl.
  Qed.
  Lemma late_sta : sta (fun l => late l = true).
  Proof.
    intros l e Q H. destruct e; try contradiction Q. rewrite ch_snoc. unfold sender_wakeups in *. rewrite fold_snoc.
    destruct (fold_left cstep (channel l) cwake0). cbn in H. subst. destruct e as [[]|[] [| | | | |[]| | | | | |]|[]| | | |]; destruct Q; try discriminate; reflexivity.
  Qed.
  Lemma closed_sta : sta (fun l => d_closed (drv l) = true).
  Proof.
    intros l e Q H. rewrite driving_snoc. destruct (drv l). cbn in H. subst.
    destruct e as [| | [] | | [] | | |[]]; cbn; auto.
  Qed.
  Lemma g_turn k : (forall n l, ok l -> dr pclose true false false false false false (S n) n l -> acc [] [] [] l /\ fresh l -> gwp_ (GResume k) l) ->
    forall l, ok l -> psus l -> ok (l ++ [FRun]) /\
      gwp_ (GCall IsCanceled (fun r => match r with RBool true => pulse_break | _ => GResume k end)) (l ++ [FRun]).
  Proof.
    intros Hk l Ho ((r & n & bg & cl & E) & Ha & Hf).
    assert (acc [] [] [] (l ++ [FRun])) as Ha' by now apply acc_other.
    assert (ok (l ++ [FRun])) as Ho' by (oth l; rewrite driving_snoc, E; reflexivity).
    split; [exact Ho'|].
    apply (gwp_call _ _ _ _ _ _
      (fun l => (dr pclose true false cl false false false (S n) n l /\ (acc [] [] [] l /\ fresh l)) /\ (cl = true -> d_closed (drv l) = true))
      (fun l => (dr pclose true false cl false false false (S n) n l /\ (acc [] [] [] l /\ fresh l)) /\ (cl = true -> late l = true))); auto.
    - apply sta_and; [apply sta_and; [apply dr_stable|apply sta_and; [apply acc_sta|apply fresh_sta]]|apply RingStreamProofs.sta_imp, closed_sta].
    - apply sta_and; [apply sta_and; [apply dr_stable|apply sta_and; [apply acc_sta|apply fresh_sta]]|apply RingStreamProofs.sta_imp, late_sta].
    - intros l1 Ho1 ((H1 & H2 & H2f) & H3). apply (ok_ch l1 _ [] [] []); auto; try exact I; [now apply acc_ch|discriminate].
    - intros l1 ((H1 & H2 & H2f) & H3). split; [split; [now apply dr_ch|split; [now apply acc_ch|now apply fresh_ch]]|].
      intros Hc. specialize (H3 Hc). rewrite <- (proj1 (c_rel l1)) in H3. rewrite ch_snoc. unfold sender_wakeups in *. rewrite fold_snoc.
      now destruct (fold_left cstep (channel l1) cwake0).
    - clear - Hk Hbits. intros l r Ho ((H1 & H2 & H2f) & H3) K. pose proof (last_shape _ _ _ K) as [b ->].
      assert (acc [] [] [] (l ++ [FCh (ERet IsCanceled (RBool b))])) as Ha by (apply acc_ch; cbn; auto).
      assert (ok (l ++ [FCh (ERet IsCanceled (RBool b))])) as Ho' by (apply (ok_ch l _ [] [] []); auto; try exact I).
      pose proof (dr_ch pclose _ _ _ _ _ _ _ _ _ (ERet IsCanceled (RBool b)) H1) as H1'.
      destruct (Kp_sender _ K) as [C1 C2]. pose proof (proj2 (c_rel (l ++ [FCh (ERet IsCanceled (RBool b))]))) as C3.
      rewrite ch_snoc in C1, C2, C3. unfold sender_wakeups in *. rewrite fold_snoc in C1, C2, C3.
      destruct b.
      + apply g_break; auto. exists false, cl, false, false, (S n), n. split; [exact H1'|]. right. right. rewrite <- C3.
        destruct (fold_left cstep (channel l) cwake0). cbn in *. apply orb_false_elim in C2. destruct C2 as [_ C2]. now destruct c_begun.
      + assert (cl = false) as ->; [|apply (Hk n); auto; split; [exact Ha|now apply fresh_ch]]. destruct cl; auto. specialize (H3 eq_refl).
        destruct (fold_left cstep (channel l) cwake0). cbn in *. subst. now rewrite orb_true_r in C1.
    - split; [split; [exists bg, cl; rewrite driving_snoc, E; reflexivity|split; [exact Ha'|now apply fresh_other]]|].
      intros ->. rewrite driving_snoc, E. reflexivity.
  Qed.

  Definition mid dn ru ys (l : log) := dr pclose true true false dn false false ru ys l.
  Lemma mid_over dn ru ys l : mid dn ru ys l -> dn = true \/ d_begun (drv l) = true -> over l.
  Proof. intros H B. exists true, false, dn, false, ru, ys. split; [exact H|tauto]. Qed.
  Lemma g_overflow dn ru ys v (k : option N -> pulse_tree) l : (forall e, k (Some e) = pulse_fail e) ->
    (forall l, ok l -> mid dn ru ys l -> acc [] [] [] l /\ fresh l -> gwp_ (k None) l) ->
    ok l -> mid dn ru ys l -> acc [] [] (if sat then [] else [v]) l /\ fresh l -> gwp_ (overflow sat v k) l.
  Proof.
    intros Kf Kn Ho Hm Ha. assert (sat = true \/ sat = false) as [Ek|Ek] by (destruct sat; auto); rewrite Ek in Ha.
    { replace (overflow sat v k) with (k None) by now rewrite Ek. now apply Kn. }
    replace (overflow sat v k) with (GOver v k) by now rewrite Ek.
    apply (gwp_over _ _ _ _ _ _ (fun l => mid dn ru ys l /\ (acc [] [] [v] l /\ fresh l)) (fun l => mid dn ru ys l /\ (acc [] [] [] l /\ fresh l))); auto.
    - apply sta_and; [apply dr_stable|apply sta_and; [apply acc_sta|apply fresh_sta]].
    - apply sta_and; [apply dr_stable|apply sta_and; [apply acc_sta|apply fresh_sta]].
    - clear - Ek. intros l Ho ((bg & cl & E) & Ha & Hf). oth l; [now apply acc_over|]. now rewrite driving_snoc, E.
    - clear - Ek. intros l ((bg & cl & E) & Ha & Hf). split; [|split; [now apply acc_over|now apply fresh_other]]. exists bg, cl. now rewrite driving_snoc, E.
    - clear - Ek Kf Kn. intros l [e|] Ho ((bg & cl & E) & Ha & Hf).
      + rewrite Kf. assert (acc [] [e] [] (l ++ [FOverRet (Some e)])) as Ha' by now apply acc_err.
        apply g_fail; auto.
        * apply (ok_other l _ [] [e] []); auto. now rewrite driving_snoc, E.
        * exists true, false, dn, true, ru, ys. split; [|tauto]. exists bg, cl. now rewrite driving_snoc, E.
      + assert (acc [] [] [] (l ++ [FOverRet None])) as Ha' by now apply acc_other.
        apply Kn; auto.
        * oth l. now rewrite driving_snoc, E.
        * exists bg, cl. now rewrite driving_snoc, E.
        * split; [exact Ha'|now apply fresh_other].
  Qed.
  Lemma g_item dn ru ys v (k : pres -> pulse_tree) l :
    (forall l r, ok l -> mid dn ru ys l -> (r = RClosed -> d_begun (drv l) = true) ->
       acc [] [] (match r with RFull => if sat then [] else [v] | _ => [] end) l /\ fresh l -> gwp_ (k r) l) ->
    ok l -> mid dn ru ys l -> acc [v] [] [] l /\ fresh l -> gwp_ (GCall (Send v) k) l.
  Proof.
    intros Hk Ho Hm Ha.
    apply (gwp_call _ _ _ _ _ _ (fun l => mid dn ru ys l /\ (acc [v] [] [] l /\ fresh l)) (fun l => mid dn ru ys l /\ (acc [v] [] [] l /\ fresh l))); auto.
    - apply sta_and; [apply dr_stable|apply sta_and; [apply acc_sta|apply fresh_sta]].
    - apply sta_and; [apply dr_stable|apply sta_and; [apply acc_sta|apply fresh_sta]].
    - clear. intros l Ho (Hm & Ha & Hf). apply (ok_ch l _ [v] [] []); auto; try exact I; [now apply acc_ch|discriminate].
    - clear. intros l (Hm & Ha & Hf). split; [now apply dr_ch|split; [now apply acc_ch|now apply fresh_ch]].
    - clear - Hk Hbits. intros l r Ho (Hm & Ha & Hf) K. pose proof (last_shape _ _ _ K) as T.
      pose proof (acc_sent l v r Ha T) as Ha'. apply Hk; auto.
      + eapply (ok_ch l _ [] []); [..|exact Ha'| | |]; auto; try exact I. destruct r; auto. destruct sat; auto.
      + now apply dr_ch.
      + intros ->. destruct (Kp_sender _ K) as [_ C2]. rewrite <- (proj2 (c_rel _)). rewrite ch_snoc in *. unfold sender_wakeups in *. rewrite fold_snoc in *.
        destruct (fold_left cstep (channel l) cwake0). cbn in *. apply orb_false_elim in C2. destruct C2 as [_ C2]. now destruct c_begun.
      + split; [exact Ha'|now apply fresh_ch].
  Qed.
  Lemma g_resume k n l :
    (forall l, ok l -> mid false (S n) (S n) l -> acc [] [] [] l /\ fresh l -> gwp_ (k (Yielded None)) l) ->
    (forall l v, ok l -> mid false (S n) (S n) l -> acc [v] [] [] l /\ fresh l -> gwp_ (k (Yielded (Some v))) l) ->
    (forall l, ok l -> mid true (S n) n l -> acc [] [] [] l /\ fresh l -> gwp_ (k (Complete (inl None))) l) ->
    (forall l v, ok l -> mid true (S n) n l -> acc [v] [] [] l /\ fresh l -> gwp_ (k (Complete (inl (Some v)))) l) ->
    (forall l v, ok l -> mid true (S n) n l -> acc [] [v] [] l /\ fresh l -> gwp_ (k (Complete (inr v))) l) ->
    ok l -> dr pclose true false false false false false (S n) n l -> acc [] [] [] l /\ fresh l -> gwp_ (GResume k) l.
  Proof.
    intros A1 A2 A3 A4 A5 Ho Hd (Ha & Hf).
    apply (gwp_resume _ _ _ _ _ _ (fun l => dr pclose true false false false false false (S n) n l /\ (acc [] [] [] l /\ fresh l)) (fun l => mid false (S n) n l /\ (acc [] [] [] l /\ fresh l))); auto.
    - apply sta_and; [apply dr_stable|apply sta_and; [apply acc_sta|apply fresh_sta]].
    - apply sta_and; [apply dr_stable|apply sta_and; [apply acc_sta|apply fresh_sta]].
    - clear. intros l Ho ((bg & cl & E) & Ha & Hf). oth l; [now apply acc_other|]. now rewrite driving_snoc, E.
    - clear. intros l ((bg & cl & E) & Ha & Hf). split; [|split; [now apply acc_other|now apply fresh_other]]. exists bg, cl. now rewrite driving_snoc, E.
    - clear - A1 A2 A3 A4 A5. intros l [[v|]|[[v|]|v]] Ho ((bg & cl & E) & Ha & Hf).
      + assert (acc [v] [] [] (l ++ [FOut (Yielded (Some v))])) as Ha' by now apply acc_out.
        apply A2; auto; [apply (ok_other l _ [v] [] []); auto; now rewrite driving_snoc, E| |split; [exact Ha'|now apply fresh_other]]. exists bg, cl. now rewrite driving_snoc, E.
      + assert (acc [] [] [] (l ++ [FOut (Yielded None)])) as Ha' by now apply acc_other.
        apply A1; auto; [oth l; now rewrite driving_snoc, E| |split; [exact Ha'|now apply fresh_other]]. exists bg, cl. now rewrite driving_snoc, E.
      + assert (acc [v] [] [] (l ++ [FOut (Complete (inl (Some v)))])) as Ha' by now apply acc_out.
        apply A4; auto; [apply (ok_other l _ [v] [] []); auto; rewrite driving_snoc, E; cbn; now rewrite Nat.eqb_refl| |split; [exact Ha'|now apply fresh_other]].
        exists bg, cl. rewrite driving_snoc, E. cbn. now rewrite Nat.eqb_refl.
      + assert (acc [] [] [] (l ++ [FOut (Complete (inl None))])) as Ha' by now apply acc_other.
        apply A3; auto; [oth l; rewrite driving_snoc, E; cbn; now rewrite Nat.eqb_refl| |split; [exact Ha'|now apply fresh_other]].
        exists bg, cl. rewrite driving_snoc, E. cbn. now rewrite Nat.eqb_refl.
      + assert (acc [] [v] [] (l ++ [FOut (Complete (inr v))])) as Ha' by now apply acc_err.
        apply A5; auto; [apply (ok_other l _ [] [v] []); auto; rewrite driving_snoc, E; cbn; now rewrite Nat.eqb_refl| |split; [exact Ha'|now apply fresh_other]].
        exists bg, cl. rewrite driving_snoc, E. cbn. now rewrite Nat.eqb_refl.
  Qed.

  Lemma turn_pulse l : ok l -> psus l -> ok (l ++ [FRun]) /\ gwp_ (pulse_body sat) (l ++ [FRun]).
  Proof.
    revert l. apply g_turn. intros n l Ho Hd Ha. apply (g_resume _ n); auto; clear l Ho Hd Ha; intros l.
    - intros Ho Hm Ha. now apply (g_yield (S n)).
    - intros v Ho Hm Ha. apply (g_item false (S n) (S n) v); auto. clear l Ho Hm Ha. intros l r Ho Hm Hb Ha.
      destruct r; try (now apply (g_yield (S n))).
      + apply (g_overflow false (S n) (S n)); auto. intros. now apply (g_yield (S n)).
      + apply g_break; auto; [eapply mid_over; eauto|apply Ha].
    - intros Ho Hm (Ha & _). apply g_break; auto. eapply mid_over; eauto.
    - intros v Ho Hm Ha. apply (g_item true (S n) n v); auto. clear l Ho Hm Ha. intros l r Ho Hm Hb Ha.
      assert (forall l, ok l -> mid true (S n) n l -> acc [] [] [] l /\ fresh l -> gwp_ pulse_break l) as Kb by (intros ? ? ? (? & _); apply g_break; auto; eapply mid_over; eauto).
      destruct r; auto. apply (g_overflow true (S n) n); auto.
    - intros v Ho Hm (Ha & _). apply g_fail; auto. eapply mid_over; eauto.
  Qed.

  Definition goodp (l : list pev) (m : mem) : Prop := uaf m = false.
  Lemma uaf_step x a : uaf (smem (step pside pconsuming (pcode bits) at_ x a)) = false -> uaf (smem x) = false.
  Proof.
    intros H. destruct (uaf (smem x)) eqn:E; [|reflexivity]. rewrite <- H. clear H. destruct a as [o|s spur]; cbn [step].
    - destruct (thr_of x (pside o)); auto. destruct (pside o); auto.
    - destruct (thr_of x s) as [|o p|]; auto. destruct (pstep pconsuming at_ s o p (smem x) spur) as [[m e] t] eqn:Ep.
      destruct s; cbn; destruct p; cbn in Ep; unfold take, peek in Ep; cbn in Ep;
        try (destruct (cells (smem x) c)); try (destruct at_; [destruct old; [destruct (_ || _)|]|]);
        injection Ep as <- _ _; cbn; rewrite ?E; auto.
  Qed.
  Theorem stream_ok sched : let s := pulse_run bits at_ sat sched in
    uaf (smem (fch s)) = false ->
    channel (flog s) = slog (fch s) /\ (exists sc, fch s = prun bits at_ sc) /\ ok (flog s) /\
    (fgen s = Ended -> pend (flog s)) /\ (fgen s = Susp -> psus (flog s)).
  Proof.
    intros s G. unfold s, pulse_run in *.
    destruct (inv_run pside pconsuming (pcode bits) at_ pulse_api (pulse_body sat) goodp Kp ok psus pend) with (sched := sched) as (H1 & (sc & H2) & H3); auto.
    - intros x a. apply uaf_step.
    - intros sc x R. exists sc. auto.
    - exact ok_quiet.
    - intros l e Q _ ((r & n & H) & H' & Hf). split; [exists r, n; eapply dr_stable; eauto|split; [eapply acc_sta; eauto|eapply fresh_sta; eauto]].
    - intros l e Q _ (H & H'). split; [|eapply acc_sta; eauto]. rewrite driving_snoc. destruct (drv l). destruct e as [| |[]| |[]| | |[]]; try contradiction; cbn in *; auto.
    - assert (acc [] [] [] []) as A by (repeat split; unfold hnd, fresh; try destruct sat; auto; discriminate).
      constructor; cbn; auto; try discriminate. exists [], [], []. auto.
    - split; [exists false, 0%nat, false, false; reflexivity|]. repeat split; unfold hnd, fresh; try destruct sat; auto; discriminate.
    - exact turn_pulse.
    - destruct (H3 G) as (_ & Ho & Hf). split; [exact H1|]. split; [exists sc; exact H2|]. split; [exact Ho|].
      split; intros E; rewrite E in Hf; apply Hf.
  Qed.
End Stream.
