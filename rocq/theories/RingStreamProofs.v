(** Every execution of a ring stream. *)
Require Import PeanoNat NArith List Bool Lia.
Require Import Verif.Spsc Verif.Ring Verif.RingSpec Verif.RingHist Verif.RingMain
  Verif.Fiber Verif.FiberSpec Verif.FiberProofs Verif.FutureProofs.
Import ListNotations.
Open Scope N_scope.

#[local] Arguments N.eqb : simpl never.
#[local] Arguments N.ltb : simpl never.
#[local] Arguments N.leb : simpl never.
#[local] Arguments N.add : simpl never.
#[local] Arguments len : simpl never.
#[local] Arguments look : simpl never.

(** ** Facts about histories of the queue. *)
Definition cinv (l : list rev_) : bool := existsb (fun e => match e with EInv o => rclose o | _ => false end) l.
Definition cret (l : list rev_) : bool := existsb (fun e => match e with ERet o _ => rclose o | _ => false end) l.
Definition lastop (o : rop) : bool := match o with SendErr _ | DropTx => true | _ => false end.
Definition einv (l : list rev_) : bool := existsb (fun e => match e with EInv o => lastop o | _ => false end) l.
Definition eret (l : list rev_) : bool := existsb (fun e => match e with ERet o _ => lastop o | _ => false end) l.

Lemma obs_snoc l e :
  cinv (l ++ [e]) = cinv l || match e with EInv o => rclose o | _ => false end /\
  cret (l ++ [e]) = cret l || match e with ERet o _ => rclose o | _ => false end /\
  einv (l ++ [e]) = einv l || match e with EInv o => lastop o | _ => false end /\
  eret (l ++ [e]) = eret l || match e with ERet o _ => lastop o | _ => false end.
Proof. unfold cinv, cret, einv, eret. rewrite !existsb_app. cbn. now rewrite !orb_false_r. Qed.

(** Results of the sender's methods. *)
Definition tres (o : rop) (r : rres) (closed : bool) : Prop :=
  match o, r with
  | IsCanceled, RBool b => b = true -> closed = true
  | TrySend v, ROk => True
  | TrySend v, RFull w => w = v
  | TrySend v, RClosed w => w = v /\ closed = true
  | SendOver v, ROver _ => True
  | SendOver v, RNot w _ => w = v /\ closed = true
  | SendErr v, ROk => True
  | SendErr v, RBack w => w = v /\ closed = true
  | DropTx, RUnit => True
  | StartSend _, _ | PollReady _, _ | PollFlush _, _ | PollClose _, _ => True
  | _, _ => False
  end.
Record facts (l : list rev_) (q : ring) (a b : hs) : Prop := {
  f_tx : match a with HRun o => match q_tx q with TRet r _ => tres o r (q_closed q) | _ => True end | _ => True end;
  f_cl : q_closed q = true -> cinv l = true;
  f_inv : match b with HRun o => rclose o = true -> cinv l = true | _ => True end;
  f_rx : match b with HRun Close => q_rx q = RClosing \/ q_closed q = true | HRun DropRx => q_rx q = RDropping \/ q_closed q = true | _ => True end;
  f_ret : cret l = true -> q_closed q = true;
  f_end : q_rx q = RRet REnd -> q_closed q = true \/ q_txend q = true /\ q_pend q = [] /\ q_err q = None;
  f_te : q_txend q = true -> einv l = true;
  f_tinv : match a with HRun o => lastop o = true -> einv l = true | _ => True end;
  f_t : match a with HRun (SendErr v) => q_tx q = TErr v \/ q_txend q = true | HRun DropTx => q_tx q = TEnd \/ q_txend q = true | _ => True end;
  f_done : eret l = true -> q_txend q = true
}.
Lemma facts_hist cap l a b : hist l a b -> q_bad (queue cap l) = false -> facts l (queue cap l) a b.
Proof.
  induction 1 as [|l o b H IH S|l o a H IH S|l o b e H IH S|l o a e H IH S|l o r b H IH S|l o r a H IH S];
    intros B; [constructor; cbn; auto; discriminate|..]; pose proof (bad_pre _ _ _ B) as B0; specialize (IH B0);
    destruct (q_match _ _ _ _ H B0) as (Mt & Mr & _ & _); destruct (flow_hist _ _ _ _ H B0) as [_ Wg _ _];
    rewrite queue_snoc in *; destruct (queue cap l) as [pe er cl te re tx rx bd ra]; destruct IH as [F1 F2 F3 F4 F5 F6 F7 F8 F9 F10];
    cbn [q_pend q_err q_closed q_txend q_rxend q_tx q_rx q_bad q_racy] in *.
  - cbn in Mt. subst tx. cbn. rewrite S. destruct (obs_snoc l (EInv o)) as (E1 & E2 & E3 & E4). constructor; rewrite ?E1, ?E2, ?E3, ?E4; cbn; rewrite ?orb_false_r; auto.
    + destruct o; try discriminate; cbn; auto.
    + intros E. rewrite F2; auto.
    + destruct b; auto. intros E. rewrite F3; auto.
    + intros E. rewrite F7; auto.
    + intros E. now rewrite E, orb_true_r.
    + destruct o; try discriminate; cbn; auto.
  - cbn in Mr. subst rx. cbn. rewrite S. destruct (obs_snoc l (EInv o)) as (E1 & E2 & E3 & E4). constructor; rewrite ?E1, ?E2, ?E3, ?E4; cbn; rewrite ?orb_false_r; auto.
    + intros E. rewrite F2; auto.
    + intros E. now rewrite E, orb_true_r.
    + destruct o; try discriminate; cbn; auto.
    + destruct o; try discriminate; cbn; auto.
    + intros E. rewrite F7; auto.
    + destruct a; auto. intros E. rewrite F8; auto.
  - assert (cinv (l ++ [e]) = cinv l /\ cret (l ++ [e]) = cret l /\ einv (l ++ [e]) = einv l /\ eret (l ++ [e]) = eret l) as (E1 & E2 & E3 & E4).
    { destruct (obs_snoc l e) as (-> & -> & -> & ->). destruct e; try discriminate S; rewrite ?orb_false_r; auto. }
    cbn in F8.
    assert (te = false \/ exists r d, tx = TRet r d) as T.
    { destruct te; [right|now left]. specialize (Wg eq_refl). cbn in Wg. destruct tx; try (destruct Wg; contradiction). eauto. }
    assert (lastop o = true -> einv l = true) as F8' by exact F8.
    constructor; rewrite ?E1, ?E2, ?E3, ?E4; clear E1 E2 E3 E4;
      destruct e as [|?|[] ?|[] ?|[] v|[]|[]]; cbn in S; try discriminate; cbn in B |- *; auto.
    all: try (destruct tx as [| | | | | | | | | | |r' [|x d']]; cbn in B |- *; try discriminate; auto; destruct (N.eqb_spec x v); cbn in *; [|discriminate]; auto; destruct o; cbn in *; auto; (destruct F9; [discriminate|auto]); fail).
    all: destruct tx as [| | | | | | | |k| | |r' d']; cbn in *; auto; unfold poll_at, look, with_tx, set_pend, fail in *; cbn in *;
      try (destruct T as [->|(? & ? & ?)]; [|discriminate]); subst; cbn in *.
    all: try (destruct k, o; try contradiction).
    all: try (destruct sink).
    all: try (destruct cl); try (destruct (len pe =? cap)); try (destruct pe); try (destruct (is_ready _ _ _)); cbn in *; try discriminate; auto; try tauto.
    all: try (intros; destruct (F6 ltac:(assumption)); intuition congruence).
  - assert (cinv (l ++ [e]) = cinv l /\ cret (l ++ [e]) = cret l /\ einv (l ++ [e]) = einv l /\ eret (l ++ [e]) = eret l) as (E1 & E2 & E3 & E4).
    { destruct (obs_snoc l e) as (-> & -> & -> & ->). destruct e; try discriminate S; rewrite ?orb_false_r; auto. }
    cbn in F3. 
    constructor; rewrite ?E1, ?E2, ?E3, ?E4; clear E1 E2 E3 E4;
      destruct e as [|?|[] ?|[] ?|[] v|[]|[]]; cbn in S; try discriminate; cbn in B |- *; auto.
    all: try (destruct rx as [| | | | | |[|x l'] [x'|]|]; cbn in B |- *; try discriminate; auto;
        (match type of B with context [?x =? ?y] => destruct (N.eqb_spec x y); cbn in *; [subst|discriminate] end); cbn in *; subst; cbn in *; auto; first [discriminate|destruct F4; [discriminate|auto]]; fail).
    all: destruct rx as [| |p| | | | |r']; cbn in *; auto; unfold recv, with_rx, set_pend, fail in *; cbn in *; subst; cbn in *; auto.
    all: try (destruct pe, er; cbn in *; auto; destruct te, cl; cbn; auto).
    all: try (destruct a as [|[]|]; cbn in *; auto; destruct tx; cbn in *; auto; destruct r; cbn in *; auto; tauto).
    all: try (destruct o; try contradiction; cbn in *; auto; subst; cbn; auto).
    all: try discriminate.
  - assert (cinv (l ++ [ERet o r]) = cinv l /\ cret (l ++ [ERet o r]) = cret l /\ einv (l ++ [ERet o r]) = einv l /\ eret (l ++ [ERet o r]) = (eret l || lastop o)) as (E1 & E2 & E3 & E4).
    { destruct (obs_snoc l (ERet o r)) as (-> & -> & -> & ->). destruct o; try discriminate S; cbn; rewrite ?orb_false_r; auto. }
    assert (forall P : rop -> Prop, match hend o with HRun o => P o | _ => True end) as Z by (intros P; unfold hend; now destruct (rconsuming o)).
    cbn in B |- *. rewrite S in *.
    assert (exists w, (match tx with TRet r' [] => if rres_eqb r r' then with_tx (Ring pe er cl te re tx rx bd ra) TNo else fail (Ring pe er cl te re tx rx bd ra)
      | TWait _ => if rres_eqb r RPending then with_tx (Ring pe er cl te re tx rx bd ra) TNo else fail (Ring pe er cl te re tx rx bd ra)
      | _ => fail (Ring pe er cl te re tx rx bd ra) end) = with_tx (Ring pe er cl te re tx rx bd ra) TNo /\ w = tt) as (_ & -> & _).
    { exists tt. split; [|reflexivity]. destruct tx as [| | | | | | | |k| | |r' [|]]; cbn in *; try discriminate;
      (destruct (rres_eqb r _) eqn:Er; [|discriminate]); reflexivity. }
    constructor; rewrite ?E1, ?E2, ?E3, ?E4; cbn; auto.
    + unfold hend; destruct o; cbn; auto.
    + unfold hend; destruct o; cbn; auto.
    + unfold hend. destruct o; cbn; auto.
    + intros [E|E]%orb_prop; auto. destruct o; try discriminate; destruct F9 as [->|]; auto; cbn in B; discriminate.
  - assert (cinv (l ++ [ERet o r]) = cinv l /\ cret (l ++ [ERet o r]) = (cret l || rclose o) /\ einv (l ++ [ERet o r]) = einv l /\ eret (l ++ [ERet o r]) = eret l) as (E1 & E2 & E3 & E4).
    { destruct (obs_snoc l (ERet o r)) as (-> & -> & -> & ->). destruct o; try discriminate S; cbn; rewrite ?orb_false_r; auto. }
    cbn in B |- *. rewrite S in *.
    assert (exists w, (match rx with RRet r' => if rres_eqb r r' then with_rx (Ring pe er cl te re tx rx bd ra) RNo else fail (Ring pe er cl te re tx rx bd ra)
      | RWaiting => if rres_eqb r RPending then with_rx (Ring pe er cl te re tx rx bd ra) RNo else fail (Ring pe er cl te re tx rx bd ra)
      | RDrop [] None => if rres_eqb r RUnit then with_rx (Ring pe er cl te re tx rx bd ra) RNo else fail (Ring pe er cl te re tx rx bd ra)
      | _ => fail (Ring pe er cl te re tx rx bd ra) end) = with_rx (Ring pe er cl te re tx rx bd ra) RNo /\ w = tt) as (_ & -> & _).
    { exists tt. split; [|reflexivity]. destruct rx as [| | | | | |[|] [|]|r']; cbn in *; try discriminate;
      (destruct (rres_eqb r _) eqn:Er; [|discriminate]); reflexivity. }
    constructor; rewrite ?E1, ?E2, ?E3, ?E4; cbn; auto.
    + unfold hend. destruct o; cbn; auto.
    + unfold hend. destruct o; cbn; auto.
    + intros [E|E]%orb_prop; auto. destruct o; try discriminate; destruct F4 as [->|]; auto; cbn in B; discriminate.
    + discriminate.
Qed.

Lemma hist_ret l' a b : hist l' a b -> forall l o r, l' = l ++ [ERet o r] ->
  match rside o with TX => a = hend o /\ hist l (HRun o) b | RX => b = hend o /\ hist l a (HRun o) end.
Proof.
  intros H l o r E. destruct H as [|l1 o1 b1 H S|l1 o1 a1 H S|l1 o1 b1 e H S|l1 o1 a1 e H S|l1 o1 r1 b1 H S|l1 o1 r1 a1 H S];
    try (now destruct l); apply app_inj_tail in E; destruct E as [-> E]; try discriminate E;
    try (subst e; discriminate S); injection E as -> ->; rewrite S; auto.
Qed.
Lemma hist_pre l' a b : hist l' a b -> forall l e, l' = l ++ [e] -> exists a b, hist l a b.
Proof.
  intros H l e E. destruct H; try (now destruct l); apply app_inj_tail in E; destruct E as [-> _]; eauto.
Qed.

Lemma closed_mono cap q e : q_closed q = true -> q_closed (qstep cap q e) = true.
Proof.
  destruct q as [pe er cl te re tx rx bd ra]. cbn. intros ->.
  destruct e as [o|o r|[] w|[] w|[] v|[]|[]]; cbn; try destruct (rside o); cbn; auto;
    unfold tacc, tsync, racc, rsync, recv, poll_at, look, fail, with_tx, with_rx, set_pend; cbn; deq.
Qed.
Lemma txend_mono cap q e : q_txend q = true -> q_txend (qstep cap q e) = true.
Proof.
  destruct q as [pe er cl te re tx rx bd ra]. cbn. intros ->.
  destruct e as [o|o r|[] w|[] w|[] v|[]|[]]; cbn; try destruct (rside o); cbn; auto;
    unfold tacc, tsync, racc, rsync, recv, poll_at, look, fail, with_tx, with_rx, set_pend; cbn; deq.
Qed.

Section Stable.
  Context {O R Y C : Type}.
  Variable side_of : O -> side.
  Variable api : O -> bool.
  Notation sta := (stable (R := R) (Y := Y) (C := C) side_of api).
  Lemma sta_and P Q : sta P -> sta Q -> sta (fun l => P l /\ Q l).
  Proof. intros A B l e q []. split; auto. Qed.
  Lemma sta_or P Q : sta P -> sta Q -> sta (fun l => P l \/ Q l).
  Proof. intros A B l e q []; [left|right]; auto. Qed.
  Lemma sta_ex {A} (P : A -> list (fev O R Y C) -> Prop) : (forall a, sta (P a)) -> sta (fun l => exists a, P a l).
  Proof. intros H l e q [a Ha]. exists a. now apply H. Qed.
  Lemma sta_imp (A : Prop) P : sta P -> sta (fun l => A -> P l).
  Proof. intros H l e q Ha a. apply H; auto. Qed.
  Lemma sta_const (A : Prop) : sta (fun _ => A).
  Proof. intros l e q Ha. exact Ha. Qed.
End Stable.

Section Stream.
  Variables bits cap : N.
  Variable at_ : bool.
  Variable kind : ring_kind.
  Notation log := (list rfev).
  Notation sta := (stable (R := rres) (Y := option N) (C := (option N + N)%type) rside ring_api).
  Notation drv := (driving (R := rres) (Y := option N) (C := (option N + N)%type) rclose).
  Notation qu l := (queue cap (channel l)).

  Definition Kr (l : list rev_) : Prop := (exists a b, hist l a b) /\ q_bad (queue cap l) = false.
  Lemma Kr_pre l e : Kr (l ++ [e]) -> Kr l.
  Proof. intros ((a & b & H) & B). split; [now apply (hist_pre _ _ _ H l e)|eapply bad_pre, B]. Qed.
  Lemma Kr_facts l : Kr l -> exists a b, hist l a b /\ facts l (queue cap l) a b.
  Proof. intros ((a & b & H) & B). exists a, b. split; auto. now apply facts_hist. Qed.
  Definition simple (o : rop) : bool := match o with TrySend _ | SendOver _ | SendErr _ | IsCanceled | DropTx => true | _ => false end.
  Lemma Kr_tx l o r : Kr (l ++ [ERet o r]) -> simple o = true ->
    tres o r (q_closed (queue cap l)) /\ q_tx (queue cap l) = TRet r [].
  Proof.
    intros ((a & b & H) & B) So. assert (rside o = TX) as Es by (destruct o; auto; discriminate).
    pose proof (hist_ret _ _ _ H _ _ _ eq_refl) as Hr. rewrite Es in Hr. destruct Hr as [_ Hr]. pose proof (bad_pre _ _ _ B) as B0.
    destruct (q_match _ _ _ _ Hr B0) as (Mt & _). destruct (facts_hist _ _ _ _ Hr B0) as [F _ _ _ _ _ _ _ _ _].
    rewrite queue_snoc in B. destruct (queue cap l) as [pe er cl te re tx rx bd ra]. cbn in *. rewrite Es in B.
    destruct tx as [| | | | | | | |k| | |r' [|]]; cbn in *; try discriminate.
    - destruct k, o; try contradiction; discriminate.
    - destruct (rres_eqb r r') eqn:E; [|discriminate]. apply rres_eqb_ok in E. subst. auto.
  Qed.
  Lemma Kr_rx l o r : Kr (l ++ [ERet o r]) -> rside o = RX ->
    q_rx (queue cap l) = RRet r \/ q_rx (queue cap l) = RWaiting /\ r = RPending \/ q_rx (queue cap l) = RDrop [] None /\ r = RUnit.
  Proof.
    intros ((a & b & H) & B) Es. rewrite queue_snoc in B. destruct (queue cap l) as [pe er cl te re tx rx bd ra]. cbn in *. rewrite Es in B.
    destruct rx as [| | | | | |[|] [|]|r']; cbn in *; try discriminate;
      (destruct (rres_eqb r _) eqn:E; [|discriminate]); apply rres_eqb_ok in E; subst; auto.
  Qed.

  Lemma d_rel (l : log) : d_closed (drv l) = cret (channel l) /\ d_begun (drv l) = cinv (channel l).
  Proof.
    induction l as [|e l IH] using rev_ind; [split; reflexivity|].
    rewrite driving_snoc. destruct (drv l) as [i r lt dn er en ru ys bg cl bad]. cbn in IH. destruct IH as [-> ->].
    destruct e as [| | [] | | [] | | |e]; try (rewrite ch_other by exact I; auto; fail).
    rewrite ch_snoc. destruct (obs_snoc (channel l) e) as (-> & -> & _). destruct e; cbn; now rewrite ?orb_false_r.
  Qed.
  Lemma p_rel (l : log) : p_end (stream_end l) = d_ended (drv l).
  Proof.
    induction l as [|e l IH] using rev_ind; [reflexivity|]. unfold stream_end in *. rewrite fold_snoc, driving_snoc.
    destruct (drv l) as [i r lt dn er en ru ys bg cl bad]. cbn in IH.
    destruct e as [| |[]| |[]| | |[[]|[] []| | | | |]]; cbn; auto.
  Qed.

  (** What has become of the items. *)
  Definition hnd (full : list N) (l : log) : Prop :=
    match kind with
    | Handled => too_many (channel l) = handed l ++ full /\ overwritten (channel l) = []
    | Saturating => handed l = [] /\ overwritten (channel l) = []
    | Overwriting => handed l = [] /\ too_many (channel l) = []
    end.
  Definition acc (fly full : list N) (l : log) : Prop :=
    (exists a, shuffle (incoming (channel l)) (refused (channel l)) a /\ produced l = a ++ fly) /\ hnd full l.

  Record ok (l : log) : Prop := {
    k_bad : d_bad (drv l) = false;
    k_cl : d_closed (drv l) = true -> q_closed (qu l) = true \/ q_bad (qu l) = true;
    k_acc : exists fly full, (length fly <= 1)%nat /\ (length full <= 1)%nat /\ acc fly full l;
    k_dn : d_ended (drv l) = true -> eret (channel l) = true;
    k_ei : einv (channel l) = true -> d_done (drv l) = true \/ d_err (drv l) = true \/ d_begun (drv l) = true;
    k_late : p_late (stream_end l) = true -> q_bad (qu l) = true \/
      q_txend (qu l) = true /\ q_rx (qu l) <> RWaiting /\ q_rx (qu l) <> RRet RPending;
    k_miss : p_miss (stream_end l) = false
  }.
  Definition psus (l : log) := (exists r n, dr rclose false r false false false false n n l) /\ acc [] [] l.
  Definition pend (l : log) := d_ended (drv l) = true /\ acc [] [] l.

  Lemma prod_ch (l : log) e : produced (l ++ [FCh e]) = produced l.
  Proof. unfold produced. rewrite flat_map_app. cbn. now rewrite app_nil_r. Qed.
  Lemma handed_ch (l : log) e : handed (l ++ [FCh e]) = handed l.
  Proof. unfold handed. rewrite flat_map_app. cbn. now rewrite app_nil_r. Qed.
  (** Events that change none of these. *)
  Lemma acc_ch fly full l e : (match e with ERet o _ => rside o = RX \/ o = DropTx \/ o = IsCanceled | _ => True end) ->
    acc fly full l -> acc fly full (l ++ [FCh e]).
  Proof.
    intros Q ((a & A1 & A2) & A3). unfold acc, hnd in *. rewrite ch_snoc, prod_ch, handed_ch.
    assert (incoming (channel l ++ [e]) = incoming (channel l) /\ refused (channel l ++ [e]) = refused (channel l) /\
      too_many (channel l ++ [e]) = too_many (channel l) /\ overwritten (channel l ++ [e]) = overwritten (channel l)) as (-> & -> & -> & ->).
    { unfold incoming, refused, too_many, overwritten. rewrite !flat_map_app. cbn.
      destruct e as [|o r| | | | |]; cbn; rewrite ?app_nil_r; auto.
      destruct Q as [Q|[->| ->]]; [|cbn; rewrite ?app_nil_r; auto..]. destruct o; try discriminate; cbn; rewrite ?app_nil_r; auto. }
    split; eauto.
  Qed.
  Lemma acc_sta fly full : sta (acc fly full).
  Proof. intros l e Q. destruct e; try contradiction Q. apply acc_ch. destruct e; auto. left. apply Q. Qed.
  Lemma acc_other fly full l e : (match e with FRun | FResume | FYield | FEnd | FOverRet None | FOut (Yielded None) | FOut (Complete (inl None)) => True | _ => False end) ->
    acc fly full l -> acc fly full (l ++ [e]).
  Proof.
    intros Q ((a & A1 & A2) & A3). unfold acc, hnd in *. rewrite ch_other by (destruct e; try contradiction; exact I).
    assert (produced (l ++ [e]) = produced l /\ handed (l ++ [e]) = handed l) as (-> & ->); [|eauto].
    unfold produced, handed. rewrite !flat_map_app. destruct e as [| |[[]|[[]|]]| |[]| | |]; try contradiction; cbn; rewrite !app_nil_r; auto.
  Qed.
  Lemma acc_out full l e v : (match e with FOverRet (Some w) | FOut (Yielded (Some w)) | FOut (Complete (inl (Some w))) | FOut (Complete (inr w)) => w = v | _ => False end) ->
    acc [] full l -> acc [v] full (l ++ [e]).
  Proof.
    intros Q ((a & A1 & A2) & A3). unfold acc, hnd in *. rewrite ch_other by (destruct e; try contradiction; exact I).
    assert (produced (l ++ [e]) = produced l ++ [v] /\ handed (l ++ [e]) = handed l) as (-> & ->); [|rewrite A2, app_nil_r; eauto].
    unfold produced, handed. rewrite !flat_map_app. destruct e as [| |[[]|[[]|]]| |[]| | |]; try contradiction; subst; cbn; rewrite ?app_nil_r; auto.
  Qed.
  Lemma acc_over l v : kind = Handled -> acc [] [v] l -> acc [] [] (l ++ [FOver v]).
  Proof.
    intros Ek ((a & A1 & A2) & A3). unfold acc, hnd in *. rewrite Ek in *. rewrite ch_other by exact I.
    assert (produced (l ++ [FOver v]) = produced l /\ handed (l ++ [FOver v]) = handed l ++ [v]) as (-> & ->).
    { unfold produced, handed. rewrite !flat_map_app. cbn. rewrite ?app_nil_r; auto. }
    rewrite app_nil_r. split; eauto.
  Qed.
  (** The outcome of sending the item. *)
  Lemma acc_sent l o r v : acc [v] [] l -> tres o r (q_closed (qu l)) ->
    match o with
    | TrySend w => w = v /\ kind <> Overwriting
    | SendErr w => w = v /\ True
    | SendOver w => w = v /\ kind = Overwriting
    | _ => False end ->
    acc [] (match r with RFull _ => match kind with Handled => [v] | _ => [] end | _ => [] end) (l ++ [FCh (ERet o r)]).
  Proof.
    intros ((a & A1 & A2) & A3) T Q. unfold acc, hnd in *. rewrite ch_snoc, prod_ch, handed_ch.
    split.
    - exists (a ++ [v]). rewrite app_nil_r. split; [|exact A2].
      unfold incoming, refused in *. rewrite !flat_map_app. cbn.
      destruct o; try contradiction; destruct r; try contradiction; cbn in *; rewrite ?app_nil_r;
        destruct Q as [-> Q]; first [apply sh_l, A1|apply sh_r, A1].
    - unfold too_many, overwritten in *. rewrite !flat_map_app. cbn.
      destruct o; try contradiction; destruct r; try contradiction; cbn in *; rewrite ?app_nil_r in *;
        destruct Q as [-> Q]; destruct kind; try congruence; auto.
      destruct A3 as [-> A3]. auto.
  Qed.

  Lemma queue_ch (l : log) e : qu (l ++ [FCh e]) = qstep cap (qu l) e.
  Proof. now rewrite ch_snoc, queue_snoc. Qed.

  (** A poll that starts after the end does not wait. *)
  Lemma late_step q e : q_bad q = true \/ q_txend q = true /\ q_rx q <> RWaiting /\ q_rx q <> RRet RPending ->
    let q' := qstep cap q e in q_bad q' = true \/ q_txend q' = true /\ q_rx q' <> RWaiting /\ q_rx q' <> RRet RPending.
  Proof.
    intros [H|H]; [left; now apply bad_sticky|]. destruct q as [pe er cl te re tx rx bd ra]. cbn in H. destruct H as (-> & H1 & H2).
    destruct e as [o|o r|[] w|[] w|[] v|[]|[]]; cbn; try destruct (rside o); cbn; auto;
      unfold tacc, tsync, racc, rsync, recv, poll_at, look, fail, with_tx, with_rx, set_pend; cbn.
    - destruct tx; cbn; auto.
    - destruct rx; cbn; auto. right. repeat split; destruct o; discriminate.
    - destruct tx as [| | | | | | | | | | |? [|]]; cbn; auto; destruct (rres_eqb _ _); cbn; auto.
    - destruct rx as [| | | | | |[|] [|]|]; cbn; auto; destruct (rres_eqb _ _); cbn; auto; right; repeat split; discriminate.
    - destruct tx as [| | | | | | | | | | |? [|]]; cbn; auto; destruct (_ =? _); cbn; auto.
    - destruct rx as [| | | | | |[|] [|]|]; cbn; auto; destruct (_ =? _); cbn; auto; right; repeat split; discriminate.
    - destruct tx as [| | | | | | | | | | |? [|]]; cbn; auto; repeat (match goal with |- context [if ?b then _ else _] => destruct b | |- context [match pe with _ => _ end] => destruct pe end; cbn; auto).
    - destruct rx as [| | | | | | |]; cbn; auto; try (right; repeat split; discriminate); try (now destruct H1);
        destruct pe, er; cbn; right; repeat split; discriminate.
    - destruct tx as [| | | | | | | | | | |? [|]]; cbn; auto; repeat (match goal with |- context [if ?b then _ else _] => destruct b | |- context [match pe with _ => _ end] => destruct pe end; cbn; auto).
    - destruct rx as [| | | | | | |]; cbn; auto; right; repeat split; discriminate.
  Qed.
  Lemma cl_step q e : q_closed q = true \/ q_bad q = true -> q_closed (qstep cap q e) = true \/ q_bad (qstep cap q e) = true.
  Proof. intros [H|H]; [left; now apply closed_mono|right; now apply bad_sticky]. Qed.

  (** Any event of the channel. *)
  Lemma ok_ch l e fly full : (length fly <= 1)%nat -> (length full <= 1)%nat -> acc fly full (l ++ [FCh e]) ->
    (match e with
     | EInv o => (rside o = TX -> lastop o = true -> d_done (drv l) = true \/ d_err (drv l) = true \/ d_begun (drv l) = true) /\
                 (rside o = RX -> Kr (channel (l ++ [FCh e])))
     | ERet o _ => rside o = RX -> Kr (channel (l ++ [FCh e]))
     | _ => True end) ->
    ok l -> ok (l ++ [FCh e]).
  Proof.
    intros Lf Lu Ha Q [H1 H2 H3 H4 H5 H6 H7].
    assert (d_bad (drv (l ++ [FCh e])) = d_bad (drv l) /\ d_done (drv (l ++ [FCh e])) = d_done (drv l) /\
      d_ended (drv (l ++ [FCh e])) = d_ended (drv l) /\ d_err (drv (l ++ [FCh e])) = d_err (drv l) /\
      (d_begun (drv l) = true -> d_begun (drv (l ++ [FCh e])) = true)) as (E1 & E2 & E3 & E4 & E5).
    { rewrite driving_snoc. destruct (drv l). destruct e; cbn; repeat split; auto. now intros ->. }
    constructor; rewrite ?E1, ?E2, ?E3, ?E4, ?queue_ch; auto.
    - intros C. assert (d_closed (drv l) = true \/ exists o r, e = ERet o r /\ rclose o = true) as [C'|(o & r & -> & C')].
      { revert C. rewrite driving_snoc. destruct (drv l). destruct e; cbn; auto. intros [C|C]%orb_prop; eauto. }
      + apply cl_step; auto.
      + left. assert (Kr (channel (l ++ [FCh (ERet o r)]))) as Hk by (apply Q; destruct o; auto; discriminate).
        destruct (Kr_facts _ Hk) as (a & b & _ & [_ _ _ _ F _ _ _ _ _]). rewrite <- queue_ch. apply F. rewrite ch_snoc.
        destruct (obs_snoc (channel l) (ERet o r)) as (_ & -> & _). now rewrite C', orb_true_r.
    - eauto.
    - intros D. rewrite ch_snoc. destruct (obs_snoc (channel l) e) as (_ & _ & _ & ->). now rewrite H4.
    - rewrite ch_snoc. destruct (obs_snoc (channel l) e) as (_ & _ & -> & _). intros [D|D]%orb_prop.
      + destruct (H5 D) as [?|[?|?]]; auto.
      + destruct e as [o| | | | | |]; try discriminate. destruct Q as [Q _]. destruct Q as [?|[?|?]]; auto. destruct o; auto; discriminate.
    - intros Hp. destruct (p_late (stream_end l)) eqn:Ep; [apply late_step; auto|].
      assert (exists w, e = EInv (PollNext w) /\ p_end (stream_end l) = true) as (w & -> & Ee).
      { revert Hp Ep. unfold stream_end. rewrite fold_snoc. destruct (fold_left endstep l (Ending false false false)).
        destruct e as [[]|[] []| | | | |]; cbn; intros; try congruence. eauto. }
      rewrite p_rel in Ee. specialize (H4 Ee). destruct Q as [_ Q]. specialize (Q eq_refl). pose proof Q as [_ B].
      rewrite ch_snoc in Q. pose proof (Kr_pre _ _ Q) as Q'. destruct (Kr_facts _ Q') as (a & b & _ & [_ _ _ _ _ _ _ _ _ F]). specialize (F H4).
      rewrite queue_ch in B. destruct (qu l) as [pe er cl te re tx rx bd ra]. cbn in *. subst te. destruct rx; cbn in *; try discriminate.
      right. repeat split; discriminate.
    - revert H7. unfold stream_end in *. rewrite fold_snoc. destruct (fold_left endstep l (Ending false false false)) as [pe_ pl pm]. cbn in H6 |- *. intros ->.
      destruct e as [[]|[] []| | | | |]; cbn; auto. destruct pl; auto. specialize (H6 eq_refl).
      specialize (Q eq_refl). pose proof Q as [_ B]. rewrite ch_snoc in Q. pose proof (Kr_pre _ _ Q) as [_ B0].
      destruct H6 as [H6|(_ & H6 & H6')]; [congruence|]. destruct (Kr_rx _ _ _ Q eq_refl) as [G|[[G _]|[_ G]]]; congruence.
  Qed.
  Lemma ok_quiet l e : quiet rside ring_api e -> ok l -> Kr (channel (l ++ [e])) -> ok (l ++ [e]).
  Proof.
    intros Q H Hk. destruct e; try contradiction Q. destruct (k_acc _ H) as (fly & full & L1 & L2 & A).
    apply (ok_ch l e fly full); auto.
    - now apply (acc_sta fly full l (FCh e)).
    - destruct e as [o| | | | | |]; auto. split; auto. destruct Q as [Q _]. congruence.
  Qed.
  (** A call of the generator, and its return. *)
  Lemma ok_inv l o fly full : (length fly <= 1)%nat -> (length full <= 1)%nat -> acc fly full l -> rside o = TX ->
    (lastop o = true -> d_done (drv l) = true \/ d_err (drv l) = true \/ d_begun (drv l) = true) ->
    ok l -> ok (l ++ [FCh (EInv o)]).
  Proof.
    intros L1 L2 A S Q. apply (ok_ch l _ fly full); auto.
    - now apply acc_ch.
    - split; auto. congruence.
  Qed.
  Lemma ok_ret l o r fly full : (length fly <= 1)%nat -> (length full <= 1)%nat -> acc fly full (l ++ [FCh (ERet o r)]) -> rside o = TX ->
    ok l -> ok (l ++ [FCh (ERet o r)]).
  Proof. intros L1 L2 A S. apply (ok_ch l _ fly full); auto. congruence. Qed.
  (** Events of the generator. *)
  Lemma ok_other l e fly full : (length fly <= 1)%nat -> (length full <= 1)%nat -> acc fly full (l ++ [e]) ->
    match e with FCh _ => False | FEnd => eret (channel l) = true | _ => True end ->
    d_bad (drv (l ++ [e])) = false -> ok l -> ok (l ++ [e]).
  Proof.
    intros L1 L2 Ha Q E [H1 H2 H3 H4 H5 H6 H7].
    assert (channel (l ++ [e]) = channel l) as Ec by (apply ch_other; destruct e; auto; contradiction).
    constructor; rewrite ?Ec; auto.
    - rewrite driving_snoc. destruct (drv l). destruct e as [| |[]| |[]| | |]; try contradiction; auto.
    - eauto.
    - rewrite driving_snoc. destruct (drv l). destruct e as [| |[]| |[]| | |]; try contradiction; auto.
    - intros D. specialize (H5 D). rewrite driving_snoc. destruct (drv l). destruct e as [| |[]| |[]| | |]; try contradiction; cbn in *; auto.
    - unfold stream_end in *. rewrite fold_snoc. destruct (fold_left endstep l (Ending false false false)). destruct e as [| |[]| |[]| | |]; try contradiction; auto.
    - unfold stream_end in *. rewrite fold_snoc. destruct (fold_left endstep l (Ending false false false)). destruct e as [| |[]| |[]| | |]; try contradiction; auto.
  Qed.

  Notation gwp_ := (gwp rside ring_api Kr ok psus pend).
  (** The generator may complete. *)
  Definition over (l : log) : Prop :=
    exists r lt dn er ru ys, dr rclose true r lt dn er false ru ys l /\ (dn = true \/ er = true \/ d_begun (drv l) = true).
  Lemma over_sta : sta over.
  Proof.
    intros l e Q (r & lt & dn & er & ru & ys & H & B). exists r, lt, dn, er, ru, ys. split; [eapply dr_stable; eauto|].
    destruct B as [B|[B|B]]; auto. right. right. eapply begun_stable; eauto.
  Qed.
  Lemma over_ch l e : over l -> over (l ++ [FCh e]).
  Proof.
    intros (r & lt & dn & er & ru & ys & H & B). exists r, lt, dn, er, ru, ys. split; [now apply dr_ch|].
    destruct B as [B|[B|B]]; auto. right. right. rewrite driving_snoc. destruct (drv l). cbn in *. subst. destruct e; reflexivity.
  Qed.
  Lemma over_ei l : over l -> d_done (drv l) = true \/ d_err (drv l) = true \/ d_begun (drv l) = true.
  Proof. intros (r & lt & dn & er & ru & ys & (bg & cl & E) & B). rewrite E in *. cbn in *. tauto. Qed.
  Lemma eret_sta : sta (fun l => eret (channel l) = true).
  Proof.
    intros l e Q H. destruct e; try contradiction Q. rewrite ch_snoc. destruct (obs_snoc (channel l) e) as (_ & _ & _ & ->). now rewrite H.
  Qed.
  Lemma g_end l : ok l -> over l -> acc [] [] l -> eret (channel l) = true -> gwp_ GEnd l.
  Proof.
    intros Ho Hv Ha He. apply (gwp_end _ _ _ _ _ _ (fun l => (over l /\ acc [] [] l) /\ eret (channel l) = true)); auto.
    - apply sta_and; [apply sta_and; [apply over_sta|apply acc_sta]|apply eret_sta].
    - clear. intros l Ho ((Hv & Ha) & He). assert (acc [] [] (l ++ [FEnd])) as Ha' by now apply acc_other.
      destruct Hv as (r & lt & dn & er & ru & ys & (bg & cl & E) & B).
      split; [|split; [rewrite driving_snoc, E; reflexivity|exact Ha']].
      apply (ok_other l _ [] []); auto. rewrite driving_snoc, E in *. cbn in *. destruct B as [->|[->| ->]]; rewrite ?orb_true_r; reflexivity.
  Qed.
  Lemma g_break l : ok l -> over l -> acc [] [] l -> gwp_ ring_break l.
  Proof.
    intros Ho Hv Ha. apply (gwp_call _ _ _ _ _ _ (fun l => over l /\ acc [] [] l) (fun l => over l /\ acc [] [] l)); auto.
    - apply sta_and; [apply over_sta|apply acc_sta].
    - apply sta_and; [apply over_sta|apply acc_sta].
    - clear. intros l Ho (Hv & Ha). apply (ok_inv l _ [] []); auto. intros _. now apply over_ei.
    - clear. intros l (Hv & Ha). split; [now apply over_ch|now apply acc_ch].
    - clear. intros l r Ho (Hv & Ha) Hk. apply g_end.
      + apply (ok_ret l _ _ [] []); auto. apply acc_ch; auto.
      + now apply over_ch.
      + apply acc_ch; auto.
      + rewrite ch_snoc. destruct (obs_snoc (channel l) (ERet DropTx r)) as (_ & _ & _ & ->). apply orb_true_r.
  Qed.
  Lemma g_fail v l : ok l -> over l -> acc [v] [] l -> gwp_ (ring_fail v) l.
  Proof.
    intros Ho Hv Ha. apply (gwp_call _ _ _ _ _ _ (fun l => over l /\ acc [v] [] l) (fun l => over l /\ acc [v] [] l)); auto.
    - apply sta_and; [apply over_sta|apply acc_sta].
    - apply sta_and; [apply over_sta|apply acc_sta].
    - clear. intros l Ho (Hv & Ha). apply (ok_inv l _ [v] []); auto. intros _. now apply over_ei.
    - clear. intros l (Hv & Ha). split; [now apply over_ch|now apply acc_ch].
    - clear. intros l r Ho (Hv & Ha) Hk. rewrite ch_snoc in Hk. destruct (Kr_tx _ _ _ Hk eq_refl) as [T _].
      assert (acc [] [] (l ++ [FCh (ERet (SendErr v) r)])) as Ha'.
      { pose proof (acc_sent l (SendErr v) r v Ha T (conj eq_refl I)) as A. destruct r; try contradiction; exact A. }
      apply g_end; auto.
      + apply (ok_ret l _ _ [] []); auto.
      + now apply over_ch.
      + rewrite ch_snoc. destruct (obs_snoc (channel l) (ERet (SendErr v) r)) as (_ & _ & _ & ->). apply orb_true_r.
  Qed.
  Lemma g_yield n l : ok l -> dr rclose true true false false false false n n l -> acc [] [] l -> gwp_ GYield l.
  Proof.
    intros Ho Hv Ha. apply (gwp_yield _ _ _ _ _ _ (fun l => dr rclose true true false false false false n n l /\ acc [] [] l)); auto.
    - apply sta_and; [apply dr_stable|apply acc_sta].
    - clear. intros l Ho ((bg & cl & E) & Ha). assert (acc [] [] (l ++ [FYield])) as Ha' by now apply acc_other.
      split; [|split; [exists true, n, bg, cl; rewrite driving_snoc, E; cbn; now rewrite Nat.eqb_refl|exact Ha']].
      apply (ok_other l _ [] []); auto. rewrite driving_snoc, E. cbn. now rewrite Nat.eqb_refl.
  Qed.

  (** The check at the start of a turn. *)
  Definition seen (l : log) : Prop :=
    q_bad (qu l) = true \/ q_closed (qu l) = true /\ (q_tx (qu l) = TIs \/ q_tx (qu l) = TRet (RBool true) []).
  Lemma seen_sta : sta seen.
  Proof.
    intros l e Q H. destruct e; try contradiction Q. unfold seen in *. rewrite queue_ch.
    destruct H as [H|(H1 & H2)]; [left; now apply bad_sticky|].
    destruct (qu l) as [pe er cl te re tx rx bd ra]. cbn in H1, H2. subst cl.
    destruct e as [o|o r|[] w|[] w|[] v|[]|[]]; cbn in Q; cbn; try (match type of Q with _ /\ _ => destruct Q as [-> _] end); cbn; auto;
      unfold rsync, racc, recv, fail, with_tx, with_rx, set_pend; cbn.
    - destruct rx; cbn; auto.
    - destruct rx as [| | | | | |[|] [|]|]; cbn; auto; destruct (rres_eqb _ _); cbn; auto.
    - destruct H2 as [->| ->]; cbn; auto.
    - destruct rx as [| | | | | |[|] [|]|]; cbn; auto; destruct (_ =? _); cbn; auto.
    - destruct H2 as [->| ->]; cbn; auto.
    - destruct rx as [| | | | | | |]; cbn; auto; destruct pe, er; cbn; auto; destruct te; cbn; auto.
    - destruct H2 as [->| ->]; cbn; auto.
    - destruct rx as [| | | | | | |]; cbn; auto.
  Qed.
  Lemma closed_sta : sta (fun l => q_closed (qu l) = true \/ q_bad (qu l) = true).
  Proof. intros l e Q H. destruct e; try contradiction Q. rewrite queue_ch. now apply cl_step. Qed.
  Lemma g_turn k : (forall n l, ok l -> dr rclose true false false false false false (S n) n l -> acc [] [] l -> gwp_ (GResume k) l) ->
    forall l, ok l -> psus l -> ok (l ++ [FRun]) /\
      gwp_ (GCall IsCanceled (fun r => match r with RBool true => ring_break | _ => GResume k end)) (l ++ [FRun]).
  Proof.
    intros Hk l Ho ((r & n & bg & cl & E) & Ha).
    assert (acc [] [] (l ++ [FRun])) as Ha' by now apply acc_other.
    assert (ok (l ++ [FRun])) as Ho' by (apply (ok_other l _ [] []); auto; rewrite driving_snoc, E; reflexivity).
    split; [exact Ho'|].
    apply (gwp_call _ _ _ _ _ _
      (fun l => (dr rclose true false cl false false false (S n) n l /\ acc [] [] l) /\ (cl = true -> q_closed (qu l) = true \/ q_bad (qu l) = true))
      (fun l => (dr rclose true false cl false false false (S n) n l /\ acc [] [] l) /\ (cl = true -> seen l))); auto.
    - apply sta_and; [apply sta_and; [apply dr_stable|apply acc_sta]|apply sta_imp, closed_sta].
    - apply sta_and; [apply sta_and; [apply dr_stable|apply acc_sta]|apply sta_imp, seen_sta].
    - intros l1 Ho1 ((H1 & H2) & H3). apply (ok_inv l1 _ [] []); auto. discriminate.
    - intros l1 ((H1 & H2) & H3). split; [split; [now apply dr_ch|now apply acc_ch]|].
      intros Hc. specialize (H3 Hc). unfold seen. rewrite queue_ch. destruct (qu l1) as [pe er cl1 te re tx rx bd ra]. cbn in *.
      destruct tx; cbn; auto; destruct H3 as [->| ->]; auto.
    - clear - Hk. intros l r Ho ((H1 & H2) & H3) K. rewrite ch_snoc in K. destruct (Kr_tx _ _ _ K eq_refl) as [T Tq].
      assert (acc [] [] (l ++ [FCh (ERet IsCanceled r)])) as Ha by (apply acc_ch; auto).
      assert (ok (l ++ [FCh (ERet IsCanceled r)])) as Ho' by (apply (ok_ret l _ _ [] []); auto).
      pose proof (dr_ch rclose _ _ _ _ _ _ _ _ _ (ERet IsCanceled r) H1) as H1'.
      destruct r; try contradiction. destruct b.
      + apply g_break; auto. exists false, cl, false, false, (S n), n. split; [exact H1'|]. right. right.
        destruct (Kr_facts _ K) as (a & b & _ & [_ F _ _ _ _ _ _ _ _]). rewrite (proj2 (d_rel _)), ch_snoc. apply F.
        rewrite queue_snoc. now apply closed_mono, T.
      + assert (cl = false) as ->; [|now apply (Hk n)]. destruct cl; auto. specialize (H3 eq_refl).
        destruct (Kr_pre _ _ K) as [_ B]. destruct H3 as [H3|(_ & [H3|H3])]; congruence.
    - split; [split; [exists bg, cl; rewrite driving_snoc, E; reflexivity|exact Ha']|].
      intros ->. rewrite ch_other by exact I. apply (k_cl _ Ho). now rewrite E.
  Qed.

  (** What becomes of an item. *)
  Definition mid dn ru ys (l : log) := dr rclose true true false dn false false ru ys l.
  Lemma mid_over dn ru ys l : mid dn ru ys l -> dn = true \/ d_begun (drv l) = true -> over l.
  Proof. intros H B. exists true, false, dn, false, ru, ys. split; [exact H|tauto]. Qed.
  Lemma g_overflow (sat : bool) dn ru ys v (k : option N -> ring_tree) l :
    kind = (if sat then Saturating else Handled) -> (forall e, k (Some e) = ring_fail e) ->
    (forall l, ok l -> mid dn ru ys l -> acc [] [] l -> gwp_ (k None) l) ->
    ok l -> mid dn ru ys l -> acc [] (if sat then [] else [v]) l -> gwp_ (overflow sat v k) l.
  Proof.
    intros Ek Kf Kn Ho Hm Ha. unfold overflow. destruct sat; [now apply Kn|].
    apply (gwp_over _ _ _ _ _ _ (fun l => mid dn ru ys l /\ acc [] [v] l) (fun l => mid dn ru ys l /\ acc [] [] l)); auto.
    - apply sta_and; [apply dr_stable|apply acc_sta].
    - apply sta_and; [apply dr_stable|apply acc_sta].
    - clear - Ek. intros l Ho ((bg & cl & E) & Ha). apply (ok_other l _ [] []); auto; [now apply acc_over|]. now rewrite driving_snoc, E.
    - clear - Ek. intros l ((bg & cl & E) & Ha). split; [|now apply acc_over]. exists bg, cl. now rewrite driving_snoc, E.
    - clear - Ek Kf Kn. intros l [e|] Ho ((bg & cl & E) & Ha).
      + rewrite Kf. assert (acc [e] [] (l ++ [FOverRet (Some e)])) as Ha' by now apply acc_out.
        apply g_fail; auto.
        * apply (ok_other l _ [e] []); auto. now rewrite driving_snoc, E.
        * exists true, false, dn, true, ru, ys. split; [|tauto]. exists bg, cl. now rewrite driving_snoc, E.
      + assert (acc [] [] (l ++ [FOverRet None])) as Ha' by now apply acc_other.
        apply Kn; auto.
        * apply (ok_other l _ [] []); auto. now rewrite driving_snoc, E.
        * exists bg, cl. now rewrite driving_snoc, E.
  Qed.
  (** Sending an item: [k] continues. *)
  Lemma g_item o dn ru ys v (k : rres -> ring_tree) l :
    match o with TrySend w => w = v /\ kind <> Overwriting | SendOver w => w = v /\ kind = Overwriting | _ => False end ->
    (forall l r, ok l -> mid dn ru ys l -> (match r with RClosed _ | RNot _ _ => d_begun (drv l) = true | _ => True end) ->
       (match r with RFull w => w = v | _ => True end) ->
       acc [] (match r with RFull _ => match kind with Handled => [v] | _ => [] end | _ => [] end) l -> gwp_ (k r) l) ->
    ok l -> mid dn ru ys l -> acc [v] [] l -> gwp_ (GCall o k) l.
  Proof.
    intros Qo Hk Ho Hm Ha.
    assert (rside o = TX /\ simple o = true /\ lastop o = false) as (S1 & S2 & S3) by (destruct o; try contradiction; auto).
    apply (gwp_call _ _ _ _ _ _ (fun l => mid dn ru ys l /\ acc [v] [] l) (fun l => mid dn ru ys l /\ acc [v] [] l)); auto.
    - apply sta_and; [apply dr_stable|apply acc_sta].
    - apply sta_and; [apply dr_stable|apply acc_sta].
    - clear - S1 S3. intros l Ho (Hm & Ha). apply (ok_inv l _ [v] []); auto. congruence.
    - clear. intros l (Hm & Ha). split; [now apply dr_ch|now apply acc_ch].
    - clear - Qo Hk S1 S2. intros l r Ho (Hm & Ha) K. rewrite ch_snoc in K. destruct (Kr_tx _ _ _ K S2) as [T _].
      assert (acc [] (match r with RFull _ => match kind with Handled => [v] | _ => [] end | _ => [] end) (l ++ [FCh (ERet o r)])) as Ha'.
      { apply acc_sent; auto. destruct o; try contradiction; auto. }
      assert (q_closed (qu l) = true -> d_begun (drv (l ++ [FCh (ERet o r)])) = true) as Hb.
      { intros C. destruct (Kr_facts _ K) as (a & b & _ & [_ F _ _ _ _ _ _ _ _]). rewrite (proj2 (d_rel _)), ch_snoc. apply F.
        rewrite queue_snoc. now apply closed_mono. }
      apply Hk; auto.
      + eapply (ok_ret l _ _ []); [..|exact Ha'| |]; auto. destruct r; auto. destruct kind; auto.
      + now apply dr_ch.
      + destruct o; try contradiction; destruct r; try contradiction; auto; apply Hb, T.
      + destruct o; try contradiction; destruct r; try contradiction; auto. now destruct Qo as [-> _].
  Qed.
  Lemma g_resume k n l :
    (forall l, ok l -> mid false (S n) (S n) l -> acc [] [] l -> gwp_ (k (Yielded None)) l) ->
    (forall l v, ok l -> mid false (S n) (S n) l -> acc [v] [] l -> gwp_ (k (Yielded (Some v))) l) ->
    (forall l, ok l -> mid true (S n) n l -> acc [] [] l -> gwp_ (k (Complete (inl None))) l) ->
    (forall l v, ok l -> mid true (S n) n l -> acc [v] [] l -> gwp_ (k (Complete (inl (Some v)))) l) ->
    (forall l v, ok l -> mid true (S n) n l -> acc [v] [] l -> gwp_ (k (Complete (inr v))) l) ->
    ok l -> dr rclose true false false false false false (S n) n l -> acc [] [] l -> gwp_ (GResume k) l.
  Proof.
    intros A1 A2 A3 A4 A5 Ho Hd Ha.
    apply (gwp_resume _ _ _ _ _ _ (fun l => dr rclose true false false false false false (S n) n l /\ acc [] [] l) (fun l => mid false (S n) n l /\ acc [] [] l)); auto.
    - apply sta_and; [apply dr_stable|apply acc_sta].
    - apply sta_and; [apply dr_stable|apply acc_sta].
    - clear. intros l Ho ((bg & cl & E) & Ha). apply (ok_other l _ [] []); auto; [now apply acc_other|]. now rewrite driving_snoc, E.
    - clear. intros l ((bg & cl & E) & Ha). split; [|now apply acc_other]. exists bg, cl. now rewrite driving_snoc, E.
    - clear - A1 A2 A3 A4 A5. intros l [[v|]|[[v|]|v]] Ho ((bg & cl & E) & Ha).
      + assert (acc [v] [] (l ++ [FOut (Yielded (Some v))])) as Ha' by now apply acc_out.
        apply A2; auto; [apply (ok_other l _ [v] []); auto; now rewrite driving_snoc, E|]. exists bg, cl. now rewrite driving_snoc, E.
      + assert (acc [] [] (l ++ [FOut (Yielded None)])) as Ha' by now apply acc_other.
        apply A1; auto; [apply (ok_other l _ [] []); auto; now rewrite driving_snoc, E|]. exists bg, cl. now rewrite driving_snoc, E.
      + assert (acc [v] [] (l ++ [FOut (Complete (inl (Some v)))])) as Ha' by now apply acc_out.
        apply A4; auto; [apply (ok_other l _ [v] []); auto; rewrite driving_snoc, E; cbn; now rewrite Nat.eqb_refl|].
        exists bg, cl. rewrite driving_snoc, E. cbn. now rewrite Nat.eqb_refl.
      + assert (acc [] [] (l ++ [FOut (Complete (inl None))])) as Ha' by now apply acc_other.
        apply A3; auto; [apply (ok_other l _ [] []); auto; rewrite driving_snoc, E; cbn; now rewrite Nat.eqb_refl|].
        exists bg, cl. rewrite driving_snoc, E. cbn. now rewrite Nat.eqb_refl.
      + assert (acc [v] [] (l ++ [FOut (Complete (inr v))])) as Ha' by now apply acc_out.
        apply A5; auto; [apply (ok_other l _ [v] []); auto; rewrite driving_snoc, E; cbn; now rewrite Nat.eqb_refl|].
        exists bg, cl. rewrite driving_snoc, E. cbn. now rewrite Nat.eqb_refl.
  Qed.

  Lemma turn_ring (sat : bool) : kind = (if sat then Saturating else Handled) ->
    forall l, ok l -> psus l -> ok (l ++ [FRun]) /\ gwp_ (ring_body sat) (l ++ [FRun]).
  Proof.
    intros Ek. assert (kind <> Overwriting) as En by (rewrite Ek; destruct sat; discriminate).
    assert (forall v : N, match kind with Handled => [v] | _ => [] end = if sat then [] else [v]) as Ef by (intros v; rewrite Ek; destruct sat; reflexivity).
    apply g_turn. intros n l Ho Hd Ha. apply (g_resume _ n); auto; clear l Ho Hd Ha; intros l.
    - intros Ho Hm Ha. now apply (g_yield (S n)).
    - intros v Ho Hm Ha. apply (g_item (TrySend v) false (S n) (S n) v); auto. clear l Ho Hm Ha. intros l r Ho Hm Hb Hv Ha.
      destruct r; try (now apply (g_yield (S n))).
      + rewrite Ef in Ha. subst v0. apply (g_overflow sat false (S n) (S n)); auto. intros. now apply (g_yield (S n)).
      + apply g_break; auto. eapply mid_over; eauto.
    - intros Ho Hm Ha. apply g_break; auto. eapply mid_over; eauto.
    - intros v Ho Hm Ha. apply (g_item (TrySend v) true (S n) n v); auto. clear l Ho Hm Ha. intros l r Ho Hm Hb Hv Ha.
      assert (forall l, ok l -> mid true (S n) n l -> acc [] [] l -> gwp_ ring_break l) as Kb by (intros; apply g_break; auto; eapply mid_over; eauto).
      destruct r; auto. rewrite Ef in Ha. subst v0. apply (g_overflow sat true (S n) n); auto.
    - intros v Ho Hm Ha. apply g_fail; auto. eapply mid_over; eauto.
  Qed.
  Lemma turn_over : kind = Overwriting ->
    forall l, ok l -> psus l -> ok (l ++ [FRun]) /\ gwp_ ring_over_body (l ++ [FRun]).
  Proof.
    intros Ek. apply g_turn. intros n l Ho Hd Ha. apply (g_resume _ n); auto; clear l Ho Hd Ha; intros l.
    - intros Ho Hm Ha. now apply (g_yield (S n)).
    - intros v Ho Hm Ha. apply (g_item (SendOver v) false (S n) (S n) v); auto. clear l Ho Hm Ha. intros l r Ho Hm Hb Hv Ha. rewrite Ek in Ha.
      destruct r; try (now apply (g_yield (S n))). apply g_break; auto. eapply mid_over; eauto.
    - intros Ho Hm Ha. apply g_break; auto. eapply mid_over; eauto.
    - intros v Ho Hm Ha. apply (g_item (SendOver v) true (S n) n v); auto. clear l Ho Hm Ha. intros l r Ho Hm Hb Hv Ha. rewrite Ek in Ha.
      destruct r; apply g_break; auto; eapply mid_over; eauto.
    - intros v Ho Hm Ha. apply g_fail; auto. eapply mid_over; eauto.
  Qed.
  Lemma turn_kind l : ok l -> psus l -> ok (l ++ [FRun]) /\ gwp_ (ring_stream kind) (l ++ [FRun]).
  Proof.
    assert (kind = Overwriting \/ kind = Saturating \/ kind = Handled) as [E|[E|E]] by (destruct kind; auto).
    - replace (ring_stream kind) with ring_over_body by now rewrite E. now apply turn_over.
    - replace (ring_stream kind) with (ring_body true) by now rewrite E. now apply (turn_ring true).
    - replace (ring_stream kind) with (ring_body false) by now rewrite E. now apply (turn_ring false).
  Qed.

  Definition goodr (l : list rev_) (m : mem) : Prop := q_racy (queue cap l) = false.
  Theorem stream_ok sched : fits bits cap -> let s := ring_run bits cap at_ kind sched in
    q_racy (queue cap (slog (fch s))) = false ->
    channel (flog s) = slog (fch s) /\ (exists sc, fch s = rrun bits cap at_ sc) /\ Kr (slog (fch s)) /\ ok (flog s) /\
    (fgen s = Ended -> pend (flog s)) /\ (fgen s = Susp -> psus (flog s)).
  Proof.
    intros F s G. unfold s, ring_run in *.
    destruct (inv_run rside rconsuming (rcode bits cap) at_ ring_api (ring_stream kind) goodr Kr ok psus pend) with (sched := sched) as (H1 & (sc & H2) & H3); auto.
    - intros x a. unfold goodr. destruct (one_event rside rconsuming (rcode bits cap) at_ x a) as [->|[e ->]]; auto.
      rewrite queue_snoc. intros R. apply negb_true_iff. apply (RingQueue.ok1_sticky cap (queue cap (slog x)) e). unfold RingQueue.ok1. now rewrite R.
    - intros sc x R. split; [do 2 eexists; apply run_hist|]. now apply (queue_ok bits cap F at_ sc).
    - exact ok_quiet.
    - intros l e Q _ ((r & n & H) & H'). split; [exists r, n; eapply dr_stable; eauto|eapply acc_sta; eauto].
    - intros l e Q _ (H & H'). split; [|eapply acc_sta; eauto]. rewrite driving_snoc. destruct (drv l). destruct e as [| |[]| |[]| | |[]]; try contradiction; cbn in *; auto.
    - assert (acc [] [] []) as A by (split; [exists []; split; [constructor|reflexivity]|unfold hnd; cbn; destruct kind; auto]).
      constructor; cbn; auto; try discriminate. exists [], []. auto.
    - split; [exists false, 0%nat, false, false; reflexivity|].
      split; [exists []; split; [constructor|reflexivity]|unfold hnd; cbn; destruct kind; auto].
    - exact turn_kind.
    - destruct (H3 G) as (_ & Ho & Hf). split; [exact H1|]. split; [exists sc; exact H2|]. split; [|split; [exact Ho|]].
      + rewrite H2. change (run rside rconsuming (rcode bits cap) at_ sys0 sc) with (rrun bits cap at_ sc).
        split; [do 2 eexists; apply run_hist|]. apply (queue_ok bits cap F at_ sc). change (rrun bits cap at_ sc) with (run rside rconsuming (rcode bits cap) at_ sys0 sc). now rewrite <- H2.
      + split; intros E; rewrite E in Hf; apply Hf.
  Qed.
End Stream.
