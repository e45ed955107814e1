(** Third invariant of the ring channel: the sender's waker ([sstep]). *)
Require Import NArith List Bool Lia.
Require Import Verif.Spsc Verif.SpscWp Verif.Ring Verif.RingWord Verif.RingSpec Verif.RingQueue Verif.RingRxWaker.
Import ListNotations.
Open Scope N_scope.

(** A receiving call that has found the sender waiting. *)
Inductive swk := SwNo | SwPend | SwPeek | SwWake (w : N).

Record TS := mkTS {
  stw : wst;
  scw : option N;        (* a waker passed to a poll *)
  swt : option kind;     (* not ready: waiting *)
  spnd : option kind;
  sth : bool;
  slk : bool;            (* the buffer was seen not to be full *)
  spl : bool;            (* a poll that has not looked yet *)
  spd : bool }.          (* a poll was called before close had returned *)
Record RS := mkRS {
  scl : bool;
  stk : todo;
  swk_ : option N;
  ssw : swk;
  srh : bool;
  src : bool;            (* a receiving call is in progress *)
  sclr : bool }.         (* close has returned *)

Definition safe3 (m : mem) (a : acc) : Prop :=
  match a with
  | AWrite CTxW => cells m CTxW = None
  | ATake CTxW | APeek CTxW => cells m CTxW <> None
  | _ => True
  end.
Definition ok3 (b : swake) : bool := negb (s_stale b).

Definition mode (cap : N) (k : kind) (v : view) : Prop :=
  match k with
  | KReady => vr v = true /\ vf v = false /\ cap <= vlen v
  | KFlush => vr v = false /\ vf v = true /\ vlen v <> 0
  | KClose => True
  end.

Record Js (cap : N) (v : view) (cw : option N) (b : swake) (g : TS) (h : RS) : Prop := mkJs {
  s_bit : vr v || vf v = wbit (stw g);
  s_cell : cw = wcell (stw g) (scl h) (stk h);
  s_half : vh v = sth g || srh h;
  s_cls : vc v = scl h;
  s_pnd : s_pend b = spnd g;
  s_cap : vlen v <= cap;
  s_lk : slk g = true -> vlen v < cap;
  s_in : match stw g with WNone | WDone => True | WWritten w | WStored w | WBack w => In w (s_ws b) end;
  s_cur : match scw g with None => True | Some w => In w (s_ws b) end;
  s_sw : match ssw h with
         | SwNo => True
         | SwPend | SwPeek => (exists w, stw g = WStored w) /\ scl h = false
         | SwWake w => In w (s_ws b) end;
  s_wk : match swk_ h with None => True | Some w => In w (s_ws b) end;
  s_tk : stk h <> TkNo -> scl h = true /\ exists w, stw g = WStored w;
  s_wt : forall k, swt g = Some k ->
    (exists w, stw g = WStored w) /\ sth g = false /\
    (if scl h then stk h = TkWake \/ swk_ h <> None \/ s_woken b = true
     else s_woken b = true \/ ssw h <> SwNo \/ mode cap k v);
  s_pw : spnd g <> None -> swt g = spnd g;
  s_back : match stw g with WBack _ | WDone => scl h = true | _ => True end;
  s_rh : srh h = true -> scl h = true;
  s_clr : s_closed b = sclr h;
  s_clr' : sclr h = true -> scl h = true;
  s_pol : s_polled b = false -> stw g = WNone /\ (spl g = true -> scl h = true);
  s_spd : spd g = true -> s_polled b = true;
  s_rcv : src h = true -> scl h = true -> s_polled b = false;
  s_rcv' : src h = true -> scl h = sclr h }.

Definition tidle3 (gone : bool) (g : TS) : Prop :=
  sth g = gone /\ slk g = false /\ spl g = false /\ swt g = spnd g /\
  match stw g with WWritten _ | WBack _ => False | _ => True end.
Definition ridle3 (gone : bool) (h : RS) : Prop :=
  stk h = TkNo /\ swk_ h = None /\ ssw h = SwNo /\ srh h = gone /\ src h = false /\ (gone = false -> scl h = sclr h).

Section TxWaker.
  Variables bits cap : N.
  Hypothesis Hbits : 6 <= bits.
  Hypothesis Hcap0 : 1 < cap.
  Hypothesis Hcap : cap < MAX_CAPACITY bits.
  Hypothesis Heven : COUNT_BITS bits = LB bits.

  Notation enc := (encv bits).
  Notation wok := (vok bits cap).
  Notation wlen := (wlen bits cap Hbits Hcap0 Hcap).
  Notation wcur := (wcur bits cap Hbits Hcap0 Hcap).
  Notation wadd := (wadd bits cap Hbits Hcap0 Hcap).
  Notation wfull := (wfull bits cap Hbits Hcap0 Hcap).
  Notation wnext := (wnext bits cap Hbits Hcap0 Hcap).
  Notation wdrop := (wdrop bits cap Hbits Hcap0 Hcap Heven).
  Notation wclaim_ok := (wclaim_ok bits cap Hbits Hcap0 Hcap Heven).

  Definition J3 (m : mem) (b : swake) (g : TS) (h : RS) : Prop :=
    exists v, st m = enc v /\ wok v /\ Js cap v (cells m CTxW) b g h.
  Definition J3r (m : mem) (b : swake) (h : RS) (g : TS) : Prop := J3 m b g h.

  Notation wpt := (wp TX rconsuming sstep ok3 safe3 J3 tidle3).
  Notation wpr := (wp RX rconsuming sstep ok3 safe3 J3r ridle3).

  Lemma J3_frame m m' b g h : J3 m b g h -> st m' = st m -> cells m' CTxW = cells m CTxW -> J3 m' b g h.
  Proof. intros (v & E & Hv & HJ) E1 E2. exists v. rewrite E1, E2. auto. Qed.
  Lemma J3_woken m b g h : forall x, J3 m b g h ->
    J3 m (Swake (s_ws b) (s_pend b) (s_woken b || x) (s_closed b) (s_polled b) (s_stale b)) g h.
  Proof.
    intros x (v & E & Hv & HJ). exists v. split; [exact E|]. split; [exact Hv|].
    destruct HJ. constructor; cbn; auto. intros k K. destruct (s_wt0 k K) as (K1 & K2 & K3).
    split; [exact K1|]. split; [exact K2|].
    destruct (scl h).
    - destruct K3 as [?|[?| ->]]; auto.
    - destruct K3 as [->|[?|?]]; auto.
  Qed.

  Definition other (c : cell) : Prop := match c with CTxW => False | _ => True end.
  Ltac frame HJ := apply (J3_frame _ _ _ _ _ HJ); [try reflexivity|try reflexivity].
  Lemma J3_write m b g h c w : other c -> J3 m b g h -> J3 (write m c w) b g h.
  Proof. intros W HJ. frame HJ. destruct c; try contradiction; reflexivity. Qed.
  Lemma J3_take m b g h c : other c -> J3 m b g h -> J3 (fst (take m c)) b g h.
  Proof.
    intros W HJ. frame HJ; unfold take; cbn; destruct (cells m c); auto; destruct c; try contradiction; reflexivity.
  Qed.
  Lemma J3_peek m b g h c : J3 m b g h -> J3 (fst (peek m c)) b g h.
  Proof. intros HJ. frame HJ; unfold peek; cbn; destruct (cells m c); auto. Qed.
  Lemma J3_touch m b g h : J3 m b g h -> J3 (touch m) b g h.
  Proof. intros HJ. frame HJ. Qed.
  Lemma J3_free m b g h : J3 m b g h -> J3 (free m) b g h.
  Proof. intros HJ. frame HJ. Qed.

  (** Accesses that do not matter here. *)
  Lemma t_write o c w k g : other c -> wpt o k g -> wpt o (Write c w k) g.
  Proof.
    intros W K m b h HJ. split; [now destruct c|]. intros _. exists g. split; [|exact K]. now apply J3_write.
  Qed.
  Lemma t_take o c k g : other c -> (forall w, wpt o (k w) g) -> wpt o (Take c k) g.
  Proof.
    intros W K m b h HJ. split; [now destruct c|]. intros _. exists g. split; [|apply K]. now apply J3_take.
  Qed.
  Lemma t_peek o c k g : other c -> (forall w, wpt o (k w) g) -> wpt o (Peek c k) g.
  Proof.
    intros W K m b h HJ. split; [now destruct c|]. intros _. exists g. split; [|apply K]. now apply J3_peek.
  Qed.
  Lemma t_wake o w k g : wpt o k g -> wpt o (Wake w k) g.
  Proof. intros K m b h HJ _. now exists g. Qed.
  Lemma t_dropw o w k g : wpt o k g -> wpt o (DropW w k) g.
  Proof. intros K m b h HJ _. now exists g. Qed.
  Lemma t_dropv o w k g : wpt o k g -> wpt o (DropV w k) g.
  Proof. intros K m b h HJ _. now exists g. Qed.
  Lemma t_free o k g : wpt o k g -> wpt o (Free k) g.
  Proof. intros K m b h HJ. split; [exact I|]. exists g. split; [now apply J3_free|exact K]. Qed.
  Lemma r_write o c w k g : other c -> wpr o k g -> wpr o (Write c w k) g.
  Proof.
    intros W K m b h HJ. split; [now destruct c|]. intros _. exists g. split; [|exact K]. now apply J3_write.
  Qed.
  Lemma r_take o c k g : other c -> (forall w, wpr o (k w) g) -> wpr o (Take c k) g.
  Proof.
    intros W K m b h HJ. split; [now destruct c|]. intros _. exists g. split; [|apply K]. now apply J3_take.
  Qed.
  Lemma r_peek o c k g : other c -> (forall w, wpr o (k w) g) -> wpr o (Peek c k) g.
  Proof.
    intros W K m b h HJ. split; [now destruct c|]. intros _. exists g. split; [|apply K]. now apply J3_peek.
  Qed.
  Lemma r_dropw o w k g : wpr o k g -> wpr o (DropW w k) g.
  Proof. intros K m b h HJ _. now exists g. Qed.
  Lemma r_dropv o w k g : wpr o k g -> wpr o (DropV w k) g.
  Proof. intros K m b h HJ _. now exists g. Qed.
  Lemma r_free o k g : wpr o k g -> wpr o (Free k) g.
  Proof. intros K m b h HJ. split; [exact I|]. exists g. split; [now apply J3_free|exact K]. Qed.

  (** Read-modify-writes. *)
  Lemma t_rmw {oa oc} o old f k g :
    (forall v cw b h, wok v -> Js cap v cw b g h -> exists v' g', f (enc v) = enc v' /\ wok v' /\
       Js cap v' cw b g' h /\ wpt o (k (enc v)) g') ->
    wpt o (Rmw oa oc old f k) g.
  Proof.
    intros K. cbn [wp]. split.
    - intros m b h HJ. split; [exact I|]. intros _. now apply J3_touch.
    - intros m b h (v & E & Hv & HJ) _. destruct (K v _ _ _ Hv HJ) as (v' & g' & E' & Hv' & HJ' & W).
      rewrite E. exists g'. split; [|exact W]. exists v'. cbn. auto.
  Qed.
  Lemma r_rmw {oa oc} o old f k h :
    (forall v cw b g, wok v -> Js cap v cw b g h -> exists v' h', f (enc v) = enc v' /\ wok v' /\
       Js cap v' cw b g h' /\ wpr o (k (enc v)) h') ->
    wpr o (Rmw oa oc old f k) h.
  Proof.
    intros K. cbn [wp]. split.
    - intros m b g HJ. split; [exact I|]. intros _. now apply J3_touch.
    - intros m b g (v & E & Hv & HJ) _. destruct (K v _ _ _ Hv HJ) as (v' & h' & E' & Hv' & HJ' & W).
      rewrite E. exists h'. split; [|exact W]. exists v'. cbn. auto.
  Qed.

  Ltac words := rewrite ?wlen, ?wcur, ?has_READY, ?has_FLUSH, ?has_RXW, ?has_ERR, ?has_CLOSED, ?has_HALF by assumption.

  (** ** The sender. *)
  Definition slook (g : TS) (l : bool) : TS := mkTS (stw g) (scw g) (swt g) (spnd g) (sth g) l (spl g) (spd g).
  Definition pollop (k : kind) (w : N) : rop :=
    match k with KReady => PollReady w | KFlush => PollFlush w | KClose => PollClose w end.

  Lemma Js_unlook v cw b g h l : Js cap v cw b (slook g l) h -> Js cap v cw b (slook g false) h.
  Proof. intros []. constructor; auto. discriminate. Qed.
  (** A call that leaves the registration alone returns. *)
  Lemma t_done o r g l : rside o = TX -> tidle3 (rconsuming o) (slook g false) ->
    (forall k w, o = pollop k w -> r <> RPending) -> wpt o (Done r) (slook g l).
  Proof.
    intros S Hi N m b h (v & E & Hv & HJ) _. exists (slook g false). split; [|exact Hi].
    apply Js_unlook in HJ. exists v. split; [exact E|]. split; [exact Hv|].
    destruct o; try discriminate; cbn [sstep]; try exact HJ.
    - specialize (N KReady w eq_refl). now destruct r.
    - specialize (N KFlush w eq_refl). now destruct r.
    - specialize (N KClose w eq_refl). now destruct r.
  Qed.

  Lemma t_load {oa} o k g l : (forall v, wok v -> vlen v <= cap -> wpt o (k (enc v)) (slook g (vlen v <? cap))) -> wpt o (Load oa k) (slook g l).
  Proof.
    intros K m b h (v & E & Hv & HJ). split; [exact I|]. intros _.
    exists (slook g (vlen v <? cap)). split; [|rewrite E; apply K; [assumption|apply HJ]].
    exists v. cbn. split; [exact E|]. split; [exact Hv|]. destruct HJ. constructor; cbn; auto. intros L. now apply N.ltb_lt.
  Qed.
  Lemma t_publish {oa oc} o old k1 k2 g : wpt o k1 (slook g false) -> wpt o k2 (slook g false) ->
    wpt o (Rmw oa oc old (fun s => add_length bits s 1) (fun s =>
       if has s CLOSED then k1 else if has s RXW then Peek CRxW (fun w => Wake w k2) else k2)) (slook g true).
  Proof.
    intros K1 K2. apply t_rmw. intros v cw b h Hv HJ.
    exists (addv bits v), (slook g false).
    split; [now apply wadd|]. split; [now apply addv_ok|]. words. unfold addv. destruct (vc v) eqn:Ec.
    - split; [|exact K1]. now apply Js_unlook in HJ.
    - split.
      + destruct HJ. specialize (s_lk0 eq_refl). pose proof (cap_LB bits cap Hbits Hcap0 Hcap). cbn in *.
        assert ((vlen v + 1) mod 2 ^ LB bits = vlen v + 1) as L by (apply N.mod_small; lia).
        constructor; cbn; rewrite ?L; auto; try congruence; try lia.
        intros k Ek. destruct (s_wt0 k Ek) as (A & B & C). split; [exact A|]. split; [exact B|].
        rewrite <- s_cls0, Ec in *. destruct C as [C|[C|C]]; auto. right. right. destruct k; cbn in *; [exfalso; lia|destruct C as (? & ? & ?); repeat split; auto; lia|exact I].
      + destruct (vw v); [|exact K2]. apply t_peek; [exact I|]. intros w. now apply t_wake.
  Qed.
  Lemma t_send o v k g : (forall r, wpt o (k r) (slook g false)) -> wpt o (try_send_then bits cap v k) (slook g false).
  Proof.
    intros K. unfold try_send_then. apply t_load. intros u Hu Lu. words.
    destruct (N.eqb_spec (vlen u) cap) as [E|E]; destruct (N.ltb_spec (vlen u) cap); try lia; [apply K|].
    apply t_write; [exact I|]. apply t_publish; [|apply K]. apply t_take; [exact I|]. intros w. apply K.
  Qed.
  Lemma wp_try_send v g : tidle3 false (slook g false) -> wpt (TrySend v) (try_send bits cap v) (slook g false).
  Proof. intros Hi. apply t_send. intros r. apply t_done; auto. now intros []. Qed.
  Lemma wp_start_send v g : tidle3 false (slook g false) -> wpt (StartSend v) (start_send bits cap v) (slook g false).
  Proof. intros Hi. apply t_send. intros r. destruct r; try apply t_dropv; apply t_done; auto; now intros []. Qed.

  Lemma wp_over_store v i x s g : tidle3 false (slook g false) -> wpt (SendOver v) (over_store bits v i x s) (slook g true).
  Proof.
    intros Hi. unfold over_store. apply t_write; [exact I|]. apply t_publish; [|apply t_done; auto; now intros []]. apply t_take; [exact I|].
    intros w. apply t_done; auto. now intros [].
  Qed.
  Lemma wp_over v g : swt g = None -> tidle3 false (slook g false) -> wpt (SendOver v) (send_overwrite bits cap v) (slook g false).
  Proof.
    intros Hn Hi. unfold send_overwrite. apply t_load. intros u Hu Lu. words.
    destruct (N.eqb_spec (vlen u) cap) as [E|E]; destruct (N.ltb_spec (vlen u) cap); try lia.
    - apply t_rmw. intros v' cw b h Hv HJ. exists (claim_full cap v'), (slook g (negb (vc v'))).
      split; [now apply wfull|]. split.
      { unfold claim_full. destruct (_ && _); [now apply wclaim_ok|assumption]. }
      pose proof (s_cap _ _ _ _ _ _ HJ) as L. split.
      + unfold claim_full. destruct (vc v') eqn:Ec; [|destruct (N.eqb_spec (vlen v') cap) as [E'|E']]; cbn [negb andb].
        * destruct HJ. constructor; auto; discriminate.
        * destruct HJ. constructor; cbn; auto; try lia. intros k Ek. congruence.
        * destruct HJ. constructor; cbn; auto. lia.
      + unfold over_claimed. words. destruct (vc v'); [apply t_done; auto; now intros []|]. cbn [negb].
        destruct (vlen v' =? cap); [apply t_take; [exact I|]; intros w|]; now apply wp_over_store.
    - unfold over_claimed. words. destruct (vc u); [apply t_done; auto; now intros []|].
      destruct (N.eqb_spec (vlen u) cap); [lia|]. now apply wp_over_store.
  Qed.
  Lemma wp_is_canceled g : tidle3 false (slook g false) -> wpt IsCanceled is_canceled (slook g false).
  Proof. intros Hi. apply t_load. intros v Hv Lv. apply t_done; auto. now intros []. Qed.

  Definition send_end (g : TS) (h : bool) : TS := mkTS (stw g) (scw g) None None h false false (spd g).
  Lemma Js_end v cw b h g (e : bool) : Js cap v cw b (send_end g false) h ->
    Js cap (V (vr v) (vf v) (vw v) (ve v || e) (vc v) true (vcur v) (vlen v)) cw b (send_end g true) h.
  Proof. intros []. constructor; cbn in *; auto; discriminate. Qed.
  Lemma t_ended o r g : rside o = TX -> rconsuming o = true -> tidle3 true (send_end g true) -> wpt o (Done r) (send_end g true).
  Proof.
    intros S C Hi. apply (t_done o r (send_end g true) false); auto; [now rewrite C|]. intros [] w ->; discriminate.
  Qed.
  Lemma wp_send_err v g : tidle3 true (send_end g true) -> wpt (SendErr v) (send_err v) (send_end g false).
  Proof.
    intros Hi. unfold send_err. apply t_write; [exact I|]. apply t_rmw. intros u cw b h Hu HJ.
    exists (V (vr u) (vf u) (vw u) (ve u || negb (vc u)) (vc u) true (vcur u) (vlen u)), (send_end g true). words. split.
    { destruct u as [r1 f1 w1 e1 c1 h1 u1 l1]; cbn; destruct c1, e1; cbn [negb orb]; rewrite ?or_0, ?or_ERR, or_HALF; reflexivity. }
    split; [exact Hu|]. split; [now apply Js_end|].
    match goal with |- context [DropW _ ?p] => assert (wpt (SendErr v) p (send_end g true)) as K end.
    { destruct (vc u); [|now apply t_ended]. apply t_take; [exact I|]. intros w. destruct (vh u); [apply t_free|]; now apply t_ended. }
    destruct (vw u); [|exact K]. apply t_take; [exact I|]. intros w. destruct (negb _); [now apply t_wake|now apply t_dropw].
  Qed.
  Lemma wp_drop_tx g : tidle3 true (send_end g true) -> wpt DropTx drop_tx (send_end g false).
  Proof.
    intros Hi. unfold drop_tx. apply t_rmw. intros u cw b h Hu HJ.
    exists (V (vr u) (vf u) (vw u) (ve u || false) (vc u) true (vcur u) (vlen u)), (send_end g true). words. split.
    { rewrite or_HALF, orb_false_r. reflexivity. }
    split; [exact Hu|]. split; [now apply Js_end|].
    assert (wpt DropTx (if vh u then Free (Done RUnit) else Done RUnit) (send_end g true)) as K.
    { destruct (vh u); [apply t_free|]; now apply t_ended. }
    destruct (vw u); [|exact K]. apply t_take; [exact I|]. intros w. destruct (negb _); [apply t_wake; now apply t_ended|now apply t_dropw].
  Qed.

  (** Polls: not looked yet; looked; registered. *)
  Definition tfirst (tw : wst) (w : N) (pd : bool) : TS := mkTS tw (Some w) None None false false true pd.
  Definition tthen (tw : wst) (w : N) (pd : bool) : TS := mkTS tw (Some w) None None false false false pd.
  Definition twait (tw : wst) (w : N) (k : kind) : TS := mkTS tw (Some w) (Some k) None false false false true.
  Definition settled (tw : wst) : Prop := match tw with WWritten _ | WBack _ => False | _ => True end.

  Lemma p_done k w tw pd r : settled tw -> r <> RPending -> wpt (pollop k w) (Done r) (tthen tw w pd).
  Proof.
    intros Hs N. apply (t_done _ _ (tthen tw w pd) false); auto; [now destruct k|]. destruct k; now repeat split.
  Qed.
  Lemma p_pending k w w' : wpt (pollop k w) (Done RPending) (twait (WStored w') w k).
  Proof.
    intros m b h (v & E & Hv & HJ) _. exists (mkTS (WStored w') (Some w) (Some k) (Some k) false false false true).
    split; [|now destruct k]. exists v. split; [exact E|]. split; [exact Hv|].
    destruct HJ. destruct k; constructor; cbn in *; auto.
  Qed.

  Definition vready (k : kind) (v : view) : bool :=
    match k with KReady => vlen v <? cap | KFlush => vlen v =? 0 | KClose => false end.
  Definition markv (k : kind) (v : view) : view :=
    V (match k with KFlush => false | _ => true end) (match k with KReady => false | _ => true end)
      (vw v) (ve v) (vc v) (vh v) (vcur v) (vlen v).
  Lemma markv_bit k v : vr (markv k v) || vf (markv k v) = true. Proof. now destruct k. Qed.
  Lemma mode_mark k v : vready k v = false -> mode cap k (markv k v).
  Proof.
    destruct k; cbn; auto; intros E; repeat split; auto.
    - now apply N.ltb_ge.
    - now apply N.eqb_neq.
  Qed.

  (** Registering when a waker is there already. *)
  Lemma wp_mark k w w' c ready s mark : c <> RPending ->
    (forall v, mark (enc v) = enc (markv k v)) -> (forall v, wok v -> ready (enc v) = vready k v) ->
    has_waker s = true ->
    wpt (pollop k w) (register w s mark c ready) (tthen (WStored w') w true).
  Proof.
    intros Hc M R W. unfold register. rewrite W. cbn [negb]. cbv zeta. apply t_rmw. intros v cw b h Hv HJ.
    exists (markv k v). rewrite M, R by assumption. words. destruct (vc v) eqn:Ec.
    - exists (tthen (WStored w') w true). split; [reflexivity|]. split; [exact Hv|]. split; [|now apply p_done].
      destruct HJ. constructor; cbn in *; auto; try congruence. now destruct k.
    - destruct (vready k v) eqn:Er.
      + exists (tthen (WStored w') w true). split; [reflexivity|]. split; [exact Hv|]. split; [|now apply p_done].
        destruct HJ. constructor; cbn in *; auto; try congruence. now destruct k.
      + exists (twait (WStored w') w k). split; [reflexivity|]. split; [exact Hv|]. split; [|apply p_pending].
        destruct HJ. constructor; cbn in *; auto; try congruence; [now destruct k|].
        intros k' Ek. injection Ek as <-. rewrite <- s_cls0, Ec. repeat split; eauto. right. right. now apply mode_mark.
  Qed.
  (** Registering the first waker. *)
  Lemma wp_first k w c ready s mark : c <> RPending ->
    (forall v, mark (enc v) = enc (markv k v)) -> (forall v, wok v -> ready (enc v) = vready k v) ->
    has_waker s = false ->
    wpt (pollop k w) (register w s mark c ready) (tthen WNone w true).
  Proof.
    intros Hc M R W. unfold register. rewrite W. cbn [negb]. cbv zeta.
    match goal with |- wpt ?o (Write _ _ ?p) _ => assert (wpt o p (tthen (WWritten w) w true)) as K end.
    2: { intros m b h (v & E & Hv & HJ). destruct HJ. cbn in *. split; [assumption|]. intros _. eexists. split; [|exact K].
         exists v. cbn. split; [exact E|]. split; [exact Hv|]. constructor; cbn; auto; try congruence.
         - destruct (ssw h); auto; destruct s_sw0 as ((? & ?) & ?); discriminate.
         - intros F. destruct (s_tk0 F) as (_ & ? & ?). discriminate.
         - rewrite s_spd0 by reflexivity. discriminate. }
    apply t_rmw. intros v cw b h Hv HJ. exists (markv k v). rewrite M, R by assumption. words.
    assert (s_polled b = true) as Hp by (now apply (s_spd _ _ _ _ _ _ HJ)).
    destruct (vc v) eqn:Ec.
    - exists (tthen (WBack w) w true). split; [reflexivity|]. split; [exact Hv|]. split.
      + destruct HJ. constructor; cbn in *; auto; try congruence.
        * now destruct k.
        * destruct (ssw h); auto; destruct s_sw0 as ((? & ?) & ?); discriminate.
        * intros F. destruct (s_tk0 F) as (_ & ? & ?). discriminate.
      + assert (wpt (pollop k w) (DropW w (Done c)) (tthen WDone w true)) as K by (apply t_dropw; now apply p_done).
        intros m b' h' (u & E & Hu & HJ'). destruct HJ'. cbn in * |-. cbn [stw tthen wcell safe3] in *. split; [congruence|]. intros _.
        unfold take. cbn [touch cells]. rewrite s_cell0. cbn [fst snd].
        exists (tthen WDone w true). split; [|exact K].
        exists u. cbn. split; [exact E|]. split; [exact Hu|]. constructor; cbn; auto; try congruence.
        * destruct (ssw h'); auto; destruct s_sw0 as ((? & ?) & ?); discriminate.
        * intros F. destruct (s_tk0 F) as (_ & ? & ?). discriminate.
        * rewrite s_spd0 by reflexivity. discriminate.
    - assert (forall g, stw g = WStored w -> scw g = Some w -> spnd g = None -> sth g = false -> slk g = false -> spl g = false ->
        spd g = true -> (forall k', swt g = Some k' -> k' = k /\ vready k v = false) -> Js cap (markv k v) cw b g h) as K.
      { intros g E1 E2 E3 E4 E5 E6 E7 E8. destruct HJ. cbn in *. constructor; cbn; rewrite ?E1, ?E2, ?E3, ?E4, ?E5, ?E6, ?E7; auto; try congruence.
        - now destruct k.
        - rewrite s_cell0. now rewrite <- s_cls0, Ec.
        - destruct (ssw h); auto; destruct s_sw0 as ((? & ?) & ?); discriminate.
        - intros F. destruct (s_tk0 F) as (_ & ? & ?). discriminate.
        - intros k' Ek. destruct (E8 _ Ek) as [-> Er]. rewrite <- s_cls0, Ec. repeat split; eauto. right. right. now apply mode_mark. }
      destruct (vready k v) eqn:Er.
      + exists (tthen (WStored w) w true). split; [reflexivity|]. split; [exact Hv|]. split; [|now apply p_done].
        apply K; auto. discriminate.
      + exists (twait (WStored w) w k). split; [reflexivity|]. split; [exact Hv|]. split; [|apply p_pending].
        apply K; auto. intros k' Ek. cbn in Ek. now injection Ek as <-.
  Qed.

  (** The first look. *)
  Lemma p_load {oa} k w tw pd kk c (has_k : N -> bool) ready mark : settled tw -> c <> RPending ->
    (forall v, wok v -> ready (enc v) = vready k v) ->
    (forall v, mark (enc v) = enc (markv k v)) ->
    (forall v, vready k v = false -> has_k (enc v) = true -> vr v || vf v = true /\ mode cap k v) ->
    (forall s, kk s = if has s CLOSED then Done c else if ready s then Done RReady
                      else if negb (has_k s) then register w s mark c ready else Done RPending) ->
    wpt (pollop k w) (Load oa kk) (tfirst tw w pd).
  Proof.
    intros Hs Hc R M Hk K m b h (v & E & Hv & HJ). split; [exact I|]. intros _. rewrite K. rewrite E. words. rewrite R by assumption.
    assert (forall g', stw g' = tw -> scw g' = Some w -> spnd g' = None -> sth g' = false -> slk g' = false -> spl g' = false ->
        (spd g' = true -> s_polled b = true) -> (forall k', swt g' = Some k' -> k' = k /\ vready k v = false /\ has_k (enc v) = true /\ vc v = false) ->
        J3 (touch m) (sstep b (EAcc TX)) g' h) as F.
    { intros g' E1 E2 E3 E4 E5 E6 E7 E8. exists v. cbn. split; [exact E|]. split; [exact Hv|].
      destruct HJ. cbn in *. constructor; cbn; rewrite ?E1, ?E2, ?E3, ?E4, ?E5, ?E6; auto; try congruence.
      - intros k' Ek. destruct (E8 _ Ek) as (-> & Er & Eh & Ec). destruct (Hk v Er Eh) as [B1 B2].
        rewrite B1 in s_bit0. rewrite <- s_cls0 in *. rewrite Ec in *.
        assert (exists x, tw = WStored x) as W by (destruct tw; try discriminate; eauto).
        repeat split; auto.
      - intros P. split; [now apply s_pol0|discriminate]. }
    destruct (vc v) eqn:Ec.
    { exists (tthen tw w pd). split; [|now apply p_done]. apply F; auto; [|discriminate]. destruct HJ. auto. }
    assert (s_polled b = true) as P.
    { destruct (s_polled b) eqn:P; [reflexivity|]. destruct HJ. destruct (s_pol0 P) as [_ P']. cbn in P'. rewrite <- s_cls0, Ec in P'.
      now specialize (P' eq_refl). }
    destruct (vready k v) eqn:Er.
    { exists (tthen tw w true). split; [|now apply p_done]. apply F; auto. discriminate. }
    pose proof (s_bit _ _ _ _ _ _ HJ) as Hb. pose proof (s_back _ _ _ _ _ _ HJ) as Hbk. rewrite <- (s_cls _ _ _ _ _ _ HJ), Ec in Hbk. cbn in Hb, Hbk.
    destruct (has_k (enc v)) eqn:Eh; cbn [negb].
    - exists (twait tw w k). split.
      + apply F; auto. intros k' Ek. cbn in Ek. now injection Ek as <-.
      + destruct (Hk v Er Eh) as [B1 B2]. rewrite B1 in Hb. destruct tw; try discriminate; try contradiction. apply p_pending.
    - exists (tthen tw w true). split; [apply F; auto; discriminate|].
      destruct tw; try contradiction; try discriminate.
      + apply wp_first; auto. unfold has_waker. words. exact Hb.
      + apply wp_mark; auto. unfold has_waker. words. exact Hb.
  Qed.

  Lemma wp_poll k w tw pd : settled tw -> wpt (pollop k w) (rcode bits cap (pollop k w)) (tfirst tw w pd).
  Proof.
    intros Hs. destruct k; cbn [pollop rcode].
    - apply (p_load KReady w tw pd _ RSinkClosed has_ready_waker (fun s => get_length bits s <? cap) set_ready_waker Hs); try discriminate.
      + intros v Hv. now rewrite wlen.
      + intros v. unfold set_ready_waker. now rewrite no_FLUSH, or_READY.
      + intros v Er. unfold has_ready_waker. words. cbn in Er. apply N.ltb_ge in Er. intros Eh. apply andb_true_iff in Eh as [E1 E2].
        apply negb_true_iff in E2. cbn. rewrite E1, E2. auto.
      + reflexivity.
    - apply (p_load KFlush w tw pd _ RSinkClosed has_flush_waker (fun s => get_length bits s =? 0) set_flush_waker Hs); try discriminate.
      + intros v Hv. now rewrite wlen.
      + intros v. unfold set_flush_waker. now rewrite no_READY, or_FLUSH.
      + intros v Er. unfold has_flush_waker. words. cbn in Er. apply N.eqb_neq in Er. intros Eh. apply andb_true_iff in Eh as [E1 E2].
        apply negb_true_iff in E1. cbn. rewrite E1, E2. auto.
      + reflexivity.
    - apply (p_load KClose w tw pd _ RReady has_close_waker (fun s => false) set_close_waker Hs); try discriminate.
      + reflexivity.
      + intros v. unfold set_close_waker. now rewrite or_READY, or_FLUSH.
      + intros v Er. unfold has_close_waker. words. intros Eh. apply andb_true_iff in Eh as [E1 E2]. cbn. rewrite E1. auto.
      + reflexivity.
  Qed.

  (** ** The receiver. *)
  Definition ridl (cl rh : bool) : RS := mkRS cl TkNo None SwNo rh false cl.
  Definition rr (cl : bool) (sw : swk) : RS := mkRS cl TkNo None sw false true cl.

  Lemma rr_done o r cl : rside o = RX -> rconsuming o = false -> o <> Close -> wpr o (Done r) (rr cl SwNo).
  Proof.
    intros S C Hc m b g (v & E & Hv & HJ) _. exists (ridl cl false). rewrite C. split; [|now repeat split].
    exists v. split; [exact E|]. split; [exact Hv|].
    assert (sstep b (ERet o r) = b) as -> by (destruct o; try discriminate; try reflexivity; contradiction).
    destruct HJ. constructor; cbn in *; auto; discriminate.
  Qed.

  Definition should (v : view) : bool :=
    if vr v && negb (vf v) then vlen v =? cap else if negb (vr v) && vf v then vlen v =? 1 else false.
  Definition swof (v : view) : swk := if (0 <? vlen v) && should v then SwPend else SwNo.

  Lemma Js_next v cw b g cl x : Js cap v cw b g (rr cl SwNo) ->
    Js cap (with_w (nextv cap v) x) cw b g (rr cl (swof v)).
  Proof.
    intros HJ.
    assert (vr (nextv cap v) = vr v /\ vf (nextv cap v) = vf v /\ vh (nextv cap v) = vh v /\ vc (nextv cap v) = vc v /\
      vlen (nextv cap v) = vlen v - 1) as (F1 & F2 & F3 & F4 & F5).
    { unfold nextv, claim_unless. destruct (N.ltb_spec 0 (vlen v)); repeat split; cbn; try lia. }
    destruct HJ. constructor; cbn -[nextv]; rewrite ?F1, ?F2, ?F3, ?F4, ?F5; auto; try lia.
    - unfold swof. destruct ((0 <? vlen v) && should v) eqn:E; [|exact I].
      apply andb_true_iff in E as [_ E]. assert (vr v || vf v = true) as B.
      { unfold should in E. destruct (vr v), (vf v); try discriminate; reflexivity. }
      rewrite B in s_bit0. destruct cl.
      + specialize (s_rcv0 eq_refl eq_refl). destruct (s_pol0 s_rcv0) as [Ew _]. rewrite Ew in s_bit0. discriminate.
      + split; [|reflexivity]. cbn in s_back0. destruct (stw g); try discriminate; eauto.
    - intros k Ek. destruct (s_wt0 k Ek) as (A & B & C). split; [exact A|]. split; [exact B|]. cbn in C.
      destruct cl; [exact C|]. destruct C as [C|[C|C]]; try congruence; [now left|]. right.
      unfold swof, should. destruct k; cbn -[nextv] in C |- *.
      + destruct C as (E1 & E2 & E3). rewrite E1, E2. cbn [negb andb]. left.
        destruct (N.ltb_spec 0 (vlen v)); [|lia]. destruct (N.eqb_spec (vlen v) cap); [discriminate|lia].
      + destruct C as (E1 & E2 & E3). rewrite E1, E2. cbn [negb andb].
        destruct (N.ltb_spec 0 (vlen v)); [|lia]. destruct (N.eqb_spec (vlen v) 1); [left; discriminate|right]. rewrite ?F1, ?F2, ?F5. repeat split; auto. lia.
      + auto.
  Qed.
  Lemma wnext_ok v x : wok v -> wok (with_w (nextv cap v) x).
  Proof. intros Hv. unfold nextv, claim_unless. pose proof (wclaim_ok v Hv). destruct (0 <? vlen v); assumption. Qed.

  (** Waking the sender. *)
  Lemma r_wake_tx o k cl : wpr o k (rr cl SwNo) -> wpr o (Peek CTxW (fun w => Wake w k)) (rr cl SwPeek).
  Proof.
    intros K. assert (forall w, wpr o (Wake w k) (rr cl (SwWake w))) as K2.
    { intros w m b g (v & E & Hv & HJ) _. exists (rr cl SwNo). split; [|exact K].
      exists v. split; [exact E|]. split; [exact Hv|]. destruct HJ. cbn in s_sw0 |- *. rewrite (in_exists _ _ s_sw0), orb_true_r.
      constructor; cbn in *; auto. intros k' Ek. destruct (s_wt0 k' Ek) as (A & B & C). split; [exact A|]. split; [exact B|].
      destruct cl; auto. }
    intros m b g (v & E & Hv & HJ). destruct HJ. revert K2 K. cbn in * |-. intros K2 K. destruct s_sw0 as ((w & Ew) & ->). rewrite Ew in s_cell0. cbn in s_cell0.
    cbn [safe3]. split; [congruence|]. intros _. unfold peek. cbn [touch cells]. rewrite s_cell0. cbn [fst snd].
    exists (rr false (SwWake w)). split; [|apply K2]. exists v. split; [exact E|]. split; [exact Hv|]. rewrite Ew in *.
    constructor; cbn; rewrite ?Ew; auto.
    intros k' Ek. destruct (s_wt0 k' Ek) as (A & B & C). split; [exact A|]. split; [exact B|]. right. left. discriminate.
  Qed.

  Lemma wp_take_value o v cl : rside o = RX -> rconsuming o = false -> o <> Close -> 0 <? vlen v = true -> wok v ->
    wpr o (take_value bits cap (enc v) (vlen v)) (rr cl (swof v)).
  Proof.
    intros S C Hc L Hv. unfold swof. rewrite L. cbn [andb]. unfold take_value, has_ready_waker, has_flush_waker. words. cbv zeta.
    change (if vr v && negb (vf v) then vlen v =? cap else if negb (vr v) && vf v then vlen v =? 1 else false) with (should v).
    generalize (should v) as sw. intros sw. generalize (ve v). intros e. generalize (vcur v). intros i. rewrite flags_0.
    assert (wpr o (Take (CBuf i) (fun v => Done (RVal v))) (rr cl SwNo)) as K0.
    { apply r_take; [exact I|]. intros w. now apply rr_done. }
    destruct sw; cbn [orb negb].
    - apply r_rmw. intros u cw b g Hu HJ. rewrite (or_flags bits u true e).
      eexists. exists (rr cl (if vh u then SwNo else SwPeek)). split; [reflexivity|]. split; [exact Hu|]. words. split.
      + destruct HJ. cbn in *. destruct s_sw0 as ((w & Ew) & ->). constructor; cbn; auto.
        * rewrite Ew, orb_true_r. reflexivity.
        * destruct (vh u); eauto.
        * intros k Ek. destruct (s_wt0 k Ek) as (A & B & D). split; [exact A|]. split; [exact B|].
          rewrite B in s_half0. rewrite s_half0. cbn. right. left. discriminate.
      + cbn [andb]. destruct (vh u); cbn [negb]; [exact K0|now apply r_wake_tx].
    - destruct e; cbn [negb andb]; [|exact K0].
      apply r_rmw. intros u cw b g Hu HJ. rewrite (or_flags bits u false true).
      eexists. exists (rr cl SwNo). split; [reflexivity|]. split; [exact Hu|]. split; [|exact K0].
      destruct HJ. constructor; cbn in *; rewrite ?orb_false_r in *; auto.
  Qed.

  Lemma wp_try_next cl : wpr TryNext (try_next bits cap) (rr cl SwNo).
  Proof.
    unfold try_next. apply r_rmw. intros v cw b g Hv HJ. exists (with_w (nextv cap v) (vw v)), (rr cl (swof v)).
    split; [rewrite wnext by assumption; f_equal; unfold nextv, claim_unless; now destruct (0 <? vlen v)|]. split; [now apply wnext_ok|].
    split; [now apply Js_next|]. cbn zeta. words.
    destruct (0 <? vlen v) eqn:E; [now apply wp_take_value|]. unfold swof. rewrite E. cbn [andb].
    destruct (ve v); [apply r_take; [exact I|]; intros w; now apply rr_done|].
    destruct (_ || _); now apply rr_done.
  Qed.
  Lemma wp_poll_next w cl : wpr (PollNext w) (poll_next bits cap w) (rr cl SwNo).
  Proof.
    unfold poll_next. apply r_rmw. intros v cw b g Hv HJ. exists (with_w (nextv cap v) (vw v)), (rr cl (swof v)).
    split; [rewrite wnext by assumption; f_equal; unfold nextv, claim_unless; now destruct (0 <? vlen v)|]. split; [now apply wnext_ok|].
    split; [now apply Js_next|]. cbn zeta. words.
    destruct (0 <? vlen v) eqn:E; [now apply wp_take_value|]. unfold swof at 1. rewrite E. cbn [andb].
    destruct (ve v); [apply r_take; [exact I|]; intros w'; now apply rr_done|].
    destruct (_ || _); [now apply rr_done|]. destruct (negb _); [|now apply rr_done].
    apply r_write; [exact I|]. generalize (Some (enc v)). clear - Hbits Hcap0 Hcap Heven. intros old.
    apply r_rmw. intros v cw b g Hv HJ. exists (with_w (nextv cap v) true), (rr cl (swof v)).
    split; [now rewrite wnext, or_RXW by assumption|]. split; [now apply wnext_ok|].
    split; [now apply Js_next|]. cbn zeta. words.
    match goal with |- wpr _ (if vh v then Take CRxW (fun w => DropW w ?p) else _) _ => assert (wpr (PollNext w) p (rr cl (swof v))) as K end.
    { destruct (0 <? vlen v) eqn:E; [now apply wp_take_value|]. unfold swof. rewrite E. cbn [andb].
      destruct (vh v); [|now apply rr_done]. destruct (ve v); [|now apply rr_done].
      apply r_take; [exact I|]. intros w'. now apply rr_done. }
    destruct (vh v); [|exact K]. apply r_take; [exact I|]. intros w'. now apply r_dropw.
  Qed.
  Lemma wp_is_terminated cl : wpr IsTerminated (is_terminated bits) (ridl cl false).
  Proof.
    intros m b g HJ. split; [exact I|]. intros _. exists (ridl cl false). split; [now apply J3_touch|].
    generalize (st m). clear. intros s m b g HJ _. exists (ridl cl false). split; [exact HJ|]. now repeat split.
  Qed.

  (** Closing. *)
  Definition rcls (t : todo) (w : option N) (rh clr : bool) : RS := mkRS true t w SwNo rh false clr.
  Lemma rc_done_close r clr : wpr Close (Done r) (rcls TkNo None false clr).
  Proof.
    intros m b g (v & E & Hv & HJ) _. exists (ridl true false). split; [|now repeat split].
    exists v. split; [exact E|]. split; [exact Hv|]. destruct HJ. constructor; cbn in *; auto; discriminate.
  Qed.
  Lemma rc_done_drop r clr : wpr DropRx (Done r) (rcls TkNo None true clr).
  Proof.
    intros m b g (v & E & Hv & HJ) _. exists (rcls TkNo None true clr). split; [|now repeat split].
    exists v. split; [exact E|]. split; [exact Hv|]. exact HJ.
  Qed.
  Lemma Js_close v cw b g cl (x rh : bool) l : Js cap v cw b g (ridl cl false) -> l <= vlen v -> (rh = true -> l = 0) -> (rh = false -> l = vlen v) ->
    (vh v = false -> x = true) ->
    Js cap (V (vr v) (vf v) (vw v) (ve v) true (vh v || rh) (vcur v) l) cw b g
      (rcls (if negb (vc v) && (vr v || vf v) then if x then TkWake else TkDrop else TkNo) None rh cl).
  Proof.
    intros HJ Hl Hl1 Hl2 X. destruct HJ. cbn in * |-.
    assert (negb (vc v) && (vr v || vf v) = true -> exists w, stw g = WStored w) as W.
    { intros E. apply andb_true_iff in E as [E1 E2]. apply negb_true_iff in E1. rewrite s_bit0 in E2.
      destruct (stw g); try discriminate; eauto; congruence. }
    constructor; cbn; auto; try lia; try discriminate.
    - rewrite s_cell0. destruct (negb (vc v) && (vr v || vf v)) eqn:E.
      + destruct (W eq_refl) as [w ->]. cbn. apply andb_true_iff in E as [E _]. apply negb_true_iff in E. rewrite <- s_cls0, E. now destruct x.
      + destruct (stw g) as [|w|w|w|]; cbn; auto. cbn in *. rewrite s_bit0, andb_true_r in E. apply negb_false_iff in E. now rewrite <- s_cls0, E.
    - rewrite s_half0. now rewrite orb_false_r.
    - intros L. specialize (s_lk0 L). lia.
    - intros E. split; [reflexivity|]. apply W. now destruct (_ && _).
    - intros k Ek. destruct (s_wt0 k Ek) as ((w & Ew) & B & C). rewrite Ew in *. cbn in *. repeat split; eauto.
      rewrite s_bit0, andb_true_r. destruct (vc v) eqn:Ec; cbn [negb].
      + rewrite <- s_cls0 in C. destruct C as [C|[C|C]]; auto; discriminate.
      + left. rewrite X; [reflexivity|]. now rewrite s_half0, B.
    - destruct (stw g); auto.
    - intros P. destruct (s_pol0 P). auto.
  Qed.
  Lemma rc_take o (x : bool) t rh clr k1 k2 : t = (if x then TkWake else TkDrop) ->
    (x = true -> wpr o k1 (rcls TkNo None rh clr)) -> (x = false -> wpr o k2 (rcls TkNo None rh clr)) ->
    wpr o (Take CTxW (fun w => if x then Wake w k1 else DropW w k2)) (rcls t None rh clr).
  Proof.
    intros Ex K1 K2.
    assert (forall w, wpr o (if x then Wake w k1 else DropW w k2) (rcls TkNo (if x then Some w else None) rh clr)) as K.
    { intros w. destruct x; [|apply r_dropw; now apply K2].
      intros m b g (v & E & Hv & HJ) _. exists (rcls TkNo None rh clr). split; [|now apply K1].
      exists v. split; [exact E|]. split; [exact Hv|]. destruct HJ. cbn in s_wk0 |- *. rewrite (in_exists _ _ s_wk0), orb_true_r.
      constructor; cbn in *; auto. intros k' Ek. destruct (s_wt0 k' Ek) as (A & B & C). repeat split; auto. }
    intros m b g (v & E & Hv & HJ). destruct HJ. revert K K1 K2. cbn in * |-. intros K K1 K2.
    destruct s_tk0 as (_ & w & Ew). { rewrite Ex. now destruct x. }
    rewrite Ew in *. cbn in * |-. assert (cells m CTxW = Some w) as Ec by (rewrite s_cell0, Ex; now destruct x).
    cbn [safe3]. split; [congruence|]. intros _. unfold take. cbn [touch cells]. rewrite Ec. cbn [fst snd].
    exists (rcls TkNo (if x then Some w else None) rh clr). split; [|apply K].
    exists v. split; [exact E|]. split; [exact Hv|]. constructor; cbn; rewrite ?Ew; auto; try congruence.
    - now destruct x.
    - intros k' Ek. destruct (s_wt0 k' Ek) as (A & B & C). split; [exact A|]. split; [exact B|]. right.
      destruct C as [C|[C|C]]; [|congruence|now right]. left. destruct x; congruence.
  Qed.

  Lemma wp_close cl : wpr Close close (ridl cl false).
  Proof.
    unfold close. apply r_rmw. intros v cw b g Hv HJ.
    exists (V (vr v) (vf v) (vw v) (ve v) true (vh v || false) (vcur v) (vlen v)),
      (rcls (if negb (vc v) && (vr v || vf v) then if negb (vh v) then TkWake else TkDrop else TkNo) None false cl).
    rewrite or_CLOSED, orb_false_r. split; [reflexivity|]. split; [exact Hv|]. split.
    { rewrite <- (orb_false_r (vh v)) at 1. apply Js_close; auto; try lia; try discriminate. now intros ->. }
    unfold has_waker. words. destruct (negb (vc v) && (vr v || vf v)); [|apply rc_done_close].
    apply rc_take; auto; intros _; apply rc_done_close.
  Qed.
  Lemma r_drop_values o cur k : forall n i h, (wpr o k h) -> wpr o (drop_values cap n cur i k) h.
  Proof.
    induction n as [|n IH]; intros i h K; cbn [drop_values]; [exact K|].
    apply r_take; [exact I|]. intros w. apply r_dropv. now apply IH.
  Qed.
  Lemma wp_drop_rx cl : wpr DropRx (drop_rx bits cap) (ridl cl false).
  Proof.
    unfold drop_rx. apply r_rmw. intros v cw b g Hv HJ.
    exists (dropv v), (rcls (if negb (vc v) && (vr v || vf v) then if negb (vh v) then TkWake else TkDrop else TkNo) None true cl).
    split; [now apply wdrop|]. split; [now apply dropv_ok|]. split.
    { apply (Js_close _ _ _ _ _ (negb (vh v)) true 0) in HJ; auto; try lia; try discriminate; [|now intros ->].
      rewrite orb_true_r in HJ. exact HJ. }
    cbv zeta. apply r_drop_values. unfold has_waker. words. set (t := if negb (vc v) && (vr v || vf v) then if negb (vh v) then TkWake else TkDrop else TkNo).
    match goal with |- context [DropV _ ?p] => assert (wpr DropRx p (rcls t None true cl)) as K end.
    { assert (wpr DropRx (if vh v then Free (Done RUnit) else Done RUnit) (rcls TkNo None true cl)) as K1
        by (destruct (vh v); [apply r_free|]; apply rc_done_drop).
      unfold t. destruct (negb (vc v) && (vr v || vf v)); [|exact K1].
      apply rc_take; auto. intros _. apply rc_done_drop. }
    destruct (ve v); [|exact K]. apply r_take; [exact I|]. intros w. now apply r_dropv.
  Qed.

  (** ** All calls. *)
  Definition ts0 : TS := mkTS WNone None None None false false false false.
  Lemma J3_0 : J3 mem0 swake0 ts0 (ridl false false).
  Proof.
    exists (V false false false false false false 0 0). split; [now rewrite encv_0|]. split.
    { split; cbn; [lia|]. apply N.neq_0_lt_0, N.pow_nonzero. lia. }
    constructor; cbn; auto; try discriminate; try congruence; try lia.
  Qed.
  Lemma ok3_sticky b e : ok3 (sstep b e) = true -> ok3 b = true.
  Proof.
    unfold ok3. destruct (s_stale b) eqn:E; [|reflexivity]. intros K. exfalso. revert K.
    destruct e as [[]|[] []|[] ?|[] ?|[] ?|[]|[]]; cbn; rewrite E; discriminate.
  Qed.

  Lemma call_poll k w m b g h : J3 m b g h -> tidle3 false g ->
    exists g', J3 m (spoll b w) g' h /\ wpt (pollop k w) (rcode bits cap (pollop k w)) g'.
  Proof.
    intros (v & E & Hv & HJ) Hi. destruct g as [tw cw wt pn th lk pl pd]. destruct Hi as (E1 & E2 & E3 & E4 & E5). cbn in E1, E2, E3, E4, E5. subst.
    exists (tfirst tw w pd). split; [|now apply wp_poll].
    exists v. split; [exact E|]. split; [exact Hv|]. destruct HJ. constructor; cbn in *; auto; try discriminate; try congruence.
    - destruct tw; auto.
    - destruct (ssw h); auto.
    - destruct (swk_ h); auto.
    - intros P. apply orb_false_iff in P as [P1 P2]. apply negb_false_iff in P2. split; [now apply s_pol0|]. intros _. apply s_clr'0. congruence.
    - intros P. now rewrite s_spd0.
    - intros R1 R2. rewrite s_rcv0, s_clr0 by assumption. rewrite <- s_rcv'0, R2 by assumption. reflexivity.
  Qed.

  Theorem sys_txwaker atomics sched :
    sys_ok rconsuming swake0 sstep ok3 safe3 J3 tidle3 ridle3 (rrun bits cap atomics sched).
  Proof.
    unfold rrun. apply sys_ok_run with (g0 := ts0) (h0 := ridl false false).
    - apply ok3_sticky.
    - apply J3_0.
    - now repeat split.
    - now repeat split.
    - intros o S m b g h HJ Hi _.
      destruct o; try discriminate; cbn [sstep].
      + exists (slook g false). split; [|apply wp_try_send; destruct Hi as (E1 & E2 & E3 & E4 & E5); now repeat split].
        destruct Hi as (E1 & E2 & E3 & E4 & E5). destruct g; cbn in *; subst; exact HJ.
      + exists (slook g false). split; [|apply wp_start_send; destruct Hi as (E1 & E2 & E3 & E4 & E5); now repeat split].
        destruct Hi as (E1 & E2 & E3 & E4 & E5). destruct g; cbn in *; subst; exact HJ.
      + destruct Hi as (E1 & E2 & E3 & E4 & E5). destruct g as [tw cw wt pn th lk pl pd]; cbn in *; subst.
        exists (slook (mkTS tw cw None None false false false pd) false). split; [|apply wp_over; now repeat split].
        destruct HJ as (u & E & Hu & HJ). exists u. split; [exact E|]. split; [exact Hu|]. destruct HJ.
        constructor; cbn in *; auto; discriminate.
      + destruct Hi as (E1 & E2 & E3 & E4 & E5). destruct g as [tw cw wt pn th lk pl pd]; cbn in *; subst.
        exists (send_end (mkTS tw cw None None false false false pd) false). split; [|apply wp_send_err; now repeat split].
        destruct HJ as (u & E & Hu & HJ). exists u. split; [exact E|]. split; [exact Hu|]. destruct HJ.
        constructor; cbn in *; auto; discriminate.
      + exists (slook g false). split; [|apply wp_is_canceled; destruct Hi as (E1 & E2 & E3 & E4 & E5); now repeat split].
        destruct Hi as (E1 & E2 & E3 & E4 & E5). destruct g; cbn in *; subst; exact HJ.
      + now apply (call_poll KReady w m b g h).
      + now apply (call_poll KFlush w m b g h).
      + now apply (call_poll KClose w m b g h).
      + destruct Hi as (E1 & E2 & E3 & E4 & E5). destruct g as [tw cw wt pn th lk pl pd]; cbn in *; subst.
        exists (send_end (mkTS tw cw None None false false false pd) false). split; [|apply wp_drop_tx; now repeat split].
        destruct HJ as (u & E & Hu & HJ). exists u. split; [exact E|]. split; [exact Hu|]. destruct HJ.
        constructor; cbn in *; auto; discriminate.
    - intros o S m b g h (v & E & Hv & HJ) Hi Ok. destruct h as [cl t wk sw rh rc clr].
      destruct Hi as (E1 & E2 & E3 & E4 & E5 & E6). cbn in E1, E2, E3, E4, E5, E6. specialize (E6 eq_refl). subst.
      assert ((o = TryNext \/ exists w, o = PollNext w) -> J3 m (sstep b (EInv o)) g (rr clr SwNo)) as R.
      { intros Ho. exists v. split; [exact E|]. split; [exact Hv|].
        assert (s_closed b && s_polled b = false) as P.
        { unfold ok3 in Ok. apply negb_true_iff in Ok. destruct Ho as [->|[w ->]]; cbn in Ok; now apply orb_false_iff in Ok. }
        destruct HJ. destruct Ho as [->|[w ->]]; constructor; cbn in *; auto; intros _ F; subst; rewrite s_clr0 in P; rewrite F in P; exact P. }
      destruct o; try discriminate; cbn [rcode].
      + exists (ridl clr false). split; [|apply wp_close]. exists v. auto.
      + exists (rr clr SwNo). split; [|apply wp_try_next]. apply R. now left.
      + exists (rr clr SwNo). split; [|apply wp_poll_next]. apply R. right. now exists w.
      + exists (ridl clr false). split; [|apply wp_is_terminated]. exists v. auto.
      + exists (ridl clr false). split; [|apply wp_drop_rx]. exists v. auto.
  Qed.
End TxWaker.
