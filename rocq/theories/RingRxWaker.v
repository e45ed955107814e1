(** Second invariant of the ring channel: the receiver's waker ([kstep]). *)
Require Import NArith List Bool Lia.
Require Import Verif.Spsc Verif.SpscWp Verif.Ring Verif.RingWord Verif.RingSpec Verif.RingQueue.
Import ListNotations.
Open Scope N_scope.

(** The registration of a half's waker. *)
Inductive wst :=
| WNone               (* nothing registered *)
| WWritten (w : N)    (* in the cell, flag not set yet *)
| WStored (w : N)     (* handed over *)
| WBack (w : N)       (* flag set too late: to be taken back *)
| WDone.              (* taken back *)
Definition wbit (x : wst) : bool := match x with WNone | WWritten _ => false | _ => true end.
(** What the other half's end (or close) still has to do with the registered waker. *)
Inductive todo := TkNo | TkWake | TkDrop.
Definition wcell (x : wst) (ended : bool) (t : todo) : option N :=
  match x with
  | WNone | WDone => None
  | WWritten w | WBack w => Some w
  | WStored w => if ended then match t with TkNo => None | _ => Some w end else Some w
  end.
(** A send that has found a registered waker. *)
Inductive spk := SpNo | SpPeek | SpWake (w : N).

Record TK := mkTK { ksp : spk; kth : bool; ktk : todo; kwk : option N; klk : bool }.
Record RK := mkRK {
  krw : wst;
  kcw : option N;     (* a waker passed to poll_next *)
  kwt : bool;         (* nothing found: waiting *)
  kpnd : bool;
  kcl : bool;
  krh : bool }.

Definition safe2 (m : mem) (a : acc) : Prop :=
  match a with
  | AWrite CRxW => cells m CRxW = None
  | ATake CRxW | APeek CRxW => cells m CRxW <> None
  | _ => True
  end.
Definition ok2 (b : rwake) : bool := true.

Record Jk (cap : N) (v : view) (cw : option N) (b : rwake) (g : TK) (h : RK) : Prop := mkJk {
  k_bit : vw v = wbit (krw h);
  k_cell : cw = wcell (krw h) (kth g) (ktk g);
  k_half : vh v = kth g || krh h;
  k_cls : vc v = kcl h;
  k_pnd : k_pend b = kpnd h;
  k_cap : vlen v <= cap;
  k_lk : klk g = true -> vlen v < cap;
  k_in : match krw h with WNone | WDone => True | WWritten w | WStored w | WBack w => In w (k_ws b) end;
  k_cur : match kcw h with None => True | Some w => In w (k_ws b) end;
  k_sp : match ksp g with
         | SpNo => True | SpPeek => exists w, krw h = WStored w | SpWake w => In w (k_ws b) end;
  k_sph : ksp g <> SpNo -> kth g = false;
  k_wk : match kwk g with None => True | Some w => In w (k_ws b) end;
  k_tk : ktk g <> TkNo -> kth g = true /\ exists w, krw h = WStored w;
  k_wt : kwt h = true ->
    (exists w, krw h = WStored w) /\ kcl h = false /\
    (kth g = true -> ktk g = TkWake \/ kwk g <> None \/ k_woken b = true) /\
    (vlen v <> 0 -> ksp g <> SpNo \/ k_woken b = true);
  k_pw : kpnd h = true -> kwt h = true;
  k_back : match krw h with WBack _ | WDone => kth g = true | _ => True end;
  k_rh : krh h = true -> kcl h = true }.

Definition tidle2 (gone : bool) (g : TK) : Prop := g = mkTK SpNo gone TkNo None false.
Definition ridle2 (gone : bool) (h : RK) : Prop :=
  krh h = gone /\ kwt h = kpnd h /\ match krw h with WWritten _ | WBack _ => False | _ => True end.

Lemma in_exists w l : In w l -> existsb (N.eqb w) l = true.
Proof. intros. apply existsb_exists. exists w. split; [assumption|apply N.eqb_refl]. Qed.

Section RxWaker.
  Variables bits cap : N.
  Hypothesis Hbits : 6 <= bits.
  Hypothesis Hcap0 : 1 < cap.
  Hypothesis Hcap : cap < MAX_CAPACITY bits.
  Hypothesis Heven : COUNT_BITS bits = LB bits.

  Notation enc := (encv bits).
  Notation wok := (vok bits cap).
  Notation wlen := (wlen bits cap Hbits Hcap0 Hcap).
  Notation wcur := (wcur bits cap Hbits Hcap0 Hcap).
  Notation wadd := (wadd bits cap Hbits Hcap0 Hcap).
  Notation wfull := (wfull bits cap Hbits Hcap0 Hcap).
  Notation wnext := (wnext bits cap Hbits Hcap0 Hcap).
  Notation wdrop := (wdrop bits cap Hbits Hcap0 Hcap Heven).
  Notation wclaim_ok := (wclaim_ok bits cap Hbits Hcap0 Hcap Heven).

  Definition J2 (m : mem) (b : rwake) (g : TK) (h : RK) : Prop :=
    exists v, st m = enc v /\ wok v /\ Jk cap v (cells m CRxW) b g h.
  Definition J2r (m : mem) (b : rwake) (h : RK) (g : TK) : Prop := J2 m b g h.

  Notation wpt := (wp TX rconsuming kstep ok2 safe2 J2 tidle2).
  Notation wpr := (wp RX rconsuming kstep ok2 safe2 J2r ridle2).

  Lemma J2_frame m m' b g h : J2 m b g h -> st m' = st m -> cells m' CRxW = cells m CRxW -> J2 m' b g h.
  Proof. intros (v & E & Hv & HJ) E1 E2. exists v. rewrite E1, E2. auto. Qed.
  Lemma J2_woken m b g h : forall x, J2 m b g h ->
    J2 m (Rwake (k_ws b) (k_pend b) (k_woken b || x)) g h.
  Proof.
    intros x (v & E & Hv & HJ). exists v. split; [exact E|]. split; [exact Hv|].
    destruct HJ. constructor; cbn; auto. intros K. destruct (k_wt0 K) as (K1 & K2 & K3 & K4).
    repeat split; auto.
    - intros K5. destruct (K3 K5) as [?|[?| ->]]; auto.
    - intros K5. destruct (K4 K5) as [?| ->]; auto.
  Qed.

  Definition other (c : cell) : Prop := match c with CRxW => False | _ => True end.
  Ltac frame HJ := apply (J2_frame _ _ _ _ _ HJ); [try reflexivity|try reflexivity].
  Lemma J2_write m b g h c w : other c -> J2 m b g h -> J2 (write m c w) b g h.
  Proof. intros W HJ. frame HJ. destruct c; try contradiction; reflexivity. Qed.
  Lemma J2_take m b g h c : other c -> J2 m b g h -> J2 (fst (take m c)) b g h.
  Proof.
    intros W HJ. frame HJ; unfold take; cbn; destruct (cells m c); auto; destruct c; try contradiction; reflexivity.
  Qed.
  Lemma J2_peek m b g h c : J2 m b g h -> J2 (fst (peek m c)) b g h.
  Proof. intros HJ. frame HJ; unfold peek; cbn; destruct (cells m c); auto. Qed.
  Lemma J2_touch m b g h : J2 m b g h -> J2 (touch m) b g h.
  Proof. intros HJ. frame HJ. Qed.
  Lemma J2_free m b g h : J2 m b g h -> J2 (free m) b g h.
  Proof. intros HJ. frame HJ. Qed.

  (** Accesses that do not matter here. *)
  Lemma t_write o c w k g : other c -> wpt o k g -> wpt o (Write c w k) g.
  Proof.
    intros W K m b h HJ. split; [now destruct c|]. intros _. exists g. split; [|exact K]. now apply J2_write.
  Qed.
  Lemma t_take o c k g : other c -> (forall w, wpt o (k w) g) -> wpt o (Take c k) g.
  Proof.
    intros W K m b h HJ. split; [now destruct c|]. intros _. exists g. split; [|apply K]. now apply J2_take.
  Qed.
  Lemma t_dropw o w k g : wpt o k g -> wpt o (DropW w k) g.
  Proof. intros K m b h HJ _. now exists g. Qed.
  Lemma t_dropv o w k g : wpt o k g -> wpt o (DropV w k) g.
  Proof. intros K m b h HJ _. now exists g. Qed.
  Lemma t_free o k g : wpt o k g -> wpt o (Free k) g.
  Proof. intros K m b h HJ. split; [exact I|]. exists g. split; [now apply J2_free|exact K]. Qed.
  Lemma r_write o c w k g : other c -> wpr o k g -> wpr o (Write c w k) g.
  Proof.
    intros W K m b h HJ. split; [now destruct c|]. intros _. exists g. split; [|exact K]. now apply J2_write.
  Qed.
  Lemma r_take o c k g : other c -> (forall w, wpr o (k w) g) -> wpr o (Take c k) g.
  Proof.
    intros W K m b h HJ. split; [now destruct c|]. intros _. exists g. split; [|apply K]. now apply J2_take.
  Qed.
  Lemma r_peek o c k g : other c -> (forall w, wpr o (k w) g) -> wpr o (Peek c k) g.
  Proof.
    intros W K m b h HJ. split; [now destruct c|]. intros _. exists g. split; [|apply K]. now apply J2_peek.
  Qed.
  Lemma r_wake o w k g : wpr o k g -> wpr o (Wake w k) g.
  Proof. intros K m b h HJ _. now exists g. Qed.
  Lemma r_dropw o w k g : wpr o k g -> wpr o (DropW w k) g.
  Proof. intros K m b h HJ _. now exists g. Qed.
  Lemma r_dropv o w k g : wpr o k g -> wpr o (DropV w k) g.
  Proof. intros K m b h HJ _. now exists g. Qed.
  Lemma r_free o k g : wpr o k g -> wpr o (Free k) g.
  Proof. intros K m b h HJ. split; [exact I|]. exists g. split; [now apply J2_free|exact K]. Qed.

  (** Read-modify-writes. *)
  Lemma t_rmw {oa oc} o old f k g :
    (forall v cw b h, wok v -> Jk cap v cw b g h -> exists v' g', f (enc v) = enc v' /\ wok v' /\
       Jk cap v' cw b g' h /\ wpt o (k (enc v)) g') ->
    wpt o (Rmw oa oc old f k) g.
  Proof.
    intros K. cbn [wp]. split.
    - intros m b h HJ. split; [exact I|]. intros _. now apply J2_touch.
    - intros m b h (v & E & Hv & HJ) _. destruct (K v _ _ _ Hv HJ) as (v' & g' & E' & Hv' & HJ' & W).
      rewrite E. exists g'. split; [|exact W]. exists v'. cbn. auto.
  Qed.
  Lemma r_rmw {oa oc} o old f k h :
    (forall v cw b g, wok v -> Jk cap v cw b g h -> exists v' h', f (enc v) = enc v' /\ wok v' /\
       Jk cap v' cw b g h' /\ wpr o (k (enc v)) h') ->
    wpr o (Rmw oa oc old f k) h.
  Proof.
    intros K. cbn [wp]. split.
    - intros m b g HJ. split; [exact I|]. intros _. now apply J2_touch.
    - intros m b g (v & E & Hv & HJ) _. destruct (K v _ _ _ Hv HJ) as (v' & h' & E' & Hv' & HJ' & W).
      rewrite E. exists h'. split; [|exact W]. exists v'. cbn. auto.
  Qed.

  Ltac words := rewrite ?wlen, ?wcur, ?has_READY, ?has_FLUSH, ?has_RXW, ?has_ERR, ?has_CLOSED, ?has_HALF by assumption.

  (** ** The sender. *)
  Definition look_ (l : bool) : TK := mkTK SpNo false TkNo None l.
  Definition dead (t : todo) (w : option N) : TK := mkTK SpNo true t w false.

  Lemma J2_unlook m b l h : J2 m b (look_ l) h -> J2 m b (look_ false) h.
  Proof.
    intros (v & E & Hv & HJ). exists v. split; [exact E|]. split; [exact Hv|]. destruct HJ. constructor; auto. discriminate.
  Qed.
  Lemma t_done o r l : rside o = TX -> rconsuming o = false -> wpt o (Done r) (look_ l).
  Proof.
    intros S C m b h HJ _. exists (look_ false). rewrite C. split; [|reflexivity].
    apply J2_unlook in HJ. destruct o; try discriminate; exact HJ.
  Qed.
  Lemma t_end o r : rside o = TX -> rconsuming o = true -> wpt o (Done r) (dead TkNo None).
  Proof.
    intros S C m b h HJ _. exists (dead TkNo None). rewrite C. split; [|reflexivity].
    destruct o; try discriminate; exact HJ.
  Qed.
  Lemma t_load {oa} o k l : (forall v, wok v -> vlen v <= cap -> wpt o (k (enc v)) (look_ (vlen v <? cap))) -> wpt o (Load oa k) (look_ l).
  Proof.
    intros K m b h HJ. split; [exact I|]. intros _. destruct HJ as (v & E & Hv & HJ).
    exists (look_ (vlen v <? cap)). split; [|rewrite E; apply K; [assumption|apply HJ]].
    exists v. cbn. split; [exact E|]. split; [exact Hv|]. destruct HJ. constructor; cbn; auto. intros L. now apply N.ltb_lt.
  Qed.
  (** Publishing a value. *)
  Lemma t_publish {oa oc} o old k1 k2 : wpt o k1 (look_ false) -> wpt o k2 (look_ false) ->
    wpt o (Rmw oa oc old (fun s => add_length bits s 1) (fun s =>
       if has s CLOSED then k1 else if has s RXW then Peek CRxW (fun w => Wake w k2) else k2)) (look_ true).
  Proof.
    intros K1 K2. apply t_rmw. intros v cw b h Hv HJ.
    exists (addv bits v), (if vc v then look_ false else mkTK (if vw v then SpPeek else SpNo) false TkNo None false).
    split; [now apply wadd|]. split; [now apply addv_ok|]. words. unfold addv. destruct (vc v) eqn:Ec.
    - split; [|exact K1]. destruct HJ. constructor; cbn; auto; discriminate.
    - split.
      + destruct HJ. specialize (k_lk0 eq_refl). pose proof (cap_LB bits cap Hbits Hcap0 Hcap).
        constructor; cbn in *; auto; try (intros; discriminate).
        * congruence.
        * rewrite N.mod_small by lia. lia.
        * destruct (vw v); [|exact I]. destruct (krw h) as [|w|w|w|]; try discriminate; eauto.
          all: discriminate.
        * intros Ew. destruct (k_wt0 Ew) as ((w & Er) & A & B & C). repeat split; eauto; try discriminate.
          intros _. left. rewrite Er in k_bit0. rewrite k_bit0. discriminate.
      + destruct (vw v); [|exact K2].
        intros m b' h' (u & E & Hu & HJ'). destruct HJ'. cbn in k_sp0. destruct k_sp0 as [w Ew].
        rewrite Ew in k_cell0. cbn in k_cell0. split; [cbn; congruence|]. intros _. unfold peek. cbn [touch cells]. rewrite k_cell0. cbn [fst snd].
        exists (mkTK (SpWake w) false TkNo None false). split.
        * exists u. cbn. split; [exact E|]. split; [exact Hu|]. rewrite Ew in *. constructor; cbn; rewrite ?Ew; auto; try discriminate.
          intros Wt. destruct (k_wt0 Wt) as (A & B & C & D). repeat split; eauto. intros L. destruct (D L); auto. left. discriminate.
        * clear - K2 Hbits. intros m b h (u & E & Hu & HJ) _. exists (look_ false). split; [|exact K2].
          exists u. split; [exact E|]. split; [exact Hu|]. destruct HJ. cbn in *. rewrite (in_exists _ _ k_sp0), orb_true_r.
          constructor; cbn; auto; try congruence. intros Wt. destruct (k_wt0 Wt) as (A & B & C & D). repeat split; auto.
  Qed.

  (** Changing only the sender's flags. *)
  Lemma Jk_flags v cw b g h r f e : Jk cap v cw b g h ->
    Jk cap (V r f (vw v) e (vc v) (vh v) (vcur v) (vlen v)) cw b g h.
  Proof. intros []. constructor; auto. Qed.

  Lemma t_send o v k : (forall r, wpt o (k r) (look_ false)) -> wpt o (try_send_then bits cap v k) (look_ false).
  Proof.
    intros K. unfold try_send_then. apply t_load. intros u Hu Lu. words.
    destruct (N.eqb_spec (vlen u) cap) as [E|E]; destruct (N.ltb_spec (vlen u) cap); try lia; [apply K|].
    apply t_write; [exact I|]. apply t_publish; [|apply K]. apply t_take; [exact I|]. intros w. apply K.
  Qed.
  Lemma wp_try_send v : wpt (TrySend v) (try_send bits cap v) (look_ false).
  Proof. apply t_send. intros r. now apply t_done. Qed.
  Lemma wp_start_send v : wpt (StartSend v) (start_send bits cap v) (look_ false).
  Proof. apply t_send. intros r. destruct r; try apply t_dropv; now apply t_done. Qed.

  Lemma wp_over_store v i x s : wpt (SendOver v) (over_store bits v i x s) (look_ true).
  Proof.
    unfold over_store. apply t_write; [exact I|]. apply t_publish; [|now apply t_done]. apply t_take; [exact I|].
    intros w. now apply t_done.
  Qed.
  Lemma wp_over v : wpt (SendOver v) (send_overwrite bits cap v) (look_ false).
  Proof.
    unfold send_overwrite. apply t_load. intros u Hu Lu. words.
    destruct (N.eqb_spec (vlen u) cap) as [E|E]; destruct (N.ltb_spec (vlen u) cap); try lia.
    - apply t_rmw. intros v' cw b h Hv HJ. exists (claim_full cap v'), (look_ (negb (vc v'))).
      split; [now apply wfull|]. split.
      { unfold claim_full. destruct (_ && _); [now apply wclaim_ok|assumption]. }
      pose proof (k_cap _ _ _ _ _ _ HJ) as L. split.
      + unfold claim_full. destruct (vc v') eqn:Ec; [|destruct (N.eqb_spec (vlen v') cap) as [E'|E']]; cbn [negb andb].
        * destruct HJ. constructor; auto; discriminate.
        * destruct HJ. constructor; cbn; auto; try lia. intros Wt. destruct (k_wt0 Wt) as (A & B & C & D).
          repeat split; auto. intros L'. apply D. lia.
        * destruct HJ. constructor; cbn; auto. lia.
      + unfold over_claimed. words. destruct (vc v'); [now apply t_done|]. cbn [negb].
        destruct (vlen v' =? cap); [apply t_take; [exact I|]; intros w|]; apply wp_over_store.
    - unfold over_claimed. words. destruct (vc u); [now apply t_done|].
      destruct (N.eqb_spec (vlen u) cap); [lia|]. apply wp_over_store.
  Qed.

  Lemma wp_register o w s mark c ready : rside o = TX -> rconsuming o = false ->
    (forall v, exists r f, mark (enc v) = enc (V r f (vw v) (ve v) (vc v) (vh v) (vcur v) (vlen v))) ->
    forall l, wpt o (register w s mark c ready) (look_ l).
  Proof.
    intros S C M l. unfold register.
    cbv zeta. generalize (negb (has_waker s)). intros wr.
    match goal with |- wpt o (if _ then Write _ _ ?p else _) _ => assert (wpt o p (look_ l)) as K end.
    { apply t_rmw. intros v cw b h Hv HJ. destruct (M v) as (r & f & E).
      eexists. exists (look_ l). split; [exact E|]. split; [exact Hv|]. split; [now apply Jk_flags|]. words.
      destruct (vc v); [destruct wr; [apply t_take; [exact I|]; intros w'; apply t_dropw|]|destruct (ready _)]; now apply t_done. }
    destruct wr; [|exact K]. now apply t_write.
  Qed.
  Lemma mark_ready v : exists r f, set_ready_waker (enc v) = enc (V r f (vw v) (ve v) (vc v) (vh v) (vcur v) (vlen v)).
  Proof. unfold set_ready_waker. rewrite no_FLUSH, or_READY. now exists true, false. Qed.
  Lemma mark_flush v : exists r f, set_flush_waker (enc v) = enc (V r f (vw v) (ve v) (vc v) (vh v) (vcur v) (vlen v)).
  Proof. unfold set_flush_waker. rewrite no_READY, or_FLUSH. now exists false, true. Qed.
  Lemma mark_close v : exists r f, set_close_waker (enc v) = enc (V r f (vw v) (ve v) (vc v) (vh v) (vcur v) (vlen v)).
  Proof. unfold set_close_waker. rewrite or_READY, or_FLUSH. now exists true, true. Qed.

  Lemma wp_poll_ready w : wpt (PollReady w) (poll_ready bits cap w) (look_ false).
  Proof.
    unfold poll_ready. apply t_load. intros v Hv Lv. destruct (has _ _); [now apply t_done|].
    destruct (_ <? _) at 1; [now apply t_done|]. destruct (negb _); [|now apply t_done].
    apply wp_register; try reflexivity. apply mark_ready.
  Qed.
  Lemma wp_poll_flush w : wpt (PollFlush w) (poll_flush bits w) (look_ false).
  Proof.
    unfold poll_flush. apply t_load. intros v Hv Lv. destruct (has _ _); [now apply t_done|].
    destruct (_ =? _) at 1; [now apply t_done|]. destruct (negb _); [|now apply t_done].
    apply wp_register; try reflexivity. apply mark_flush.
  Qed.
  Lemma wp_poll_close w : wpt (PollClose w) (poll_close w) (look_ false).
  Proof.
    unfold poll_close. apply t_load. intros v Hv Lv. destruct (has _ _); [now apply t_done|].
    destruct (negb _); [|now apply t_done].
    apply wp_register; try reflexivity. apply mark_close.
  Qed.
  Lemma wp_is_canceled : wpt IsCanceled is_canceled (look_ false).
  Proof. apply t_load. intros v Hv Lv. now apply t_done. Qed.

  (** The end of the sender. *)
  Lemma Jk_end v cw b h (e x : bool) : Jk cap v cw b (look_ false) h ->
    (vc v = false -> vw v = true -> vh v = false -> x = true) ->
    Jk cap (V (vr v) (vf v) (vw v) (ve v || e) (vc v) true (vcur v) (vlen v)) cw b
       (dead (if vw v then if x then TkWake else TkDrop else TkNo) None) h.
  Proof.
    intros [] X. assert (vw v = true -> exists w, krw h = WStored w) as S.
    { rewrite k_bit0. cbn in *. destruct (krw h); try discriminate; eauto. }
    constructor; cbn in *; auto; try congruence.
    - rewrite k_cell0. rewrite k_bit0. destruct (krw h); cbn; auto; try discriminate. now destruct x.
    - intros E. split; [reflexivity|]. apply S. now destruct (vw v).
    - intros Wt. destruct (k_wt0 Wt) as ((w & Er) & B & C & D). repeat split; eauto. intros _. left.
      rewrite k_bit0, Er. cbn. rewrite X; auto; [congruence|now rewrite k_bit0, Er|].
      rewrite k_half0. destruct (krh h); [|reflexivity]. rewrite k_rh0 in B by reflexivity. discriminate.
    - destruct (krw h); auto.
  Qed.
  Lemma t_tk o t k1 k2 (x : bool) : t = (if x then TkWake else TkDrop) ->
    (x = true -> wpt o k1 (dead TkNo None)) -> (x = false -> wpt o k2 (dead TkNo None)) ->
    wpt o (Take CRxW (fun w => if x then Wake w k1 else DropW w k2)) (dead t None).
  Proof.
    intros Ex K1 K2. cbn [wp]. intros m b h (u & E & Hu & HJ). destruct HJ. cbn in *.
    destruct k_tk0 as (_ & w & Ew). { rewrite Ex. now destruct x. }
    rewrite Ew in *. cbn in *. assert (cells m CRxW = Some w) as Ec by (rewrite k_cell0, Ex; now destruct x).
    split; [congruence|]. intros _. unfold take. cbn [touch cells]. rewrite Ec. cbn [fst snd].
    exists (dead TkNo (if x then Some w else None)). split.
    - exists u. cbn. split; [exact E|]. split; [exact Hu|]. constructor; cbn; rewrite ?Ew; auto; try congruence.
      + now destruct x.
      + intros Wt. destruct (k_wt0 Wt) as (A & B & C & D). repeat split; eauto. intros T.
        right. destruct (C T) as [F|[F|F]]; [|congruence|now right]. left. destruct x; congruence.
    - clear - K1 K2 Hbits. destruct x.
      + intros m b h (u & E & Hu & HJ) _. exists (dead TkNo None). split; [|now apply K1].
        exists u. split; [exact E|]. split; [exact Hu|]. destruct HJ. cbn in *. rewrite (in_exists _ _ k_wk0), orb_true_r.
        constructor; cbn; auto. intros Wt. destruct (k_wt0 Wt) as (A & B & C & D). repeat split; auto.
      + apply t_dropw. now apply K2.
  Qed.

  Lemma wp_send_err v : wpt (SendErr v) (send_err v) (look_ false).
  Proof.
    unfold send_err. apply t_write; [exact I|]. apply t_rmw. intros u cw b h Hu HJ.
    exists (V (vr u) (vf u) (vw u) (ve u || negb (vc u)) (vc u) true (vcur u) (vlen u)),
      (dead (if vw u then if negb (vc u) then TkWake else TkDrop else TkNo) None). words. split.
    { destruct u as [r1 f1 w1 e1 c1 h1 u1 l1]; cbn; destruct c1, e1; cbn [negb orb]; rewrite ?or_0, ?or_ERR, or_HALF; reflexivity. }
    split; [exact Hu|]. split.
    { apply Jk_end; auto. now intros ->. }
    match goal with |- context [DropW _ ?p] => assert (wpt (SendErr v) p (dead TkNo None)) as K end.
    { destruct (vc u); [|now apply t_end]. apply t_take; [exact I|]. intros w. destruct (vh u); [apply t_free|]; now apply t_end. }
    destruct (vw u); [|exact K]. now apply t_tk.
  Qed.
  Lemma wp_drop_tx : wpt DropTx drop_tx (look_ false).
  Proof.
    unfold drop_tx. apply t_rmw. intros u cw b h Hu HJ.
    exists (V (vr u) (vf u) (vw u) (ve u || false) (vc u) true (vcur u) (vlen u)),
      (dead (if vw u then if negb (vh u) then TkWake else TkDrop else TkNo) None). words. split.
    { rewrite or_HALF, orb_false_r. reflexivity. }
    split; [exact Hu|]. split.
    { apply Jk_end; auto. now intros _ _ ->. }
    assert (wpt DropTx (if vh u then Free (Done RUnit) else Done RUnit) (dead TkNo None)) as K.
    { destruct (vh u); [apply t_free|]; now apply t_end. }
    destruct (vw u); [|exact K]. apply t_tk; auto. intros _. now apply t_end.
  Qed.

  (** ** The receiver. *)
  Lemma r_done o r h : rside o = RX -> ridle2 (rconsuming o) h ->
    match o, r with PollNext _, RPending => False | _, _ => True end -> wpr o (Done r) h.
  Proof.
    intros S Hi N m b g HJ _. exists h. split; [|exact Hi]. destruct o; try discriminate; try exact HJ.
    destruct r; try exact HJ. contradiction.
  Qed.
  Lemma Jk_next v cw b g h : Jk cap v cw b g h -> Jk cap (nextv cap v) cw b g h.
  Proof.
    intros HJ. unfold nextv, claim_unless.
    assert (Jk cap (if 0 <? vlen v then claimv cap v else v) cw b g h) as K.
    { destruct (0 <? vlen v); [|exact HJ]. destruct HJ. constructor; cbn; auto; try lia.
      intros Wt. destruct (k_wt0 Wt) as (A & B & C & D). repeat split; auto. intros L. apply D. lia. }
    now apply (Jk_flags _ _ _ _ _ (vr (if 0 <? vlen v then claimv cap v else v)) (vf (if 0 <? vlen v then claimv cap v else v)) false) in K.
  Qed.
  Lemma wnext_ok v : wok v -> wok (nextv cap v).
  Proof. intros Hv. unfold nextv, claim_unless. pose proof (wclaim_ok v Hv). destruct (0 <? vlen v); assumption. Qed.

  Lemma wp_take_value o s n h : rside o = RX -> ridle2 (rconsuming o) h -> wpr o (take_value bits cap s n) h.
  Proof.
    intros S Hi. unfold take_value. cbv zeta.
    set (sw := if has_ready_waker s then _ else _). clearbody sw. generalize (has s ERR). intros e. generalize (get_cursor bits s). intros i.
    assert (forall s', wpr o (if sw && negb (has s' HALF) then Peek CTxW (fun w => Wake w (Take (CBuf i) (fun v => Done (RVal v)))) else Take (CBuf i) (fun v => Done (RVal v))) h) as K.
    { assert (wpr o (Take (CBuf i) (fun v => Done (RVal v))) h) as K0.
      { apply r_take; [exact I|]. intros w. apply r_done; auto. now destruct o. }
      intros s'. destruct (_ && _); [|exact K0]. apply r_peek; [exact I|]. intros w. now apply r_wake. }
    destruct (negb _); [|apply K]. apply r_rmw. intros v cw b g Hv HJ. rewrite or_flags.
    eexists. exists h. split; [reflexivity|]. split; [exact Hv|]. split; [now apply Jk_flags|apply K].
  Qed.

  Lemma wp_try_next h : ridle2 false h -> wpr TryNext (try_next bits cap) h.
  Proof.
    intros Hi. unfold try_next. apply r_rmw. intros v cw b g Hv HJ. exists (nextv cap v), h.
    split; [now apply wnext|]. split; [now apply wnext_ok|]. split; [now apply Jk_next|]. cbn zeta. words.
    destruct (0 <? vlen v); [now apply wp_take_value|].
    destruct (ve v); [apply r_take; [exact I|]; intros w; now apply r_done|].
    destruct (_ || _); now apply r_done.
  Qed.
  Lemma wp_is_terminated h : ridle2 false h -> wpr IsTerminated (is_terminated bits) h.
  Proof.
    intros Hi m b g HJ. split; [exact I|]. intros _. exists h. split; [now apply J2_touch|]. now apply r_done.
  Qed.
  Lemma wp_close rw x cl : ridle2 false (mkRK rw x false false cl false) -> wpr Close close (mkRK rw x false false cl false).
  Proof.
    intros Hi. unfold close. apply r_rmw. intros v cw b g Hv HJ. exists (with_c v true), (mkRK rw x false false true false).
    rewrite or_CLOSED. split; [reflexivity|]. split; [exact Hv|]. split.
    - destruct HJ. constructor; cbn in *; auto; discriminate.
    - destruct (_ && _); [|now apply r_done]. apply r_take; [exact I|]. intros w.
      destruct (negb _); [apply r_wake|apply r_dropw]; now apply r_done.
  Qed.

  Lemma r_drop_values o cur k : forall n i h, (wpr o k h) -> wpr o (drop_values cap n cur i k) h.
  Proof.
    induction n as [|n IH]; intros i h K; cbn [drop_values]; [exact K|].
    apply r_take; [exact I|]. intros w. apply r_dropv. now apply IH.
  Qed.
  Lemma wp_drop_rx rw x cl : ridle2 false (mkRK rw x false false cl false) -> wpr DropRx (drop_rx bits cap) (mkRK rw x false false cl false).
  Proof.
    intros Hi. unfold drop_rx. apply r_rmw. intros v cw b g Hv HJ. exists (dropv v), (mkRK rw x false false true true).
    split; [now apply wdrop|]. split; [now apply dropv_ok|]. split.
    - destruct HJ. constructor; cbn in *; auto; try discriminate.
      + now rewrite orb_true_r.
      + lia.
      + intros _. lia.
    - cbv zeta. apply r_drop_values. words.
      set (h := mkRK rw x false false true true).
      assert (wpr DropRx (Done RUnit) h) as K0. { apply r_done; auto. destruct Hi as (_ & _ & Hi). now repeat split. }
      assert (wpr DropRx (if vh v then Free (Done RUnit) else Done RUnit) h) as K1 by (destruct (vh v); [apply r_free|]; exact K0).
      assert (wpr DropRx (if negb (vc v) && has_waker (enc v)
          then Take CTxW (fun w => if negb (vh v) then Wake w (Done RUnit) else DropW w (if vh v then Free (Done RUnit) else Done RUnit))
          else if vh v then Free (Done RUnit) else Done RUnit) h) as K2.
      { destruct (_ && _); [|exact K1]. apply r_take; [exact I|]. intros w. destruct (negb _); [now apply r_wake|now apply r_dropw]. }
      destruct (ve v); [|exact K2]. apply r_take; [exact I|]. intros w. now apply r_dropv.
  Qed.

  (** Polling. *)
  Lemma r_pending o w rw x cl : o = PollNext w -> match rw with WWritten _ | WBack _ => False | _ => True end ->
    wpr o (Done RPending) (mkRK rw x true false cl false).
  Proof.
    intros -> Hrw m b g HJ _. exists (mkRK rw x true true cl false). split; [|now repeat split].
    destruct HJ as (v & E & Hv & HJ). exists v. split; [exact E|]. split; [exact Hv|]. destruct HJ. constructor; cbn in *; auto.
  Qed.

  Lemma wp_poll_next w rw cl : ridle2 false (mkRK rw (Some w) false false cl false) ->
    wpr (PollNext w) (poll_next bits cap w) (mkRK rw (Some w) false false cl false).
  Proof.
    intros Hi. unfold poll_next. apply r_rmw. intros v cw b g Hv HJ.
    exists (nextv cap v), (mkRK rw (Some w) (negb (0 <? vlen v) && negb (ve v) && negb (vh v || vc v) && vw v) false cl false).
    split; [now apply wnext|]. split; [now apply wnext_ok|]. split.
    { apply Jk_next in HJ. destruct (_ && _) eqn:E; [|exact HJ].
      apply andb_true_iff in E as [E Ew]. apply andb_true_iff in E as [E Eh]. apply andb_true_iff in E as [El Ee].
      apply negb_true_iff in El, Ee, Eh. apply orb_false_iff in Eh as [Eh Ec].
      assert (vlen v = 0) as L by (destruct (N.ltb_spec 0 (vlen v)); [discriminate|lia]).
      assert (nextv cap v = with_e v false) as En by (unfold nextv, claim_unless; now rewrite El). rewrite En in *.
      destruct HJ. cbn in *. rewrite Eh in *. symmetry in k_half0. apply orb_false_iff in k_half0 as [Eth _].
      constructor; cbn in *; auto; try congruence.
      - now rewrite Eth.
      - intros _. repeat split; try congruence.
        destruct Hi as (_ & _ & Hi). cbn in Hi. destruct rw; try contradiction; try congruence; eauto.
        all: cbn in *; congruence. }
    cbn zeta. words.
    destruct (0 <? vlen v) eqn:El; [now apply wp_take_value|].
    destruct (ve v) eqn:Ee; [apply r_take; [exact I|]; intros w'; now apply r_done|].
    destruct (vh v || vc v) eqn:Eh; [now apply r_done|]. cbn [negb andb].
    destruct (vw v) eqn:Ew; cbn [negb]; [apply r_pending with w; auto; apply Hi|].
    apply orb_false_iff in Eh as [Eh Ec].
    assert (rw = WNone) as ->.
    { destruct Hi as (_ & _ & Hi). cbn in Hi. destruct HJ. cbn in *. destruct rw; cbn in *; try contradiction; try congruence. }
    assert (cl = false) as -> by (destruct HJ; cbn in *; congruence).
    assert (wpr (PollNext w) (Rmw Acquire AcqRel (Some (enc v)) (fun s => N.lor (next_claim bits cap s) RXW) (fun s =>
          let length := get_length bits s in
          let rest :=
            if 0 <? length then take_value bits cap s length
            else if has s HALF then
              if has s ERR then Take CErr (fun v => Done (RError v)) else Done REnd
            else Done RPending in
          if has s HALF then Take CRxW (fun w => DropW w rest) else rest)) (mkRK (WWritten w) (Some w) false false false false)) as K.
    2: { intros m b' g' (u & E & Hu & HJ'). destruct HJ'. cbn in *. split; [assumption|]. intros _. eexists. split; [|exact K].
         exists u. cbn. split; [exact E|]. split; [exact Hu|]. constructor; cbn; auto; try congruence.
         - now destruct (ksp g'); [|destruct k_sp0; discriminate|].
         - intros F. destruct (k_tk0 F) as (_ & ? & ?). discriminate. }
    generalize (Some (enc v)). clear - Hbits Hcap0 Hcap Heven. intros old. apply r_rmw. intros v cw b g Hv HJ.
    exists (with_w (nextv cap v) true), (mkRK (if vh v then WBack w else WStored w) (Some w) (negb (vh v) && negb (0 <? vlen v)) false false false).
    rewrite wnext, or_RXW by assumption. split; [reflexivity|]. split; [now apply (wnext_ok v)|].
    assert (vh v = kth g) as Eg by (destruct HJ; cbn in *; now rewrite orb_false_r in k_half0). split.
    { pose proof (k_back _ _ _ _ _ _ HJ). apply Jk_next in HJ.
      assert (vlen v = 0 -> vlen (nextv cap v) = 0) as L0.
      { intros E. unfold nextv, claim_unless. rewrite E. exact E. }
      assert (vh (nextv cap v) = vh v) as Eh by (unfold nextv, claim_unless; now destruct (0 <? vlen v)).
      destruct HJ. cbn in *. rewrite Eh in *. rewrite orb_false_r in *. constructor; cbn; rewrite ?orb_false_r; auto; try congruence.
      - now destruct (vh v).
      - rewrite k_cell0, Eg. destruct (kth g); reflexivity.
      - now destruct (vh v).
      - destruct (ksp g); auto. now destruct k_sp0.
      - intros F. destruct (k_tk0 F) as (_ & ? & ?). discriminate.
      - intros F. apply andb_true_iff in F as [F1 F2]. apply negb_true_iff in F1, F2. rewrite F1 in *.
        repeat split; eauto; try congruence. intros F. destruct F. apply L0. destruct (N.ltb_spec 0 (vlen v)); [discriminate|lia].
      - destruct (vh v); auto. }
    cbn zeta. words. destruct (vh v) eqn:Eh; cbn [negb andb].
    - match goal with |- wpr _ (Take CRxW (fun w => DropW w ?p)) _ => assert (wpr (PollNext w) p (mkRK WDone (Some w) false false false false)) as K end.
      { destruct (0 <? vlen v); [now apply wp_take_value|]. destruct (ve v); [apply r_take; [exact I|]; intros w'|]; now apply r_done. }
      intros m b' g' (u & E & Hu & HJ'). destruct HJ'. cbn in *. split; [congruence|]. intros _.
      unfold take. cbn [touch cells]. rewrite k_cell0. cbn [fst snd].
      exists (mkRK WDone (Some w) false false false false). split; [|now apply r_dropw].
      exists u. cbn. split; [exact E|]. split; [exact Hu|]. constructor; cbn; auto; try congruence.
      + destruct (ksp g'); auto. now destruct k_sp0.
      + intros F. destruct (k_tk0 F) as (_ & ? & ?). discriminate.
    - destruct (0 <? vlen v) eqn:El; cbn [negb]; [now apply wp_take_value|]. now apply r_pending with w.
  Qed.

  (** ** All calls. *)
  Definition rk0 : RK := mkRK WNone None false false false false.

  Lemma J2_0 : J2 mem0 rwake0 (look_ false) rk0.
  Proof.
    exists (V false false false false false false 0 0). split; [now rewrite encv_0|]. split.
    { split; cbn; [lia|]. apply N.neq_0_lt_0, N.pow_nonzero. lia. }
    constructor; cbn; auto; try discriminate; try congruence. lia.
  Qed.

  Lemma wp_rcode_t o : rside o = TX -> wpt o (rcode bits cap o) (look_ false).
  Proof.
    destruct o; intros S; try discriminate; cbn [rcode].
    - apply wp_try_send.
    - apply wp_start_send.
    - apply wp_over.
    - apply wp_send_err.
    - apply wp_is_canceled.
    - apply wp_poll_ready.
    - apply wp_poll_flush.
    - apply wp_poll_close.
    - apply wp_drop_tx.
  Qed.

  Theorem sys_rxwaker atomics sched :
    sys_ok rconsuming rwake0 kstep ok2 safe2 J2 tidle2 ridle2 (rrun bits cap atomics sched).
  Proof.
    unfold rrun. apply sys_ok_run with (g0 := look_ false) (h0 := rk0).
    - reflexivity.
    - apply J2_0.
    - reflexivity.
    - now repeat split.
    - intros o S m b g h HJ -> _. exists (look_ false). split; [|now apply wp_rcode_t].
      destruct o; try discriminate; exact HJ.
    - intros o S m b g h HJ Hi _. destruct h as [rw x wt pn cl rh]. destruct Hi as (E1 & E2 & E3). cbn in E1, E2, E3. subst.
      destruct HJ as (v & E & Hv & HJ). destruct o; try discriminate; cbn [rcode kstep].
      + exists (mkRK rw x false false cl false). split; [|apply wp_close; now repeat split].
        exists v. split; [exact E|]. split; [exact Hv|]. destruct HJ. constructor; cbn in *; auto; discriminate.
      + exists (mkRK rw x pn pn cl false). split; [exists v; auto|]. apply wp_try_next. now repeat split.
      + exists (mkRK rw (Some w) false false cl false). split; [|apply wp_poll_next; now repeat split].
        exists v. split; [exact E|]. split; [exact Hv|]. destruct HJ. constructor; cbn in *; auto; try discriminate.
        * destruct rw; auto.
        * destruct (ksp g); auto.
        * destruct (kwk g); auto.
      + exists (mkRK rw x pn pn cl false). split; [exists v; auto|]. apply wp_is_terminated. now repeat split.
      + exists (mkRK rw x false false cl false). split; [|apply wp_drop_rx; now repeat split].
        exists v. split; [exact E|]. split; [exact Hv|]. destruct HJ. constructor; cbn in *; auto; discriminate.
  Qed.
End RxWaker.
