(** Properties of the executor: C87. *)
Require Import NArith List Bool Arith Lia.
From Verif Require Import AtomicSpec Treiber DrainSpec Drain P04_List ExecSpec Exec ExecProofs.
Import ListNotations.
Open Scope N_scope.

(** What holds of the log whether the machine has stopped or not. *)
Lemma log_ok nodes link l : NoDup nodes -> ~ In 0 nodes ->
  let lg := xlog (xrun nodes link l) in
  (exists ls d, drrun true (drinit nodes link) ls = (d, chain_of lg)) /\
  (forall x, lives x LNone lg <> None) /\
  (forall t, wakes t WIdle lg <> None) /\
  calls None lg <> None /\
  ((Forall fine lg /\ xstop (xrun nodes link l) = false) \/
   (exists a x e, lg = a ++ [XReady x false; XErr e] /\ Forall fine a /\ xstop (xrun nodes link l) = true)).
Proof.
  intros Hnd H0. destruct (xinv_run nodes link l Hnd H0) as [(q & [(ls & R) HI HC HL HWo HW HK HF HS])|
    (St & s0 & q & p & x & n & e & [(ls & R) (l0 & HI) HC HL HWo HW HK HF HS] & Ec & Ed & Exd & El)]; cbn zeta.
  - split; [eauto|]. split; [|split; [|split; [|left; auto]]].
    + intros x. destruct (HL x) as (st & A & _). now rewrite A.
    + intros t. now rewrite HW.
    + now rewrite HK.
  - rewrite El. split; [|split; [|split; [|split]]].
    + exists ls, (xd s0). rewrite R, chain_of_app. simpl. now rewrite app_nil_r.
    + intros y. destruct (HL y) as (st & A & B & _). rewrite lives_app, A. cbn.
      destruct (N.eqb_spec x y); [|easy]. subst y.
      destruct (visited _ _ _ _ _ _ HI Ed) as (f0 & k & t0 & Eq & Inx).
      rewrite (proj1 B Inx), Eq, Ec. simpl. now rewrite N.eqb_refl.
    + intros t. now rewrite wakes_app, HW.
    + rewrite calls_app, HK, Ec, Ed. cbn. now rewrite N.eqb_refl.
    + right. eauto 6.
Qed.

(** Every fiber (closure, generator, future) is made by one call of its factory in the
    calling context, is then added once, is called only while it is in the chain and has not
    completed, one call at a time, and when it completes is destroyed exactly once and removed;
    it is never called again. *)
Theorem C87_life : forall nodes link l, NoDup nodes -> ~ In 0 nodes ->
  (forall x, lives x LNone (xlog (xrun nodes link l)) <> None) /\
  calls None (xlog (xrun nodes link l)) <> None.
Proof. intros nodes link l Hnd H0. destruct (log_ok nodes link l Hnd H0) as (_ & A & _ & B & _). auto. Qed.
Print Assumptions C87_life.

(** In particular: after it has completed there is no call without a new fiber. *)
Lemma lives_done x b : forall s, s = LReady \/ s = LDone \/ s = LNone -> lives x s b <> None ->
  (forall t w, ~ In (XMake t x w) b) -> ~ In (XPoll x) b /\ ~ In (XReady x true) b /\ ~ In (XReady x false) b.
Proof.
  induction b as [|e b IH]; intros s Hs L Hm; [easy|]. cbn [lives] in L.
  destruct (life1 x s e) as [s'|] eqn:E; [|easy].
  assert (Hs' : s' = LReady \/ s' = LDone \/ s' = LNone).
  { destruct e as [[z| |z c|z|]|u z w|u z|z|z|z c|z|z|]; try destruct c; cbn in E;
      try (destruct (N.eqb_spec z x));
      try (injection E as <-; exact Hs);
      try (subst z; exfalso; apply (Hm u w); now left);
      destruct Hs as [-> |[-> | ->]]; try discriminate; injection E as <-; auto. }
  destruct (IH s' Hs' L) as (A & B & C); [intros t w H; apply (Hm t w); now right|].
  assert (K : e <> XPoll x /\ e <> XReady x true /\ e <> XReady x false).
  { repeat split; intros ->; cbn in E; rewrite N.eqb_refl in E; destruct Hs as [-> |[-> | ->]]; discriminate. }
  simpl. tauto.
Qed.

Theorem C87_never_again : forall nodes link l, NoDup nodes -> ~ In 0 nodes ->
  forall a x b, xlog (xrun nodes link l) = a ++ XReady x true :: b ->
  (forall t w, ~ In (XMake t x w) b) -> ~ In (XPoll x) b.
Proof.
  intros nodes link l Hnd H0 a x b E Hm. destruct (log_ok nodes link l Hnd H0) as (_ & L & _).
  specialize (L x). rewrite E, lives_app in L. destruct (lives x LNone a) as [s|]; [|easy].
  cbn [lives life1] in L. rewrite N.eqb_refl in L. destruct s; try easy.
  now apply (lives_done x b LReady) in L; auto.
Qed.
Print Assumptions C87_never_again.

(** Calls and visits pair up. *)
Lemma calls_visits l : forall c c', calls c l = Some c' ->
  (match c with Some x => [x] | None => [] end) ++ polled l =
  map fst (visits (chain_of l)) ++ match c' with Some x => [x] | None => [] end.
Proof.
  induction l as [|e l IH]; intros c c' H.
  - injection H as <-. simpl. now rewrite app_nil_r.
  - cbn [calls] in H. destruct (call1 c e) as [c1|] eqn:E; [|easy]. specialize (IH _ _ H).
    destruct e as [[z| |z b|z|]|u z w|u z|z|z|z b|z|z|]; cbn in E |- *; destruct c as [y|];
      try discriminate; try (destruct (N.eqb_spec z y); [|discriminate]); injection E as <-; cbn in IH |- *;
      try exact IH; subst; now rewrite IH.
Qed.

(** A complete run of the thread calls every fiber that was in the chain at its start exactly
    once, the latest added first; fibers added meanwhile have to wait. *)
Theorem C87_run : forall nodes link l, NoDup nodes -> ~ In 0 nodes ->
  forall a m b, xlog (xrun nodes link l) = a ++ XD EStart :: m ++ XD EEnd :: b -> inner (chain_of m) ->
  polled m = content (chain_of a) /\ NoDup (polled m).
Proof.
  intros nodes link l Hnd H0 a m b E Hi.
  destruct (log_ok nodes link l Hnd H0) as ((ls & d & R) & _ & _ & C & _). rewrite E in R, C.
  pose proof (drain_all true nodes link ls Hnd H0) as (_ & D & _).
  destruct (run_wf true nodes link ls Hnd H0) as [W _]. rewrite R in D, W. cbn [snd] in D, W.
  assert (Ec : chain_of (a ++ XD EStart :: m ++ XD EEnd :: b) =
               chain_of a ++ EStart :: chain_of m ++ EEnd :: chain_of b).
  { rewrite chain_of_app. cbn. now rewrite chain_of_app. }
  rewrite Ec in D, W. destruct (D _ _ _ eq_refl Hi) as (V & _).
  assert (P : polled m = map fst (visits (chain_of m))).
  { rewrite calls_app in C. destruct (calls None a) as [c|]; [|easy]. cbn in C. destruct c; [easy|].
    rewrite calls_app in C. destruct (calls None m) as [c|] eqn:Ec2; [|easy]. cbn in C. destruct c; [easy|].
    pose proof (calls_visits _ _ _ Ec2) as K. simpl in K. now rewrite app_nil_r in K. }
  split; [congruence|]. rewrite P, V.
  clear -R Ec Hnd H0. revert R. rewrite Ec. intros R.
  (* the contents have no duplicates *)
  assert (K : forall ls d c1 c2, drrun true (drinit nodes link) ls = (d, c1 ++ c2) -> NoDup (content c1)).
  { clear R ls d. intros ls. induction ls as [|lb ls IH] using rev_ind; intros d c1 c2 R.
    - cbn in R. injection R as _ E. symmetry in E. apply app_eq_nil in E. destruct E as [-> _]. constructor.
    - pose proof (run_wf true nodes link (ls ++ [lb]) Hnd H0) as [W (l & q & HI & Ha)].
      rewrite R in W, HI, Ha. cbn [fst snd] in *.
      destruct c2 as [|e c2 _] using rev_ind.
      + rewrite app_nil_r in *. destruct (W c1 []) as (q' & Ha' & Cq); [now rewrite app_nil_r|].
        rewrite Ha in Ha'. injection Ha' as <-. rewrite Cq. eapply full_nd; eauto.
      + rewrite drrun_app in R. cbn [drrun] in R.
        pose proof (one_event true (fst (drrun true (drinit nodes link) ls)) lb) as O.
        destruct (drrun true (drinit nodes link) ls) as [d0 c0] eqn:R0. cbn [fst snd] in *.
        destruct (drstep true d0 lb) as [d1 e1]. cbn [fst snd] in *. injection R as _ R.
        rewrite app_nil_r in R. destruct O as [-> |(e' & ->)].
        * rewrite app_nil_r in R. eapply IH. now rewrite R.
        * rewrite app_assoc in R. apply app_inj_tail in R. destruct R as [R _].
          eapply IH. now rewrite R. }
  eapply K. exact R.
Qed.
Print Assumptions C87_run.

(** [exec] wakes up the thread after the future has been added and never before; other ways of
    adding do not wake it up. *)
Theorem C87_wakeups : forall nodes link l, NoDup nodes -> ~ In 0 nodes ->
  forall t, wakes t WIdle (xlog (xrun nodes link l)) <> None.
Proof. intros nodes link l Hnd H0. now apply log_ok. Qed.
Print Assumptions C87_wakeups.

Lemma adding_stays t x w b : forall s, wakes t (WAdding x w) b = Some s -> ~ In (XD (EAdd x)) b ->
  s = WAdding x w.
Proof.
  induction b as [|e b IH]; intros s H Hn; [now injection H|]. cbn [wakes] in H.
  destruct (wake1 t (WAdding x w) e) as [s1|] eqn:E; [|easy].
  assert (s1 = WAdding x w).
  { destruct e as [[z| |z c|z|]|u z w'|u z| | | | | |]; cbn in E; try (now injection E).
    - destruct (N.eqb_spec z x); [|now injection E]. subst. exfalso. apply Hn. now left.
    - destruct (Nat.eqb u t); [easy|now injection E].
    - destruct (Nat.eqb u t); [easy|now injection E]. }
  subst s1. apply IH; [easy|]. intros K. apply Hn. now right.
Qed.

Lemma content_keeps x l : forall c, ~ In (EOut x) l -> In x c \/ In (EAdd x) l -> In x (fold_left content1 l c).
Proof.
  induction l as [|e l IH]; intros c Hn H; simpl.
  - destruct H; easy.
  - apply IH; [intros K; apply Hn; now right|]. destruct H as [H|[->|H]]; auto; [|left; now left].
    left. destruct e; simpl; auto. apply filter_In. split; [easy|].
    destruct (N.eqb_spec x x0); [|easy]. subst. exfalso. apply Hn. now left.
Qed.

Lemma chain_of_In e l : In e (chain_of l) <-> In (XD e) l.
Proof.
  induction l as [|[] l IH]; simpl; try (rewrite IH; split; [auto|intros [H|H]; [discriminate|auto]]); [easy|].
  rewrite IH. split; (intros [H|H]; [left; congruence|auto]).
Qed.

(** So a future passed to [exec] is polled in every complete run of the thread that starts
    after the wake-up, for as long as it has not completed. *)
Theorem C87_exec_polled : forall nodes link l, NoDup nodes -> ~ In 0 nodes ->
  forall a t x w b c m z,
  xlog (xrun nodes link l) = a ++ XMake t x w :: b ++ XWake t x :: c ++ XD EStart :: m ++ XD EEnd :: z ->
  inner (chain_of m) -> ~ In (XD (EOut x)) (b ++ c) -> In x (polled m).
Proof.
  intros nodes link l Hnd H0 a t x w b c m z E Hi Hn.
  destruct (log_ok nodes link l Hnd H0) as (_ & _ & Wk & _). specialize (Wk t). rewrite E in Wk.
  assert (Hadd : In (XD (EAdd x)) b).
  { destruct (in_dec N.eq_dec x (adds (chain_of b))) as [I|I].
    - apply chain_of_In. clear -I. induction (chain_of b) as [|[] r IH]; simpl in *; auto.
      destruct I; [left; congruence|auto].
    - exfalso. rewrite wakes_app in Wk. destruct (wakes t WIdle a) as [s|]; [|easy].
      cbn [wakes wake1] in Wk. rewrite Nat.eqb_refl in Wk. destruct s; try easy.
      rewrite wakes_app in Wk. destruct (wakes t (WAdding x w) b) as [s|] eqn:Eb; [|easy].
      apply adding_stays in Eb.
      + subst s. cbn [wakes wake1] in Wk. now rewrite Nat.eqb_refl in Wk.
      + rewrite <- chain_of_In. intros K. apply I. clear -K.
        induction (chain_of b) as [|[] r IH]; simpl in *; auto; destruct K as [K|K]; try discriminate; auto.
        injection K as ->. now left. }
  assert (E' : xlog (xrun nodes link l) =
    (a ++ XMake t x w :: b ++ XWake t x :: c) ++ XD EStart :: m ++ XD EEnd :: z).
  { rewrite E. rewrite <- app_assoc. cbn. now rewrite <- app_assoc. }
  destruct (C87_run nodes link l Hnd H0 _ _ _ E' Hi) as (P & _). rewrite P.
  rewrite chain_of_app. cbn [chain_of]. rewrite chain_of_app. cbn [chain_of].
  unfold content. rewrite fold_left_app. apply content_keeps.
  - rewrite in_app_iff, !chain_of_In. rewrite in_app_iff in Hn. exact Hn.
  - right. rewrite in_app_iff. left. now apply chain_of_In.
Qed.
Print Assumptions C87_exec_polled.

(** The only panic is that of a root future that completes with an error, and it happens then
    and there; "fiber resumed after completion" cannot happen. *)
Theorem C87_panics : forall nodes link l, NoDup nodes -> ~ In 0 nodes ->
  let lg := xlog (xrun nodes link l) in
  ~ In XDead lg /\
  (forall a x b, lg = a ++ XReady x false :: b -> exists e, b = [XErr e]) /\
  (forall a e b, lg = a ++ XErr e :: b -> b = [] /\ exists a' x, a = a' ++ [XReady x false]).
Proof.
  intros nodes link l Hnd H0. cbn zeta. destruct (log_ok nodes link l Hnd H0) as (_ & _ & _ & _ & F).
  destruct F as [(F & _)|(a0 & x0 & e0 & E & F & _)].
  - rewrite Forall_forall in F. split; [intros K; now apply F in K|]. split; intros a y b E;
      exfalso; apply (F _ ltac:(rewrite E; apply in_elt)).
  - rewrite E. rewrite Forall_forall in F. split; [|split].
    + rewrite in_app_iff. simpl. intros [K|[K|[K|[]]]]; try discriminate. now apply F in K.
    + intros a x b K. destruct b as [|e b _] using rev_ind.
      { change [XReady x0 false; XErr e0] with ([XReady x0 false] ++ [XErr e0]) in K.
        rewrite app_assoc in K. apply app_inj_tail in K. destruct K as [_ K]. discriminate. }
      destruct b as [|e1 b _] using rev_ind.
      * change [XReady x0 false; XErr e0] with ([XReady x0 false] ++ [XErr e0]) in K.
        replace (a ++ XReady x false :: [] ++ [e]) with ((a ++ [XReady x false]) ++ [e]) in K
          by (rewrite <- app_assoc; easy).
        rewrite app_assoc in K. apply app_inj_tail in K. destruct K as [_ <-]. exists e0. easy.
      * exfalso. change [XReady x0 false; XErr e0] with ([XReady x0 false] ++ [XErr e0]) in K.
        replace (a ++ XReady x false :: (b ++ [e1]) ++ [e]) with (((a ++ XReady x false :: b) ++ [e1]) ++ [e]) in K
          by (rewrite <- !app_assoc; easy).
        rewrite app_assoc in K. apply app_inj_tail in K. destruct K as [K _].
        apply app_inj_tail in K. destruct K as [-> _]. apply (F _ (in_elt _ _ _)).
    + intros a e b K. destruct b as [|e' b _] using rev_ind.
      * split; [easy|]. change [XReady x0 false; XErr e0] with ([XReady x0 false] ++ [XErr e0]) in K.
        rewrite app_assoc in K. apply app_inj_tail in K. destruct K as [<- _]. eauto.
      * exfalso. change [XReady x0 false; XErr e0] with ([XReady x0 false] ++ [XErr e0]) in K.
        replace (a ++ XErr e :: b ++ [e']) with ((a ++ XErr e :: b) ++ [e']) in K
          by (rewrite <- app_assoc; easy).
        rewrite app_assoc in K. apply app_inj_tail in K. destruct K as [K _].
        destruct b as [|e1 b _] using rev_ind.
        -- apply app_inj_tail in K. destruct K as [_ K]. discriminate.
        -- replace (a ++ XErr e :: b ++ [e1]) with ((a ++ XErr e :: b) ++ [e1]) in K
             by (rewrite <- app_assoc; easy).
           apply app_inj_tail in K. destruct K as [-> _]. apply (F _ (in_elt _ _ _)).
Qed.
Print Assumptions C87_panics.

(** Two contexts add a future with [exec] and a closure with [add_once]; the first run calls
    the closure, which completes, and then the future, which is pending; meanwhile another
    future is added.  The second run polls the new future and then the old one, which fails. *)
Definition push1 (t : nat) : list xact :=
  [XSys (AStep t false); XSys (AStep t false); XSys (AStep t false); XSys (ARet t)].
Definition ex_acts : list xact :=
  [XAdd 1 5 KExec false true] ++ push1 1 ++ [XAdd 2 7 KOnce true false; XWakeup 1;
   XSys DStart; XSys (DStep false); XBegin; XEnd Again;
   XSys (DStep false); XSys (DStep false); XSys (DStep false); XSys (DStep false); XBegin;
   XAdd 1 9 KExec false true] ++ push1 1 ++ [XEnd Again; XWakeup 1; XSys (DStep false);
   XSys DStart; XSys (DStep false); XBegin; XEnd Again; XSys (DStep false); XBegin; XEnd (Finish (Some 3));
   XBegin].
Example ex_log : xlog (xrun [5; 7; 9] (fun _ => 0) ex_acts) =
  [XMake 1 5 true; XD (EAdd 5); XMake 2 7 false; XD (EAdd 7); XWake 1 5;
   XD EStart; XPoll 7; XReady 7 true; XDrop 7; XD (EVisit 7 true); XD (EOut 7);
   XPoll 5; XMake 1 9 true; XD (EAdd 9); XPend 5; XD (EVisit 5 false); XWake 1 9; XD EEnd;
   XD EStart; XPoll 9; XPend 9; XD (EVisit 9 false); XPoll 5; XReady 5 false; XErr 3].
Proof. vm_compute. reflexivity. Qed.
Example ex_hyps : NoDup [5; 7; 9] /\ ~ In 0 [5; 7; 9].
Proof. split; [repeat constructor; simpl; intuition discriminate|simpl; intuition discriminate]. Qed.

(** The automata of the specification reject what must not happen. *)
Example reject_poll_after_ready :
  lives 5 LNone [XMake 1 5 false; XD (EAdd 5); XPoll 5; XReady 5 true; XDrop 5; XPoll 5] = None.
Proof. reflexivity. Qed.
Example reject_no_drop :
  lives 5 LNone [XMake 1 5 false; XD (EAdd 5); XPoll 5; XReady 5 true; XD (EVisit 5 true)] = None.
Proof. reflexivity. Qed.
Example reject_early_wake : wakes 1 WIdle [XMake 1 5 true; XWake 1 5; XD (EAdd 5)] = None.
Proof. reflexivity. Qed.
Example reject_no_wake : wakes 1 WIdle [XMake 1 5 true; XD (EAdd 5); XMake 1 6 false] = None.
Proof. reflexivity. Qed.
Example reject_nested_poll : calls None [XPoll 5; XPoll 6] = None.
Proof. reflexivity. Qed.
