(** Wakeups of the mutex: as long as no release begins while a notified future has not
    been polled yet, and no future fails to lock during a release (see [o_stale],
    [o_fail]), no wakeup is lost. *)
Require Import NArith List Bool Arith Lia.
From Verif Require Import AtomicSpec AtomicsProofs Treiber TreiberProofs DrainSpec Drain DrainProofs
  MutexSpec Mutex MutexProofs MutexList MutexSafe.
Import ListNotations.
Open Scope N_scope.

Definition fut (s : mst) (f : nat) : futobs := future f (log s).

(** The context will try to take the lock for [f], or is destroying it. *)
Definition hot (p : pos) : option nat :=
  match p with CPoll1 f _ | CPush f _ _ | CPoll2 f _ | CDrop f => Some f | _ => None end.
(** The context does not return Pending without having pushed a new node for [f]. *)
Definition cold (p : pos) : option nat :=
  match p with CPoll1 f _ | CCheck f _ | CAlloc f _ | CDrop f => Some f | _ => None end.

(** Future [f] relies on being notified at the next release. *)
Definition hard (s : mst) (f : nat) (x : N) : Prop :=
  (exists b g, fu s f = FLive b (Some (x, g))) /\ tk s x = false /\ forall t, hot (ctx s t) <> Some f.
(** Somebody will try to take the lock. *)
Definition tries (s : mst) (t : nat) : Prop :=
  match ctx s t with
  | CPoll1 _ _ | CAlloc _ _ | CPush _ _ _ | CPoll2 _ _ | CDropTry _ => True
  | CCheck f _ => waiter s f = None
  | _ => False
  end.
Definition told_ (s : mst) (f : nat) : Prop := exists b x g, fu s f = FLive b (Some (x, g)) /\ tk s x = true.
Definition resp (s : mst) : Prop := (exists f, told_ s f) \/ exists t, tries s t.
(** [f] has been woken, or a release is about to do it. *)
Definition inflight (s : mst) (f : nat) (x : N) (p : pos) : Prop :=
  match p with
  | CRel _ (URead c _) => c = x
  | CRel _ (UStore (Some w)) | CRel _ (UWake w) => In w (u_ws (fut s f))
  | _ => False
  end.
Definition flight (s : mst) (f : nat) (x : N) : Prop :=
  u_woken (fut s f) = true \/ exists t, inflight s f x (ctx s t).

Definition cfut (s : mst) (q : dspec) (f : nat) : Prop :=
  (u_wait (fut s f) = true <-> exists p, fu s f = FLive false (Some p)) /\
  forall b x g, fu s f = FLive b (Some (x, g)) ->
    (tk s x = true -> (forall t, cold (ctx s t) <> Some f) -> flight s f x) /\
    (forall w, wk s x = Some w -> In w (u_ws (fut s f))) /\
    (tk s x = false -> (forall t w, ctx s t <> CPush f w x) -> In x (dcontents q)).

Definition cnode (s : mst) (x : N) : Prop :=
  (exists b, fu s (ow s x) = FLive b (Some (x, gen s x))) \/ exists t w, ctx s t = CTake (ow s x) w x (gen s x).

Definition cpos (s : mst) (q : dspec) (p : pos) : Prop :=
  match p with
  | CPoll1 f w | CCheck f w => In w (u_ws (fut s f))
  | CAlloc f w => In w (u_ws (fut s f)) /\ forall x g, waiter s f = Some (x, g) -> tk s x = true
  | CRel _ (UIter c) => exists a b, dcontents q = a ++ b /\ c = head0 b /\ forall f x, hard s f x -> In x b
  | CRel _ (USwap c n) =>
      exists a b, dcontents q = a ++ c :: b /\ n = head0 b /\ forall f x, hard s f x -> In x (c :: b)
  | CRel _ (UStore None) => forall f x, ~ hard s f x
  | CRel _ (URead _ _) | CRel _ (UStore (Some _)) => resp s
  | _ => True
  end.

Record cinv (s : mst) (q : dspec) : Prop := {
  c_f : forall f, cfut s q f;
  c_n : forall x, In x (dcontents q) -> tk s x = false -> cnode s x;
  c_p : forall t, cpos s q (ctx s t);
  c_j : lk s = false -> forall f x, hard s f x -> resp s
}.

Lemma hot_pf p f : hot p = Some f -> pf p = Some f.
Proof. destruct p; simpl; try easy. Qed.
Lemma cold_pf p f : cold p = Some f -> pf p = Some f.
Proof. destruct p; simpl; try easy. Qed.

(** The observations about [f] grow. *)
Definition uge (u u' : futobs) : Prop :=
  u_wait u' = u_wait u /\ (forall w, In w (u_ws u) -> In w (u_ws u')) /\ (u_woken u = true -> u_woken u' = true).
Lemma uge_refl u : uge u u. Proof. repeat split; auto. Qed.

Lemma cinv_frame atomics s s' q q' t m : excl s -> linv atomics s q -> binv s q -> cinv s q -> lrel s s' q q' ->
  (forall t', t' <> t -> ctx s' t' = ctx s t') ->
  (forall f, m <> Some f -> fu s' f = fu s f) ->
  (pf (ctx s t) = None \/ pf (ctx s t) = m) -> (pf (ctx s' t) = None \/ pf (ctx s' t) = m) ->
  (forall t' f, t' <> t -> m = Some f -> pf (ctx s t') <> Some f) ->
  (forall f b x g, m <> Some f -> fu s f = FLive b (Some (x, g)) ->
     (tk s x = true -> tk s' x = true) /\ (tk s' x = true -> tk s x = true \/ flight s' f x) /\
     (forall w, wk s' x = Some w -> wk s x = Some w)) ->
  (forall f, m <> Some f -> uge (fut s f) (fut s' f)) ->
  (forall f b x g, m <> Some f -> fu s f = FLive b (Some (x, g)) -> inflight s f x (ctx s t) -> flight s' f x) ->
  (forall x, In x (dcontents q) -> gen s' x = gen s x /\ ow s' x = ow s x /\ (tk s' x = false -> tk s x = false)) ->
  (forall f, m = Some f -> cfut s' q' f) ->
  (forall x, In x (dcontents q) -> tk s' x = false -> m = Some (ow s x) -> cnode s x -> cnode s' x) ->
  (forall x, In x (dcontents q') -> ~ In x (dcontents q) -> tk s' x = false -> cnode s' x) ->
  cpos s' q' (ctx s' t) ->
  ((forall f x, m = Some f -> hard s' f x -> hard s f x) /\
   (forall f, m = Some f -> told_ s f -> resp s') /\ (tries s t -> resp s') /\
   (lk s' = false -> lk s = false \/ (forall f x, ~ hard s f x) \/ resp s)
   \/ lk s' = true /\ forall t' o u, t' <> t -> ctx s t' = CRel o u -> holds (CRel o u) = false) ->
  cinv s' q'.
Proof.
  intros X L B [CF CN CP CJ] (R1 & R2 & R3 & R4) HC HF Hp Hp' HM HK HU HL HX HFm HNm HNn HPt HA.
  assert (Hpf : forall f, m <> Some f -> pf (ctx s t) <> Some f /\ pf (ctx s' t) <> Some f).
  { intros f Hf. split; [destruct Hp as [->| ->]|destruct Hp' as [->| ->]]; congruence. }
  assert (Hflight : forall f b x g, m <> Some f -> fu s f = FLive b (Some (x, g)) -> flight s f x -> flight s' f x).
  { intros f b x g Hf E [W|(t' & I')].
    - left. now apply HU.
    - destruct (Nat.eq_dec t' t) as [->|Hn]; [now apply (HL f b x g)|]. right. exists t'. rewrite HC by auto.
      destruct (HU f Hf) as (_ & U & _). unfold inflight in *. destruct (ctx s t'); auto. destruct u; auto. destruct w; auto. }
  assert (Hhard : forall f x, m <> Some f -> hard s' f x -> hard s f x).
  { intros f x Hf ((b & g & E) & T & H). rewrite HF in E by auto. split; [eauto|]. split.
    - destruct (tk s x) eqn:T'; auto. destruct (HK f b x g Hf E) as (K & _). rewrite (K T') in T. easy.
    - intros t' K. apply (H t'). destruct (Nat.eq_dec t' t) as [->|Hn]; [|now rewrite HC].
      apply hot_pf in K. now destruct (Hpf f Hf). }
  assert (Htold : forall f, m <> Some f -> told_ s f -> resp s').
  { intros f Hf (b & x & g & E & T). left. exists f, b, x, g. rewrite HF by auto. split; auto. now apply (HK f b x g). }
  assert (Htries : forall t', t' <> t -> tries s t' -> resp s').
  { intros t' Hn K. right. exists t'. unfold tries in *. rewrite HC by auto.
    destruct (ctx s t') as [| |f w|f w| | | | | | | | | |] eqn:E; auto. unfold waiter in *. rewrite HF; auto. intros Em. apply (HM t' f Hn Em). now rewrite E. }
  constructor.
  - intros f. destruct m as [f0|] eqn:Em; [destruct (Nat.eq_dec f0 f) as [->|Hne]; [now apply HFm|]|];
      (match goal with |- cfut _ _ f => idtac end;
       assert (Hf : m <> Some f) by congruence; rewrite Em in Hf;
       destruct (CF f) as (F1 & F2); destruct (HU f Hf) as (U1 & U2 & U3); unfold cfut; rewrite U1, HF by auto;
       split; [exact F1|]; intros b x g E; destruct (F2 _ _ _ E) as (F3 & F4 & F5);
       destruct (HK f b x g Hf E) as (K1 & K2 & K3); destruct (Hpf f Hf) as (N1 & N2); split; [|split];
       [ intros T Hcold; destruct (K2 T) as [T'|?]; [|assumption]; apply (Hflight f b x g); auto; apply F3; auto;
         intros t' Ht'; apply (Hcold t'); (destruct (Nat.eq_dec t' t) as [->|Hn]; [now apply cold_pf in Ht'|now rewrite HC])
       | intros w W; apply U2; eauto
       | intros T Hpush; assert (T' : tk s x = false) by (destruct (tk s x); auto; now rewrite K1 in T);
         destruct (R1 x) as [?|?]; auto; [apply F5; auto|congruence];
         intros t' w Ht'; apply (Hpush t' w); (destruct (Nat.eq_dec t' t) as [->|Hn]; [rewrite Ht' in N1; now destruct N1|now rewrite HC]) ]).
  - intros x Hx T. destruct (in_dec N.eq_dec x (dcontents q)) as [Hq|Hq]; [|now apply HNn].
    destruct (HX x Hq) as (X1 & X2 & X3). specialize (CN x Hq (X3 T)).
    assert (D : m = Some (ow s x) \/ m <> Some (ow s x)).
    { destruct m as [k|]; [|right; congruence]. destruct (Nat.eq_dec k (ow s x)); [left|right]; congruence. }
    destruct D as [D|D]; [now apply HNm|]. unfold cnode in *. rewrite X1, X2. destruct CN as [(b & E)|(t' & w & E)].
    + left. exists b. now rewrite HF.
    + right. exists t', w. destruct (Nat.eq_dec t' t) as [->|Hn]; [|now rewrite HC]. rewrite E in Hpf. now destruct (Hpf _ D).
  - intros t'. destruct (Nat.eq_dec t' t) as [->|Hn]; auto. rewrite HC by auto. specialize (CP t').
    assert (Hf : forall f, pf (ctx s t') = Some f -> m <> Some f) by (intros f E Em; now apply (HM t' f)).
    assert (HA' : holds (ctx s t') = true -> (forall o, ctx s t' = o -> True) ->
              match ctx s t' with CRel _ _ => (forall f x, hard s' f x -> hard s f x) /\ (resp s -> resp s') | _ => True end).
    { intros H _. destruct (ctx s t') eqn:E; auto. destruct HA as [(A1 & A2 & A3 & A4)|(_ & A)];
        [|rewrite (A t' _ _ Hn E) in H; easy]. split.
      - intros f x Hh. destruct m as [k|]; [|now apply Hhard]. destruct (Nat.eq_dec k f) as [->|]; [now apply A1|]. apply Hhard; congruence.
      - intros [(f & K)|(t2 & K)].
        + destruct m as [k|]; [|apply (Htold f); auto; congruence]. destruct (Nat.eq_dec k f) as [->|]; [now apply (A2 f)|]. apply (Htold f); auto; congruence.
        + destruct (Nat.eq_dec t2 t) as [->|]; auto. now apply (Htries t2). }
    assert (Hu : forall f w, pf (ctx s t') = Some f -> In w (u_ws (fut s f)) -> In w (u_ws (fut s' f))).
    { intros f w E. now apply HU, Hf. }
    unfold cpos in *. destruct (ctx s t') as [| |f w|f w|f w| | | | | | | |o u|] eqn:E; auto.
    + destruct CP as (C1 & C2). split; auto. unfold waiter in *. specialize (Hf f eq_refl). rewrite HF by auto.
      destruct (fu s f) as [b v|] eqn:F; [|easy]. intros x g ->. apply (HK f b x g); eauto.
    + destruct u as [| |x|x| |c|c n|c n|[w|]|w]; auto; destruct (HA' eq_refl (fun _ _ => I)) as (A1 & A2); auto.
      * destruct CP as (a & b & C1 & C2 & C3). destruct R4 as (a' & R4'); [apply (quiet _ s q t' X L); now rewrite E|].
        exists (a' ++ a), b. rewrite R4', C1, app_assoc. repeat split; auto. intros f x K. eapply C3; eauto.
      * destruct CP as (a & b & C1 & C2 & C3). destruct R4 as (a' & R4'); [apply (quiet _ s q t' X L); now rewrite E|].
        exists (a' ++ a), b. rewrite R4', C1, app_assoc. repeat split; auto. intros f x K. eapply C3; eauto.
      * intros f x K. eapply CP; eauto.
  - intros K f x H. destruct HA as [(A1 & A2 & A3 & A4)|(A & _)]; [|congruence].
    assert (Hresp : resp s -> resp s').
    { intros [(f' & K')|(t2 & K')].
      - destruct m as [k|]; [|apply (Htold f'); auto; congruence]. destruct (Nat.eq_dec k f') as [->|]; [now apply (A2 f')|]. apply (Htold f'); auto; congruence.
      - destruct (Nat.eq_dec t2 t) as [->|]; auto. now apply (Htries t2). }
    assert (H' : hard s f x).
    { destruct m as [k|]; [|now apply Hhard]. destruct (Nat.eq_dec k f) as [->|]; [now apply A1|]. apply Hhard; auto; congruence. }
    destruct (A4 K) as [A|[A|A]]; auto; [|now destruct (A f x)]. apply Hresp. eauto.
Qed.

Lemma future_app f l e : future f (l ++ [e]) = MutexSpec.ustep f (future f l) e.
Proof. unfold future. now rewrite fold_left_app. Qed.

Definition waking (p : pos) : bool :=
  match p with CRel _ (URead _ _) | CRel _ (UStore (Some _)) | CRel _ (UWake _) => true | _ => false end.
Lemma waking_no s f x p : waking p = false -> ~ inflight s f x p.
Proof. destruct p as [| | | | | | | | | | | |o [| | | | | | | |[]|]|]; easy. Qed.

(** A step that does not change the nodes. *)
Lemma cinv_quiet atomics s s' q q' t m : excl s -> linv atomics s q -> binv s q -> cinv s q -> lrel s s' q q' ->
  (m = None \/ pf (ctx s t) = m \/ exists f p, m = Some f /\ fu s f = FLive false p) ->
  (forall t', t' <> t -> ctx s' t' = ctx s t') ->
  (forall f, m <> Some f -> fu s' f = fu s f) ->
  (pf (ctx s t) = None \/ pf (ctx s t) = m) -> (pf (ctx s' t) = None \/ pf (ctx s' t) = m) ->
  gen s' = gen s -> ow s' = ow s -> tk s' = tk s -> wk s' = wk s ->
  (forall f, m <> Some f -> uge (fut s f) (fut s' f)) ->
  waking (ctx s t) = false ->
  (forall f, m = Some f -> cfut s' q' f) ->
  (forall x, In x (dcontents q) -> tk s x = false -> m = Some (ow s x) -> cnode s x -> cnode s' x) ->
  (forall f w x, ctx s t = CPush f w x -> fu s' = fu s) ->
  cpos s' q' (ctx s' t) ->
  ((forall f x, m = Some f -> hard s' f x -> hard s f x) /\
   (forall f, m = Some f -> told_ s f -> resp s') /\ (tries s t -> resp s') /\
   (lk s' = false -> lk s = false \/ (forall f x, ~ hard s f x) \/ resp s)
   \/ lk s' = true /\ forall t' o u, t' <> t -> ctx s t' = CRel o u -> holds (CRel o u) = false) ->
  cinv s' q'.
Proof.
  intros X L B Ci R Hm HC HF Hp Hp' H1 H2 H3 H4 HU HW HFm HNm HPu HPt HA.
  apply (cinv_frame atomics s s' q q' t m); auto.
  - now apply (others s q).
  - intros f b x g _ _. rewrite H3, H4. auto.
  - intros f b x g _ _ H. now apply waking_no in H.
  - intros x Hx. rewrite H1, H2, H3. auto.
  - intros x Hx. rewrite H3. apply HNm. auto.
  - intros x Hx Hn T. destruct R as (_ & _ & R & _). destruct (R x Hx) as [?|(t' & f & w & E1 & E2)]; [easy|].
    destruct (Nat.eq_dec t' t) as [->|Hne]; [|rewrite HC in E2 by auto; congruence].
    pose proof (b_p _ _ B t) as P. rewrite E1 in P. destruct P as (P & _).
    destruct (b_w _ _ B _ _ _ _ P) as ((_ & _ & _ & G) & _). left. exists true.
    rewrite H1, H2, G, (HPu _ _ _ E1). exact P.
Qed.

(** The same future, unchanged by [t]. *)
Lemma flight_other s s' t f x : (forall t', t' <> t -> ctx s' t' = ctx s t') -> waking (ctx s t) = false ->
  (forall w, In w (u_ws (fut s f)) -> In w (u_ws (fut s' f))) ->
  (u_woken (fut s f) = true -> u_woken (fut s' f) = true) -> flight s f x -> flight s' f x.
Proof.
  intros HC HW U2 U3 [W|(t' & H)]; [left; auto|]. right. exists t'.
  destruct (Nat.eq_dec t' t) as [->|Hn]; [now apply waking_no in H|]. rewrite HC by auto.
  unfold inflight in *. destruct (ctx s t'); auto. destruct u; auto. destruct w; auto.
Qed.

Lemma cfut_same atomics s s' q q' t f : linv atomics s q -> binv s q -> cinv s q -> lrel s s' q q' -> pf (ctx s t) = Some f ->
  (forall t', t' <> t -> ctx s' t' = ctx s t') -> fu s' f = fu s f ->
  tk s' = tk s -> wk s' = wk s -> uge (fut s f) (fut s' f) ->
  (forall w x, ctx s t <> CPush f w x) ->
  waking (ctx s t) = false ->
  (cold (ctx s' t) = Some f \/ cold (ctx s t) = None \/
   forall b x g, fu s f = FLive b (Some (x, g)) -> tk s x = false) ->
  cfut s' q' f.
Proof.
  intros L B Ci R Hp HC HF H3 H4 HU Hpu HW Hcold. destruct (c_f _ _ Ci f) as (F1 & F2). pose proof HU as (U1 & U2 & U3).
  unfold cfut. rewrite U1, HF. split; [exact F1|]. intros b x g E. destruct (F2 _ _ _ E) as (F3 & F4 & F5). rewrite H3, H4.
  split; [|split; [intros w W; eauto|]].
  - intros T K. apply (flight_other s s' t); auto. destruct Hcold as [Hc|[Hc|Hc]].
    + now apply K in Hc.
    + apply F3; auto. intros t' Ht. destruct (Nat.eq_dec t' t) as [->|Hn]; [congruence|]. apply (K t'). now rewrite HC.
    + rewrite (Hc _ _ _ E) in T. easy.
  - intros T K. destruct R as (R1 & _). destruct (R1 x) as [?|?]; auto; [|congruence]. apply F5; auto.
    intros t' w Ht. destruct (Nat.eq_dec t' t) as [->|Hn]; [now apply Hpu in Ht|]. apply (K t' w). now rewrite HC.
Qed.

Lemma fail_mono o e : o_fail (ostep o e) = false -> o_fail o = false.
Proof.
  destruct e as [op|op r|v|v|w|w|f|f| |f]; simpl; auto; try (destruct op); simpl; auto; intros H;
  repeat (apply orb_false_elim in H as (H & ?)); auto.
Qed.

Section Step.
Variable atomics : bool.

(** No release is in progress when an attempt to lock fails. *)
Lemma fail_free s q f : binv s q -> o_fail (order (log s ++ [EFail f])) = false ->
  forall t o u, ctx s t = CRel o u -> holds (CRel o u) = false.
Proof.
  intros B. rewrite order_app. simpl. intros H t o u E. destruct (holds (CRel o u)) eqn:Hh; auto. exfalso.
  pose proof (b_p _ _ B t) as P. rewrite E in P. destruct P as (_ & _ & P & _). rewrite (P Hh), orb_true_r in H. easy.
Qed.

Lemma cinv_same s q q' : excl s -> linv atomics s q -> cinv s q -> lrel s s q q' -> cinv s q'.
Proof.
  intros X L [CF CN CP CJ] (R1 & R2 & R3 & R4).
  assert (Hsub : forall x, In x (dcontents q') -> In x (dcontents q)).
  { intros x Hx. destruct (R3 x Hx) as [?|(t & f & w & E1 & E2)]; auto. congruence. }
  constructor; auto.
  - intros f. destruct (CF f) as (F1 & F2). split; auto. intros b x g E. destruct (F2 _ _ _ E) as (F3 & F4 & F5).
    split; [auto|split; auto]. intros T K. destruct (R1 x) as [?|?]; auto. congruence.
  - intros t. specialize (CP t). unfold cpos in *. destruct (ctx s t) as [| | | | | | | | | | | |o u|] eqn:E; auto.
    destruct u; auto; (destruct R4 as (a' & R4'); [apply (quiet _ s q t X L); now rewrite E|]);
      destruct CP as (a & b & C1 & C2 & C3); exists (a' ++ a), b; rewrite R4', C1, app_assoc; auto.
Qed.

Ltac oth := intros t' Hne; simpl; now rewrite upd_other by exact Hne.
Ltac fin := unfold fut; simpl; rewrite ?future_app; simpl.
Ltac ne f f' := destruct (Nat.eqb_spec f f') as [->|]; [congruence|].
Ltac ug :=
  intros ?f ?Hf; fin; try apply uge_refl;
  match goal with
  | |- context [Nat.eqb ?a ?b] => destruct (Nat.eqb_spec a b) as [->|]; [congruence|apply uge_refl]
  end.

Lemma call_c s q q' t o : excl s -> linv atomics s q -> binv s q -> cinv s q ->
  lrel s (mcall s t o) q q' -> cinv (mcall s t o) q'.
Proof.
  intros X L B Ci R. pose proof (cinv_same s q q' X L Ci) as Hs. unfold mcall in *.
  destruct (ctx s t) eqn:C; auto.
  assert (Hbusy : forall f p, fu s f = FLive false p -> forall t', pf (ctx s t') <> Some f).
  { intros f p F t' E. destruct (busy _ _ _ _ B E). congruence. }
  destruct o as [|f w|f|].
  - apply (cinv_quiet atomics s _ q q' t None); auto; simpl; rewrite ?C, ?upd_same; simpl; auto; try easy.
    + oth.
    + ug.
    + left. split; [|split; [|split]]; try easy; auto. unfold tries. now rewrite C.
  - destruct (fu s f) as [[] p|] eqn:F; auto. pose proof (Hbusy _ _ F) as Hb.
    apply (cinv_quiet atomics s _ q q' t (Some f)); auto; simpl; rewrite ?C, ?upd_same; simpl; auto; try easy.
    + right. right. eauto.
    + oth.
    + intros f' Hf. rewrite upd_other; congruence.
    + ug.
    + intros f' E. injection E as <-. destruct (c_f _ _ Ci f) as (F1 & F2). unfold cfut. fin. rewrite Nat.eqb_refl, upd_same. simpl.
      split; [split; [easy|intros (? & ?); easy]|]. intros b x g E. injection E as <- ->. destruct (F2 _ _ _ F) as (F3 & F4 & F5).
      split; [|split; auto].
      * intros _ K. specialize (K t). rewrite upd_same in K. now destruct K.
      * intros T K. destruct R as (R1 & _). destruct (R1 x) as [?|?]; auto; [|congruence]. apply F5; auto.
        intros t' w' E. apply (Hb t'). now rewrite E.
    + intros x Hx T Hm [(b & K)|(t' & w' & K)].
      * left. simpl. injection Hm as ->. exists true. rewrite upd_same. congruence.
      * injection Hm as ->. destruct (Hb t'). now rewrite K.
    + fin. rewrite Nat.eqb_refl. simpl. auto.
    + left. split; [|split; [|split]]; auto.
      * intros f' x E ((b & g & Hh) & _ & K). injection E as <-. specialize (K t). simpl in K. rewrite upd_same in K. now destruct K.
      * intros f' _ _. right. exists t. unfold tries. simpl. now rewrite upd_same.
      * unfold tries. now rewrite C.
  - destruct (fu s f) as [[] p|] eqn:F; auto. pose proof (Hbusy _ _ F) as Hb.
    apply (cinv_quiet atomics s _ q q' t (Some f)); auto; simpl; rewrite ?C, ?upd_same; simpl; auto; try easy.
    + right. right. eauto.
    + oth.
    + intros f' Hf. rewrite upd_other; congruence.
    + ug.
    + intros f' E. injection E as <-. destruct (c_f _ _ Ci f) as (F1 & F2). unfold cfut. fin. rewrite Nat.eqb_refl, upd_same. simpl.
      split; [split; [easy|intros (? & ?); easy]|]. intros b x g E. injection E as <- ->. destruct (F2 _ _ _ F) as (F3 & F4 & F5).
      split; [|split; auto].
      * intros _ K. specialize (K t). rewrite upd_same in K. now destruct K.
      * intros T K. destruct R as (R1 & _). destruct (R1 x) as [?|?]; auto; [|congruence]. apply F5; auto.
        intros t' w' E. apply (Hb t'). now rewrite E.
    + intros x Hx T Hm [(b & K)|(t' & w' & K)].
      * left. simpl. injection Hm as ->. exists true. rewrite upd_same. congruence.
      * injection Hm as ->. destruct (Hb t'). now rewrite K.
    + left. split; [|split; [|split]]; auto.
      * intros f' x E ((b & g & Hh) & _ & K). injection E as <-. specialize (K t). simpl in K. rewrite upd_same in K. now destruct K.
      * intros f' E (b & x & g & Hh & T). injection E as <-. rewrite F in Hh. injection Hh as <- ->. left. exists f, true, x, g. simpl. now rewrite upd_same.
      * unfold tries. now rewrite C.
  - destruct (gd s) as [|n] eqn:G; auto.
    apply (cinv_quiet atomics s _ q q' t None); auto; simpl; rewrite ?C, ?upd_same; simpl; auto; try easy.
    + oth.
    + ug.
    + left. split; [|split; [|split]]; try easy; auto. unfold tries. now rewrite C.
Qed.

(** A future in use, without a waiter. *)
Lemma in_use s q f v : cinv s q -> fu s f = FLive true v -> u_wait (fut s f) = false.
Proof.
  intros Ci F. destruct (c_f _ _ Ci f) as (F1 & _). destruct (u_wait (fut s f)); auto.
  destruct F1 as ((p & E) & _); auto. congruence.
Qed.
Lemma bare s q f b : fu s f = FLive b None -> u_wait (fut s f) = false -> cfut s q f.
Proof. unfold cfut. intros -> ->. split; [|easy]. split; [easy|]. intros (? & ?); easy. Qed.

Lemma locked_c s q q' t f w : excl s -> linv atomics s q -> binv s q -> cinv s q -> lk s = false ->
  (exists v, fu s f = FLive true v) -> pf (ctx s t) = Some f ->
  (match ctx s t with CPoll1 _ _ | CPoll2 _ _ => True | _ => False end) ->
  lrel s (locked s t f w) q q' -> cinv (locked s t f w) q'.
Proof.
  intros X L B Ci K (v & F) Hp C R. pose proof (c_f _ _ Ci f) as (F1 & _).
  assert (Hw : u_wait (fut s f) = false).
  { destruct (u_wait (fut s f)); auto. destruct F1 as ((p & E) & _); auto. congruence. }
  assert (Hwk : waking (ctx s t) = false) by (destruct (ctx s t); easy).
  assert (Hno : forall s1, lk s1 = true -> lk s1 = true /\ forall t' o u, t' <> t -> ctx s t' = CRel o u -> holds (CRel o u) = false).
  { intros s1 H. split; auto. intros t' o u _ E. rewrite <- E. now apply no_holder. }
  unfold locked in *. rewrite F in *. destruct v as [[x g]|].
  - destruct (b_w _ _ B _ _ _ _ F) as (G & _).
    apply (cinv_quiet atomics s _ q q' t (Some f)); auto; simpl; rewrite ?upd_same; simpl; auto; try easy.
    + oth.
    + intros f' Hf. rewrite upd_other; congruence.
    + intros f' E. injection E as <-. unfold cfut. fin. rewrite upd_same. unfold fut in Hw. rewrite Hw. split; [|easy].
      split; [easy|]. intros (? & ?); easy.
    + intros y Hx T Hm [(b & E)|(t' & w' & E)]; injection Hm as Hm.
      * right. exists t, w. simpl. rewrite upd_same. rewrite <- Hm, F in E. injection E as <- <- ->. now rewrite <- Hm.
      * exfalso. assert (t' = t) as -> by (apply (b_u _ _ B t' t f); auto; now rewrite E, <- Hm). now rewrite E in C.
    + intros f' w' y E. now rewrite E in C.
  - apply (cinv_quiet atomics s _ q q' t (Some f)); auto; simpl; rewrite ?upd_same; simpl; auto; try easy.
    + oth.
    + intros f' E. injection E as <-. unfold cfut. fin. rewrite F. unfold fut in Hw. rewrite Hw. split; [|easy].
      split; [easy|]. intros (? & ?); easy.
    + intros y Hx T Hm [(b & E)|(t' & w' & E)]; injection Hm as Hm.
      * rewrite <- Hm, F in E. easy.
      * exfalso. assert (t' = t) as -> by (apply (b_u _ _ B t' t f); auto; now rewrite E, <- Hm). now rewrite E in C.
Qed.

(** A context that uses [f] is the only one. *)
Lemma mine_node s q t f x : binv s q -> pf (ctx s t) = Some f -> (forall w y g, ctx s t <> CTake f w y g) ->
  f = ow s x -> cnode s x -> exists b, fu s f = FLive b (Some (x, gen s x)).
Proof.
  intros B Hp Hc E [(b & K)|(t' & w & K)]; [exists b; congruence|]. exfalso.
  assert (t' = t) as -> by (apply (b_u _ _ B t' t f); auto; now rewrite K, E). apply (Hc w x (gen s x)). now rewrite K, E.
Qed.

Ltac more := try solve [oth]; try solve [intros; fin; apply uge_refl].
Ltac quietc s q q' t C m :=
  apply (cinv_quiet atomics s _ q q' t m); auto; simpl; rewrite ?C, ?upd_same; simpl; auto; try easy; more.
Ltac same s q q' t f C :=
  apply (cfut_same atomics s _ q q' t f); auto; simpl; rewrite ?C, ?upd_same; auto; try easy; more.

Lemma step_c s q q' t spur x : excl s -> linv atomics s q -> binv s q -> cinv s q ->
  (match ctx s t with CRel _ _ => False | _ => True end) ->
  o_fail (order (log (cstep atomics s t spur x))) = false ->
  lrel s (cstep atomics s t spur x) q q' -> cinv (cstep atomics s t spur x) q'.
Proof.
  intros X L B Ci Hrel S R. pose proof (cinv_same s q q' X L Ci) as Hs. unfold cstep in *.
  pose proof (b_p _ _ B t) as P. pose proof (c_p _ _ Ci t) as CP.
  assert (Hfail : forall f s1, lk s = true -> o_fail (order (log s ++ [EFail f])) = false -> lk s1 = lk s ->
            lk s1 = true /\ forall t' o u, t' <> t -> ctx s t' = CRel o u -> holds (CRel o u) = false).
  { intros f s1 K S' E. split; [congruence|]. intros t' o u _. now apply (fail_free s q f B). }
  assert (Hfree : forall s1, lk s = false -> lk s1 = true ->
            lk s1 = true /\ forall t' o u, t' <> t -> ctx s t' = CRel o u -> holds (CRel o u) = false).
  { intros s1 K H. split; auto. intros t' o u _ E. rewrite <- E. now apply no_holder. }
  assert (Hnode : forall f s1, pf (ctx s t) = Some f -> (forall w y g, ctx s t <> CTake f w y g) ->
            (forall b p, fu s f = FLive b (Some p) -> exists b', fu s1 f = FLive b' (Some p)) -> ow s1 = ow s -> gen s1 = gen s ->
            forall y, f = ow s y -> cnode s y -> cnode s1 y).
  { intros f s1 Hp Hc Hf Ho Hg y E K. destruct (mine_node s q t f y B Hp Hc E K) as (b & F). left.
    rewrite Ho, Hg, <- E. now apply (Hf b). }
  destruct (ctx s t) as [| |f w|f w|f w|f w y|f w|f w y g|f w y g|f|f y g|f|o u|o r] eqn:C; auto; simpl in P, CP; [..|easy|].
  - (* CTry *)
    destruct (lk s) eqn:K.
    + quietc s q q' t C (@None nat).
      * left. split; [|split; [|split]]; try easy; auto. unfold tries. now rewrite C.
    + quietc s q q' t C (@None nat).
  - (* CPoll1 *)
    destruct (lk s) eqn:K.
    + simpl in S. quietc s q q' t C (Some f).
      * intros f' E. injection E as <-. same s q q' t f C.
      * intros z _ _ E. injection E as E. apply (Hnode f); auto; try easy; simpl; eauto.
      * fin. auto.
      * right. now apply (Hfail f).
    + apply (locked_c s q); auto; try now rewrite C. apply P.
  - (* CCheck *)
    unfold waiter in *. destruct P as ((v & F) & _). rewrite F in *. destruct v as [[y g]|].
    + quietc s q q' t C (Some f).
      * destruct (tk s y); simpl; auto.
      * intros f' E. injection E as <-. same s q q' t f C.
        -- destruct (tk s y) eqn:T; [left; easy|]. right. right. intros b z k E. rewrite F in E. injection E as <- <- <-. exact T.
      * intros z _ _ E. injection E as E. apply (Hnode f); auto; try easy; simpl; eauto.
      * destruct (tk s y) eqn:T; simpl; auto. split; auto. unfold waiter. simpl. rewrite F. intros z k E. injection E as <- <-. exact T.
      * left. split; [|split; [|split]]; auto.
        -- intros f' z E ((b & k & H1) & H2 & H3). split; [eauto|]. split; auto. intros t' E'. apply (H3 t').
           simpl. destruct (Nat.eq_dec t' t) as [->|Hn]; [rewrite C in E'; easy|now rewrite upd_other].
        -- intros f' _ K. left. exists f'. exact K.
        -- unfold tries, waiter. rewrite C, F. easy.
    + quietc s q q' t C (Some f).
      * intros f' E. injection E as <-. apply (bare _ _ _ true); [exact F|]. fin. now apply (in_use s q f None).
      * intros z _ _ E. injection E as E. apply (Hnode f); auto; try easy; simpl; eauto.
      * split; auto. unfold waiter. simpl. now rewrite F.
      * left. split; [|split; [|split]]; auto.
        -- intros f' z E ((b & k & H1) & H2 & H3). injection E as <-. simpl in H1. congruence.
        -- intros f' E (b & z & k & H1 & _). injection E as <-. congruence.
        -- intros _. right. exists t. unfold tries. simpl. now rewrite upd_same.
  - (* CAlloc *)
    destruct (mem_N x _ && negb (x =? 0)) eqn:M; [|auto]. pose proof M as M'. apply andb_prop in M' as (Md & M0). apply mem_N_In in Md.
    destruct P as ((v & F) & _). destruct CP as (CP1 & CP2). pose proof (in_use _ _ _ _ Ci F) as Hw.
    set (s1 := goto (if atomics then _ else _) t _) in *.
    assert (E : ctx s1 = upd (ctx s) t (CPush f w x) /\ fu s1 = upd (fu s) f (FLive true (Some (x, gen s x))) /\
      gen s1 = gen s /\ ow s1 = setx (ow s) x f /\ tk s1 = setx (tk s) x false /\ wk s1 = setx (wk s) x (Some w) /\
      log s1 = log s /\ lk s1 = lk s).
    { subst s1. destruct atomics; repeat split. }
    destruct E as (E1 & E2 & E3 & E4 & E5 & E6 & E7 & E8). clearbody s1.
    assert (Hx : forall A (h : N -> A) v z, z <> x -> setx h x v z = h z).
    { intros A h v' z Hz. unfold setx. destruct (N.eqb_spec z x); congruence. }
    assert (Hxx : forall A (h : N -> A) v, setx h x v x = v).
    { intros A h v'. unfold setx. now rewrite N.eqb_refl. }
    assert (Hin : forall z, In z (dcontents q) -> z <> x).
    { intros z Hz ->. destruct (l_d _ _ _ L) as (l & LD). now apply (content_alive _ _ _ _ LD) in Hz. }
    assert (Hp : forall f' b z g, fu s f' = FLive b (Some (z, g)) -> z <> x).
    { intros f' b z g H ->. destruct (b_w _ _ B _ _ _ _ H) as ((_ & _ & K & _) & _). auto. }
    assert (Hf : forall f', fut s1 f' = fut s f') by (intros; unfold fut; now rewrite E7).
    assert (HC : forall t', t' <> t -> ctx s1 t' = ctx s t') by (intros; now rewrite E1, upd_other).
    apply (cinv_frame atomics s s1 q q' t (Some f)); auto; rewrite ?C, ?E1, ?upd_same; simpl; auto; try easy.
    + intros f' Hf'. rewrite E2, upd_other; congruence.
    + apply (others s q); auto. rewrite C. auto.
    + intros f' b z g Hm H. rewrite E5, E6, !Hx by eauto. auto.
    + intros. rewrite Hf. apply uge_refl.
    + intros z Hz. rewrite E3, E4, E5, !Hx by auto. auto.
    + intros f' H. injection H as <-. unfold cfut. rewrite Hf, E2, upd_same, Hw. split; [split; [easy|intros (? & ?); easy]|].
      intros b z g H. injection H as <- <- <-. rewrite E5, E6, !Hxx. split; [easy|]. split; [intros w' H; now injection H as <-|].
      intros _ K. destruct (K t w). now rewrite E1, upd_same.
    + intros z Hz T Hm K. injection Hm as Hm. exfalso.
      destruct (mine_node s q t f z B) as (b & K'); auto; rewrite ?C; try easy.
      rewrite E5, Hx in T by auto. rewrite (CP2 z (gen s z)) in T; [easy|]. unfold waiter. now rewrite K'.
    + intros z Hz Hn. destruct R as (_ & _ & R & _). destruct (R z Hz) as [?|(t' & f' & w' & K1 & K2)]; [easy|]. exfalso.
      destruct (Nat.eq_dec t' t) as [->|Hne]; [congruence|]. rewrite HC in K2 by auto. congruence.
    + left. split; [|split; [|split]].
      * intros f' z H (_ & _ & K). injection H as <-. specialize (K t). rewrite E1, upd_same in K. now destruct K.
      * intros _ _ _. right. exists t. unfold tries. now rewrite E1, upd_same.
      * intros _. right. exists t. unfold tries. now rewrite E1, upd_same.
      * rewrite E8. auto.
  - (* CPush *)
    destruct P as (P1 & P2 & P3). pose proof (in_use _ _ _ _ Ci P1) as Hw.
    assert (K : forall s1, ctx s1 t = CPush f w y \/ ctx s1 t = CPoll2 f w -> (forall t', t' <> t -> ctx s1 t' = ctx s t') ->
       fu s1 = fu s -> gen s1 = gen s -> ow s1 = ow s -> tk s1 = tk s -> wk s1 = wk s ->
       log s1 = log s -> lk s1 = lk s -> lrel s s1 q q' -> cinv s1 q').
    { intros s1 Hp K1 K2 K3 K5 K6 K7 K8 K9 R'.
      assert (Hf : forall f', fut s1 f' = fut s f') by (intros; unfold fut; now rewrite K8).
      apply (cinv_quiet atomics s s1 q q' t (Some f)); auto; rewrite ?C; auto.
      - intros. now rewrite K2.
      - destruct Hp as [->| ->]; auto.
      - intros. rewrite Hf. apply uge_refl.
      - intros f' H. injection H as <-. destruct (c_f _ _ Ci f) as (F1 & F2). unfold cfut. rewrite Hf, K2, K6, K7. split; [exact F1|].
        intros b z g H. destruct (F2 _ _ _ H) as (F3 & F4 & F5). rewrite P1 in H. injection H as <- <- <-. split; [|split; auto].
        + intros T H. apply (flight_other s s1 t); auto; [now rewrite C|intros w'; now rewrite Hf|now rewrite Hf|]. apply F3; auto.
          intros t' E. destruct (Nat.eq_dec t' t) as [->|Hn]; [rewrite C in E; easy|]. apply (H t'). now rewrite K1.
        + intros T H. destruct Hp as [Hp|Hp]; [now apply H in Hp|]. destruct R' as (_ & R' & _). now apply (R' t f w).
      - intros z _ _ E. injection E as E. apply (Hnode f); auto; try easy. rewrite K2. eauto.
      - destruct Hp as [->| ->]; exact I.
      - left. split; [|split; [|split]].
        + intros f' z H (_ & _ & H'). injection H as <-. destruct (H' t). destruct Hp as [->| ->]; auto.
        + intros _ _ _. right. exists t. unfold tries. destruct Hp as [->| ->]; auto.
        + intros _. right. exists t. unfold tries. destruct Hp as [->| ->]; auto.
        + rewrite K9. auto. }
    clear Hs. destruct atomics.
    + cbv zeta in *. destruct (dth (dr (list_step s (AStep t spur))) t) eqn:D;
        (apply K; auto; try (left; exact C)).
      * right. simpl. now rewrite upd_same.
      * oth.
    + apply K; auto; [simpl; rewrite ?upd_same; auto|oth].
  - (* CPoll2 *)
    destruct P as (y & g & F & P1 & P2). unfold waiter in *. rewrite F in *. destruct (lk s) eqn:K.
    + simpl in S. quietc s q q' t C (Some f).
      * intros f' E. injection E as <-. same s q q' t f C.
      * intros z _ _ E. injection E as E. apply (Hnode f); auto; try easy; simpl; eauto.
      * right. now apply (Hfail f).
    + apply (locked_c s q); auto; try now rewrite C. eauto.
  - (* CTake *)
    destruct P as (F & G & W). pose proof G as (G1 & G2 & G3 & G4). pose proof (in_use _ _ _ _ Ci F) as Hw.
    assert (Ht : forall z, z <> y -> setx (tk s) y true z = tk s z).
    { intros z Hz. unfold setx. destruct (N.eqb_spec z y); congruence. }
    assert (Hy : setx (tk s) y true y = true) by (unfold setx; now rewrite N.eqb_refl).
    apply (cinv_frame atomics s _ q q' t (Some f)); auto; simpl; rewrite ?C, ?upd_same; simpl; auto; try easy; more.
    + destruct (tk s y); auto.
    + apply (others s q); auto. rewrite C. auto.
    + intros f' b z k Hm H. rewrite Ht; auto. intros ->. destruct (b_w _ _ B _ _ _ _ H) as ((_ & _ & _ & K) & _). congruence.
    + intros z Hz. repeat split; auto. unfold setx. now destruct (z =? y).
    + intros f' E. injection E as <-. apply (bare _ _ _ true); [exact F|]. fin. now apply (in_use s q f None).
    + intros z Hz T Hm [(b & K)|(t' & w' & K)]; injection Hm as Hm; [congruence|]. exfalso.
      assert (t' = t) as -> by (apply (b_u _ _ B t' t f); [now rewrite K, <- Hm|now rewrite C]).
      rewrite C in K. injection K as _ _ -> _. congruence.
    + intros z Hz Hn. destruct R as (_ & _ & R & _). destruct (R z Hz) as [?|(t' & f' & w' & K1 & K2)]; [easy|]. exfalso.
      destruct (Nat.eq_dec t' t) as [->|Hne]; [congruence|]. simpl in K2. rewrite upd_other in K2 by auto. congruence.
    + destruct (tk s y); exact I.
    + left. split; [|split; [|split]]; auto.
      * intros f' z E ((b & k & H) & _). injection E as <-. simpl in H. congruence.
      * intros f' E (b & z & k & H & _). injection E as <-. congruence.
      * unfold tries. rewrite C. easy.
  - (* CTakeR *)
    destruct P as (F & G & T & W).
    unfold read_wk in *. simpl in *. destruct (wk s y) as [k|] eqn:Wy; [|easy]. simpl in *.
    apply (cinv_frame atomics s _ q q' t (Some f)); auto; simpl; rewrite ?C, ?upd_same; simpl; auto; try easy; more.
    + apply (others s q); auto. rewrite C. auto.
    + intros f' b z k' Hm H. repeat split; auto. intros w'. unfold setx. now destruct (z =? y).
    + intros f' E. injection E as <-. apply (bare _ _ _ true); [exact F|]. fin. now apply (in_use s q f None).
    + intros z Hz T' Hm K. injection Hm as Hm. destruct (mine_node s q t f z B) as (b & K'); auto; rewrite ?C; try easy. congruence.
    + intros z Hz Hn. destruct R as (_ & _ & R & _). destruct (R z Hz) as [?|(t' & f' & w' & K1 & K2)]; [easy|]. exfalso.
      destruct (Nat.eq_dec t' t) as [->|Hne]; [congruence|]. simpl in K2. rewrite upd_other in K2 by auto. congruence.
    + left. split; [|split; [|split]]; auto.
      * intros f' z E ((b & k' & H) & _). injection E as <-. simpl in H. congruence.
      * intros f' E (b & z & k' & H & _). injection E as <-. congruence.
      * unfold tries. rewrite C. easy.
  - (* CDrop *)
    destruct P as ((v & F) & P2). unfold waiter in *. rewrite F in *. pose proof (in_use _ _ _ _ Ci F) as Hw. destruct v as [[y g]|].
    + destruct (b_w _ _ B _ _ _ _ F) as ((G1 & G2 & G3 & G4) & B1 & B2).
      assert (Ht : forall z, z <> y -> setx (tk s) y true z = tk s z).
      { intros z Hz. unfold setx. destruct (N.eqb_spec z y); congruence. }
      assert (Hy : setx (tk s) y true y = true) by (unfold setx; now rewrite N.eqb_refl).
      apply (cinv_frame atomics s _ q q' t (Some f)); auto; simpl; rewrite ?C, ?upd_same; simpl; auto; try easy; more.
      * intros f' Hf. rewrite upd_other; congruence.
      * destruct (tk s y); auto.
      * apply (others s q); auto. rewrite C. auto.
      * intros f' b z k Hm H. rewrite Ht; auto. intros ->. destruct (b_w _ _ B _ _ _ _ H) as ((_ & _ & _ & K) & _). congruence.
      * intros z Hz. repeat split; auto. unfold setx. now destruct (z =? y).
      * intros f' E. injection E as <-. apply (bare _ _ _ true); [simpl; now rewrite upd_same|]. exact Hw.
      * intros z Hz T Hm K. injection Hm as Hm. destruct (mine_node s q t f z B) as (b & K'); auto; rewrite ?C; try easy.
        rewrite F in K'. injection K' as <- <- _. congruence.
      * intros z Hz Hn. destruct R as (_ & _ & R & _). destruct (R z Hz) as [?|(t' & f' & w' & K1 & K2)]; [easy|]. exfalso.
        destruct (Nat.eq_dec t' t) as [->|Hne]; [congruence|]. simpl in K2. rewrite upd_other in K2 by auto. congruence.
      * destruct (tk s y); exact I.
      * left. split; [|split; [|split]]; auto.
        -- intros f' z E ((b & k & H) & _). injection E as <-. simpl in H. rewrite upd_same in H. congruence.
        -- intros f' E (b & z & k & H & T). injection E as <-. rewrite F in H. injection H as <- <- <-.
           right. exists t. unfold tries. simpl. now rewrite upd_same, T.
        -- unfold tries. rewrite C. easy.
    + quietc s q q' t C (Some f).
      * intros f' E. injection E as <-. apply (bare _ _ _ true); [exact F|]. exact Hw.
      * intros z _ _ E. injection E as E. apply (Hnode f); auto; try easy; simpl; eauto.
      * left. split; [|split; [|split]]; auto.
        -- intros f' z E ((b & k & H) & _). injection E as <-. simpl in H. congruence.
        -- intros f' E (b & z & k & H & _). injection E as <-. congruence.
        -- unfold tries. rewrite C. easy.
  - (* CDropR *)
    destruct P as (F & D & G & T & W).
    unfold read_wk in *. simpl in *. destruct (wk s y) as [k|] eqn:Wy; [|easy]. simpl in *.
    apply (cinv_frame atomics s _ q q' t (Some f)); auto; simpl; rewrite ?C, ?upd_same; simpl; auto; try easy; more.
    + apply (others s q); auto. rewrite C. auto.
    + intros f' b z k' Hm H. repeat split; auto. intros w'. unfold setx. now destruct (z =? y).
    + intros f' E. injection E as <-. apply (bare _ _ _ true); [exact F|]. fin. now apply (in_use s q f None).
    + intros z Hz T' Hm K. injection Hm as Hm. destruct (mine_node s q t f z B) as (b & K'); auto; rewrite ?C; try easy. congruence.
    + intros z Hz Hn. destruct R as (_ & _ & R & _). destruct (R z Hz) as [?|(t' & f' & w' & K1 & K2)]; [easy|]. exfalso.
      destruct (Nat.eq_dec t' t) as [->|Hne]; [congruence|]. simpl in K2. rewrite upd_other in K2 by auto. congruence.
    + left. split; [|split; [|split]]; auto.
      * intros f' z E ((b & k' & H) & _). injection E as <-. simpl in H. congruence.
      * intros f' E (b & z & k' & H & _). injection E as <-. congruence.
      * unfold tries. rewrite C. easy.
  - (* CDropTry *)
    destruct P as (F & D). pose proof (in_use _ _ _ _ Ci F) as Hw. destruct (lk s) eqn:K.
    + simpl in S. quietc s q q' t C (Some f).
      * intros f' E. injection E as <-. apply (bare _ _ _ true); [exact F|]. fin. exact Hw.
      * intros z _ _ E. injection E as E. apply (Hnode f); auto; try easy; simpl; eauto.
      * right. now apply (Hfail f).
    + quietc s q q' t C (Some f).
      * intros f' E. injection E as <-. apply (bare _ _ _ true); [exact F|]. fin. exact Hw.
      * intros z _ _ E. injection E as E. apply (Hnode f); auto; try easy; simpl; eauto.
  - (* CRet *)
    assert (Hg : forall s1, cinv s1 q' -> cinv (match r with RGuard => set_gd s1 (Datatypes.S (gd s1)) | _ => s1 end) q').
    { intros s1 C1. destruct r; auto. destruct C1 as [Z1 Z2 Z3 Z4]. constructor; auto. }
    assert (Rg : forall s1, lrel s (match r with RGuard => set_gd s1 (Datatypes.S (gd s1)) | _ => s1 end) q q' -> lrel s s1 q q').
    { intros s1. now destruct r. }
    cbv zeta in *. apply Hg. apply Rg in R. clear Hg Rg Hs S. destruct o as [|f w|f|].
    + quietc s q q' t C (@None nat). left. split; [|split; [|split]]; try easy; auto. unfold tries. now rewrite C.
    + assert (F : exists v, fu s f = FLive true v) by (apply (busy _ _ t _ B); now rewrite C).
      destruct F as (v & F). pose proof (in_use _ _ _ _ Ci F) as Hw. simpl in R |- *. rewrite F in R |- *.
      quietc s q q' t C (Some f).
      * intros f' Hf. rewrite upd_other; congruence.
      * intros f' Hf. fin. destruct r; try apply uge_refl. ne f f'. apply uge_refl.
      * intros f' E. injection E as <-. destruct r; try (rewrite P in F; injection F as <-; apply (bare _ _ _ false); fin; [now rewrite upd_same|exact Hw]).
        destruct P as (y & g & F' & P1 & P2). rewrite F in F'. injection F' as ->.
        unfold cfut. fin. rewrite Nat.eqb_refl, upd_same. simpl. split; [split; eauto|]. intros b z k E. injection E as <- <- <-.
        destruct (c_f _ _ Ci f) as (_ & F2). destruct (F2 _ _ _ F) as (F3 & F4 & F5). split; [|split; auto].
        -- intros T H. apply (flight_other s _ t); auto; more; [now rewrite C|fin; now rewrite Nat.eqb_refl..|].
           apply F3; auto. intros t' E. destruct (Nat.eq_dec t' t) as [->|Hn]; [rewrite C in E; easy|].
              apply (H t'). now rewrite upd_other.
        -- intros T H. destruct R as (R1 & _). destruct (R1 y) as [?|?]; auto; [|congruence]. apply F5; auto.
           intros t' w' E. destruct (Nat.eq_dec t' t) as [->|Hn]; [congruence|]. apply (H t' w'). now rewrite upd_other.
      * intros z _ _ E. injection E as E. apply (Hnode f); auto; try easy; simpl. intros b p H. rewrite F in H. injection H as <- ->.
        rewrite upd_same. eauto.
      * left. split; [|split; [|split]]; auto.
        -- intros f' z E ((b & k & H1) & H2 & H3). injection E as <-. simpl in H1. rewrite upd_same in H1. injection H1 as <- ->.
           split; [eauto|]. split; auto. intros t' E'. apply (H3 t').
           simpl. destruct (Nat.eq_dec t' t) as [->|Hn]; [rewrite C in E'; easy|now rewrite upd_other].
        -- intros f' E (b & z & k & H & T). injection E as <-. rewrite F in H. injection H as <- ->. left. exists f, false, z, k.
           simpl. now rewrite upd_same.
        -- unfold tries. rewrite C. easy.
    + destruct P as (F & D). pose proof (in_use _ _ _ _ Ci F) as Hw.
      quietc s q q' t C (Some f).
      * intros f' Hf. rewrite upd_other; congruence.
      * intros f' E. injection E as <-. unfold cfut. fin. rewrite upd_same. unfold fut in Hw. rewrite Hw.
        split; [|easy]. split; [easy|]. intros (? & ?). easy.
      * intros z _ _ E. injection E as E. apply (Hnode f); auto; try easy; simpl. intros b p H. congruence.
      * left. split; [|split; [|split]]; auto.
        -- intros f' z E ((b & k & H) & _). injection E as <-. simpl in H. rewrite upd_same in H. congruence.
        -- intros f' E (b & z & k & H & _). injection E as <-. congruence.
        -- unfold tries. rewrite C. easy.
    + quietc s q q' t C (@None nat). left. split; [|split; [|split]]; try easy; auto. unfold tries. now rewrite C.
Qed.

Lemma resp_same s s' t : (forall t', t' <> t -> ctx s' t' = ctx s t') -> fu s' = fu s -> (forall x, tk s x = true -> tk s' x = true) ->
  ~ tries s t -> resp s -> resp s'.
Proof.
  intros HC HF HT Hn [(f & b & x & g & E & T)|(t' & H)].
  - left. exists f, b, x, g. rewrite HF. auto.
  - right. exists t'. destruct (Nat.eq_dec t' t) as [->|Hne]; [easy|]. unfold tries, waiter in *. now rewrite HC, HF.
Qed.
Lemma hard_same s s' t f x : (forall t', t' <> t -> ctx s' t' = ctx s t') -> fu s' = fu s -> (forall x, tk s x = true -> tk s' x = true) ->
  hot (ctx s t) = None -> hard s' f x -> hard s f x.
Proof.
  intros HC HF HT Hn ((b & g & E) & T & H). rewrite HF in E. split; [eauto|]. split.
  - destruct (tk s x) eqn:T'; auto. now rewrite HT in T.
  - intros t' K. destruct (Nat.eq_dec t' t) as [->|Hne]; [congruence|]. apply (H t'). now rewrite HC.
Qed.

Lemma ustep_c s q q' t o u spur : excl s -> linv atomics s q -> binv s q -> cinv s q -> ctx s t = CRel o u ->
  lrel s (ustep atomics s t o u spur) q q' -> cinv (ustep atomics s t o u spur) q'.
Proof.
  intros X L B Ci C R.
  pose proof (b_p _ _ B t) as P. rewrite C in P. destruct P as (P1 & P2 & P3 & P4).
  pose proof (l_pos _ _ _ L t) as LT. unfold lpos in LT. rewrite C in LT. destruct LT as (LT & LU).
  pose proof (c_p _ _ Ci t) as CP. rewrite C in CP. destruct (l_d _ _ _ L) as (l & LD).
  assert (Hmine : forall f, pf (CRel o u) = Some f -> fu s f = FLive true None).
  { intros f Hf. simpl in Hf. destruct o; try easy. injection Hf as ->. apply P1. }
  assert (Hnt : ~ tries s t) by (unfold tries; now rewrite C).
  assert (Hh : hot (ctx s t) = None) by now rewrite C.
  (* nothing happens to the futures *)
  assert (Hg : forall s1, (forall t', t' <> t -> ctx s1 t' = ctx s t') ->
       fu s1 = fu s -> ow s1 = ow s ->
       (pf (ctx s1 t) = None \/ pf (ctx s1 t) = pf (CRel o u)) ->
       (forall f b x g, fu s f = FLive b (Some (x, g)) ->
          (tk s1 x = true -> tk s x = true \/ flight s1 f x) /\ (forall w, wk s1 x = Some w -> wk s x = Some w)) ->
       (forall x, tk s x = true -> tk s1 x = true) ->
       (forall x, In x (dcontents q) -> gen s1 x = gen s x) ->
       (forall f, uge (fut s f) (fut s1 f)) ->
       (forall f b x g, fu s f = FLive b (Some (x, g)) -> inflight s f x (CRel o u) -> flight s1 f x) ->
       cpos s1 q' (ctx s1 t) ->
       (lk s1 = false -> lk s = false \/ (forall f x, ~ hard s f x) \/ resp s) ->
       lrel s s1 q q' -> cinv s1 q').
  { intros s1 K1 K2 K3 K4 K5 K6 K7 K8 K9 K10 K11 R'.
    apply (cinv_frame atomics s s1 q q' t (pf (CRel o u))); auto; rewrite ?C; auto.
    - intros. now rewrite K2.
    - apply (others s q); auto. rewrite C. auto.
    - intros f b x g _ H. destruct (K5 _ _ _ _ H). auto.
    - intros f b x g _. apply K9.
    - intros x Hx. rewrite K3. repeat split; auto. intros T. destruct (tk s x) eqn:T'; auto. now rewrite K6 in T.
    - intros f Hf. apply (bare _ _ _ true); [rewrite K2; auto|]. destruct (K8 f) as (-> & _). apply (in_use s q f None); auto.
    - intros x Hx T Hm K. destruct (mine_node s q t (ow s x) x B) as (b & K'); auto; rewrite ?C; auto; try easy.
      rewrite (Hmine _ Hm) in K'. easy.
    - intros x Hx Hn. destruct R' as (_ & _ & R' & _). destruct (R' x Hx) as [?|(t' & f' & w' & E1 & E2)]; [easy|]. exfalso.
      destruct (Nat.eq_dec t' t) as [->|Hne]; [congruence|]. rewrite K1 in E2 by auto. congruence.
    - left. split; [|split; [|split]]; auto.
      + intros f x _. now apply (hard_same s s1 t).
      + intros f Hf (b & x & g & E & _). rewrite (Hmine f Hf) in E. easy.
      + easy. }
  (* nothing happens to the nodes *)
  assert (Hq : forall s1 u', ctx s1 t = CRel o u' -> (forall t', t' <> t -> ctx s1 t' = ctx s t') ->
       holds (CRel o u) = true -> waking (CRel o u) = false ->
       fu s1 = fu s -> (forall x, In x (dcontents q) -> gen s1 x = gen s x) -> ow s1 = ow s -> tk s1 = tk s -> wk s1 = wk s ->
       log s1 = log s -> lk s1 = lk s -> cpos s1 q' (CRel o u') -> lrel s s1 q q' -> cinv s1 q').
  { intros s1 u' K0 K1 Kh Kw K2 K3 K5 K6 K7 K8 K9 K10 R'. apply Hg; auto; rewrite ?K0, ?K6, ?K7, ?K9; auto.
    - intros f. unfold fut. rewrite K8. apply uge_refl.
    - intros f b x g _ H. now apply waking_no in H. }
  assert (Hhard : forall s1 f x, (forall t', t' <> t -> ctx s1 t' = ctx s t') -> fu s1 = fu s -> tk s1 = tk s -> hard s1 f x -> hard s f x).
  { intros s1 f x H1 H2 H3. apply (hard_same s s1 t); auto. now rewrite H3. }
  destruct u as [| |x|x| |c|c n|c n|w|w]; unfold ustep in *.
  - apply (Hq _ UDrain); auto; try (simpl; now rewrite upd_same); try oth; try exact I.
  - destruct (dpo (dr s)) as [|p c|p c n|p c n|c n|p c n|p c n|p n x] eqn:D; cbv zeta in *.
    + simpl in LU. now rewrite D in LU.
    + destruct (dpo (dr (list_step s (DStep spur))));
        (eapply Hq; [simpl; rewrite ?upd_same, ?C; reflexivity|intros; simpl; rewrite ?upd_other by assumption; reflexivity|..]);
        auto; try exact I.
    + apply (Hq _ UDrain); auto; try exact I.
    + destruct (negb atomics && (p =? 0)); apply (Hq _ UDrain); auto; try exact I.
    + destruct (dpo (dr (list_step s (DStep spur))));
        (eapply Hq; [simpl; rewrite ?upd_same, ?C; reflexivity|intros; simpl; rewrite ?upd_other by assumption; reflexivity|..]);
        auto; try exact I.
    + destruct (dpo (dr (list_step s (DStep spur))));
        (eapply Hq; [simpl; rewrite ?upd_same, ?C; reflexivity|intros; simpl; rewrite ?upd_other by assumption; reflexivity|..]);
        auto; try exact I.
    + destruct (dpo (dr (list_step s (DStep spur))));
        (eapply Hq; [simpl; rewrite ?upd_same, ?C; reflexivity|intros; simpl; rewrite ?upd_other by assumption; reflexivity|..]);
        auto; try exact I.
    + apply (Hq _ (UDead x)); auto; try (simpl; now rewrite upd_same); try oth; try exact I.
  - destruct LU as (_ & T). rewrite T in *. apply (Hq _ (UFree x)); auto; try (simpl; now rewrite upd_same); try oth; try exact I.
  - assert (Hx : In x (held (dsh (dr s)))) by (apply (l_hx _ _ _ L t); now rewrite C).
    apply (Hq _ UDrain); auto; try (simpl; now rewrite upd_same); try oth; try exact I.
    intros z Hz. simpl. unfold setx. destruct (N.eqb_spec z x) as [->|]; auto.
    now apply (content_alive _ _ _ _ LD) in Hz.
  - assert (D : dpo (dr s) = DIdle) by (apply (quiet atomics s q t); auto; now rewrite C).
    apply (Hq _ (UIter (hd (dsh (dr s))))); auto; try (simpl; now rewrite upd_same); try oth.
    destruct R as (_ & _ & _ & R). destruct (R D) as (a & R'). simpl. exists a, (dcontents q). split; auto. split.
    + pose proof (idle_q _ _ _ LD D) as ->. simpl. apply (chain_head0 _ _ _ (own_chain _ _ _ _ _ (di_own _ _ _ LD))).
    + intros f x H. apply (Hhard _ f x) in H; auto; [|oth]. destruct H as ((b & g & F) & T & H).
      destruct (c_f _ _ Ci f) as (_ & F2). destruct (F2 _ _ _ F) as (_ & _ & F3). apply F3; auto.
      intros t' w E. apply (H t'). now rewrite E.
  - assert (D : dpo (dr s) = DIdle) by (apply (quiet atomics s q t); auto; now rewrite C).
    simpl in CP. destruct CP as (a & b & E1 & E2 & E3). destruct R as (R1 & R2 & R3 & R4). pose proof (R4 D) as (a' & R').
    destruct (N.eqb_spec c 0) as [->|Hc].
    + apply (Hq _ (UStore None)); auto; try (simpl; now rewrite upd_same); try oth; try (now repeat split).
      intros f x H. apply (Hhard _ f x) in H; auto; [|oth]. apply E3 in H. destruct b as [|c b]; [easy|]. simpl in E2.
      destruct (content_alive _ _ _ c LD) as (K & _); [rewrite E1; apply in_app_iff; simpl; auto|congruence].
    + destruct b as [|c' b]; [easy|]. simpl in E2. subst c'.
      apply (Hq _ (USwap c (nx (dsh (dr s)) c))); auto; try (simpl; now rewrite upd_same); try oth; try (now repeat split).
      simpl. exists (a' ++ a), b. split; [now rewrite R', E1, app_assoc|]. split.
      * pose proof (idle_q _ _ _ LD D) as ->. simpl in E1. subst l.
        apply (chain_nx _ _ _ _ _ (own_chain _ _ _ _ _ (di_own _ _ _ LD))).
      * intros f x H. apply (Hhard _ f x) in H; auto; [|oth]. now apply (E3 f x).
  - assert (D : dpo (dr s) = DIdle) by (apply (quiet atomics s q t); auto; now rewrite C).
    simpl in CP. destruct CP as (a & b & E1 & E2 & E3). destruct R as (R1 & R2 & R3 & R4). pose proof (R4 D) as (a' & R').
    assert (Hin : In c (dcontents q)) by (rewrite E1; apply in_app_iff; simpl; auto).
    set (s1 := if tk s c then _ else _) in *.
    assert (E : fu s1 = fu s /\ gen s1 = gen s /\ ow s1 = ow s /\
      tk s1 = setx (tk s) c true /\ wk s1 = wk s /\ lk s1 = lk s /\
      ctx s1 = upd (ctx s) t (CRel o (if tk s c then UIter n else URead c n)) /\
      log s1 = log s ++ (if tk s c then [] else [ENotify (ow s c)])).
    { subst s1. destruct (tk s c); repeat split. simpl. now rewrite app_nil_r. }
    destruct E as (K1 & K2 & K3 & K4 & K5 & K6 & K7 & K8). clearbody s1.
    assert (Hc : setx (tk s) c true c = true) by (unfold setx; now rewrite N.eqb_refl).
    assert (Hcc : forall z, z <> c -> setx (tk s) c true z = tk s z).
    { intros z Hz. unfold setx. destruct (N.eqb_spec z c); congruence. }
    assert (Hf : forall f, fut s1 f = fut s f).
    { intros f. unfold fut. rewrite K8. destruct (tk s c); [now rewrite app_nil_r|now rewrite future_app]. }
    assert (HC : forall t', t' <> t -> ctx s1 t' = ctx s t') by (intros t' Hn; now rewrite K7, upd_other).
    assert (HT : forall x, tk s x = true -> tk s1 x = true) by (intros x; rewrite K4; apply setx_true).
    apply Hg; auto; rewrite ?K6, ?K7, ?upd_same; auto; try (now repeat split).
    + intros f d x g F. rewrite K4, K5. split; auto. destruct (N.eq_dec x c) as [->|Hne]; [|rewrite Hcc; auto].
      intros _. destruct (tk s c) eqn:T; auto. right. right. exists t. rewrite K7, upd_same. simpl. reflexivity.
    + intros. now rewrite K2.
    + intros. rewrite Hf. apply uge_refl.
    + destruct (tk s c) eqn:T; simpl.
      * exists (a' ++ a ++ [c]), b. split; [now rewrite R', E1, <- !app_assoc|]. split; auto. intros f x H.
        pose proof (hard_same _ _ _ _ _ HC K1 HT Hh H) as H'. destruct (E3 f x H') as [<-|?]; auto. destruct H' as (_ & H' & _). congruence.
      * left. exists (ow s c). destruct (c_n _ _ Ci c Hin T) as [(d & F)|(t' & w & E)].
        -- exists d, c, (gen s c). rewrite K1, K4. auto.
        -- exfalso. apply (no_other s t t' X); [now rewrite C|congruence|now rewrite E].
  - destruct P4 as (T & W). unfold read_wk in *. simpl in R |- *. destruct (wk s c) as [k|] eqn:Wc; [|easy]. simpl in R |- *.
    apply Hg; simpl; auto; rewrite ?upd_same; auto; more.
    + intros f b x g F. split; auto. intros w. unfold setx. now destruct (x =? c).
    + intros f b x g F H. subst x. right. exists t. simpl. rewrite upd_same. simpl.
      destruct (c_f _ _ Ci f) as (_ & F2). destruct (F2 _ _ _ F) as (_ & F3 & _). now apply F3.
    + simpl. simpl in CP. apply (resp_same s _ t); auto. oth.
  - apply Hg; simpl; auto; rewrite ?upd_same; auto; more.
    + destruct w; auto. destruct o; auto. easy.
    + intros f b x g F H. destruct w as [w|]; [|easy]. right. exists t. simpl. rewrite upd_same. simpl. fin. exact H.
    + destruct w; exact I.
    + intros _. right. destruct w as [w|]; auto.
  - apply Hg; simpl; auto; rewrite ?upd_same; auto; more.
    + destruct o; auto. easy.
    + intros f. fin. repeat split; auto. simpl. intros ->. reflexivity.
    + intros f b x g F H. left. fin. apply orb_true_iff. right. apply existsb_exists. exists w. split; auto. apply N.eqb_refl.
Qed.
End Step.
