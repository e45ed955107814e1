(** The list of waiters of the mutex: what holds in all executions. *)
Require Import NArith List Bool Arith Lia.
From Verif Require Import AtomicSpec AtomicsProofs Treiber TreiberProofs DrainSpec Drain DrainProofs
  MutexSpec Mutex MutexProofs.
Import ListNotations.
Open Scope N_scope.

Definition draining (p : pos) : bool :=
  match p with CRel _ (UDrain | UDead _ | UFree _) => true | _ => false end.
Lemma draining_holds p : draining p = true -> holds p = true.
Proof. destruct p as [| | | | | | | | | | | |o []|]; easy. Qed.

(** The node that the drain has decided to remove. *)
Definition cutting (d : dpos) : option N :=
  match d with
  | DCut _ c _ | DCas c _ | DWalk _ c _ | DWrite _ c _ | DOut _ _ c => Some c
  | _ => None
  end.

Lemma cut_alive s l q c : dinv s l q -> cutting (dpo s) = Some c -> ~ In c (dead (dsh s)).
Proof.
  intros [HO _ _ HQ] E.
  assert (K : In c l -> ~ In c (dead (dsh s))) by apply (own_ld _ _ _ _ _ HO).
  destruct (dpo s) eqn:D; simpl in E; try easy; injection E as <-; destruct q as [| |f k y t]; simpl in HQ; try easy.
  - apply K. destruct HQ as (-> & -> & _). rewrite !in_app_iff. simpl. auto.
  - apply K. destruct HQ as (-> & -> & -> & _). rewrite !in_app_iff. simpl. auto.
  - apply K. destruct HQ as (-> & -> & -> & _). rewrite !in_app_iff. simpl. auto.
  - apply K. destruct HQ as (-> & -> & -> & _). rewrite !in_app_iff. simpl. auto.
  - destruct (own_cr _ _ _ _ _ HO O x) as (_ & _ & _ & K1 & _); [simpl; rewrite ?D; reflexivity|exact K1].
Qed.

Lemma In_remove1_other x y l : y <> x -> In y l -> In y (remove1 x l).
Proof. intros. apply remove1_In_other; auto. Qed.

(** An idle list. *)
Lemma idle_q s l q : dinv s l q -> dpo s = DIdle -> q = QIdle l.
Proof. intros [_ _ _ HQ] D. rewrite D in HQ. destruct q; simpl in HQ; try easy. now subst. Qed.

Lemma content_alive s l q x : dinv s l q -> In x (dcontents q) -> x <> 0 /\ ~ In x (dead (dsh s)) /\ ~ In x (held (dsh s)).
Proof.
  intros HD Hx. destruct (dinv_contents _ _ _ HD) as (_ & K & _). apply K in Hx. destruct HD as [HO _ _ _].
  split; [|split; [now apply (own_ld _ _ _ _ _ HO)|now apply (own_lh _ _ _ _ _ HO)]].
  apply in_split in Hx as (a & b & ->). apply (chain_mid _ _ _ _ _ (own_chain _ _ _ _ _ HO)).
Qed.

(** The steps of a drain. *)
Definition drain_label (lb : dlabel) : bool :=
  match lb with DStep _ | DCutCs | DAnswer _ => true | _ => false end.
Lemma drain_step d l q lb : dinv d l q -> drain_label lb = true ->
  let d' := fst (drstep false d lb) in
  exists l' q', dinv d' l' q' /\ dth d' = dth d /\ dead (dsh d') = dead (dsh d) /\
    (forall x, In x (held (dsh d)) -> In x (held (dsh d'))) /\
    (forall x, In x (dcontents q) -> In x (dcontents q') \/ (lb = DAnswer true /\ exists p n, dpo d = DFilter p x n)) /\
    (forall x, In x (dcontents q') -> In x (dcontents q)) /\
    (forall c, cutting (dpo d') = Some c -> cutting (dpo d) = Some c \/ (lb = DAnswer true /\ exists p n, dpo d = DFilter p c n)) /\
    (dpo d = DIdle -> d' = d /\ q' = q).
Proof.
  intros HI Hl d'. destruct (dinv_step false d l q lb HI) as (l' & q' & Ha & HI'). exists l', q'.
  split; [exact HI'|]. pose proof (di_pos _ _ _ HI) as HQ. subst d'.
  assert (Hq : snd (drstep false d lb) = [] -> q' = q) by (intros E; rewrite E in Ha; simpl in Ha; congruence).
  destruct lb as [| | | | | | | |sp| |b]; try easy; clear Hl; simpl in *.
  - destruct (dpo d) as [|p c|p c n|p c n|c n|p c n|p c n|p n x] eqn:D; simpl in *.
    + rewrite (Hq eq_refl). destruct d; simpl in *; subst. repeat split; auto.
    + destruct (c =? 0); simpl in *.
      * destruct q as [|f k t|]; simpl in *; try easy. destruct t; [|easy]. injection Ha as <-. simpl. rewrite app_nil_r.
        repeat split; auto; easy.
      * rewrite (Hq eq_refl). repeat split; auto; easy.
    + rewrite (Hq eq_refl). repeat split; auto; easy.
    + destruct (p =? 0); simpl in *; [|rewrite (Hq eq_refl); repeat split; auto; easy].
      destruct (hd (dsh d) =? c); simpl in *; rewrite (Hq eq_refl); repeat split; auto; easy.
    + destruct (negb sp && _); simpl in *; [rewrite (Hq eq_refl); repeat split; auto; easy|].
      destruct (hd (dsh d) =? c); simpl in *; rewrite (Hq eq_refl); repeat split; auto; easy.
    + destruct (nx (dsh d) p =? c); simpl in *; rewrite (Hq eq_refl); repeat split; auto; easy.
    + rewrite (Hq eq_refl); repeat split; auto; easy.
    + destruct q as [| |f k y t]; simpl in *; try easy. destruct (x =? y); [|easy]. injection Ha as <-. simpl.
      repeat split; auto; try easy. intros z Hz. unfold give_held; simpl. apply in_app_iff. auto.
  - destruct (dpo d) as [|p c|p c n|p c n|c n|p c n|p c n|p n x] eqn:D; simpl in *;
      try (rewrite (Hq eq_refl), D; repeat split; auto; easy).
    destruct (p =? 0); simpl in *; [|rewrite (Hq eq_refl), D; repeat split; auto; easy].
    destruct (hd (dsh d) =? c); simpl in *; rewrite (Hq eq_refl); repeat split; auto; easy.
  - destruct (dpo d) as [|p c|p c n|p c n|c n|p c n|p c n|p n x] eqn:D; simpl in *;
      try (rewrite (Hq eq_refl), ?D; repeat split; auto; easy).
    destruct q as [|f k t|]; simpl in *; try easy. destruct t as [|y t]; [easy|]. destruct HQ as (-> & _).
    rewrite N.eqb_refl in Ha. injection Ha as <-. repeat split; auto; try easy.
    + intros x. destruct b; simpl; rewrite !in_app_iff; simpl; [|tauto].
      intros [?|[?|[->|?]]]; auto. right. split; eauto.
    + intros x. destruct b; simpl; rewrite !in_app_iff; simpl; tauto.
    + intros x. destruct b; simpl; [|easy]. intros E. injection E as <-. right. split; eauto.
Qed.

(** The steps of a push. *)
Lemma push_step d l q t sp x : dinv d l q -> pushing (dth d t) = Some x ->
  let d' := fst (drstep false d (AStep t sp)) in
  exists l' q', dinv d' l' q' /\ (forall t', t' <> t -> dth d' t' = dth d t') /\ dead (dsh d') = dead (dsh d) /\
    held (dsh d') = held (dsh d) /\ dpo d' = dpo d /\
    ((pushing (dth d' t) = Some x /\ q' = q) \/ (dth d' t = TDone RPushed /\ dcontents q' = x :: dcontents q)).
Proof.
  intros HI Hp d'. destruct (dinv_step false d l q (AStep t sp) HI) as (l' & q' & Ha & HI'). exists l', q'.
  split; [exact HI'|]. subst d'. simpl in *.
  destruct (dth d t) as [|y|y cur|y cur| | | | | |] eqn:E; try easy; injection Hp as ->; simpl in *.
  - injection Ha as <-. rewrite upd_same. repeat split; auto. intros t' Hn. now rewrite upd_other.
  - injection Ha as <-. rewrite upd_same. repeat split; auto. intros t' Hn. now rewrite upd_other.
  - destruct sp; simpl in *.
    + injection Ha as <-. rewrite upd_same. repeat split; auto. intros t' Hn. now rewrite upd_other.
    + destruct (hd (dsh d) =? cur); simpl in *; injection Ha as <-; rewrite upd_same; repeat split; auto;
        try (intros t' Hn; now rewrite upd_other). right. split; auto. now destruct q.
Qed.

Section List_.
Variable atomics : bool.

Definition hx (p : pos) : option N :=
  match p with
  | CPush _ _ x => if atomics then None else Some x
  | CRel _ (UDead x) | CRel _ (UFree x) => Some x
  | _ => None
  end.

Definition upos_ok (s : mst) (q : dspec) (u : upos) : Prop :=
  let d := dpo (dr s) in
  match u with
  | UDrain => d <> DIdle
  | UDead x | UFree x => d <> DIdle /\ tk s x = true
  | UIter c => exists a b, dcontents q = a ++ b /\ c = head0 b
  | USwap c n => exists a b, dcontents q = a ++ c :: b /\ n = head0 b
  | URead c n => In c (dcontents q)
  | _ => True
  end.
Definition lpos (s : mst) (q : dspec) (t : nat) : Prop :=
  match ctx s t with
  | CPush _ _ x => if atomics then pushing (dth (dr s) t) = Some x else dth (dr s) t = TIdle
  | CRel _ u => dth (dr s) t = TIdle /\ upos_ok s q u
  | _ => dth (dr s) t = TIdle
  end.

Record linv (s : mst) (q : dspec) : Prop := {
  l_d : exists l, dinv (dr s) l q;
  l_pos : forall t, lpos s q t;
  l_dr : dpo (dr s) <> DIdle -> exists t, draining (ctx s t) = true;
  l_hx : forall t x, hx (ctx s t) = Some x -> In x (held (dsh (dr s)));
  l_hx2 : forall t t' x, hx (ctx s t) = Some x -> hx (ctx s t') = Some x -> t = t';
  l_cut : forall c, cutting (dpo (dr s)) = Some c -> tk s c = true
}.

(** No drain is in progress when another part of a release runs, or no release. *)
Lemma quiet s q t : excl s -> linv s q -> holds (ctx s t) = true -> draining (ctx s t) = false -> dpo (dr s) = DIdle.
Proof.
  intros X L H D. destruct (dpo (dr s)) eqn:E; auto; exfalso;
  (destruct (l_dr _ _ L) as (t' & K); [now rewrite E|];
   destruct (e_h _ X t H) as (_ & _ & U); rewrite (U t' (draining_holds _ K)) in K; congruence).
Qed.
Lemma quiet_free s q : excl s -> linv s q -> lk s = false -> dpo (dr s) = DIdle.
Proof.
  intros X L H. destruct (dpo (dr s)) eqn:E; auto; exfalso;
  (destruct (l_dr _ _ L) as (t' & K); [now rewrite E|];
   destruct (e_h _ X t' (draining_holds _ K)); congruence).
Qed.
Lemma quiet_guard s q : excl s -> linv s q -> gd s <> O -> dpo (dr s) = DIdle.
Proof.
  intros X L H. destruct (dpo (dr s)) eqn:E; auto; exfalso;
  (destruct (l_dr _ _ L) as (t' & K); [now rewrite E|];
   destruct (e_h _ X t' (draining_holds _ K)) as (_ & ? & _); congruence).
Qed.

(** A step of [t] that changes the list. *)
Lemma linv_list s s' q q' t : excl s -> linv s q ->
  (exists l, dinv (dr s') l q') ->
  (forall t', t' <> t -> ctx s' t' = ctx s t') ->
  (forall x, ~ In x (dead (dsh (dr s))) -> tk s x = true -> tk s' x = true) ->
  (forall t', t' <> t -> dth (dr s') t' = dth (dr s) t') ->
  (forall t' x, t' <> t -> hx (ctx s t') = Some x -> In x (held (dsh (dr s')))) ->
  (forall t', t' <> t -> holds (ctx s t') = true -> dpo (dr s') = dpo (dr s) /\ exists a, dcontents q' = a ++ dcontents q) ->
  lpos s' q' t ->
  (forall x, hx (ctx s' t) = Some x -> In x (held (dsh (dr s'))) /\ forall t', t' <> t -> hx (ctx s t') <> Some x) ->
  (dpo (dr s') <> DIdle -> exists t', draining (ctx s' t') = true) ->
  (forall c, cutting (dpo (dr s')) = Some c -> tk s' c = true) ->
  linv s' q'.
Proof.
  intros X [(l & LD) LP LR LH LH2 LC] HD HC HT HS HH HO HP HX HR HU. constructor; auto.
  - intros t'. destruct (Nat.eq_dec t' t) as [->|Hne]; auto. pose proof (LP t') as K. unfold lpos in *.
    rewrite (HC _ Hne), (HS _ Hne). specialize (HO t' Hne). specialize (LH t').
    destruct (ctx s t') as [| | | | | | | | | | | |o u|] eqn:E; auto.
    destruct K as (K1 & K2). split; auto. destruct u as [| |x|x| |c|c n|c n|w|w]; simpl in *; auto;
      destruct (HO eq_refl) as (E1 & a & E2); rewrite ?E1, ?E2; auto.
    + destruct K2. split; auto. apply HT; auto. destruct LD as [OW _ _ _]. apply (own_hd _ _ _ _ _ OW). auto.
    + destruct K2. split; auto. apply HT; auto. destruct LD as [OW _ _ _]. apply (own_hd _ _ _ _ _ OW). auto.
    + destruct K2 as (b & d & -> & ->). exists (a ++ b), d. now rewrite app_assoc.
    + destruct K2 as (b & d & -> & ->). exists (a ++ b), d. now rewrite app_assoc.
    + apply in_app_iff. auto.
  - intros t' x. destruct (Nat.eq_dec t' t) as [->|Hne]; [intros E; now apply HX|]. rewrite HC by auto. eauto.
  - intros t1 t2 x. destruct (Nat.eq_dec t1 t) as [->|H1], (Nat.eq_dec t2 t) as [->|H2]; auto.
    + intros E1 E2. rewrite (HC t2) in E2 by auto. destruct (HX _ E1) as (_ & K). now destruct (K t2).
    + intros E1 E2. rewrite (HC t1) in E1 by auto. destruct (HX _ E2) as (_ & K). now destruct (K t1).
    + rewrite !HC by auto. eauto.
Qed.

(** A step of [t] that does not. *)
Lemma linv_local s s' q t : linv s q ->
  dr s' = dr s ->
  (forall t', t' <> t -> ctx s' t' = ctx s t') ->
  (forall x, tk s x = true -> tk s' x = true) ->
  lpos s' q t ->
  (hx (ctx s' t) = None \/ hx (ctx s' t) = hx (ctx s t)) ->
  (draining (ctx s t) = true -> draining (ctx s' t) = true \/ dpo (dr s) = DIdle) ->
  linv s' q.
Proof.
  intros [LD LP LR LH LH2 LC] HD HC HT HP HX HR. constructor; rewrite ?HD; auto.
  - intros t'. destruct (Nat.eq_dec t' t) as [->|Hne]; auto. specialize (LP t'). unfold lpos in *.
    rewrite (HC _ Hne), HD. destruct (ctx s t') as [| | | | | | | | | | | |o u|] eqn:E; auto.
    destruct LP as (K1 & K2). split; auto. unfold upos_ok in *. rewrite HD. destruct u; auto; destruct K2; auto.
  - intros D. destruct (LR D) as (t' & K). destruct (Nat.eq_dec t' t) as [->|Hne].
    + destruct (HR K); [eauto|easy].
    + exists t'. now rewrite HC.
  - intros t' x. destruct (Nat.eq_dec t' t) as [->|Hne]; [|rewrite HC by auto; eauto].
    destruct HX as [->| ->]; [easy|eauto].
  - intros t1 t2 x. destruct (Nat.eq_dec t1 t) as [->|H1], (Nat.eq_dec t2 t) as [->|H2]; auto.
    + rewrite (HC t2) by auto. destruct HX as [->| ->]; [easy|eauto].
    + rewrite (HC t1) by auto. destruct HX as [->| ->]; [easy|eauto].
    + rewrite !HC by auto. eauto.
Qed.

(** How the contents of the list change. *)
Definition lrel (s s' : mst) (q q' : dspec) : Prop :=
  (forall x, In x (dcontents q) -> In x (dcontents q') \/ tk s x = true) /\
  (forall t f w x, ctx s t = CPush f w x -> ctx s' t = CPoll2 f w -> In x (dcontents q')) /\
  (forall x, In x (dcontents q') -> In x (dcontents q) \/ exists t f w, ctx s t = CPush f w x /\ ctx s' t = CPoll2 f w) /\
  (dpo (dr s) = DIdle -> exists a, dcontents q' = a ++ dcontents q).

Lemma lrel_same s s' q : (forall t f w x, ctx s t = CPush f w x -> ctx s' t <> CPoll2 f w) -> lrel s s' q q.
Proof.
  intros H. repeat split; auto.
  - intros t f w x E1 E2. now apply H in E1.
  - intros _. now exists [].
Qed.

Lemma visit_dr s l q x : dinv (dr s) l q -> x <> 0 -> ~ In x (dead (dsh (dr s))) -> dr (visit s x) = dr s.
Proof.
  intros [_ HF _ _] H0 Hd. unfold visit, set_dr; simpl. rewrite dtouch_same by auto. now destruct (dr s).
Qed.

Lemma lpos_idle s q t : linv s q -> hx (ctx s t) = None ->
  match ctx s t with CPush _ _ _ => False | _ => True end -> dth (dr s) t = TIdle.
Proof.
  intros L _ H. pose proof (l_pos _ _ L t) as K. unfold lpos in K.
  destruct (ctx s t); easy.
Qed.

(** A step outside of the list code. *)
Definition loc (p : pos) : bool :=
  match p with
  | CPush _ _ _ => false
  | CRel _ (UStart | UHead | UStore _ | UWake _) => true
  | CRel _ _ => false
  | _ => true
  end.
Lemma step_local s s' q t : linv s q -> dr s' = dr s ->
  (forall t', t' <> t -> ctx s' t' = ctx s t') ->
  (forall x, tk s x = true -> tk s' x = true) ->
  loc (ctx s t) = true -> loc (ctx s' t) = true ->
  exists q', linv s' q' /\ lrel s s' q q'.
Proof.
  intros L HD HC HT H1 H2. exists q. split.
  - apply (linv_local s s' q t); auto.
    + pose proof (l_pos _ _ L t) as K. unfold lpos in *. rewrite HD.
      assert (E : dth (dr s) t = TIdle). { destruct (ctx s t) as [| | | | | | | | | | | |o u|]; try easy. }
      destruct (ctx s' t) as [| | | | | | | | | | | |o u|]; try easy. split; [easy|]. now destruct u.
    + left. destruct (ctx s' t) as [| | | | | | | | | | | |o u|]; try easy. now destruct u.
    + destruct (ctx s t) as [| | | | | | | | | | | |o u|]; try easy. now destruct u.
  - apply lrel_same. intros t' f w x E1 E2. destruct (Nat.eq_dec t' t) as [->|Hn].
    + now rewrite E1 in H1.
    + rewrite HC in E2 by auto. congruence.
Qed.

Lemma setx_true (f : N -> bool) y x : f x = true -> setx f y true x = true.
Proof. unfold setx. now destruct (x =? y). Qed.

Ltac oth := intros t' Hne; simpl; now rewrite upd_other by exact Hne.
Ltac local_ t C :=
  apply (step_local _ _ _ t); [assumption|reflexivity|oth|simpl; auto using setx_true|now rewrite C|simpl; rewrite ?upd_same; auto].

Lemma drain_l s q t o lb s' : excl s -> linv s q -> ctx s t = CRel o UDrain -> drain_label lb = true ->
  (lb = DAnswer true -> forall p c n, dpo (dr s) = DFilter p c n -> tk s c = true) ->
  dr s' = fst (drstep false (dr s) lb) -> (forall t', t' <> t -> ctx s' t' = ctx s t') -> tk s' = tk s ->
  (ctx s' t = CRel o UDrain /\ dpo (dr s') <> DIdle) \/ (ctx s' t = CRel o UHead /\ dpo (dr s') = DIdle) \/
    (exists p n x, dpo (dr s) = DOut p n x /\ dpo (dr s') = DNext p n /\ In x (held (dsh (dr s'))) /\ ctx s' t = CRel o (UDead x)) ->
  exists q', linv s' q' /\ lrel s s' q q'.
Proof.
  intros X L C Hlb Hans HD HC HT HP. destruct (l_d _ _ L) as (l & LD).
  pose proof (l_pos _ _ L t) as LT. unfold lpos in LT. rewrite C in LT. destruct LT as (LT & LU). simpl in LU.
  destruct (e_h _ X t) as (_ & _ & XU); [now rewrite C|].
  destruct (drain_step _ _ _ _ LD Hlb) as (l' & q' & LD' & P1 & P2 & P3 & P4 & P5 & P6 & _). rewrite <- HD in *.
  exists q'. split.
  - apply (linv_list s s' q q' t); auto.
    + now exists l'.
    + intros z _. now rewrite HT.
    + intros t' _. now rewrite P1.
    + intros t' z Hn E. apply P3. now apply (l_hx _ _ L t').
    + intros t' Hn H. exfalso. now apply Hn, XU.
    + unfold lpos. rewrite P1, LT.
      destruct HP as [(-> & H)|[(-> & H)|(p & n & x & E1 & E2 & E3 & ->)]]; simpl; auto.
      split; auto. rewrite E2, HT. split; [easy|]. apply (l_cut _ _ L). now rewrite E1.
    + intros z. destruct HP as [(-> & H)|[(-> & H)|(p & n & x & E1 & E2 & E3 & ->)]]; simpl; try easy.
      intros E. injection E as <-. split; auto. intros t' Hn E.
      apply (l_hx _ _ L) in E. destruct LD as [HO _ _ _].
      destruct (own_cr _ _ _ _ _ HO O x) as (_ & _ & K & _); [simpl; now rewrite E1|auto].
    + intros D. exists t. destruct HP as [(-> & H)|[(-> & H)|(p & n & x & E1 & E2 & E3 & ->)]]; easy.
    + intros c Hc. rewrite HT. destruct (P6 _ Hc) as [H|(-> & p & n & H)]; [now apply (l_cut _ _ L)|eauto].
  - assert (Hnp : forall t' f w x, ctx s t' = CPush f w x -> ctx s' t' = CPoll2 f w -> False).
    { intros t' f w x E1 E2. destruct (Nat.eq_dec t' t) as [->|Hn]; [congruence|]. rewrite HC in E2 by auto. congruence. }
    repeat split.
    + intros x Hx. destruct (P4 _ Hx) as [H|(-> & p & n & H)]; eauto.
    + intros t' f w x E1 E2. now destruct (Hnp _ _ _ _ E1 E2).
    + intros x Hx. left. auto.
    + intros D. now destruct LU.
Qed.

Lemma upos_l s q t o s' : linv s q -> (exists u, ctx s t = CRel o u) -> dr s' = dr s ->
  (forall t', t' <> t -> ctx s' t' = ctx s t') -> (forall x, tk s x = true -> tk s' x = true) ->
  (exists u', ctx s' t = CRel o u' /\ upos_ok s' q u') ->
  (hx (ctx s' t) = None \/ hx (ctx s' t) = hx (ctx s t)) ->
  (draining (ctx s t) = true -> draining (ctx s' t) = true) ->
  exists q', linv s' q' /\ lrel s s' q q'.
Proof.
  intros L (u & C) HD HC HT (u' & C' & HU) HX HR. exists q. split.
  - apply (linv_local s s' q t); auto.
    pose proof (l_pos _ _ L t) as LT. unfold lpos in *. rewrite C in LT. rewrite C', HD. split; auto. apply LT.
  - apply lrel_same. intros t' f w x E1 E2. destruct (Nat.eq_dec t' t) as [->|Hn]; [congruence|].
    rewrite HC in E2 by auto. congruence.
Qed.

Lemma ustep_l s q t o u spur : excl s -> linv s q -> ctx s t = CRel o u ->
  exists q', linv (ustep atomics s t o u spur) q' /\ lrel s (ustep atomics s t o u spur) q q'.
Proof.
  intros X L C. destruct (l_d _ _ L) as (l & LD).
  pose proof (l_pos _ _ L t) as LT. unfold lpos in LT. rewrite C in LT. destruct LT as (LT & LU).
  assert (Hctx : forall p t', t' <> t -> upd (ctx s) t p t' = ctx s t') by (intros; now rewrite upd_other).
  destruct u as [| |x|x| |c|c n|c n|w|w]; simpl in LU; unfold ustep.
  - assert (D : dpo (dr s) = DIdle) by (apply (quiet s q t); auto; now rewrite C).
    destruct (e_h _ X t) as (_ & _ & XU); [now rewrite C|].
    destruct (dinv_step false _ _ _ DStart LD) as (l' & q' & Ha & LD'). unfold list_step. simpl in *. rewrite D in *. simpl in *.
    pose proof (idle_q _ _ _ LD D) as ->. injection Ha as <-. exists (QRun [] [] l). split.
    + apply (linv_list s _ (QIdle l) (QRun [] [] l) t); simpl; auto.
      * eauto.
      * intros t' z Hn E. now apply (l_hx _ _ L t').
      * intros t' Hn H. now destruct Hn; apply XU.
      * unfold lpos. simpl. now rewrite upd_same.
      * rewrite upd_same. easy.
      * intros _. exists t. now rewrite upd_same.
      * easy.
    + repeat split; simpl; auto.
      * intros t' f w x E1. destruct (Nat.eq_dec t' t) as [->|Hn]; rewrite ?upd_same, ?upd_other by auto; congruence.
      * intros _. now exists [].
  - assert (Hc : forall lb, drain_label lb = true -> (lb = DAnswer true -> forall p c n, dpo (dr s) = DFilter p c n -> tk s c = true) ->
       dpo (fst (drstep false (dr s) lb)) <> DIdle ->
       exists q', linv (list_step s lb) q' /\ lrel s (list_step s lb) q q').
    { intros lb H1 H2 H3. apply (drain_l s q t o lb); auto. }
    destruct (dpo (dr s)) as [|p c|p c n|p c n|c n|p c n|p c n|p n x] eqn:D; [now destruct LU|..].
    + apply (drain_l s q t o (DStep spur)); auto; try easy.
      * unfold list_step. simpl. rewrite D. simpl. now destruct (c =? 0).
      * intros t' Hn. unfold list_step. simpl. rewrite D. simpl. destruct (c =? 0); simpl; auto.
      * unfold list_step. simpl. rewrite D. simpl. now destruct (c =? 0).
      * unfold list_step. simpl. rewrite D. simpl. destruct (c =? 0); simpl; [right; left|left]; now rewrite ?upd_same.
    + assert (E : dr (visit s c) = dr s).
      { apply (visit_dr s l q); auto; destruct LD as [HO _ _ HQ]; rewrite D in HQ; destruct q as [|f k [|y z]|]; simpl in HQ; try easy;
        destruct HQ as (-> & -> & _).
        - rewrite app_assoc in HO. apply (chain_mid _ _ _ _ _ (own_chain _ _ _ _ _ HO)).
        - apply (own_ld _ _ _ _ _ HO). rewrite !in_app_iff. simpl. auto. }
      apply (drain_l s q t o (DAnswer (tk s c))); auto.
      * intros Hb p' c' n' Hd. rewrite D in Hd. injection Hd as <- <- <-. congruence.
      * unfold list_step, set_dr. rewrite E. reflexivity.
      * left. split; auto. unfold list_step, set_dr. rewrite E. simpl. rewrite D. simpl. now destruct (tk s c).
    + destruct (negb atomics && (p =? 0)) eqn:B; apply Hc; auto; try easy; simpl; rewrite D; simpl.
      * apply andb_prop in B as (_ & ->). now destruct (hd (dsh (dr s)) =? c).
      * destruct (p =? 0); simpl; [|easy]. now destruct (hd (dsh (dr s)) =? c).
    + apply (drain_l s q t o (DStep spur)); auto; try easy; unfold list_step; simpl; rewrite D; simpl;
        destruct (negb spur && _); simpl; auto; try (left; easy); destruct (hd (dsh (dr s)) =? c); simpl; auto; left; easy.
    + apply (drain_l s q t o (DStep spur)); auto; try easy; unfold list_step; simpl; rewrite D; simpl;
        destruct (nx (dsh (dr s)) p =? c); simpl; auto; left; easy.
    + apply (drain_l s q t o (DStep spur)); auto; try easy; unfold list_step; simpl; rewrite D; simpl; auto; left; easy.
    + apply (drain_l s q t o (DStep spur)); auto; try easy; unfold list_step; simpl; rewrite ?D; simpl; auto.
      right. right. exists p, n, x. rewrite upd_same. repeat split; auto. apply in_app_iff. simpl. auto.
  - destruct LU as (D & T). rewrite T.
    assert (Hh : In x (held (dsh (dr s)))) by (apply (l_hx _ _ L t); now rewrite C).
    apply (upos_l s q t o); simpl; auto.
    + eauto.
    + simpl. apply (visit_dr s l q); auto; [now apply (own_h0 _ _ _ _ _ (di_own _ _ _ LD))|now apply (own_hd _ _ _ _ _ (di_own _ _ _ LD))].
    + exists (UFree x). simpl. now rewrite upd_same.
    + right. simpl. now rewrite upd_same, C.
    + simpl. now rewrite upd_same.
  - destruct LU as (D & T).
    destruct (e_h _ X t) as (_ & _ & XU); [now rewrite C|].
    assert (Hh : In x (held (dsh (dr s)))) by (apply (l_hx _ _ L t); now rewrite C).
    assert (Hm : mem_N x (held (dsh (dr s))) = true) by now apply mem_N_In.
    destruct (silent_step false _ _ q (AFree x) LD) as (l' & LD'); [simpl; now rewrite Hm|].
    unfold list_step. simpl in *. rewrite Hm in *. simpl in *. exists q. split.
    + apply (linv_list s _ q q t); simpl; auto.
      * eauto.
      * intros t' z Hn E. apply In_remove1_other; [|now apply (l_hx _ _ L t')].
        intros ->. apply Hn. apply (l_hx2 _ _ L t' t x); auto. now rewrite C.
      * intros t' Hn H. now destruct Hn; apply XU.
      * unfold lpos. simpl. now rewrite upd_same.
      * rewrite upd_same. easy.
      * intros _. exists t. now rewrite upd_same.
      * apply (l_cut _ _ L).
    + apply lrel_same. simpl. intros t' f w z E1 E2.
      destruct (Nat.eq_dec t' t) as [->|Hn]; [congruence|]. rewrite upd_other in E2 by auto. congruence.
  - assert (D : dpo (dr s) = DIdle) by (apply (quiet s q t); auto; now rewrite C).
    pose proof (idle_q _ _ _ LD D) as ->.
    apply (upos_l s (QIdle l) t o); simpl; auto.
    + eauto.
    + rewrite upd_same. eexists. split; [reflexivity|]. simpl. exists [], l. split; auto.
      apply (chain_head0 _ _ _ (own_chain _ _ _ _ _ (di_own _ _ _ LD))).
    + left. now rewrite upd_same.
    + now rewrite C.
  - assert (D : dpo (dr s) = DIdle) by (apply (quiet s q t); auto; now rewrite C).
    pose proof (idle_q _ _ _ LD D) as ->.
    destruct (N.eqb_spec c 0) as [->|Hc].
    + apply (upos_l s (QIdle l) t o); simpl; auto; rewrite ?upd_same; simpl; auto; rewrite ?C; eauto; try easy; eexists; split; [reflexivity|exact I].
    + destruct LU as (a & b & E & ->). destruct b as [|c b]; simpl in *; [easy|].
      subst l. apply (upos_l s (QIdle (a ++ c :: b)) t o); simpl; auto; rewrite ?upd_same; rewrite ?C; eauto; try easy.
      * apply (visit_dr s _ _ c LD); auto. apply (own_ld _ _ _ _ _ (di_own _ _ _ LD)), in_app_iff. simpl. auto.
      * eexists. split; [reflexivity|]. simpl. exists a, b. split; auto.
        apply (chain_nx _ _ _ _ _ (own_chain _ _ _ _ _ (di_own _ _ _ LD))).
  - destruct LU as (a & b & E & ->).
    assert (Hv : dr (visit s c) = dr s).
    { destruct (content_alive _ _ _ c LD) as (? & ? & _); [rewrite E; apply in_app_iff; simpl; auto|]. now apply (visit_dr s l q). }
    destruct (tk s c); apply (upos_l s q t o); simpl; auto using setx_true; rewrite ?upd_same; rewrite ?C; eauto; try easy.
    + eexists. split; [reflexivity|]. simpl. exists (a ++ [c]), b. now rewrite <- app_assoc.
    + eexists. split; [reflexivity|]. simpl. rewrite E. apply in_app_iff; simpl; auto.
  - assert (Hv : dr (visit s c) = dr s).
    { destruct (content_alive _ _ _ c LD) as (? & ? & _); auto. now apply (visit_dr s l q). }
    unfold read_wk. simpl.
    destruct (wk s c); apply (upos_l s q t o); simpl; auto; rewrite ?upd_same; rewrite ?C; eauto; try easy; (eexists; split; [reflexivity|exact I]).
  - apply (step_local s _ q t); auto; simpl; rewrite ?C, ?upd_same; auto. now destruct w.
  - apply (step_local s _ q t); auto; simpl; rewrite ?C, ?upd_same; auto.
Qed.

Lemma linv_step s q a : excl s -> linv s q ->
  exists q', linv (mstep atomics s a) q' /\ lrel s (mstep atomics s a) q q'.
Proof.
  intros X L.
  assert (Hsame : exists q', linv s q' /\ lrel s s q q').
  { exists q. split; auto. apply lrel_same. intros; congruence. }
  destruct a as [t o|t spur x| |v]; simpl.
  - unfold mcall. destruct (ctx s t) eqn:C; try exact Hsame. destruct o as [|f w|f|].
    + local_ t C.
    + destruct (fu s f) as [[] p|]; try exact Hsame. local_ t C.
    + destruct (fu s f) as [[] p|]; try exact Hsame. local_ t C.
    + destruct (gd s) as [|n] eqn:G; try exact Hsame. local_ t C.
  - unfold cstep. destruct (ctx s t) as [| |f w|f w|f w|f w y|f w|f w y g|f w y g|f|f y g|f|o u|o r] eqn:C; [exact Hsame|..].
    + destruct (lk s); local_ t C.
    + destruct (lk s); [local_ t C|]. unfold locked. destruct (fu s f) as [b [[y g]|]|]; local_ t C.
    + destruct (waiter s f) as [[y g]|]; [destruct (tk s y)|]; local_ t C.
    + destruct (mem_N x _ && negb (x =? 0)) eqn:M; [|exact Hsame].
      destruct (l_d _ _ L) as (l & LD). pose proof M as M'. apply andb_prop in M' as (Md & M0). apply mem_N_In in Md.
      pose proof (l_pos _ _ L t) as LT. unfold lpos in LT. rewrite C in LT.
      assert (Hfr : ~ In x (held (dsh (dr s)))).
      { intros Hh. apply (own_hd _ _ _ _ _ (di_own _ _ _ LD) _ Hh Md). }
      assert (Htk : forall z, ~ In z (dead (dsh (dr s))) -> tk s z = true -> setx (tk s) x false z = true).
      { intros z Hz E. unfold setx. destruct (N.eqb_spec z x); congruence. }
      assert (Hct : forall c, cutting (dpo (dr s)) = Some c -> setx (tk s) x false c = true).
      { intros c Hc. apply Htk; [now apply (cut_alive _ _ _ _ LD)|now apply (l_cut _ _ L)]. }
      exists q. split.
      * destruct (silent_step false (dr s) l q (AReuse x) LD) as (l1 & LD1); [simpl; now rewrite M|].
        simpl in LD1. rewrite M in LD1. simpl in LD1.
        assert (Hdr : dpo (dr s) <> DIdle -> exists t', draining (upd (ctx s) t (CPush f w x) t') = true).
        { intros D. destruct (l_dr _ _ L D) as (t' & K). exists t'. rewrite upd_other; auto. intros ->. now rewrite C in K. }
        assert (Hhx : forall t', hx (ctx s t') <> Some x).
        { intros t' E. apply Hfr. now apply (l_hx _ _ L t'). }
        destruct atomics eqn:HA.
        -- assert (Hm : mem_N x (held (dsh (dr s)) ++ [x]) = true) by (apply mem_N_In; apply in_app_iff; simpl; auto).
           destruct (silent_step false _ _ q (ACall t x) LD1) as (l2 & LD2); [simpl; now rewrite LT, Hm|].
           unfold list_step. simpl. rewrite M. simpl in LD2 |- *. rewrite LT, Hm in LD2 |- *. simpl in LD2 |- *.
           apply (linv_list s _ q q t); simpl; auto.
           ++ now exists l2.
           ++ oth.
           ++ oth.
           ++ intros t' z Hn E. apply In_remove1_other; [|apply in_app_iff; left; now apply (l_hx _ _ L t')].
              intros ->. now apply (Hhx t').
           ++ intros. split; auto. now exists [].
           ++ unfold lpos. simpl. rewrite upd_same, HA, upd_same. reflexivity.
           ++ rewrite upd_same. simpl. now rewrite HA.
        -- unfold list_step. simpl. rewrite M. simpl.
           apply (linv_list s _ q q t); simpl; auto.
           ++ now exists l1.
           ++ oth.
           ++ intros t' z Hn E. apply in_app_iff; left; now apply (l_hx _ _ L t').
           ++ intros. split; auto. now exists [].
           ++ unfold lpos. simpl. rewrite upd_same, HA. exact LT.
           ++ intros z. rewrite upd_same. simpl. rewrite HA. intros E. injection E as <-. split; auto.
              apply in_app_iff; simpl; auto.
      * apply lrel_same. intros t' f' w' z E1 E2. revert E2. destruct atomics; simpl;
        destruct (Nat.eq_dec t' t) as [->|Hn]; rewrite ?upd_same, ?upd_other by auto; congruence.
    + destruct (l_d _ _ L) as (l & LD).
      pose proof (l_pos _ _ L t) as LT. unfold lpos in LT. rewrite C in LT.
      destruct atomics eqn:HA.
      * destruct (push_step _ _ _ t spur _ LD LT) as (l' & q' & LD' & P1 & P2 & P3 & P4 & P5).
        unfold list_step. cbv zeta.
        repeat match goal with |- context [dr (set_dr ?a ?b)] => change (dr (set_dr a b)) with b end.
        remember (fst (drstep false (dr s) (AStep t spur))) as d' eqn:Hd'.
        destruct P5 as [(P5 & ->)|(P5 & P6)].
        -- assert (K : exists q', linv (set_dr s d') q' /\ lrel s (set_dr s d') q q').
           { exists q. split.
             - apply (linv_list s _ q q t); simpl; auto; rewrite ?P3, ?P4.
               + now exists l'.
               + intros t' z Hn E. now apply (l_hx _ _ L t').
               + intros. split; auto. now exists [].
               + unfold lpos. simpl. rewrite C, HA. exact P5.
               + intros z. rewrite C. simpl. now rewrite HA.
               + apply (l_dr _ _ L).
               + apply (l_cut _ _ L).
             - apply lrel_same. simpl. intros; congruence. }
           destruct (dth d' t); try exact K. easy.
        -- rewrite P5. destruct (silent_step false d' l' q' (ARet t) LD') as (l2 & LD2); [simpl; now rewrite P5|].
           simpl in LD2 |- *. rewrite P5 in LD2 |- *. simpl in LD2 |- *. exists q'. split.
           ++ apply (linv_list s _ q q' t); simpl; auto; rewrite ?P3, ?P4.
              ** rewrite P4 in LD2. now exists l2.
              ** oth.
              ** intros t' Hn. rewrite upd_other by auto. now apply P1.
              ** intros t' z Hn E. now apply (l_hx _ _ L t').
              ** intros. split; auto. now exists [y].
              ** unfold lpos. simpl. now rewrite !upd_same.
              ** intros z. now rewrite upd_same.
              ** intros D. destruct (l_dr _ _ L D) as (t' & K). exists t'. rewrite upd_other; auto. intros ->. now rewrite C in K.
              ** apply (l_cut _ _ L).
           ++ repeat split; rewrite ?P6; simpl; auto.
              ** intros t' f' w' z E1 E2. destruct (Nat.eq_dec t' t) as [->|Hn].
                 --- left. congruence.
                 --- rewrite upd_other in E2 by auto. congruence.
              ** intros z [<-|H]; [right|now left]. exists t, f, w. now rewrite upd_same.
              ** intros _. now exists [y].
      * assert (Hh : In y (held (dsh (dr s)))). { apply (l_hx _ _ L t). rewrite C. simpl. now rewrite HA. }
        assert (Hm : mem_N y (held (dsh (dr s))) = true) by now apply mem_N_In.
        destruct (dinv_step false (dr s) l q (APush y) LD) as (l' & q' & Ha & LD').
        unfold list_step. simpl in *. rewrite Hm in *. simpl in *. injection Ha as Hq.
        assert (P6 : dcontents q' = y :: dcontents q) by (rewrite <- Hq; now destruct q).
        exists q'. split.
        -- apply (linv_list s _ q q' t); simpl; auto.
           ++ now exists l'.
           ++ oth.
           ++ intros t' z Hn E. apply In_remove1_other; [|now apply (l_hx _ _ L t')].
              intros ->. apply Hn. apply (l_hx2 _ _ L t' t y); auto. rewrite C. simpl. now rewrite HA.
           ++ intros. split; auto. now exists [y].
           ++ unfold lpos. simpl. now rewrite !upd_same.
           ++ intros z. now rewrite upd_same.
           ++ intros D. destruct (l_dr _ _ L D) as (t' & K). exists t'. rewrite upd_other; auto. intros ->. now rewrite C in K.
           ++ apply (l_cut _ _ L).
        -- repeat split; rewrite ?P6; simpl; auto.
           ++ intros t' f' w' z E1 E2. destruct (Nat.eq_dec t' t) as [->|Hn].
              --- left. congruence.
              --- rewrite upd_other in E2 by auto. congruence.
           ++ intros z [<-|H]; [right|now left]. exists t, f, w. now rewrite upd_same.
           ++ intros _. now exists [y].
    + destruct (lk s); [local_ t C|]. unfold locked, waiter.
      destruct (fu s f) as [b [[y g]|]|] eqn:E; simpl; rewrite ?E; local_ t C.
    + destruct (tk s y); local_ t C.
    + unfold read_wk. simpl. destruct (wk s y); local_ t C.
    + destruct (waiter s f) as [[y g]|]; [destruct (tk s y)|]; local_ t C.
    + unfold read_wk. simpl. destruct (wk s y); local_ t C.
    + destruct (lk s); local_ t C.
    + now apply ustep_l.
    + destruct r, o as [|f w|f|]; simpl; try (destruct (fu s f) as [b p|]); local_ t C.
  - destruct (gd s); [exact Hsame|]. exists q. split.
    + apply (linv_local s _ q O); auto. exact (l_pos _ _ L O).
    + apply lrel_same. simpl. intros; congruence.
  - destruct (gd s); [exact Hsame|]. exists q. split.
    + apply (linv_local s _ q O); auto. exact (l_pos _ _ L O).
    + apply lrel_same. simpl. intros; congruence.
Qed.
End List_.
