(** The nodes of the waiters: no use after free as long as no release begins while a
    notified future has not been polled yet (see [o_stale]). *)
Require Import NArith List Bool Arith Lia.
From Verif Require Import AtomicSpec AtomicsProofs Treiber TreiberProofs DrainSpec Drain DrainProofs
  MutexSpec Mutex MutexProofs MutexList.
Import ListNotations.
Open Scope N_scope.

Lemma In_without f g l : In g (without f l) <-> In g l /\ g <> f.
Proof.
  unfold without. rewrite filter_In. destruct (Nat.eqb_spec g f); simpl; intuition congruence.
Qed.
Lemma among_In f l : among f l = true <-> In f l.
Proof.
  unfold among. rewrite existsb_exists. split.
  - intros (x & H & E). apply Nat.eqb_eq in E. now subst.
  - intros H. exists f. split; auto. apply Nat.eqb_refl.
Qed.
Lemma nonempty_no l f : nonempty l = false -> In f l -> False.
Proof. destruct l; easy. Qed.
Lemma order_app l e : order (l ++ [e]) = ostep (order l) e.
Proof. unfold order. now rewrite fold_left_app. Qed.

(** The future used by a context. *)
Definition pf (p : pos) : option nat :=
  match p with
  | CPoll1 f _ | CCheck f _ | CAlloc f _ | CPush f _ _ | CPoll2 f _ | CTake f _ _ _ | CTakeR f _ _ _
  | CDrop f | CDropR f _ _ | CDropTry f => Some f
  | CRel (DropFut f) _ => Some f
  | CRet (Poll f _) _ | CRet (DropFut f) _ => Some f
  | _ => None
  end.
(** The node whose waker a context is about to move out. *)
Definition rd (p : pos) : option N :=
  match p with CTakeR _ _ x _ | CDropR _ x _ | CRel _ (URead x _) => Some x | _ => None end.

(** A pointer to node [x] made by [f] when it had been freed [g] times is good. *)
Definition good (s : mst) (f : nat) (x : N) (g : nat) : Prop :=
  gen s x = g /\ x <> 0 /\ ~ In x (dead (dsh (dr s))) /\ ow s x = f.

(** Before the release notifies. *)
Definition before (u : upos) : bool := match u with URead _ _ | UStore _ | UWake _ => false | _ => true end.

Definition bpos (s : mst) (p : pos) : Prop :=
  let o := order (log s) in
  match p with
  | CIdle | CTry | CRet TryLock _ | CRet DropGuard _ => True
  | CPoll1 f _ | CCheck f _ | CAlloc f _ => (exists v, fu s f = FLive true v) /\ In f (o_poll o)
  | CPush f _ x => fu s f = FLive true (Some (x, gen s x)) /\ In f (o_poll o) /\ (tk s x = true -> In f (o_late o))
  | CPoll2 f _ | CRet (Poll f _) RPending =>
      exists x g, fu s f = FLive true (Some (x, g)) /\ In f (o_poll o) /\ (tk s x = true -> In f (o_late o))
  | CTake f _ x g => fu s f = FLive true None /\ good s f x g /\ (tk s x = false -> wk s x <> None)
  | CTakeR f _ x g => fu s f = FLive true None /\ good s f x g /\ tk s x = true /\ wk s x <> None
  | CRet (Poll f _) _ => fu s f = FLive true None
  | CDrop f => (exists v, fu s f = FLive true v) /\ In f (o_drop o)
  | CDropR f x g => fu s f = FLive true None /\ In f (o_drop o) /\ good s f x g /\ tk s x = true /\ wk s x <> None
  | CDropTry f | CRet (DropFut f) _ => fu s f = FLive true None /\ In f (o_drop o)
  | CRel r u =>
      match r with DropFut f => fu s f = FLive true None /\ In f (o_drop o) | DropGuard => True | _ => False end /\
      (before u = true -> forall f, In f (o_not o) \/ In f (o_drop o) -> r = DropFut f) /\
      (holds p = true -> o_rel o = true) /\
      match u with URead c _ => tk s c = true /\ wk s c <> None | _ => True end
  end.

Definition bfut (s : mst) (f : nat) : Prop :=
  forall b x g, fu s f = FLive b (Some (x, g)) ->
    good s f x g /\ (tk s x = true -> In f (o_not (order (log s)))) /\ (tk s x = false -> wk s x <> None).

Record binv (s : mst) (q : dspec) : Prop := {
  b_w : forall f, bfut s f;
  b_p : forall t, bpos s (ctx s t);
  b_u : forall t t' f, pf (ctx s t) = Some f -> pf (ctx s t') = Some f -> t = t';
  b_r : forall t t' x, rd (ctx s t) = Some x -> rd (ctx s t') = Some x -> t = t';
  b_c : forall x, In x (dcontents q) -> tk s x = false -> wk s x <> None;
  b_ok : uaf s = false /\ bad s = false
}.

(** A pointer of future [f] that is not in the hands of context [t]. *)
Definition ptr (s : mst) (t f : nat) (x : N) (g : nat) : Prop :=
  (exists b, fu s f = FLive b (Some (x, g))) \/
  (exists t' w, t' <> t /\ (ctx s t' = CTake f w x g \/ ctx s t' = CTakeR f w x g \/ ctx s t' = CDropR f x g)).

(** Step [s -> s'] of [t] keeps node [x], used by future [f]. *)
Definition keep (s s' : mst) (t f : nat) (x : N) : Prop :=
  let o := order (log s) in let o' := order (log s') in
  gen s' x = gen s x /\
  (~ In x (dead (dsh (dr s))) -> ~ In x (dead (dsh (dr s')))) /\
  ow s' x = ow s x /\
  (tk s x = true -> tk s' x = true) /\
  (tk s' x = true -> tk s x = true \/ (In f (o_not o') /\ (In f (o_poll o) -> In f (o_late o')))) /\
  (wk s x <> None -> wk s' x <> None \/ (tk s x = true /\ rd (ctx s t) = Some x)).

Lemma keep_same s s' t f x : gen s' = gen s -> dead (dsh (dr s')) = dead (dsh (dr s)) -> ow s' = ow s ->
  tk s' = tk s -> wk s' = wk s -> keep s s' t f x.
Proof. unfold keep. intros -> -> -> -> ->. repeat split; auto. Qed.

Definition olists (o o' : obs) (f : nat) : Prop :=
  (In f (o_poll o) -> In f (o_poll o')) /\ (In f (o_late o) -> In f (o_late o')) /\
  (In f (o_drop o) -> In f (o_drop o')) /\ (In f (o_not o) -> In f (o_not o')).
Lemma olists_refl o f : olists o o f. Proof. repeat split; auto. Qed.

Lemma binv_frame s s' q q' t (mine : option nat) : binv s q ->
  (forall t', t' <> t -> ctx s' t' = ctx s t') ->
  (forall f, mine <> Some f -> fu s' f = fu s f) ->
  (forall t' f, t' <> t -> mine = Some f -> pf (ctx s t') <> Some f) ->
  (forall f x g, mine <> Some f -> ptr s t f x g -> keep s s' t f x) ->
  (forall f, mine <> Some f -> olists (order (log s)) (order (log s')) f) ->
  (forall t', t' <> t -> match ctx s t' with CRel _ _ => True | _ => False end -> holds (ctx s t') = true ->
     o_rel (order (log s')) = o_rel (order (log s)) /\
     forall f, In f (o_not (order (log s'))) \/ In f (o_drop (order (log s'))) ->
               In f (o_not (order (log s))) \/ In f (o_drop (order (log s)))) ->
  (forall t' o c n, t' <> t -> ctx s t' = CRel o (URead c n) -> tk s c = true -> wk s c <> None ->
     tk s' c = true /\ wk s' c <> None) ->
  bpos s' (ctx s' t) ->
  (forall f, mine = Some f -> bfut s' f) ->
  (pf (ctx s' t) = None \/ pf (ctx s' t) = mine) ->
  (forall x, rd (ctx s' t) = Some x -> forall t', t' <> t -> rd (ctx s t') <> Some x) ->
  (forall x, In x (dcontents q') -> tk s' x = false -> wk s' x <> None) ->
  uaf s' = false -> bad s' = false ->
  binv s' q'.
Proof.
  intros [BW BP BU BR BC BO] HC HF HM HK HL HR HV HP HN Hpf Hrd Hc Hu Hb.
  assert (Hgood : forall f x g, mine <> Some f -> ptr s t f x g -> good s f x g -> good s' f x g).
  { intros f x g Hm Hp (G1 & G2 & G3 & G4). destruct (HK _ _ _ Hm Hp) as (K1 & K2 & K3 & _).
    unfold good. rewrite K1, K3. repeat split; auto. }
  constructor; auto.
  - intros f. destruct mine as [m|] eqn:Em.
    + destruct (Nat.eq_dec f m) as [->|Hne]; [now apply HN|].
      assert (Hm : Some m <> Some f) by congruence.
      intros b x g. rewrite HF by auto. intros E. assert (Hp : ptr s t f x g) by (left; eauto).
      destruct (BW _ _ _ _ E) as (G & B1 & B2). destruct (HK _ _ _ Hm Hp) as (K1 & K2 & K3 & K4 & K5 & K6).
      split; [now apply Hgood|]. destruct (HL _ Hm) as (_ & _ & _ & L4). split.
      * intros T. destruct (K5 T) as [T0|(N1 & _)]; auto.
      * intros T. assert (T0 : tk s x = false). { destruct (tk s x); auto. specialize (K4 eq_refl). congruence. }
        destruct (K6 (B2 T0)) as [?|(? & _)]; auto. congruence.
    + assert (Hm : None <> Some f) by congruence.
      intros b x g. rewrite HF by auto. intros E. assert (Hp : ptr s t f x g) by (left; eauto).
      destruct (BW _ _ _ _ E) as (G & B1 & B2). destruct (HK _ _ _ Hm Hp) as (K1 & K2 & K3 & K4 & K5 & K6).
      split; [now apply Hgood|]. destruct (HL _ Hm) as (_ & _ & _ & L4). split.
      * intros T. destruct (K5 T) as [T0|(N1 & _)]; auto.
      * intros T. assert (T0 : tk s x = false). { destruct (tk s x); auto. specialize (K4 eq_refl). congruence. }
        destruct (K6 (B2 T0)) as [?|(? & _)]; auto. congruence.
  - intros t'. destruct (Nat.eq_dec t' t) as [->|Hne]; auto. rewrite HC by auto.
    pose proof (BP t') as B. specialize (HM t'). specialize (HV t').
    assert (Hm : forall f, pf (ctx s t') = Some f -> mine <> Some f) by (intros f Hf Hx; now apply (HM f Hne Hx)).
    assert (Hrd' : forall x, rd (ctx s t') = Some x -> rd (ctx s t) <> Some x).
    { intros x E1 E2. apply Hne. eapply BR; eauto. }
    specialize (HR t' Hne). clear HM.
    assert (Late : forall f x g, pf (ctx s t') = Some f -> fu s f = FLive true (Some (x, g)) -> In f (o_poll (order (log s))) ->
       (tk s x = true -> In f (o_late (order (log s)))) ->
       fu s' f = FLive true (Some (x, g)) /\ gen s' x = gen s x /\ In f (o_poll (order (log s'))) /\
       (tk s' x = true -> In f (o_late (order (log s'))))).
    { intros f x g Hf E B2 B3. specialize (Hm f Hf). destruct (HL f Hm) as (L1 & L2 & L3 & L4).
      assert (Hp : ptr s t f x g) by (left; eauto).
      destruct (HK _ _ _ Hm Hp) as (K1 & K2 & K3 & K4 & K5 & K6). rewrite HF by auto. repeat split; auto.
      intros T. destruct (K5 T) as [?|(_ & ?)]; auto. }
    assert (Read : forall f x g, mine <> Some f -> ptr s t f x g -> rd (ctx s t') = Some x -> good s f x g ->
       tk s x = true -> wk s x <> None -> good s' f x g /\ tk s' x = true /\ wk s' x <> None).
    { intros f x g Hmf Hp Hx G T W. destruct (HK _ _ _ Hmf Hp) as (K1 & K2 & K3 & K4 & K5 & K6).
      split; [now apply Hgood|]. split; auto. destruct (K6 W) as [?|(_ & R)]; auto. now destruct (Hrd' _ Hx). }
    destruct (ctx s t') as [| |f w|f w|f w|f w x|f w|f w x g|f w x g|f|f x g|f|o u|o r] eqn:C; unfold bpos in *; cbv zeta in *; auto;
      try (specialize (Hm f eq_refl)).
    + rewrite HF by auto. destruct B. split; auto. now apply HL.
    + rewrite HF by auto. destruct B. split; auto. now apply HL.
    + rewrite HF by auto. destruct B. split; auto. now apply HL.
    + destruct B as (B1 & B2 & B3). destruct (Late f x _ eq_refl B1 B2 B3) as (L1 & -> & L2 & L3). auto.
    + destruct B as (x & g & B1 & B2 & B3). exists x, g. destruct (Late f x _ eq_refl B1 B2 B3) as (L1 & _ & L2 & L3). auto.
    + destruct B as (B1 & B2 & B3).
      assert (Hp : ptr s t f x g) by (right; exists t', w; auto).
      rewrite HF by auto. split; auto. split; [now apply Hgood|].
      destruct (HK _ _ _ Hm Hp) as (K1 & K2 & K3 & K4 & K5 & K6).
      intros T. assert (T0 : tk s x = false). { destruct (tk s x); auto. specialize (K4 eq_refl). congruence. }
      destruct (K6 (B3 T0)) as [?|(? & _)]; auto. congruence.
    + destruct B as (B1 & B2 & B3 & B4).
      assert (Hp : ptr s t f x g) by (right; exists t', w; auto).
      rewrite HF by auto. split; auto.
    + rewrite HF by auto. destruct B. split; auto. now apply HL.
    + destruct B as (B1 & B2 & B3 & B4 & B5).
      assert (Hp : ptr s t f x g) by (right; exists t', 0; auto).
      rewrite HF by auto. split; auto. split; [now apply HL|]. auto.
    + rewrite HF by auto. destruct B. split; auto. now apply HL.
    + destruct B as (B1 & B2 & B3 & B4).
      assert (Hh : before u = true -> holds (CRel o u) = true) by now destruct u.
      split; [|split; [|split]].
      * destruct o as [|f w|f|]; auto. specialize (Hm f eq_refl). rewrite HF by auto. destruct B1. split; auto. now apply HL.
      * intros Hbu f Hf. apply B2; auto. now apply HR; auto.
      * intros H. destruct (HR I H) as (-> & _). auto.
      * destruct u; auto. destruct B4. eapply HV; eauto.
    + destruct o as [|f w|f|]; auto.
      * specialize (Hm f eq_refl). destruct r; try (now rewrite HF by auto).
        destruct B as (x & g & B1 & B2 & B3). exists x, g. destruct (Late f x _ eq_refl B1 B2 B3) as (L1 & _ & L2 & L3). auto.
      * specialize (Hm f eq_refl). rewrite HF by auto. destruct B. split; auto. now apply HL.
  - intros t1 t2 f. destruct (Nat.eq_dec t1 t) as [->|H1], (Nat.eq_dec t2 t) as [->|H2]; auto; try rewrite (HC t1 H1); try rewrite (HC t2 H2).
    + intros E1 E2. exfalso. destruct Hpf as [Hp|Hp]; rewrite Hp in E1; [easy|]. now apply (HM t2 f).
    + intros E2 E1. exfalso. destruct Hpf as [Hp|Hp]; rewrite Hp in E1; [easy|]. now apply (HM t1 f).
    + apply BU.
  - intros t1 t2 x. destruct (Nat.eq_dec t1 t) as [->|H1], (Nat.eq_dec t2 t) as [->|H2]; auto; try rewrite (HC t1 H1); try rewrite (HC t2 H2).
    + intros E1 E2. now destruct (Hrd x E1 t2).
    + intros E2 E1. now destruct (Hrd x E1 t1).
    + apply BR.
Qed.

Lemma busy s q t f : binv s q -> pf (ctx s t) = Some f -> exists v, fu s f = FLive true v.
Proof.
  intros B H. pose proof (b_p _ _ B t) as P. unfold bpos in P.
  destruct (ctx s t) as [| |g w|g w|g w|g w x|g w|g w x k|g w x k|g|g x k|g|o u|o r]; simpl in H; try easy.
  all: try (injection H as ->).
  all: try (destruct P as ((v & P) & _); now eauto); try (destruct P as (P & _); now eauto).
  - destruct P as (y & k & P & _). eauto.
  - destruct o as [|g w|g|]; try easy. injection H as ->. destruct P as ((P & _) & _). eauto.
  - destruct o as [|g w|g|]; try easy; injection H as ->; [|destruct P; eauto].
    destruct r; eauto. destruct P as (x & g & P & _). eauto.
Qed.

Lemma ptr_good s q t f x g : binv s q -> ptr s t f x g -> good s f x g.
Proof.
  intros B [(b & E)|(t' & w & _ & [E|[E|E]])].
  - now apply (b_w _ _ B) in E.
  - pose proof (b_p _ _ B t') as P. rewrite E in P. now simpl in P.
  - pose proof (b_p _ _ B t') as P. rewrite E in P. now simpl in P.
  - pose proof (b_p _ _ B t') as P. rewrite E in P. now simpl in P.
Qed.

Lemma rd_tk s q t x : binv s q -> rd (ctx s t) = Some x -> tk s x = true /\ wk s x <> None.
Proof.
  intros B H. pose proof (b_p _ _ B t) as P. unfold bpos in P.
  destruct (ctx s t) as [| |g w|g w|g w|g w y|g w|g w y k|g w y k|g|g y k|g|o u|o r]; simpl in H; try easy.
  - injection H as ->. tauto.
  - injection H as ->. tauto.
  - destruct u; try easy. injection H as ->. tauto.
Qed.

(** Other contexts do not use what [t] uses, nor an idle future. *)
Lemma others s q t m : binv s q ->
  (m = None \/ pf (ctx s t) = m \/ exists f p, m = Some f /\ fu s f = FLive false p) ->
  forall t' f, t' <> t -> m = Some f -> pf (ctx s t') <> Some f.
Proof.
  intros B H t' f Hn -> E. destruct H as [H|[H|(g & p & H & F)]]; [easy| |].
  - apply Hn. now apply (b_u _ _ B t' t f).
  - injection H as <-. destruct (busy _ _ _ _ B E). congruence.
Qed.

Lemma no_other s t t' : excl s -> holds (ctx s t) = true -> t' <> t -> holds (ctx s t') = true -> False.
Proof. intros X H Hn H'. destruct (e_h _ X t H) as (_ & _ & U). now apply Hn, U. Qed.
Lemma no_holder s t : excl s -> lk s = false -> holds (ctx s t) = false.
Proof. intros X H. destruct (holds (ctx s t)) eqn:E; auto. destruct (e_h _ X t E). congruence. Qed.

(** A step that does not change the nodes. *)
Lemma binv_quiet s s' q q' t m : binv s q ->
  (m = None \/ pf (ctx s t) = m \/ exists f p, m = Some f /\ fu s f = FLive false p) ->
  (forall t', t' <> t -> ctx s' t' = ctx s t') ->
  (forall f, m <> Some f -> fu s' f = fu s f) ->
  gen s' = gen s -> dead (dsh (dr s')) = dead (dsh (dr s)) -> ow s' = ow s -> tk s' = tk s -> wk s' = wk s ->
  (forall f, m <> Some f -> olists (order (log s)) (order (log s')) f) ->
  ((forall t' o u, t' <> t -> ctx s t' = CRel o u -> holds (CRel o u) = false) \/
   o_rel (order (log s')) = o_rel (order (log s)) /\
   forall f, In f (o_not (order (log s'))) \/ In f (o_drop (order (log s'))) ->
             In f (o_not (order (log s))) \/ In f (o_drop (order (log s)))) ->
  bpos s' (ctx s' t) ->
  (forall f, m = Some f -> bfut s' f) ->
  (pf (ctx s' t) = None \/ pf (ctx s' t) = m) ->
  rd (ctx s' t) = None ->
  (forall x, In x (dcontents q') -> In x (dcontents q) \/ wk s x <> None \/ tk s x = true) ->
  uaf s' = false -> bad s' = false ->
  binv s' q'.
Proof.
  intros B Hm HC HF H1 H2 H3 H4 H5 HL HR HP HN Hpf Hrd Hc Hu Hb.
  apply (binv_frame s s' q q' t m); auto.
  - now apply (others s q).
  - intros f x g _ _. now apply keep_same.
  - intros t' Hn Hr Hh. destruct HR as [HR|HR]; auto. destruct (ctx s t') eqn:E; try easy.
    rewrite (HR _ _ _ Hn E) in Hh. easy.
  - intros t' o c n _ _. now rewrite H4, H5.
  - rewrite Hrd. easy.
  - intros x Hx. rewrite H4, H5. intros T. destruct (Hc x Hx) as [K|[K|K]]; auto; [now apply (b_c _ _ B)|congruence].
Qed.

Lemma dead_same d lb : (match lb with AFree _ | AReuse _ => False | _ => True end) ->
  dead (dsh (fst (drstep false d lb))) = dead (dsh d).
Proof.
  destruct lb as [t x|t sp|t|x|x v|x|x| |sp| |b]; simpl; try easy; intros _.
  - destruct (dth d t); auto. destruct (mem_N _ _); auto.
  - destruct (dth d t); auto; simpl. destruct (negb sp && _); auto.
  - destruct (dth d t); auto.
  - destruct (mem_N _ _); auto.
  - destruct (mem_N _ _); auto.
  - destruct (dpo d); auto.
  - destruct (dpo d); simpl; auto; repeat match goal with |- context [if ?b then _ else _] => destruct b; simpl; auto end.
  - destruct (dpo d); simpl; auto; repeat match goal with |- context [if ?b then _ else _] => destruct b; simpl; auto end.
  - destruct (dpo d); auto.
Qed.

(** The history of marks grows. *)
Lemma stale_mono o e : o_stale (ostep o e) = false -> o_stale o = false.
Proof.
  destruct e as [op|op r|v|v|w|w|f|f| |f]; simpl; auto; try (destruct op); simpl; auto; intros H;
  repeat (apply orb_false_elim in H as (H & ?)); auto.
Qed.

Lemma order_emit s e : order (log (emit s e)) = ostep (order (log s)) e.
Proof. apply order_app. Qed.

Section Step.
Variable atomics : bool.

Lemma new_contents s s' q q' : binv s q -> lrel s s' q q' ->
  forall x, In x (dcontents q') -> In x (dcontents q) \/ wk s x <> None \/ tk s x = true.
Proof.
  intros B (_ & _ & R & _) x Hx. destruct (R x Hx) as [?|(t & f & w & C & _)]; auto.
  pose proof (b_p _ _ B t) as P. rewrite C in P. destruct P as (P & _). apply (b_w _ _ B) in P as (_ & _ & P).
  destruct (tk s x); auto.
Qed.

Ltac oth := intros t' Hne; simpl; now rewrite upd_other by exact Hne.
Ltac ord := simpl; rewrite ?order_app; simpl.
Ltac lists :=
  ord; intros ?f ?Hf; repeat split; simpl; rewrite ?In_without; try tauto; intuition congruence.
Ltac solve_q t C X :=
  first
  [ exact I | reflexivity | assumption
  | oth
  | solve [ simpl; intros; rewrite ?upd_other by congruence; auto ]
  | solve [ lists ]
  | solve [ right; ord; split; auto ]
  | solve [ left; intros t' o' u' Hne Ht; rewrite <- Ht; destruct (holds (ctx _ t')) eqn:?; auto; exfalso; eapply (no_other _ t t' X); [now rewrite C|auto..] ]
  | solve [ left; intros t' o' u' Hne Ht; rewrite <- Ht; now apply no_holder ]
  | solve [ simpl; rewrite upd_same; simpl; auto ]
  | solve [ simpl; rewrite upd_same; reflexivity ]
  | solve [ eapply new_contents; eassumption ]
  | solve [ right; left; rewrite C; reflexivity ]
  | solve [ left; reflexivity ]
  | idtac ].
Ltac quiet s q' t C X B m :=
  apply (binv_quiet s _ _ q' t m B); solve_q t C X.

Lemma call_b s q q' t o : excl s -> linv atomics s q -> binv s q ->
  o_stale (order (log (mcall s t o))) = false -> lrel s (mcall s t o) q q' -> binv (mcall s t o) q'.
Proof.
  intros X L B S R. destruct (b_ok _ _ B) as (Hu & Hb). unfold mcall in *.
  assert (Hs : lrel s s q q' -> binv s q').
  { intros R'. destruct B as [B1 B2 B3 B4 B5 B6]. constructor; auto. intros x Hx T.
    destruct R' as (_ & _ & R3 & _). destruct (R3 x Hx) as [?|(t' & f & w & E1 & E2)]; auto. congruence. }
  destruct (ctx s t) eqn:C; auto. destruct o as [|f w|f|].
  - quiet s q' t C X B (@None nat).
  - destruct (fu s f) as [[] p|] eqn:F; auto.
    quiet s q' t C X B (Some f).
    + right; right. eauto.
    + simpl. repeat rewrite upd_same. ord. repeat rewrite upd_same. split; eauto.
    + intros f' E. injection E as <-. intros b x g. simpl. rewrite upd_same. intros E. injection E as <- ->. ord.
      apply (b_w _ _ B) in F. exact F.
  - destruct (fu s f) as [[] p|] eqn:F; auto.
    revert S. ord. intros S.
    quiet s q' t C X B (Some f).
    + right; right. eauto.
    + left. intros t' o u Hn E. destruct (holds (CRel o u)) eqn:H; auto. exfalso.
      pose proof (b_p _ _ B t') as P. rewrite E in P. destruct P as (_ & _ & P & _). rewrite (P H) in S.
      now rewrite orb_true_r in S.
    + simpl. repeat rewrite upd_same. ord. repeat rewrite upd_same. split; eauto.
    + intros f' E. injection E as <-. intros b x g. simpl. rewrite upd_same. intros E. injection E as <- ->. ord.
      apply (b_w _ _ B) in F. exact F.
  - destruct (gd s) as [|n] eqn:G; auto. revert S. ord. intros S.
    quiet s q' t C X B (@None nat).
    + left. intros t' o u Hn E. rewrite <- E. apply (e_gd _ X). pose proof (e_le _ X). lia.
    + simpl. rewrite upd_same. ord. apply orb_false_elim in S as (S & S2). apply orb_false_elim in S as (_ & S1).
      repeat split; auto. intros _ f [H|H]; exfalso; [now apply (nonempty_no _ _ S1) in H|now apply (nonempty_no _ _ S2) in H].
Qed.

Lemma locked_b s q q' t f w : excl s -> binv s q -> lk s = false ->
  (exists v, fu s f = FLive true v) -> In f (o_poll (order (log s))) -> pf (ctx s t) = Some f ->
  (match ctx s t with CPoll1 _ _ | CPoll2 _ _ => True | _ => False end) ->
  lrel s (locked s t f w) q q' -> binv (locked s t f w) q'.
Proof.
  intros X B K (v & F) P Hp C R. destruct (b_ok _ _ B) as (Hu & Hb). unfold locked in *. rewrite F in *.
  destruct v as [[x g]|].
  - destruct (b_w _ _ B _ _ _ _ F) as (G & B1 & B2).
    apply (binv_quiet s _ q q' t (Some f) B); solve_q t C X.
    + simpl. rewrite upd_same. simpl. rewrite upd_same. repeat split; auto; apply G.
    + intros f' E. injection E as <-. intros b y k. simpl. now rewrite upd_same.
  - apply (binv_quiet s _ q q' t (Some f) B); solve_q t C X.
    + intros f' E. injection E as <-. intros b y k. simpl. now rewrite F.
Qed.

Lemma take_keep s s' t f x y : x <> y -> gen s' = gen s -> dr s' = dr s -> ow s' = ow s ->
  tk s' = setx (tk s) y true -> wk s' = wk s -> keep s s' t f x.
Proof.
  unfold keep. intros Hn -> -> -> -> ->.
  assert (E : setx (tk s) y true x = tk s x) by (unfold setx; destruct (N.eqb_spec x y); congruence).
  rewrite E. repeat split; auto.
Qed.

Lemma read_keep s s' t f x y : tk s y = true -> rd (ctx s t) = Some y -> gen s' = gen s -> dr s' = dr s -> ow s' = ow s ->
  tk s' = tk s -> wk s' = setx (wk s) y None -> keep s s' t f x.
Proof.
  unfold keep. intros T Hr -> -> -> -> ->. repeat split; auto.
  intros W. unfold setx. destruct (N.eqb_spec x y) as [->|]; auto.
Qed.

Lemma step_b s q q' t spur x : excl s -> linv atomics s q -> binv s q ->
  (match ctx s t with CRel _ _ => False | _ => True end) ->
  o_stale (order (log (cstep atomics s t spur x))) = false ->
  lrel s (cstep atomics s t spur x) q q' -> binv (cstep atomics s t spur x) q'.
Proof.
  intros X L B Hrel S R. destruct (b_ok _ _ B) as (Hu & Hb). unfold cstep in *.
  assert (Hs : lrel s s q q' -> binv s q').
  { intros R'. destruct B as [B1 B2 B3 B4 B5 B6]. constructor; auto. intros z Hx T.
    destruct R' as (_ & _ & R3 & _). destruct (R3 z Hx) as [?|(t' & f & w & E1 & E2)]; auto. congruence. }
  pose proof (b_p _ _ B t) as P.
  destruct (ctx s t) as [| |f w|f w|f w|f w y|f w|f w y g|f w y g|f|f y g|f|o u|o r] eqn:C; auto; simpl in P; [..|easy|].
  - destruct (lk s) eqn:K; quiet s q' t C X B (@None nat).
  - destruct P as (P1 & P2). destruct (lk s) eqn:K.
    + quiet s q' t C X B (Some f).
      * simpl. rewrite upd_same. ord. auto.
      * intros f' E. injection E as <-. intros b z g. ord. apply (b_w _ _ B).
    + apply (locked_b s q); auto; now rewrite C.
  - destruct P as (P1 & P2). unfold waiter in *. destruct P1 as (v & F). rewrite F in *. destruct v as [[y g]|].
    + destruct (b_w _ _ B _ _ _ _ F) as (G & B1 & B2).
      quiet s q' t C X B (Some f).
      * simpl. rewrite upd_same. destruct (tk s y) eqn:T; simpl; [eauto|]. exists y, g. repeat split; auto. congruence.
      * intros f' E. injection E as <-. intros b z k. apply (b_w _ _ B).
      * simpl. rewrite upd_same. destruct (tk s y); auto.
      * simpl. rewrite upd_same. destruct (tk s y); auto.
      * simpl. destruct G as (-> & _). now rewrite Hu, Nat.eqb_refl.
    + quiet s q' t C X B (Some f).
      * simpl. rewrite upd_same. simpl. eauto.
      * intros f' E. injection E as <-. intros b z k. apply (b_w _ _ B).
  - destruct (mem_N x _ && negb (x =? 0)) eqn:M; [|auto]. pose proof M as M'. apply andb_prop in M' as (Md & M0). apply mem_N_In in Md.
    assert (X0 : x <> 0) by (intros ->; easy).
    destruct P as (P1 & P2).
    set (s1 := goto (if atomics then _ else _) t _) in *.
    assert (Hdead : forall z, In z (dead (dsh (dr s1))) <-> In z (dead (dsh (dr s))) /\ z <> x).
    { intros z. subst s1. unfold list_step. simpl. rewrite M.
      assert (Hf : In z (filter (fun y => negb (y =? x)) (dead (dsh (dr s)))) <-> In z (dead (dsh (dr s))) /\ z <> x).
      { rewrite filter_In. destruct (N.eqb_spec z x); simpl; intuition congruence. }
      destruct atomics; simpl; [|exact Hf]. destruct (dth (dr s) t); simpl; try exact Hf. match goal with |- context [if ?b then _ else _] => destruct b end; exact Hf. }
    assert (E : ctx s1 = upd (ctx s) t (CPush f w x) /\ fu s1 = upd (fu s) f (FLive true (Some (x, gen s x))) /\
      gen s1 = gen s /\ ow s1 = setx (ow s) x f /\ tk s1 = setx (tk s) x false /\ wk s1 = setx (wk s) x (Some w) /\
      log s1 = log s /\ uaf s1 = uaf s /\ bad s1 = bad s).
    { subst s1. destruct atomics; repeat split. }
    destruct E as (E1 & E2 & E3 & E4 & E5 & E6 & E7 & E8 & E9). clearbody s1.
    assert (Hx : forall A (h : N -> A) v z, z <> x -> setx h x v z = h z).
    { intros A h v z Hz. unfold setx. destruct (N.eqb_spec z x); congruence. }
    assert (Hxx : forall A (h : N -> A) v, setx h x v x = v).
    { intros A h v. unfold setx. now rewrite N.eqb_refl. }
    assert (Hrd : forall t' z, rd (ctx s t') = Some z -> z <> x).
    { intros t' z Hz ->. pose proof (b_p _ _ B t') as Q. pose proof (l_pos _ _ _ L t') as LQ. unfold lpos in LQ.
      destruct (l_d _ _ _ L) as (l & LD).
      destruct (ctx s t') as [| | | | | | | |f' w' y g'| |f' y g'| |o u|]; try easy; simpl in Hz.
      - injection Hz as ->. destruct Q as (_ & (_ & _ & Q & _) & _). auto.
      - injection Hz as ->. destruct Q as (_ & _ & (_ & _ & Q & _) & _). auto.
      - destruct u; try easy. injection Hz as ->. destruct LQ as (_ & LQ). now apply (content_alive _ _ _ _ LD) in LQ. }
    apply (binv_frame s s1 q q' t (Some f)); rewrite ?E1, ?E2, ?E7, ?E8, ?E9; auto.
    + oth.
    + intros f' Hf. rewrite upd_other; congruence.
    + apply (others s q); auto. rewrite C. auto.
    + intros f' z g Hf Hp. pose proof (ptr_good _ _ _ _ _ _ B Hp) as (G1 & G2 & G3 & G4).
      assert (Hz : z <> x) by congruence. unfold keep. rewrite E3, E4, E5, E6, E7, !Hx by auto.
      repeat split; auto. intros _ H. apply Hdead in H. tauto.
    + intros. apply olists_refl.
    + intros t' o c n Hn Hc T W. rewrite E5, E6, !Hx; auto; apply (Hrd t'); now rewrite Hc.
    + rewrite upd_same. simpl. rewrite E2, E3, E5, E7, upd_same, Hxx. repeat split; auto. congruence.
    + intros f' Ef b z g. injection Ef as <-. rewrite E2, upd_same. intros E. injection E as <- <- <-.
      unfold good. rewrite E3, E4, E5, E6, E7, !Hxx. repeat split; auto; try easy. intros H. apply Hdead in H. tauto.
    + rewrite upd_same. auto.
    + rewrite upd_same. easy.
    + intros z Hz. rewrite E5, E6. destruct (N.eq_dec z x) as [->|Hne]; rewrite ?Hxx, ?Hx by auto; [easy|].
      intros T. destruct (new_contents _ _ _ _ B R z Hz) as [?|[?|?]]; auto; [now apply (b_c _ _ B)|congruence].
  - destruct P as (P1 & P2 & P3).
    assert (K : forall s1, ctx s1 t = CPush f w y \/ ctx s1 t = CPoll2 f w -> (forall t', t' <> t -> ctx s1 t' = ctx s t') ->
       fu s1 = fu s -> gen s1 = gen s -> dead (dsh (dr s1)) = dead (dsh (dr s)) -> ow s1 = ow s -> tk s1 = tk s -> wk s1 = wk s ->
       log s1 = log s -> uaf s1 = uaf s -> bad s1 = bad s -> lrel s s1 q q' -> binv s1 q').
    { intros s1 Hp K1 K2 K3 K4 K5 K6 K7 K8 K9 K10 R'. apply (binv_quiet s s1 q q' t (Some f) B); rewrite ?K8, ?K9, ?K10; auto.
      - rewrite C. auto.
      - intros. now rewrite K2.
      - intros. apply olists_refl.
      - unfold bpos. destruct Hp as [->| ->]; rewrite K2, K6, K8, ?K3; eauto 6.
      - intros f' E. injection E as <-. intros b z g. rewrite K2. intros F. destruct (b_w _ _ B _ _ _ _ F) as (G & B1 & B2).
        unfold good. rewrite K3, K4, K5, K6, K7, K8. auto.
      - destruct Hp as [->| ->]; auto.
      - destruct Hp as [->| ->]; auto.
      - now apply (new_contents s s1). }
    destruct atomics.
    + cbv zeta in *. destruct (dth (dr (list_step s (AStep t spur))) t) eqn:D;
        (apply K; auto; try (left; exact C); try (unfold list_step; cbn [dr set_dr goto]; rewrite !dead_same by exact I; reflexivity)).
      * right. simpl. now rewrite upd_same.
      * oth.
    + apply K; auto; [simpl; rewrite ?upd_same; auto|oth|apply dead_same; exact I].
  - destruct P as (y & g & F & P1 & P2). unfold waiter in *. rewrite F in *. destruct (lk s) eqn:K.
    + quiet s q' t C X B (Some f).
      * simpl. rewrite upd_same. ord. eauto 10.
      * intros f' E. injection E as <-. intros b z k. ord. apply (b_w _ _ B).
    + apply (locked_b s q); auto; try (now rewrite C). eauto.
  - destruct P as (F & G & W). pose proof G as (G1 & G2 & G3 & G4).
    apply (binv_frame s _ q q' t (Some f)); simpl; auto.
    + oth.
    + apply (others s q); auto. rewrite C. auto.
    + intros f' z k Hf Hp. apply (take_keep s _ t f' z y); auto. intros ->. pose proof (ptr_good _ _ _ _ _ _ B Hp) as (_ & _ & _ & K4). congruence.
    + intros. apply olists_refl.
    + intros t' o c n Hn Hc T W'. split; auto. now apply setx_true.
    + rewrite upd_same. destruct (tk s y) eqn:T; simpl; auto. repeat split; auto. unfold setx. now rewrite N.eqb_refl.
    + intros f' Ef b z k. injection Ef as <-. simpl. congruence.
    + rewrite upd_same. destruct (tk s y); auto.
    + intros z. rewrite upd_same. destruct (tk s y) eqn:T; simpl; try easy. intros E t' Hn Hz. injection E as <-.
      apply (rd_tk _ _ _ _ B) in Hz as (Hz & _). congruence.
    + intros z Hz. unfold setx. destruct (N.eqb_spec z y); [easy|]. intros T.
      destruct (new_contents _ _ _ _ B R z Hz) as [?|[?|?]]; auto; [now apply (b_c _ _ B)|congruence].
    + now rewrite Hu, G1, Nat.eqb_refl.
  - destruct P as (F & G & T & W). pose proof G as (G1 & G2 & G3 & G4).
    unfold read_wk in *. simpl in *. destruct (wk s y) as [k|] eqn:Wy; [|easy]. simpl in *.
    apply (binv_frame s _ q q' t (Some f)); simpl; auto.
    + oth.
    + apply (others s q); auto. rewrite C. auto.
    + intros f' z k' Hf Hp. apply (read_keep s _ t f' z y); auto. now rewrite C.
    + ord. intros. apply olists_refl.
    + intros t' Hn Hr Hh. exfalso. apply (no_other _ t t' X); auto. now rewrite C.
    + intros t' o c n Hn Hc T' W'. exfalso. apply (no_other _ t t' X); auto; [now rewrite C|now rewrite Hc].
    + rewrite upd_same. simpl. auto.
    + intros f' Ef b z k'. injection Ef as <-. simpl. congruence.
    + rewrite upd_same. auto.
    + rewrite upd_same. easy.
    + intros z Hz T'. unfold setx. destruct (N.eqb_spec z y); [congruence|].
      destruct (new_contents _ _ _ _ B R z Hz) as [?|[?|?]]; auto; [now apply (b_c _ _ B)|congruence].
    + now rewrite Hu, G1, Nat.eqb_refl.
  - destruct P as ((v & F) & P2). unfold waiter in *. rewrite F in *. destruct v as [[y g]|].
    + destruct (b_w _ _ B _ _ _ _ F) as (G & B1 & B2). pose proof G as (G1 & G2 & G3 & G4).
      apply (binv_frame s _ q q' t (Some f)); simpl; auto.
      * oth.
      * intros f' Hf. rewrite upd_other; congruence.
      * apply (others s q); auto. rewrite C. auto.
      * intros f' z k Hf Hp. apply (take_keep s _ t f' z y); auto. intros ->. pose proof (ptr_good _ _ _ _ _ _ B Hp) as (_ & _ & _ & K4). congruence.
      * intros. apply olists_refl.
      * intros t' o c n Hn Hc T W'. split; auto. now apply setx_true.
      * rewrite upd_same. destruct (tk s y) eqn:T; simpl; rewrite upd_same; auto. repeat split; auto. unfold setx. now rewrite N.eqb_refl.
      * intros f' Ef b z k. injection Ef as <-. simpl. now rewrite upd_same.
      * rewrite upd_same. destruct (tk s y); auto.
      * intros z. rewrite upd_same. destruct (tk s y) eqn:T; simpl; try easy. intros E t' Hn Hz. injection E as <-.
        apply (rd_tk _ _ _ _ B) in Hz as (Hz & _). congruence.
      * intros z Hz. unfold setx. destruct (N.eqb_spec z y); [easy|]. intros T.
        destruct (new_contents _ _ _ _ B R z Hz) as [?|[?|?]]; auto; [now apply (b_c _ _ B)|congruence].
      * now rewrite Hu, G1, Nat.eqb_refl.
    + quiet s q' t C X B (Some f).
      intros f' E. injection E as <-. intros b z k. apply (b_w _ _ B).
  - destruct P as (F & D & G & T & W). pose proof G as (G1 & G2 & G3 & G4).
    unfold read_wk in *. simpl in *. destruct (wk s y) as [k|] eqn:Wy; [|easy]. simpl in *.
    apply (binv_frame s _ q q' t (Some f)); simpl; auto.
    + oth.
    + apply (others s q); auto. rewrite C. auto.
    + intros f' z k' Hf Hp. apply (read_keep s _ t f' z y); auto. now rewrite C.
    + ord. intros. apply olists_refl.
    + ord. auto.
    + intros t' o c n Hn Hc T' W'. split; auto. unfold setx. destruct (N.eqb_spec c y); auto. subst c.
      exfalso. apply Hn. apply (b_r _ _ B t' t y); [now rewrite Hc|now rewrite C].
    + rewrite upd_same. ord. auto.
    + intros f' Ef b z k'. injection Ef as <-. simpl. congruence.
    + rewrite upd_same. auto.
    + rewrite upd_same. easy.
    + intros z Hz T'. unfold setx. destruct (N.eqb_spec z y); [congruence|].
      destruct (new_contents _ _ _ _ B R z Hz) as [?|[?|?]]; auto; [now apply (b_c _ _ B)|congruence].
    + now rewrite Hu, G1, Nat.eqb_refl.
  - destruct P as (F & D). destruct (lk s) eqn:K.
    + quiet s q' t C X B (Some f).
      * simpl. rewrite upd_same. ord. auto.
      * intros f' E. injection E as <-. intros b z k. simpl. congruence.
    + revert S. ord. intros S. apply orb_false_elim in S as (S & S2). apply orb_false_elim in S as (_ & S1).
      quiet s q' t C X B (Some f).
      * simpl. rewrite upd_same. ord. repeat split; auto. intros _ f' Hf.
        destruct (Nat.eq_dec f' f) as [->|Hne]; auto. exfalso.
        destruct Hf as [H|H]; [apply (nonempty_no _ f' S1)|apply (nonempty_no _ f' S2)]; now apply In_without.
      * intros f' E. injection E as <-. intros b z k. simpl. congruence.
  - assert (Hshape : forall s1 m, ctx s1 = upd (ctx s) t CIdle -> (m = None \/ pf (ctx s t) = m) ->
      (forall f, m <> Some f -> fu s1 f = fu s f) -> gen s1 = gen s -> dr s1 = dr s -> ow s1 = ow s -> tk s1 = tk s -> wk s1 = wk s ->
      uaf s1 = uaf s -> bad s1 = bad s ->
      (forall f, m <> Some f -> olists (order (log s)) (order (log s1)) f) ->
      o_rel (order (log s1)) = o_rel (order (log s)) ->
      (forall f, In f (o_not (order (log s1))) \/ In f (o_drop (order (log s1))) -> In f (o_not (order (log s))) \/ In f (o_drop (order (log s)))) ->
      (forall f, m = Some f -> bfut s1 f) -> lrel s s1 q q' -> binv s1 q').
    { intros s1 m K1 K2 K3 K4 K5 K6 K7 K8 K9 K10 K11 K12 K13 K14 R'.
      apply (binv_quiet s s1 q q' t m B); rewrite ?K1, ?K5, ?K9, ?K10, ?upd_same; auto; try exact I.
      - destruct K2; auto.
      - intros t' Hn. now rewrite upd_other.
      - now apply (new_contents s s1). }
    clear S. assert (Hg : forall s1, binv s1 q' -> binv (match r with RGuard => set_gd s1 (S (gd s1)) | _ => s1 end) q').
    { intros s1 B1. destruct r; auto. destruct B1 as [Z1 Z2 Z3 Z4 Z5 Z6]. constructor; auto. }
    assert (Rg : forall s1, lrel s (match r with RGuard => set_gd s1 (S (gd s1)) | _ => s1 end) q q' -> lrel s s1 q q').
    { intros s1. now destruct r. }
    cbv zeta in *. apply Hg. apply Rg in R. clear Hg Rg. destruct o as [|f w|f|].
    + apply (Hshape _ None); auto; try reflexivity; ord; auto; easy.
    + assert (F : exists v, fu s f = FLive true v) by (apply (busy _ _ t _ B); now rewrite C).
      destruct F as (v & F). simpl in R |- *. rewrite F in R |- *.
      apply (Hshape _ (Some f)); auto; try reflexivity; ord; auto; try easy.
      * right. now rewrite C.
      * intros f' Hf. rewrite upd_other; congruence.
      * intros f' Hf. repeat split; simpl; rewrite ?In_without; intros; try (split; congruence); auto.
        destruct r; rewrite ?In_without; try (split; congruence). destruct (among f _); rewrite ?In_without; auto; split; congruence.
      * intros f' [H|H]; auto. left. destruct r; try (apply In_without in H; tauto).
        destruct (among f _); auto. apply In_without in H; tauto.
      * intros f' Hf b z k. injection Hf as <-. ord. rewrite upd_same. intros E. injection E as <- ->.
        destruct r; try congruence. destruct P as (y & g & F' & P1 & P2). rewrite F in F'. injection F' as <- <-.
        destruct (b_w _ _ B _ _ _ _ F) as (G & B1 & B2). split; [exact G|]. split; auto.
        intros T. specialize (P2 T). apply among_In in P2. rewrite P2. auto.
    + apply (Hshape _ (Some f)); auto; try reflexivity; ord; auto; try easy.
      * right. now rewrite C.
      * intros f' Hf. rewrite upd_other; congruence.
      * intros f' Hf. repeat split; simpl; rewrite ?In_without; intros; try (split; congruence); auto.
      * intros f'. rewrite !In_without. tauto.
      * intros f' Hf b z k. injection Hf as <-. ord. now rewrite upd_same.
    + apply (Hshape _ None); auto; try reflexivity; ord; auto; easy.
Qed.

Lemma ustep_b s q q' t o u spur : excl s -> linv atomics s q -> binv s q -> ctx s t = CRel o u ->
  o_stale (order (log (ustep atomics s t o u spur))) = false ->
  lrel s (ustep atomics s t o u spur) q q' -> binv (ustep atomics s t o u spur) q'.
Proof.
  intros X L B C St R. destruct (b_ok _ _ B) as (Hu & Hb).
  pose proof (b_p _ _ B t) as P. rewrite C in P. destruct P as (P1 & P2 & P3 & P4).
  pose proof (l_pos _ _ _ L t) as LT. unfold lpos in LT. rewrite C in LT. destruct LT as (LT & LU).
  assert (Hone : holds (CRel o u) = true -> forall t', t' <> t -> holds (ctx s t') = true -> False).
  { intros H t' Hn. apply (no_other s t t' X); auto. now rewrite C. }
  (* nothing happens to the nodes *)
  assert (Hq : forall s1 u', ctx s1 t = CRel o u' -> (forall t', t' <> t -> ctx s1 t' = ctx s t') ->
       holds (CRel o u) = true -> (before u' = true -> before u = true) ->
       (match u' with URead _ _ => False | _ => True end) ->
       fu s1 = fu s -> gen s1 = gen s -> dead (dsh (dr s1)) = dead (dsh (dr s)) -> ow s1 = ow s -> tk s1 = tk s -> wk s1 = wk s ->
       log s1 = log s -> uaf s1 = uaf s -> bad s1 = bad s -> lrel s s1 q q' -> binv s1 q').
  { intros s1 u' K0 K1 Hh Hbe Hr K2 K3 K4 K5 K6 K7 K8 K9 K10 R'.
    apply (binv_quiet s s1 q q' t (pf (CRel o u)) B); rewrite ?K0, ?K8, ?K9, ?K10; auto; try easy.
    - right. left. now rewrite C.
    - intros. now rewrite K2.
    - unfold bpos. rewrite K8. split; [destruct o; auto; now rewrite K2|]. repeat split; auto. now destruct u'.
    - intros f Hf b x g. rewrite K2. simpl in Hf. destruct o; try easy. injection Hf as ->. destruct P1. congruence.
    - now destruct u'.
    - now apply (new_contents s s1). }
  assert (Hmine : forall f, pf (CRel o u) = Some f -> fu s f = FLive true None).
  { intros f Hf. simpl in Hf. destruct o; try easy. injection Hf as ->. apply P1. }
  destruct u as [| |x|x| |c|c n|c n|w|w]; unfold ustep in *.
  - apply (Hq _ UDrain); auto; [simpl; now rewrite upd_same|oth|apply dead_same; exact I].
  - destruct (dpo (dr s)) as [|p c|p c n|p c n|c n|p c n|p c n|p n x] eqn:D; cbv zeta in *.
    + simpl in LU. now rewrite D in LU.
    + destruct (dpo (dr (list_step s (DStep spur))));
        (eapply Hq; [simpl; rewrite ?upd_same, ?C; reflexivity|intros; simpl; rewrite ?upd_other by assumption; reflexivity|..]);
        auto; try (unfold list_step; cbn [dr set_dr goto]; now rewrite dead_same).
    + apply (Hq _ UDrain); auto. unfold list_step. cbn [dr set_dr]. now rewrite dead_same.
    + destruct (negb atomics && (p =? 0)); apply (Hq _ UDrain); auto; unfold list_step; cbn [dr set_dr]; now rewrite dead_same.
    + destruct (dpo (dr (list_step s (DStep spur))));
        (eapply Hq; [simpl; rewrite ?upd_same, ?C; reflexivity|intros; simpl; rewrite ?upd_other by assumption; reflexivity|..]);
        auto; try (unfold list_step; cbn [dr set_dr goto]; now rewrite dead_same).
    + destruct (dpo (dr (list_step s (DStep spur))));
        (eapply Hq; [simpl; rewrite ?upd_same, ?C; reflexivity|intros; simpl; rewrite ?upd_other by assumption; reflexivity|..]);
        auto; try (unfold list_step; cbn [dr set_dr goto]; now rewrite dead_same).
    + destruct (dpo (dr (list_step s (DStep spur))));
        (eapply Hq; [simpl; rewrite ?upd_same, ?C; reflexivity|intros; simpl; rewrite ?upd_other by assumption; reflexivity|..]);
        auto; try (unfold list_step; cbn [dr set_dr goto]; now rewrite dead_same).
    + apply (Hq _ (UDead x)); auto; [simpl; now rewrite upd_same|oth|].
      unfold list_step. cbn [dr set_dr goto]. now rewrite dead_same.
  - destruct LU as (_ & T). rewrite T in *. apply (Hq _ (UFree x)); auto; [simpl; now rewrite upd_same|oth].
  - destruct LU as (D & T). specialize (P2 eq_refl). specialize (Hone eq_refl).
    assert (Hh : In x (held (dsh (dr s)))) by (apply (l_hx _ _ _ L t); now rewrite C).
    assert (Hm : mem_N x (held (dsh (dr s))) = true) by now apply mem_N_In.
    set (s1 := goto _ t _) in *.
    assert (E : ctx s1 = upd (ctx s) t (CRel o UDrain) /\ fu s1 = fu s /\ gen s1 = setx (gen s) x (S (gen s x)) /\
      dead (dsh (dr s1)) = dead (dsh (dr s)) ++ [x] /\ ow s1 = ow s /\ tk s1 = tk s /\ wk s1 = wk s /\ log s1 = log s /\
      uaf s1 = uaf s /\ bad s1 = bad s).
    { subst s1. unfold list_step. simpl. rewrite Hm. repeat split. }
    destruct E as (E1 & E2 & E3 & E4 & E5 & E6 & E7 & E8 & E9 & E10). clearbody s1.
    assert (Hno : forall f g, ~ ptr s t f x g).
    { intros f g [(b & F)|(t' & w & Hn & [F|[F|F]])].
      - destruct (b_w _ _ B _ _ _ _ F) as (_ & K & _). assert (o = DropFut f) as -> by auto.
        destruct P1 as (P1 & _). congruence.
      - apply (Hone t' Hn). now rewrite F.
      - apply (Hone t' Hn). now rewrite F.
      - pose proof (b_p _ _ B t') as Q. rewrite F in Q. destruct Q as (_ & Q & _).
        assert (o = DropFut f) as -> by auto. apply Hn. apply (b_u _ _ B t' t f); [now rewrite F|now rewrite C]. }
    apply (binv_frame s s1 q q' t (pf (CRel o UDrain))); rewrite ?E1, ?E8, ?E9, ?E10; auto; try easy.
    + oth.
    + intros. now rewrite E2.
    + apply (others s q); auto. rewrite C. auto.
    + intros f z g _ Hp. assert (z <> x) by (intros ->; now apply (Hno f g)).
      unfold keep. rewrite E3, E4, E5, E6, E7, E8. unfold setx. destruct (N.eqb_spec z x); [easy|].
      repeat split; auto. rewrite In_snoc. intros K [?|?]; auto.
    + intros t' o' c n Hn Hc. exfalso. apply (Hone t' Hn). now rewrite Hc.
    + rewrite upd_same. unfold bpos. rewrite E8. split; [destruct o; auto; now rewrite E2|]. repeat split; auto.
    + intros f Hf b z g. rewrite E2, (Hmine f Hf). congruence.
    + rewrite upd_same. auto.
    + rewrite upd_same. easy.
    + intros z Hz. rewrite E6, E7. intros T'.
      destruct (new_contents _ _ _ _ B R z Hz) as [?|[?|?]]; auto; [now apply (b_c _ _ B)|congruence].
  - apply (Hq _ (UIter (hd (dsh (dr s))))); auto; [simpl; now rewrite upd_same|oth].
  - destruct (c =? 0).
    + apply (Hq _ (UStore None)); auto; [simpl; now rewrite upd_same|oth].
    + apply (Hq _ (USwap c (nx (dsh (dr s)) c))); auto; [simpl; now rewrite upd_same|oth].
  - specialize (P2 eq_refl). specialize (Hone eq_refl).
    assert (Hin : In c (dcontents q)). { destruct LU as (a & b & E & _). rewrite E. apply in_app_iff. simpl. auto. }
    set (s1 := if tk s c then _ else _) in *.
    assert (E : fu s1 = fu s /\ gen s1 = gen s /\ dead (dsh (dr s1)) = dead (dsh (dr s)) /\ ow s1 = ow s /\
      tk s1 = setx (tk s) c true /\ wk s1 = wk s /\ uaf s1 = uaf s /\ bad s1 = bad s /\
      ctx s1 = upd (ctx s) t (CRel o (if tk s c then UIter n else URead c n)) /\
      log s1 = log s ++ (if tk s c then [] else [ENotify (ow s c)])).
    { subst s1. destruct (tk s c); repeat split. simpl. now rewrite app_nil_r. }
    destruct E as (E1 & E2 & E3 & E4 & E5 & E6 & E7 & E8 & E9 & E10). clearbody s1.
    assert (Ho : order (log s1) = if tk s c then order (log s) else ostep (order (log s)) (ENotify (ow s c))).
    { rewrite E10. destruct (tk s c); [now rewrite app_nil_r|apply order_app]. }
    assert (Hc : setx (tk s) c true c = true) by (unfold setx; now rewrite N.eqb_refl).
    assert (Hcc : forall z, z <> c -> setx (tk s) c true z = tk s z).
    { intros z Hz. unfold setx. destruct (N.eqb_spec z c); congruence. }
    apply (binv_frame s s1 q q' t (pf (CRel o (USwap c n)))); rewrite ?E7, ?E8; auto; try easy.
    + intros t' Hn. rewrite E9. now rewrite upd_other.
    + intros. now rewrite E1.
    + apply (others s q); auto. rewrite C. auto.
    + intros f z g Hf Hp. unfold keep. rewrite E2, E3, E4, E5, E6, Ho.
      destruct (N.eq_dec z c) as [->|Hne]; [|rewrite Hcc by auto; repeat split; auto].
      rewrite Hc. repeat split; auto. intros _. destruct (tk s c) eqn:T; auto. right. simpl.
      pose proof (ptr_good _ _ _ _ _ _ B Hp) as (_ & _ & _ & K). rewrite K. split; auto.
      intros K2. apply among_In in K2. rewrite K2. simpl. auto.
    + intros f _. rewrite Ho. destruct (tk s c); [apply olists_refl|]. repeat split; simpl; auto.
      destruct (among _ _); simpl; auto.
    + intros t' Hn _ Hh. now destruct (Hone t' Hn).
    + intros t' o' c' n' Hn Hx. exfalso. apply (Hone t' Hn). now rewrite Hx.
    + rewrite E9, upd_same. unfold bpos. rewrite Ho, E5, E6. destruct (tk s c) eqn:T.
      * split; [destruct o; auto; now rewrite E1|]. auto.
      * split; [destruct o; auto; now rewrite E1|]. simpl. repeat split; auto; try easy. now apply (b_c _ _ B).
    + intros f Hf b z g. rewrite E1, (Hmine f Hf). congruence.
    + rewrite E9, upd_same. auto.
    + intros z. rewrite E9, upd_same. simpl. destruct (tk s c) eqn:T; try easy. intros E t' Hn Hz. injection E as <-.
      apply (rd_tk _ _ _ _ B) in Hz as (Hz & _). congruence.
    + intros z Hz. rewrite E5, E6. destruct (N.eq_dec z c) as [->|Hne]; [rewrite Hc; easy|rewrite Hcc by auto].
      intros T. destruct (new_contents _ _ _ _ B R z Hz) as [?|[?|?]]; auto; [now apply (b_c _ _ B)|congruence].
  - destruct P4 as (T & W). specialize (Hone eq_refl).
    unfold read_wk in *. simpl in St, R |- *. destruct (wk s c) as [k|] eqn:Wc; [|easy]. simpl in St, R |- *.
    apply (binv_frame s _ q q' t (pf (CRel o (URead c n)))); simpl; auto; try easy.
    + oth.
    + apply (others s q); auto. rewrite C. auto.
    + intros f z g Hf Hp. unfold keep. simpl. rewrite C. repeat split; auto.
      intros K. unfold setx. destruct (N.eqb_spec z c) as [->|]; auto.
    + intros t' o' c' n' Hn Hx. exfalso. apply (Hone t' Hn). now rewrite Hx.
    + rewrite upd_same. simpl. repeat split; auto; easy.
    + intros f Hf b z g. simpl. rewrite (Hmine f Hf). congruence.
    + rewrite upd_same. auto.
    + rewrite upd_same. easy.
    + intros z Hz T'. unfold setx. destruct (N.eqb_spec z c); [congruence|].
      destruct (new_contents _ _ _ _ B R z Hz) as [?|[?|?]]; auto; [now apply (b_c _ _ B)|congruence].
  - specialize (Hone eq_refl).
    apply (binv_quiet s _ q q' t (pf (CRel o (UStore w))) B); simpl; auto; ord; try easy.
    + rewrite C. auto.
    + oth.
    + left. intros t' o' u' Hn Hx. destruct (holds (CRel o' u')) eqn:H; auto. exfalso. apply (Hone t' Hn). now rewrite Hx.
    + rewrite upd_same. destruct w; ord.
      * repeat split; auto; easy.
      * destruct o; try easy; now apply P1.
    + intros f Hf b z g. simpl. rewrite (Hmine f Hf). congruence.
    + rewrite upd_same. destruct w; auto. destruct o; auto. easy.
    + rewrite upd_same. now destruct w.
    + now apply (new_contents s _ q q' B R).
  - apply (binv_quiet s _ q q' t (pf (CRel o (UWake w))) B); simpl; auto; ord; try easy.
    + rewrite C. auto.
    + oth.
    + right. auto.
    + rewrite upd_same. ord. destruct o; try easy; now apply P1.
    + intros f Hf b z g. simpl. rewrite (Hmine f Hf). congruence.
    + rewrite upd_same. destruct o; auto. easy.
    + now rewrite upd_same.
    + now apply (new_contents s _ q q' B R).
Qed.
End Step.
