(** No waiter of a mutex is leaked. *)
Require Import NArith List Bool Arith Lia Permutation.
From Verif Require Import AtomicSpec AtomicsProofs Treiber TreiberProofs TreiberSoft DrainSpec Drain DrainProofs
  MutexSpec Mutex MutexProofs MutexList MutexSafe MutexWake MutexRun MutexDrop.
Import ListNotations.
Open Scope N_scope.

(** ** Nodes of a list *)
Definition kept (d : drstate) (l : list N) (x : N) : Prop :=
  In x l \/ In x (held (dsh d)) \/ In x (dead (dsh d)) \/ dcarry (dpo d) = Some x \/ exists t, pushing (dth d t) = Some x.

Lemma in_contents d l q x : dinv d l q -> (In x l \/ dcarry (dpo d) = Some x <-> In x (dcontents q) \/ exists f k t, q = QOut f k x t).
Proof.
  intros D. pose proof (di_pos _ _ _ D) as P.
  destruct (dpo d) as [|p c|p c n|p c n|c n|p c n|p c n|p n y], q as [l'|f k t|f k y' t]; cbn in P; try easy; cbn [dcarry dcontents].
  - subst. split; [intros [?|?]; [auto|easy]|intros [?|(? & ? & ? & ?)]; [auto|easy]].
  - destruct P as (-> & _). split; [intros [?|?]; [auto|easy]|intros [?|(? & ? & ? & ?)]; [auto|easy]].
  - destruct t as [|y t]; [easy|]. destruct P as (-> & -> & _). split; [intros [?|?]; [auto|easy]|intros [?|(? & ? & ? & ?)]; [auto|easy]].
  - destruct P as (-> & -> & _). rewrite !in_app_iff. cbn. split.
    + intros [[?|[?|[<-|?]]]|?]; auto; try easy. right. eauto.
    + intros [[?|[?|?]]|(? & ? & ? & E)]; auto 6. injection E as <- <- <- <-. auto.
  - destruct P as (-> & -> & -> & _). rewrite !in_app_iff. cbn. split.
    + intros [[?|[<-|?]]|?]; auto; try easy. right. eauto.
    + intros [[?|[[]|?]]|(? & ? & ? & E)]; auto 6. injection E as <- <- <- <-. auto.
  - destruct P as (-> & -> & -> & _). rewrite !in_app_iff. cbn. split.
    + intros [[?|[<-|?]]|?]; auto; try easy. right. eauto.
    + intros [[?|[[]|?]]|(? & ? & ? & E)]; auto 6. injection E as <- <- <- <-. auto.
  - destruct P as (-> & -> & -> & _). rewrite !in_app_iff. cbn. split.
    + intros [[?|[<-|?]]|?]; auto; try easy. right. eauto.
    + intros [[?|[[]|?]]|(? & ? & ? & E)]; auto 6. injection E as <- <- <- <-. auto.
  - destruct P as (-> & -> & _). rewrite !in_app_iff. split.
    + intros [[?|[?|?]]|E]; auto. injection E as ->. right. eauto.
    + intros [[?|[?|?]]|(? & ? & ? & E)]; auto 6. injection E as <- <- <- <-. auto.
Qed.

Definition placed (d : drstate) (q : dspec) (x : N) : Prop :=
  In x (held (dsh d)) \/ In x (dead (dsh d)) \/ (In x (dcontents q) \/ exists f k t, q = QOut f k x t) \/ exists t, pushing (dth d t) = Some x.
Lemma In_remove1 x y l : In x l -> x = y \/ In x (remove1 y l).
Proof. intros H. destruct (N.eq_dec x y); [now left|right]. now apply In_remove1_other. Qed.

Lemma placed_step d q lb q' x : daccepts q (snd (drstep false d lb)) = Some q' -> placed d q x -> placed (fst (drstep false d lb)) q' x.
Proof.
  intros A P. unfold placed in *.
  assert (Pd : forall t c, pushing (dth d t) = None \/ pushing (dth d t) = pushing c -> (exists t, pushing (dth d t) = Some x) -> exists t', pushing (upd (dth d) t c t') = Some x).
  { intros t c H (t' & E). exists t'. unfold upd. destruct (Nat.eqb_spec t' t) as [->|]; auto. destruct H; congruence. }
  destruct lb as [t y|t sp|t|y|y v|y|y| |sp| |b]; cbn in *.
  - destruct (dth d t) eqn:E; cbn in *; try (injection A as <-; exact P). destruct (mem_N y (held (dsh d))); cbn in *; [|injection A as <-; exact P].
    injection A as <-. destruct P as [P|[P|[P|P]]]; auto.
    + destruct (In_remove1 _ y _ P) as [->|?]; auto. right; right; right. exists t. now rewrite upd_same.
    + right; right; right. apply Pd; auto. left. now rewrite E.
  - destruct (dth d t) as [|y|y cur|y cur| | | | | |] eqn:E; cbn in *; try (injection A as <-; exact P).
    + injection A as <-. destruct P as [P|[P|[P|P]]]; auto. right; right; right. apply Pd; auto. right. now rewrite E.
    + injection A as <-. destruct P as [P|[P|[P|P]]]; auto. right; right; right. apply Pd; auto. right. now rewrite E.
    + destruct (negb sp && (hd (dsh d) =? cur)); cbn in *.
      * injection A as <-. destruct P as [P|[P|[P|P]]]; auto.
        -- right; right; left. destruct P as [P|(f & k & t' & ->)]; [left; destruct q; cbn in *; auto|]. right. eauto.
        -- destruct P as (t' & Et). destruct (Nat.eq_dec t' t) as [->|Hn].
           ++ rewrite E in Et. injection Et as ->. right; right; left. left. destruct q; cbn; auto.
           ++ right; right; right. exists t'. now rewrite upd_other.
      * injection A as <-. destruct P as [P|[P|[P|P]]]; auto. right; right; right. apply Pd; auto. right. now rewrite E.
  - destruct (dth d t) eqn:E; cbn in *; try (injection A as <-; exact P). injection A as <-. destruct P as [P|[P|[P|P]]]; auto.
    right; right; right. apply Pd; auto. left. now rewrite E.
  - destruct (mem_N y (held (dsh d))); cbn in *; [|injection A as <-; exact P]. injection A as <-. destruct P as [P|[P|[P|P]]]; auto.
    + destruct (In_remove1 _ y _ P) as [->|?]; auto. right; right; left. left. destruct q; cbn; auto.
    + right; right; left. destruct P as [P|(f & k & t' & ->)]; [left; destruct q; cbn in *; auto|]. right. eauto.
  - destruct (mem_N y (held (dsh d))); cbn in *; injection A as <-; exact P.
  - destruct (mem_N y (held (dsh d))); cbn in *; [|injection A as <-; exact P]. injection A as <-. destruct P as [P|[P|[P|P]]]; auto.
    + destruct (In_remove1 _ y _ P) as [->|?]; auto. right; left. apply in_app_iff. cbn. auto.
    + right; left. apply in_app_iff. auto.
  - destruct (mem_N y (dead (dsh d)) && negb (y =? 0)); cbn in *; [|injection A as <-; exact P]. injection A as <-. destruct P as [P|[P|[P|P]]]; auto.
    + left. apply in_app_iff. auto.
    + destruct (N.eq_dec x y) as [->|Hn]; [left; apply in_app_iff; cbn; auto|]. right; left. apply filter_In. split; auto. destruct (N.eqb_spec x y); easy.
  - destruct (dpo d); cbn in *; try (injection A as <-; exact P). destruct q as [l| |]; try discriminate. injection A as <-. cbn. destruct P as [P|[P|[[P|(f & k & t & E)]|P]]]; auto; try easy.
  - destruct (dpo d) as [|p c|p c n|p c n|c n|p c n|p c n|p n y] eqn:E; cbn in *; try (injection A as <-; exact P).
    + destruct (c =? 0); cbn in *; [|injection A as <-; exact P]. destruct q as [|f k t|]; try discriminate. destruct t; try discriminate.
      injection A as <-. cbn in *. rewrite app_nil_r in P. destruct P as [P|[P|[[P|(? & ? & ? & F)]|P]]]; auto; try easy.
    + destruct (p =? 0); cbn in *; injection A as <-; exact P.
    + destruct (negb sp && _); cbn in *; injection A as <-; exact P.
    + destruct q as [| |f k y' t]; try discriminate. destruct (N.eqb_spec y y') as [->|]; [|discriminate]. injection A as <-.
      cbn in *. destruct P as [P|[P|[[P|(? & ? & ? & F)]|P]]]; auto.
      * left. apply in_app_iff. auto.
      * injection F as <- <- <- <-. left. apply in_app_iff. cbn. auto.
  - destruct (dpo d) as [|p c|p c n|p c n|c n|p c n|p c n|p n y] eqn:E; cbn in *; try (injection A as <-; exact P).
    destruct (p =? 0); cbn in *; [|injection A as <-; exact P]. destruct (hd (dsh d) =? c); cbn in *; injection A as <-; exact P.
  - destruct (dpo d) as [|p c|p c n|p c n|c n|p c n|p c n|p n y] eqn:E; cbn in *; try (injection A as <-; exact P).
    destruct q as [|f k t|]; try discriminate. destruct t as [|y t]; try discriminate. destruct (N.eqb_spec c y) as [->|]; [|discriminate].
    injection A as <-. cbn in *. destruct P as [P|[P|[[P|(? & ? & ? & F)]|P]]]; auto; try easy. rewrite !in_app_iff in P. cbn in P.
    destruct b; cbn; rewrite !in_app_iff; cbn; destruct P as [P|[P|[<-|P]]]; auto 10. right; right; left; right. eauto.
Qed.

Lemma kept_placed d l q x : dinv d l q -> (kept d l x <-> placed d q x).
Proof. intros D. pose proof (in_contents d l q x D). unfold kept, placed. tauto. Qed.
Lemma kept_step d l q lb x : dinv d l q -> kept d l x -> exists l' q', dinv (fst (drstep false d lb)) l' q' /\ kept (fst (drstep false d lb)) l' x.
Proof.
  intros D K. destruct (dinv_step false d l q lb D) as (l' & q' & A & D'). exists l', q'. split; auto.
  apply (kept_placed _ _ _ _ D'). apply (placed_step d q); auto. now apply (kept_placed _ l).
Qed.
Lemma same_list d l q l' q' : dinv d l q -> dinv d l' q' -> l = l'.
Proof. intros D D'. eapply chain_det; [apply (own_chain _ _ _ _ _ (di_own _ _ _ D))|apply (own_chain _ _ _ _ _ (di_own _ _ _ D'))]. Qed.

(** ** Waiters of a mutex *)
Definition lies (d : drstate) (x : N) : Prop := exists l q, dinv d l q /\ kept d l x.
Lemma lies_step d lb x : lies d x -> lies (fst (drstep false d lb)) x.
Proof. intros (l & q & D & K). destruct (kept_step d l q lb x D K) as (l' & q' & D' & K'). exists l', q'. auto. Qed.
Lemma lies_touch d c x : lies d x -> (exists l q, dinv (DrState (dtouch (dsh d) c) (dth d) (dpo d)) l q) ->
  lies (DrState (dtouch (dsh d) c) (dth d) (dpo d)) x.
Proof.
  intros (l & q & D & K) (l' & q' & D'). exists l', q'. split; auto.
  assert (l = l') as <-.
  { eapply chain_det; [apply (own_chain _ _ _ _ _ (di_own _ _ _ D))|apply (own_chain _ _ _ _ _ (di_own _ _ _ D'))]. }
  exact K.
Qed.

Section Build.
Variable atomics : bool.

Lemma lies_mstep s q a x : linv atomics s q -> (exists q', linv atomics (mstep atomics s a) q') -> lies (dr s) x -> lies (dr (mstep atomics s a)) x.
Proof.
  intros L (q' & L') P.
  assert (V : forall c, dr (mstep atomics s a) = dr (visit s c) -> lies (dr (mstep atomics s a)) x).
  { intros c E. destruct (l_d _ _ _ L') as (l' & D'). rewrite E in *. apply (lies_touch (dr s) c); auto. exists l', q'. exact D'. }
  clear L'. destruct a as [t o|t spur y| |v]; cbn [mstep] in *.
  - unfold mcall. destruct (ctx s t); auto. destruct o as [|f w|f|]; auto; [destruct (fu s f) as [[] ?|]; auto|destruct (fu s f) as [[] ?|]; auto|destruct (gd s); auto].
  - unfold cstep in *. destruct (ctx s t) as [| |f w|f w|f w|f w z|f w|f w z g|f w z g|f|f z g|f|o u|o r] eqn:C; auto.
    + destruct (lk s); auto.
    + unfold locked. destruct (lk s); auto. destruct (fu s f) as [b [[z g]|]|]; auto.
    + destruct (waiter s f) as [[z g]|]; auto.
    + destruct (mem_N y _ && _); auto. destruct atomics; cbn [goto dr].
      * apply lies_step. apply (lies_step (dr s) (AReuse y)). exact P.
      * apply (lies_step (dr s) (AReuse y)). exact P.
    + destruct atomics.
      * pose proof (lies_step (dr s) (AStep t spur) x P) as P1. destruct (dth (dr (list_step s (AStep t spur))) t); auto. apply (lies_step _ (ARet t)). exact P1.
      * apply (lies_step (dr s) (APush z)). exact P.
    + unfold locked. destruct (lk s); auto. destruct (waiter s f); cbn [set_bad fu]; destruct (fu s f) as [b [[z g]|]|]; auto.
    + unfold read_wk. destruct (wk (use s z g) z); auto.
    + destruct (waiter s f) as [[z g]|]; auto.
    + unfold read_wk. destruct (wk (use s z g) z); auto.
    + destruct (lk s); auto.
    + pose proof (l_d _ _ _ L) as (l & D).
      destruct u as [| |z|z| |c|c n|c n|k|k]; cbn [ustep] in *; auto.
      * apply (lies_step (dr s) DStart). exact P.
      * pose proof (lies_step (dr s) (DStep spur) x P) as P1. destruct (dpo (dr s)) as [|p c|p c n|p c n|c n|p c n|p c n|p n z] eqn:E.
        -- destruct (dpo (dr (list_step s (DStep spur)))); exact P1.
        -- destruct (dpo (dr (list_step s (DStep spur)))); exact P1.
        -- assert (Ev : dr (visit s c) = dr s).
           { destruct D as [HO HF HP HQ]. apply (visit_dr s l q); [now constructor| |]; rewrite E in HQ; destruct q as [|f k [|y0 z]|]; simpl in HQ; try easy;
             destruct HQ as (-> & -> & _).
             - rewrite app_assoc in HO. apply (chain_mid _ _ _ _ _ (own_chain _ _ _ _ _ HO)).
             - apply (own_ld _ _ _ _ _ HO). rewrite !in_app_iff. simpl. auto. }
           unfold list_step. cbn [dr set_dr]. rewrite Ev. apply lies_step. exact P.
        -- destruct (negb atomics && (p =? 0)); [apply (lies_step (dr s) DCutCs); exact P|exact P1].
        -- destruct (dpo (dr (list_step s (DStep spur)))); exact P1.
        -- destruct (dpo (dr (list_step s (DStep spur)))); exact P1.
        -- destruct (dpo (dr (list_step s (DStep spur)))); exact P1.
        -- exact P1.
      * apply (V z). destruct (tk s z); auto. unfold read_wk. destruct (wk (visit s z) z); auto.
      * apply (lies_step (dr s) (AFree z)). exact P.
      * destruct (c =? 0); auto. apply (V c). reflexivity.
      * apply (V c). destruct (tk s c); auto.
      * apply (V c). unfold read_wk. destruct (wk (visit s c) c); auto.
    + destruct o as [|f w|f|]; cbn [emit goto fu]; try destruct (fu s f) as [b p|]; destruct r; auto.
  - destruct (gd s); auto.
  - destruct (gd s); auto.
Qed.

(** A node that is out of the list and not freed is in the hands of a call. *)
Definition handed (s s' : mst) (t : nat) : Prop :=
  forall z, In z (held (dsh (dr s'))) -> hx atomics (ctx s' t) = Some z \/ (In z (held (dsh (dr s))) /\ hx atomics (ctx s t) <> Some z).
Lemma handed_same s s' t : held (dsh (dr s')) = held (dsh (dr s)) -> hx atomics (ctx s t) = None \/ hx atomics (ctx s' t) = hx atomics (ctx s t) -> handed s s' t.
Proof.
  intros E H z Hz. rewrite E in Hz. destruct H as [H|H]; [right; rewrite H; easy|]. rewrite H.
  destruct (hx atomics (ctx s t)) as [y|]; [|right; easy]. destruct (N.eq_dec y z) as [->|]; [now left|right]. split; auto. congruence.
Qed.
Lemma held_same d lb : (match lb with ACall _ _ | APush _ | AFree _ | AReuse _ => False | DStep _ => dcarry (dpo d) = None | _ => True end) ->
  held (dsh (fst (drstep false d lb))) = held (dsh d).
Proof.
  intros H. destruct lb as [t y|t sp|t|y|y v|y|y| |sp| |b]; try easy; cbn.
  - destruct (dth d t); cbn; auto. destruct (negb sp && _); reflexivity.
  - destruct (dth d t); reflexivity.
  - destruct (mem_N y _); reflexivity.
  - destruct (dpo d); reflexivity.
  - destruct (dpo d) as [|p c|p c n|p c n|c n|p c n|p c n|p n z]; cbn; try easy.
    + destruct (c =? 0); reflexivity.
    + destruct (p =? 0); reflexivity.
    + destruct (negb sp && _); reflexivity.
  - destruct (dpo d); cbn; auto. destruct (p =? 0); auto. destruct (hd (dsh d) =? c); reflexivity.
  - destruct (dpo d); reflexivity.
Qed.
Lemma In_removed x y l : NoDup l -> In x (remove1 y l) -> In x l /\ x <> y.
Proof.
  intros Nd. induction l as [|z l IH]; cbn; [easy|]. apply NoDup_cons_iff in Nd as (Hn & Nd). destruct (N.eqb_spec y z) as [<-|Hy].
  - intros H. split; auto. intros ->. contradiction.
  - intros [<-|H]; auto. destruct (IH Nd H). auto.
Qed.
Ltac plain C := apply handed_same; [cbn [goto emit inc_gen dr set_lk set_fu set_bad set_gd set_tk]; try reflexivity; unfold list_step; cbn [dr set_dr]; rewrite ?held_same; auto
  |cbn [goto emit inc_gen ctx list_step set_dr]; rewrite ?upd_same, ?C; auto].

Lemma handed_mstep s q a t : linv atomics s q -> (match a with Call t' _ | Step t' _ _ => t' = t | _ => True end) -> handed s (mstep atomics s a) t.
Proof.
  intros L Ht. assert (Same : handed s s t) by (apply handed_same; auto).
  pose proof (l_d _ _ _ L) as (l & D). pose proof (di_own _ _ _ D) as O. pose proof (l_pos _ _ _ L t) as LP. unfold lpos in LP.
  destruct a as [t0 o|t0 spur y| |v]; cbn [mstep] in *; try subst t0.
  - unfold mcall. destruct (ctx s t) eqn:C; auto. destruct o as [|f w|f|]; [|destruct (fu s f) as [[] ?|]; auto|destruct (fu s f) as [[] ?|]; auto|destruct (gd s); auto]; plain C.
  - unfold cstep in *. destruct (ctx s t) as [| |f w|f w|f w|f w z|f w|f w z g|f w z g|f|f z g|f|o u|o r] eqn:C; auto.
    + destruct (lk s); plain C.
    + unfold locked. destruct (lk s); [|destruct (fu s f) as [b [[z g]|]|]]; plain C.
    + destruct (waiter s f) as [[z g]|]; plain C.
    + destruct (mem_N y _ && _) eqn:M; auto. pose proof M as M'. apply andb_prop in M' as (Md & _). apply mem_N_In in Md.
      intros x Hx. cbn [goto ctx]. rewrite upd_same, C. cbn [hx]. destruct atomics; cbn [goto dr] in Hx.
      * right. split; [|easy]. unfold list_step in Hx. cbn in Hx. rewrite M in Hx. cbn in Hx. rewrite LP in Hx.
        assert (mem_N y (held (dsh (dr s)) ++ [y]) = true) as E by (apply mem_N_In, in_app_iff; cbn; auto). rewrite E in Hx. cbn in Hx.
        apply In_removed in Hx as (Hx & Hn).
        -- apply in_app_iff in Hx as [?|[?|[]]]; auto. congruence.
        -- apply (Permutation_NoDup (Permutation_cons_append _ y)). constructor; [|apply (own_nd_h _ _ _ _ _ O)]. intros Hh. now apply (own_hd _ _ _ _ _ O) in Hh.
      * unfold list_step in Hx. cbn in Hx. rewrite M in Hx. cbn in Hx. apply in_app_iff in Hx as [?|[->|[]]]; auto. right. easy.
    + destruct atomics eqn:At.
      * destruct (dth (dr (list_step s (AStep t spur))) t); plain C; left; cbn; now rewrite At.
      * intros x Hx. cbn [goto ctx dr] in *. rewrite upd_same, C. cbn [hx]. unfold list_step in Hx. cbn in Hx.
        assert (Hh : In z (held (dsh (dr s)))) by (apply (l_hx _ _ _ L t); now rewrite C). apply mem_N_In in Hh. rewrite Hh in Hx. cbn in Hx.
        apply In_removed in Hx as (Hx & Hn); [|apply (own_nd_h _ _ _ _ _ O)]. right. split; auto. cbn. rewrite ?At. congruence.
    + unfold locked. destruct (lk s); [plain C|]. destruct (waiter s f); cbn [set_bad fu]; destruct (fu s f) as [b [[z g]|]|]; plain C.
    + plain C.
    + unfold read_wk. destruct (wk (use s z g) z); plain C.
    + destruct (waiter s f) as [[z g]|]; plain C.
    + unfold read_wk. destruct (wk (use s z g) z); plain C.
    + destruct (lk s); plain C.
    + destruct LP as (_ & LU). destruct u as [| |z|z| |c|c n|c n|k|k]; cbn [ustep] in *.
      * plain C.
      * destruct (dpo (dr s)) as [|p c|p c n|p c n|c n|p c n|p c n|p n z] eqn:E.
        -- destruct (dpo (dr (list_step s (DStep spur)))); plain C; now rewrite E.
        -- destruct (dpo (dr (list_step s (DStep spur)))); plain C; now rewrite E.
        -- plain C.
        -- destruct (negb atomics && (p =? 0)); plain C; now rewrite E.
        -- destruct (dpo (dr (list_step s (DStep spur)))); plain C; now rewrite E.
        -- destruct (dpo (dr (list_step s (DStep spur)))); plain C; now rewrite E.
        -- destruct (dpo (dr (list_step s (DStep spur)))); plain C; now rewrite E.
        -- intros x Hx. cbn [goto ctx dr] in *. rewrite upd_same, C. cbn [hx]. unfold list_step in Hx. cbn in Hx. rewrite E in Hx. cbn in Hx.
           apply in_app_iff in Hx as [?|[->|[]]]; auto. right. easy.
      * destruct (tk s z); [|unfold read_wk; destruct (wk (visit s z) z)]; plain C.
      * intros x Hx. cbn [goto inc_gen ctx dr] in *. rewrite upd_same, C. cbn [hx]. unfold list_step in Hx. cbn in Hx.
        assert (Hh : In z (held (dsh (dr s)))) by (apply (l_hx _ _ _ L t); now rewrite C). apply mem_N_In in Hh. rewrite Hh in Hx. cbn in Hx.
        apply In_removed in Hx as (Hx & Hn); [|apply (own_nd_h _ _ _ _ _ O)]. right. split; auto. congruence.
      * plain C.
      * destruct (c =? 0); plain C.
      * destruct (tk s c); plain C.
      * unfold read_wk; destruct (wk (visit s c) c); plain C.
      * destruct k; plain C.
      * plain C.
    + destruct o as [|f w|f|]; cbn [emit goto fu]; try destruct (fu s f) as [b p|]; destruct r; plain C.
  - destruct (gd s); auto.
  - destruct (gd s); auto.
Qed.

Record found (U : list N) (s : mst) : Prop := {
  fo_x : excl s;
  fo_l : exists q, linv atomics s q;
  fo_u : forall x, In x U -> lies (dr s) x;
  fo_h : forall x, In x (held (dsh (dr s))) -> exists t, hx atomics (ctx s t) = Some x
}.
Lemma found_step U s a : found U s -> found U (mstep atomics s a).
Proof.
  intros [X (q & L) HU HH]. destruct (linv_step atomics s q a X L) as (q' & L' & _).
  constructor; [now apply excl_step|eauto|intros x Hx; apply (lies_mstep s q); eauto|].
  set (t := match a with Call t _ | Step t _ _ => t | _ => O end).
  assert (Ho : forall t', t' <> t -> ctx (mstep atomics s a) t' = ctx s t') by (intros t' H; apply ctx_other; destruct a; subst t; auto).
  intros x Hx. destruct (handed_mstep s q a t L ltac:(destruct a; subst t; auto) x Hx) as [?|(H1 & H2)]; [eauto|].
  destruct (HH x H1) as (t' & E). exists t'. rewrite Ho; auto. congruence.
Qed.
Lemma found_run U l : forall s, found U s -> found U (mrun atomics s l).
Proof. induction l as [|a l IH]; intros s H; cbn; auto. apply IH. now apply found_step. Qed.
Lemma found_init v addrs link : found addrs (minit v addrs link).
Proof.
  destruct (minv_init atomics v addrs link) as (X & _ & _ & q & L & _). constructor; eauto; [|cbn; easy].
  intros x Hx. destruct (l_d _ _ _ L) as (l & D). exists l, q. split; auto. right; right; left. exact Hx.
Qed.
(** Between calls, a waiter is in the queue or its memory is free. *)
Lemma found_calm U s : found U s -> (forall t, ctx s t = CIdle) ->
  exists l, dinv (dr s) l (QIdle l) /\ forall x, In x U -> In x l \/ In x (dead (dsh (dr s))).
Proof.
  intros [X (q & L) HU HH] Ca. destruct (l_d _ _ _ L) as (l & D). exists l.
  assert (E : dpo (dr s) = DIdle).
  { destruct (dpo (dr s)) eqn:P; auto; destruct (l_dr _ _ _ L) as (t & Ht); try (rewrite P; discriminate); rewrite Ca in Ht; discriminate. }
  pose proof (idle_q _ _ _ D E) as ->. split; auto. intros x Hx. destruct (HU x Hx) as (l' & q' & D' & K).
  pose proof (same_list _ _ _ _ _ D D') as <-. destruct K as [K|[K|[K|[K|(t & K)]]]]; auto.
  - destruct (HH x K) as (t & Ht). rewrite Ca in Ht. discriminate.
  - rewrite E in K. discriminate.
  - pose proof (l_pos _ _ _ L t) as LP. unfold lpos in LP. rewrite Ca in LP. rewrite LP in K. discriminate.
Qed.
End Build.

Lemma drop_node_dead s x : dead (dsh (dr (drop_node (visit s x) x))) = dead (dsh (dr s)) ++ [x] /\ nx (dsh (dr (drop_node (visit s x) x))) = nx (dsh (dr s)).
Proof. unfold drop_node. cbn [visit set_dr tk]. destruct (tk s x); [split; reflexivity|]. unfold read_wk. cbn [wk visit set_dr]. destruct (wk s x); split; reflexivity. Qed.
Lemma drop_list_dead l : forall n s c, (length l <= n)%nat -> chain (nx (dsh (dr s))) c l -> dead (dsh (dr (drop_list n s c))) = dead (dsh (dr s)) ++ l.
Proof.
  induction l as [|x l IH]; intros n s c Hn C.
  - cbn in C. subst c. rewrite app_nil_r. destruct n; reflexivity.
  - destruct n as [|n]; [cbn in Hn; lia|]. cbn in C. destruct C as (-> & H0 & C). cbn [drop_list]. destruct (N.eqb_spec x 0); [easy|].
    destruct (drop_node_dead s x) as (E1 & E2). rewrite IH; [now rewrite E1, <- app_assoc|cbn in Hn; lia|now rewrite E2].
Qed.
Lemma drop_node_fault s x : x <> 0 -> ~ In x (dead (dsh (dr s))) -> fault (dsh (dr s)) = false -> fault (dsh (dr (drop_node (visit s x) x))) = false.
Proof.
  intros H0 H F. assert (G : fault (dtouch (dtouch (dsh (dr s)) x) x) = false).
  { unfold dtouch. cbn -[N.eqb mem_N]. rewrite F. destruct (N.eqb_spec x 0); [easy|]. destruct (mem_N x (dead (dsh (dr s)))) eqn:M; [|reflexivity]. apply mem_N_In in M. easy. }
  unfold drop_node. cbn [visit set_dr tk]. destruct (tk s x); [exact G|]. unfold read_wk. cbn [wk visit set_dr]. destruct (wk s x); exact G.
Qed.
Lemma drop_list_fault l : forall n s c, (length l <= n)%nat -> chain (nx (dsh (dr s))) c l -> NoDup l -> (forall x, In x l -> ~ In x (dead (dsh (dr s)))) ->
  fault (dsh (dr s)) = false -> fault (dsh (dr (drop_list n s c))) = false.
Proof.
  induction l as [|x l IH]; intros n s c Hn C Nd Hd F.
  - cbn in C. subst c. destruct n; exact F.
  - destruct n as [|n]; [cbn in Hn; lia|]. cbn in C. destruct C as (-> & H0 & C). cbn [drop_list]. destruct (N.eqb_spec x 0); [easy|].
    destruct (drop_node_dead s x) as (E1 & E2). apply NoDup_cons_iff in Nd as (Nx & Nd). apply IH; auto.
    + cbn in Hn; lia.
    + now rewrite E2.
    + intros y Hy. rewrite E1, in_app_iff. cbn. intros [G|[<-|[]]]; auto. apply (Hd y); auto. now right.
    + apply drop_node_fault; auto. apply Hd. now left.
Qed.
