(** The invariants of the mutex in all executions. *)
Require Import NArith List Bool Arith Lia.
From Verif Require Import AtomicSpec AtomicsProofs Treiber TreiberProofs DrainSpec Drain DrainProofs
  MutexSpec Mutex MutexProofs MutexList MutexSafe MutexWake.
Import ListNotations.
Open Scope N_scope.

Section Run.
Variable atomics : bool.

Lemma log_step s a : log (mstep atomics s a) = log s \/ exists e, log (mstep atomics s a) = log s ++ [e].
Proof.
  destruct a as [t o|t spur x| |v]; simpl.
  - unfold mcall. destruct (ctx s t); auto. destruct o as [|f w|f|]; simpl; eauto.
    + destruct (fu s f) as [[] p|]; simpl; eauto.
    + destruct (fu s f) as [[] p|]; simpl; eauto.
    + destruct (gd s); simpl; eauto.
  - unfold cstep. destruct (ctx s t) as [| |f w|f w|f w|f w y|f w|f w y g|f w y g|f|f y g|f|o u|o r]; auto.
    + destruct (lk s); simpl; auto.
    + destruct (lk s); simpl; [eauto|]. unfold locked. destruct (fu s f) as [b [[y g]|]|]; simpl; auto.
    + destruct (waiter s f) as [[y g]|]; simpl; auto.
    + destruct (mem_N x _ && _); auto. destruct atomics; simpl; auto.
    + destruct atomics; simpl; [|auto]. destruct (dth _ t); simpl; auto.
    + destruct (lk s); simpl; [eauto|]. unfold locked, waiter.
      destruct (fu s f) as [b [[y g]|]|] eqn:E; simpl; rewrite ?E; simpl; auto.
    + unfold read_wk. simpl. destruct (wk s y); simpl; eauto.
    + destruct (waiter s f) as [[y g]|]; simpl; auto.
    + unfold read_wk. simpl. destruct (wk s y); simpl; eauto.
    + destruct (lk s); simpl; eauto.
    + destruct u as [| |y|y| |c|c n|c n|w|w]; simpl; auto; [| | | | |eauto|eauto].
      * destruct (dpo (dr s)); simpl; auto.
        -- destruct (c =? 0); simpl; auto.
        -- destruct (negb atomics && (p =? 0)); simpl; auto.
        -- destruct (negb spur && _); simpl; auto. destruct (_ =? _); simpl; auto.
        -- destruct (_ =? _); simpl; auto.
      * unfold read_wk. simpl. destruct (tk s y); simpl; auto. destruct (wk s y); simpl; eauto.
      * destruct (c =? 0); simpl; auto.
      * destruct (tk s c); simpl; eauto.
      * unfold read_wk. simpl. destruct (wk s c); simpl; auto.
    + destruct o, r; simpl; try (destruct (fu s f) as [b p|]); simpl; eauto.
  - destruct (gd s); simpl; eauto.
  - destruct (gd s); simpl; eauto.
Qed.

Lemma stale_step s a : o_stale (order (log (mstep atomics s a))) = false -> o_stale (order (log s)) = false.
Proof.
  destruct (log_step s a) as [->|(e & ->)]; auto. rewrite order_app. apply stale_mono.
Qed.
Lemma fail_step s a : o_fail (order (log (mstep atomics s a))) = false -> o_fail (order (log s)) = false.
Proof.
  destruct (log_step s a) as [->|(e & ->)]; auto. rewrite order_app. apply fail_mono.
Qed.

Lemma same_b s q q' : binv s q -> lrel s s q q' -> binv s q'.
Proof.
  intros [B1 B2 B3 B4 B5 B6] (_ & _ & R & _). constructor; auto. intros x Hx.
  destruct (R x Hx) as [?|(t & f & w & E1 & E2)]; [now apply B5|congruence].
Qed.

(** Accesses through a guard. *)
Lemma access_b s q q' e d : binv s q -> (exists v, e = EGet v \/ e = ESet v) ->
  lrel s (emit (set_dt s d) e) q q' -> binv (emit (set_dt s d) e) q'.
Proof.
  intros [B1 B2 B3 B4 B5 B6] He (_ & _ & R & _).
  assert (E : order (log s ++ [e]) = order (log s)) by (rewrite order_app; destruct He as (v & [->| ->]); reflexivity).
  constructor; auto.
  - intros f. unfold bfut. simpl. rewrite E. apply B1.
  - intros t. unfold bpos. simpl. rewrite E. apply B2.
  - intros x Hx. destruct (R x Hx) as [?|(t & f & w & E1 & E2)]; [now apply B5|]. simpl in E2. congruence.
Qed.

Lemma access_c s q q' e d : excl s -> linv atomics s q -> cinv s q -> (exists v, e = EGet v \/ e = ESet v) ->
  lrel s (emit (set_dt s d) e) q q' -> cinv (emit (set_dt s d) e) q'.
Proof.
  intros X L Ci He R. apply (cinv_same atomics s q q') in Ci; auto.
  assert (E : forall f, fut (emit (set_dt s d) e) f = fut s f).
  { intros f. unfold fut. simpl. rewrite future_app. destruct He as (v & [->| ->]); reflexivity. }
  assert (Hfl : forall f x, flight s f x -> flight (emit (set_dt s d) e) f x).
  { intros f x [H|(t & H)]; [left; now rewrite E|right]. exists t. unfold inflight in *. simpl. now rewrite E. }
  destruct Ci as [C1 C2 C3 C4]. constructor; auto.
  - intros f. destruct (C1 f) as (F1 & F2). unfold cfut. rewrite E. split; [exact F1|].
    intros b x g F. destruct (F2 b x g F) as (F3 & F4 & F5). repeat split; auto.
  - intros t. specialize (C3 t). unfold cpos in *. simpl. destruct (ctx s t) as [| |f w|f w|f w| | | | | | | |o u|]; rewrite ?E; auto.
Qed.

(** A borrowed future is used by a context. *)
Definition lent (s : mst) : Prop := forall f v, fu s f = FLive true v -> exists t, pf (ctx s t) = Some f.
Lemma lent_move s s' t : lent s -> (forall t', t' <> t -> ctx s' t' = ctx s t') ->
  (forall f v, fu s' f = FLive true v -> pf (ctx s' t) = Some f \/ (pf (ctx s t) <> Some f /\ exists v, fu s f = FLive true v)) ->
  lent s'.
Proof.
  intros H HC HF f v E. destruct (HF f v E) as [K|(K & v' & E')]; [eauto|]. destruct (H f v' E') as (t' & K').
  exists t'. rewrite HC; auto. congruence.
Qed.
Lemma lent_step s a : lent s -> lent (mstep atomics s a).
Proof.
  intros H.
  assert (K : forall s1 t, (forall t', t' <> t -> ctx s1 t' = ctx s t') -> fu s1 = fu s ->
            (forall f, pf (ctx s t) = Some f -> pf (ctx s1 t) = Some f) -> lent s1).
  { intros s1 t H1 H2 H3. apply (lent_move s s1 t); auto. intros f v E. rewrite H2 in E.
    destruct (pf (ctx s t)) as [g|] eqn:P; [|right; split; eauto; easy].
    destruct (Nat.eq_dec g f) as [->|]; [left; now apply H3|right; split; eauto; congruence]. }
  assert (J : forall s1 t g v, (forall t', t' <> t -> ctx s1 t' = ctx s t') -> fu s1 = upd (fu s) g v ->
            (forall f, pf (ctx s t) = Some f -> g = f) -> pf (ctx s1 t) = Some g \/ (forall w, v <> FLive true w) -> lent s1).
  { intros s1 t g v H1 H2 H3 H4. apply (lent_move s s1 t); auto. intros f w E. rewrite H2 in E.
    destruct (Nat.eq_dec f g) as [->|Hn]; [rewrite upd_same in E; destruct H4 as [?|H4]; [now left|now apply H4 in E]|].
    rewrite upd_other in E by auto. right. split; eauto. intros P. apply H3 in P. congruence. }
  assert (Ho : forall t', (match a with Call t _ | Step t _ _ => t' <> t | _ => True end) -> ctx (mstep atomics s a) t' = ctx s t')
    by (intros; now apply ctx_other).
  destruct a as [t o|t spur x| |v]; simpl in *.
  - unfold mcall in *. destruct (ctx s t) eqn:C; auto. destruct o as [|f w|f|]; simpl in *.
    + apply (K _ t); auto. now rewrite C.
    + destruct (fu s f) as [[] p|]; auto. apply (J _ t f (FLive true p)); auto; [now rewrite C|]. simpl. rewrite upd_same. auto.
    + destruct (fu s f) as [[] p|]; auto. apply (J _ t f (FLive true p)); auto; [now rewrite C|]. simpl. rewrite upd_same. auto.
    + destruct (gd s); auto. apply (K _ t); auto. now rewrite C.
  - unfold cstep in *. destruct (ctx s t) as [| |f w|f w|f w|f w y|f w|f w y g|f w y g|f|f y g|f|o u|o r] eqn:C; auto.
    + destruct (lk s); apply (K _ t); auto; now rewrite C.
    + destruct (lk s); [apply (K _ t); auto; rewrite C; simpl; now rewrite upd_same|]. unfold locked in *.
      destruct (fu s f) as [b [[y g]|]|].
      * apply (J _ t f (FLive b None)); auto; rewrite ?C; simpl; rewrite ?upd_same; simpl; auto. intros f' E. now injection E.
      * apply (K _ t); auto; rewrite C; simpl; now rewrite upd_same.
      * apply (K _ t); auto; rewrite C; simpl; now rewrite upd_same.
    + destruct (waiter s f) as [[y g]|]; apply (K _ t); auto; rewrite C; simpl; rewrite upd_same; auto. now destruct (tk s y).
    + destruct (mem_N x _ && _); auto.
      apply (J _ t f (FLive true (Some (x, gen s x)))); auto; rewrite ?C; destruct atomics; simpl; rewrite ?upd_same; simpl; auto; intros f' E; now injection E.
    + destruct atomics; simpl in *.
      * destruct (dth _ t); apply (K _ t); auto; rewrite C; simpl; rewrite ?upd_same, ?C; auto.
      * apply (K _ t); auto; rewrite C; simpl; rewrite ?upd_same; auto.
    + destruct (lk s); [apply (K _ t); auto; rewrite C; simpl; now rewrite upd_same|]. unfold locked, waiter in *.
      destruct (fu s f) as [b [[y g]|]|] eqn:F; simpl in *; rewrite ?F in *.
      * apply (J _ t f (FLive b None)); auto; rewrite ?C; simpl; rewrite ?upd_same; simpl; auto. intros f' E. now injection E.
      * apply (K _ t); auto; rewrite C; simpl; now rewrite upd_same.
      * apply (K _ t); auto; rewrite C; simpl; now rewrite upd_same.
    + apply (K _ t); auto; rewrite C; simpl; rewrite upd_same. now destruct (tk s y).
    + unfold read_wk in *. simpl in *. destruct (wk s y); apply (K _ t); auto; rewrite C; simpl; now rewrite upd_same.
    + destruct (waiter s f) as [[y g]|].
      * apply (J _ t f (FLive true None)); auto; rewrite ?C; simpl; rewrite ?upd_same.
        -- intros f' E. now injection E.
        -- left. now destruct (tk s y).
      * apply (K _ t); auto; rewrite C; simpl; now rewrite upd_same.
    + unfold read_wk in *. simpl in *. destruct (wk s y); apply (K _ t); auto; rewrite C; simpl; now rewrite upd_same.
    + destruct (lk s); apply (K _ t); auto; rewrite C; simpl; now rewrite upd_same.
    + assert (U : fu (ustep atomics s t o u spur) = fu s /\ exists p, ctx (ustep atomics s t o u spur) t = p /\ ((exists u', p = CRel o u') \/ p = CRet o RUnit)).
      { clear K J Ho H. destruct u as [| |y|y| |c|c n|c n|w|w]; simpl.
        - rewrite upd_same. eauto 6.
        - destruct (dpo (dr s)) as [|p c|p c n|p c n|c n|p c n|p c n|p n z] eqn:D; unfold list_step; simpl; rewrite ?D; simpl; rewrite ?upd_same; eauto 6.
          + destruct (c =? 0); simpl; rewrite ?upd_same; eauto 6.
          + destruct (negb atomics && (p =? 0)); simpl; eauto 6.
          + destruct (negb spur && _); simpl; eauto 6. destruct (_ =? _); simpl; eauto 6.
          + destruct (_ =? _); simpl; eauto 6.
        - unfold read_wk. simpl. destruct (tk s y); simpl; [|destruct (wk s y); simpl]; rewrite ?upd_same; eauto 6.
        - rewrite upd_same. eauto 6.
        - rewrite upd_same. eauto 6.
        - destruct (c =? 0); simpl; rewrite ?upd_same; eauto 6.
        - destruct (tk s c); simpl; rewrite ?upd_same; eauto 6.
        - unfold read_wk. simpl. destruct (wk s c); simpl; rewrite ?upd_same; eauto 6.
        - rewrite upd_same. destruct w; eauto 6.
        - rewrite upd_same. eauto 6. }
      destruct U as (U1 & p & U2 & U3). apply (K _ t); auto. rewrite C, U2. simpl.
      destruct U3 as [(u' & ->)| ->]; simpl; auto. destruct o; easy.
    + cbv zeta in *.
      assert (Hg : forall s1, lent s1 -> lent (match r with RGuard => set_gd s1 (S (gd s1)) | _ => s1 end)) by (intros s1 H1; now destruct r).
      apply Hg. clear Hg. assert (Hc : forall t', t' <> t -> upd (ctx s) t CIdle t' = ctx s t') by (intros; now rewrite upd_other).
      destruct o as [|f w|f|]; simpl.
      * apply (K _ t); auto. now rewrite C.
      * destruct (fu s f) as [b v|] eqn:F.
        -- apply (J _ t f (FLive false v)); auto; [|now right]. rewrite C. simpl. intros f' E. now injection E.
        -- apply (lent_move s _ t); auto. simpl. intros f' v E. right. split; eauto. rewrite C. simpl. congruence.
      * apply (J _ t f FGone); auto; [|now right]. rewrite C. simpl. intros f' E. now injection E.
      * apply (K _ t); auto. now rewrite C.
  - destruct (gd s); auto.
  - destruct (gd s); auto.
Qed.

(** ** All invariants *)
Definition minv (v0 : N) (s : mst) : Prop :=
  excl s /\ told v0 s /\ lent s /\
  exists q, linv atomics s q /\
    (o_stale (order (log s)) = false -> binv s q /\ (o_fail (order (log s)) = false -> cinv s q)).

Lemma minv_step v0 s a : minv v0 s -> minv v0 (mstep atomics s a).
Proof.
  intros (X & T & N & q & L & H). split; [now apply excl_step|]. split; [now apply told_step|]. split; [now apply lent_step|].
  destruct (linv_step atomics s q a X L) as (q' & L' & R). exists q'. split; auto. intros S.
  destruct (H (stale_step _ _ S)) as (B & Hc). clear H. split.
  - destruct a as [t o|t spur x| |v]; simpl in *.
    + now apply (call_b atomics s q).
    + destruct (ctx s t) as [| | | | | | | | | | | |o u|] eqn:C; try (apply (step_b atomics s q); auto; now rewrite C).
      unfold cstep in *. rewrite C in *. now apply (ustep_b atomics s q).
    + destruct (gd s); [now apply (same_b s q)|].
      apply (access_b s q q' _ (dt s)); eauto.
    + destruct (gd s); [now apply (same_b s q)|]. apply (access_b s q); eauto.
  - intros F. specialize (Hc (fail_step _ _ F)). destruct a as [t o|t spur x| |v]; simpl in *.
    + now apply (call_c atomics s q).
    + destruct (ctx s t) as [| | | | | | | | | | | |o u|] eqn:C; try (apply (step_c atomics s q); auto; now rewrite C).
      unfold cstep in *. rewrite C in *. now apply (ustep_c atomics s q).
    + destruct (gd s); [now apply (cinv_same atomics s q)|]. apply (access_c s q q' _ (dt s)); eauto.
    + destruct (gd s); [now apply (cinv_same atomics s q)|]. apply (access_c s q); eauto.
Qed.

Lemma minv_init v addrs link : minv v (minit v addrs link).
Proof.
  split; [constructor; simpl; try easy; lia|]. split; [now split|]. split; [easy|].
  exists (QIdle []). split; [|intros _; split; [|intros _]].
  - constructor; simpl; try easy.
    exists []. constructor; simpl; auto; try easy. constructor; simpl; auto; try easy.
    + constructor.
    + constructor.
    + intros [|t] x; easy.
    + intros [|t] [|t'] x; easy.
    + intros x _. apply unissued10.
    + exists 0. reflexivity.
  - constructor; simpl; try easy.
  - constructor; simpl; try easy.
    + intros f. split; [|easy]. split; [easy|]. intros (? & ?). easy.
    + intros _ f x ((b & g & E) & _). easy.
Qed.

Lemma minv_run v0 l : forall s, minv v0 s -> minv v0 (mrun atomics s l).
Proof. induction l as [|a l IH]; simpl; intros s H; auto. apply IH. now apply minv_step. Qed.
End Run.
