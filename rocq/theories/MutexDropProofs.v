(** Each waker that a mutex clones is woken or destroyed exactly once. *)
Require Import NArith List Bool Arith Lia.
From Verif Require Import AtomicSpec AtomicsProofs Treiber TreiberProofs DrainSpec Drain DrainProofs
  MutexSpec Mutex MutexProofs MutexList MutexSafe MutexWake MutexRun MutexDropSpec MutexDrop.
Import ListNotations.
Open Scope N_scope.

(** ** Sums over finitely many elements *)
Definition total {X} (f : X -> nat) (n : nat) : Prop :=
  exists L, NoDup L /\ (forall x, f x <> O -> In x L) /\ n = list_sum (map f L).
Lemma sum_app l r : list_sum (l ++ r) = (list_sum l + list_sum r)%nat.
Proof. apply list_sum_app. Qed.
Lemma sum_cons n l : list_sum (n :: l) = (n + list_sum l)%nat.
Proof. reflexivity. Qed.
Lemma sum_ext {X} (f g : X -> nat) L : (forall x, In x L -> f x = g x) -> list_sum (map f L) = list_sum (map g L).
Proof. intros H. f_equal. now apply map_ext_in. Qed.
Lemma total_change {X} (dec : forall x y : X, {x = y} + {x <> y}) (f f' : X -> nat) n x : total f n -> (forall y, y <> x -> f' y = f y) ->
  exists n', total f' n' /\ (n' + f x = n + f' x)%nat.
Proof.
  intros (L & Nd & Hc & ->) E. destruct (in_dec dec x L) as [Hx|Hx].
  - exists (list_sum (map f' L)). split.
    + exists L. repeat split; auto. intros y Hy. destruct (dec y x) as [->|Hn]; auto. rewrite E in Hy; auto.
    + apply in_split in Hx as (a & b & ->). pose proof (NoDup_remove_2 _ _ _ Nd) as Hn. rewrite in_app_iff in Hn.
      rewrite !map_app, !sum_app. cbn [map]. rewrite !sum_cons.
      rewrite (sum_ext f' f a), (sum_ext f' f b); [lia| |]; intros y Hy; apply E; intros ->; tauto.
  - exists (f' x + list_sum (map f L))%nat. split.
    + exists (x :: L). repeat split.
      * now constructor.
      * intros y Hy. destruct (dec y x) as [->|Hn]; [now left|right]. rewrite E in Hy; auto.
      * cbn [map]. rewrite sum_cons. f_equal. apply sum_ext. intros y Hy. symmetry. apply E. intros ->. tauto.
    + destruct (f x) eqn:F; [lia|]. exfalso. apply Hx, Hc. lia.
Qed.
Lemma total_zero {X} (f : X -> nat) n : total f n -> (forall x, f x = O) -> n = O.
Proof. intros (L & _ & _ & ->) E. induction L as [|x L IH]; cbn; [reflexivity|]. now rewrite E. Qed.
Lemma total_ext {X} (f g : X -> nat) n : total f n -> (forall x, g x = f x) -> total g n.
Proof. intros (L & Nd & Hc & ->) E. exists L. repeat split; auto. - intros x. rewrite E. auto. - apply sum_ext. auto. Qed.

(** ** Where clones of [w] are *)
Definition one (w k : N) : nat := if w =? k then 1%nat else O.
Definition inn (w : N) (o : option N) : nat := match o with Some k => one w k | None => O end.
Definition inc (w : N) (p : pos) : nat :=
  match p with CRel _ (UStore (Some k)) | CRel _ (UWake k) => one w k | _ => O end.

Lemma uses_app w l e : uses w (l ++ [e]) = (uses w l + match e with EWake k | EDropW k => one w k | _ => O end)%nat.
Proof.
  unfold uses, one. rewrite filter_app, app_length. f_equal. cbn. destruct e; try reflexivity; now destruct (w =? _).
Qed.
Lemma copies_app w l r : copies w (l ++ r) = (copies w l + copies w r)%nat.
Proof. unfold copies. now rewrite filter_app, app_length. Qed.

Section Build.
Variable atomics : bool.

(** What a step of [t] does to them. *)
Inductive wkind (w : N) (s s' : mst) (t : nat) : Prop :=
| WSame : wk s' = wk s -> tk s' = tk s -> dead (dsh (dr s')) = dead (dsh (dr s)) -> ctx s' = ctx s -> uses w (log s') = uses w (log s) -> wkind w s s' t
| WQuiet : wk s' = wk s -> dead (dsh (dr s')) = dead (dsh (dr s)) -> rd (ctx s t) = None ->
    (forall y, tk s y = true -> tk s' y = true) -> (forall y, tk s' y = true -> tk s y = true \/ rd (ctx s' t) = Some y) ->
    (uses w (log s') + inc w (ctx s' t) = uses w (log s) + inc w (ctx s t))%nat ->
    (forall f k y, ctx s t = CPush f k y -> ctx s' t = CPush f k y \/ ctx s' t = CPoll2 f k) ->
    (forall f k, ctx s t <> CAlloc f k \/ ctx s' t = CAlloc f k) -> wkind w s s' t
| WRead y k : rd (ctx s t) = Some y -> wk s y = Some k -> wk s' = setx (wk s) y None -> tk s' = tk s ->
    dead (dsh (dr s')) = dead (dsh (dr s)) ->
    (uses w (log s') + inc w (ctx s' t) = uses w (log s) + inc w (ctx s t) + one w k)%nat -> wkind w s s' t
| WAlloc f k y : ctx s t = CAlloc f k -> ctx s' t = CPush f k y -> In y (dead (dsh (dr s))) -> wk s' = setx (wk s) y (Some k) ->
    tk s' = setx (tk s) y false -> (forall z, In z (dead (dsh (dr s'))) -> In z (dead (dsh (dr s))) /\ z <> y) -> log s' = log s -> wkind w s s' t
| WFree o y : ctx s t = CRel o (UFree y) -> ctx s' t = CRel o UDrain -> wk s' = wk s -> tk s' = tk s -> tk s y = true ->
    (forall z, In z (dead (dsh (dr s'))) -> In z (dead (dsh (dr s))) \/ z = y) -> log s' = log s -> wkind w s s' t.

Lemma list_dead s lb : (match lb with AFree _ | AReuse _ => False | _ => True end) -> dead (dsh (dr (list_step s lb))) = dead (dsh (dr s)).
Proof. intros H. unfold list_step. cbn [dr set_dr]. now rewrite dead_same. Qed.

Lemma setx_inv (f : N -> bool) x y : setx f x true y = true -> f y = true \/ x = y.
Proof. unfold setx. destruct (N.eqb_spec y x); auto. Qed.
Ltac quiet_w C := apply WQuiet; cbn [wk tk log ctx dr goto emit set_lk set_fu set_bad set_gd visit use set_dr set_tk dsh dead dtouch touch];
  rewrite ?list_dead by exact I; unfold list_step; cbn [wk tk log ctx set_dr visit]; rewrite ?upd_same, ?C, ?uses_app; cbn [rd inc]; auto; try lia; try easy; try (left; discriminate).

Lemma ustep_w w s q t o u spur : linv atomics s q -> ctx s t = CRel o u -> bad (ustep atomics s t o u spur) = false ->
  wkind w s (ustep atomics s t o u spur) t.
Proof.
  intros L C Hb. pose proof (l_pos _ _ _ L t) as LP. unfold lpos in LP. rewrite C in LP. destruct LP as (_ & LU).
  destruct u as [| |y|y| |c|c n|c n|k|k]; cbn [ustep] in *.
  - quiet_w C.
  - destruct (dpo (dr s)) as [|p c|p c n|p c n|c n|p c n|p c n|p n z] eqn:D.
    + destruct (dpo (dr (list_step s (DStep spur)))); quiet_w C.
    + destruct (dpo (dr (list_step s (DStep spur)))); quiet_w C.
    + quiet_w C.
    + destruct (negb atomics && (p =? 0)); quiet_w C.
    + destruct (dpo (dr (list_step s (DStep spur)))); quiet_w C.
    + destruct (dpo (dr (list_step s (DStep spur)))); quiet_w C.
    + destruct (dpo (dr (list_step s (DStep spur)))); quiet_w C.
    + quiet_w C.
  - destruct LU as (_ & T). rewrite T in *. quiet_w C.
  - destruct LU as (_ & T). apply (WFree _ _ _ _ o y); cbn [goto inc_gen ctx log wk tk dr]; rewrite ?upd_same; auto.
    unfold list_step. cbn. destruct (mem_N y _); cbn; auto. intros z Hz. apply in_app_iff in Hz. cbn in Hz. intuition.
  - quiet_w C.
  - destruct (c =? 0); quiet_w C.
  - destruct (tk s c) eqn:T; quiet_w C.
    + intros z Hz. now apply setx_true.
    + intros z Hz. destruct (setx_inv _ _ _ Hz) as [?| ->]; auto.
    + intros z Hz. now apply setx_true.
    + intros z Hz. destruct (setx_inv _ _ _ Hz) as [?| ->]; auto.
  - unfold read_wk in *. cbn [wk visit set_dr] in *. destruct (wk s c) as [k|] eqn:W; [|cbn in Hb; now rewrite orb_true_r in Hb].
    apply (WRead _ _ _ _ c k); cbn; rewrite ?upd_same, ?C; auto; cbn; lia.
  - destruct k as [k|]; quiet_w C.
  - quiet_w C.
Qed.

Lemma wkind_ok w s a t q : linv atomics s q -> bad (mstep atomics s a) = false ->
  (match a with Call t' _ | Step t' _ _ => t' = t | _ => True end) ->
  wkind w s (mstep atomics s a) t.
Proof.
  intros L Hb Ht. assert (Same : wkind w s s t) by now apply WSame.
  destruct a as [t0 o|t0 spur x| |v]; cbn [mstep] in *; try subst t0.
  - unfold mcall. destruct (ctx s t) eqn:C; auto. destruct o as [|f k|f|].
    + quiet_w C.
    + destruct (fu s f) as [[] p|]; auto. quiet_w C.
    + destruct (fu s f) as [[] p|]; auto. quiet_w C.
    + destruct (gd s); auto. quiet_w C.
  - unfold cstep in *. destruct (ctx s t) as [| |f k|f k|f k|f k y|f k|f k y g|f k y g|f|f y g|f|o u|o r] eqn:C; auto.
    + destruct (lk s); quiet_w C.
    + unfold locked. destruct (lk s); [|destruct (fu s f) as [b [[y g]|]|]]; quiet_w C.
    + destruct (waiter s f) as [[y g]|]; [destruct (tk s y)|]; quiet_w C.
    + destruct (mem_N x _ && negb (x =? 0)) eqn:M; [|exact Same]. pose proof M as M'. apply andb_prop in M' as (Md & _). apply mem_N_In in Md.
      apply (WAlloc _ _ _ _ f k x); auto; try (destruct atomics; cbn; rewrite ?upd_same; reflexivity).
      intros z. assert (F : In z (dead (dsh (dr (list_step s (AReuse x))))) -> In z (dead (dsh (dr s))) /\ z <> x).
      { unfold list_step. cbn. rewrite M. cbn. rewrite filter_In. destruct (N.eqb_spec z x); cbn; intuition congruence. }
      destruct atomics; cbn [goto dr]; rewrite ?list_dead by exact I; exact F.
    + destruct atomics.
      * destruct (dth (dr (list_step s (AStep t spur))) t); quiet_w C; rewrite ?upd_same, ?C; intros f0 k0 y0 E; injection E as <- <- <-; auto.
      * quiet_w C. intros f0 k0 y0 E; injection E as <- <- <-; auto.
    + unfold locked, waiter. destruct (lk s); [|destruct (fu s f) as [b [[y g]|]|] eqn:F; cbn [set_bad fu]; rewrite ?F]; quiet_w C.
    + destruct (tk s y) eqn:T; quiet_w C.
      * intros z Hz. now apply setx_true.
      * intros z Hz. destruct (setx_inv _ _ _ Hz) as [?| ->]; auto.
      * intros z Hz. now apply setx_true.
      * intros z Hz. destruct (setx_inv _ _ _ Hz) as [?| ->]; auto.
    + unfold read_wk in *. cbn [wk use] in *. destruct (wk s y) as [j|] eqn:W; [|cbn in Hb; now rewrite orb_true_r in Hb].
      apply (WRead _ _ _ _ y j); cbn [emit goto ctx log wk tk dr set_wk use]; rewrite ?upd_same, ?C, ?uses_app; auto; cbn [inc]; lia.
    + destruct (waiter s f) as [[y g]|]; [destruct (tk s y) eqn:T|]; quiet_w C.
      * intros z Hz. now apply setx_true.
      * intros z Hz. destruct (setx_inv _ _ _ Hz) as [?| ->]; auto.
      * intros z Hz. now apply setx_true.
      * intros z Hz. destruct (setx_inv _ _ _ Hz) as [?| ->]; auto.
    + unfold read_wk in *. cbn [wk use] in *. destruct (wk s y) as [j|] eqn:W; [|cbn in Hb; now rewrite orb_true_r in Hb].
      apply (WRead _ _ _ _ y j); cbn [emit goto ctx log wk tk dr set_wk use]; rewrite ?upd_same, ?C, ?uses_app; auto; cbn [inc]; lia.
    + destruct (lk s); quiet_w C.
    + now apply (ustep_w w s q).
    + destruct o as [|f k|f|]; cbn [emit goto fu]; try destruct (fu s f) as [b p|]; destruct r; quiet_w C.
  - destruct (gd s); auto. apply WSame; auto. cbn [emit set_dt log]. rewrite uses_app. lia.
  - destruct (gd s); auto. apply WSame; auto. cbn [emit set_dt log]. rewrite uses_app. lia.
Qed.

(** ** The invariant *)
Record winv (w : N) (n : nat) (s : mst) (q : dspec) : Prop := {
  w_dead : forall x, wk s x <> None -> ~ In x (dead (dsh (dr s)));
  w_rd : forall x, wk s x <> None -> tk s x = true -> exists t, rd (ctx s t) = Some x;
  w_in : forall x, wk s x <> None -> tk s x = false -> In x (dcontents q) \/ exists t f k, ctx s t = CPush f k x;
  w_sum : exists a b, total (fun x => inn w (wk s x)) a /\ total (fun t => inc w (ctx s t)) b /\ (n = uses w (log s) + a + b)%nat
}.

Lemma rd_alive s q t x : linv atomics s q -> binv s q -> rd (ctx s t) = Some x -> ~ In x (dead (dsh (dr s))).
Proof.
  intros L B H. pose proof (b_p _ _ B t) as P. unfold bpos in P. pose proof (l_pos _ _ _ L t) as LQ. unfold lpos in LQ.
  destruct (l_d _ _ _ L) as (l & LD).
  destruct (ctx s t) as [| |g w|g w|g w|g w y|g w|g w y k|g w y k|g|g y k|g|o u|o r]; cbn in H; try easy.
  - injection H as ->. unfold good in P. tauto.
  - injection H as ->. unfold good in P. tauto.
  - destruct u; try easy. injection H as ->. destruct LQ as (_ & LQ). now apply (content_alive _ _ _ _ LD) in LQ.
Qed.

Lemma winv_step w n s q q' a : linv atomics s q -> linv atomics (mstep atomics s a) q' -> lrel s (mstep atomics s a) q q' ->
  binv (mstep atomics s a) q' -> winv w n s q -> winv w (n + copies w (clones atomics s a)) (mstep atomics s a) q'.
Proof.
  intros L L' R B' [W1 W2 W3 (x0 & y0 & S1 & S2 & Hn)].
  set (t := match a with Call t _ | Step t _ _ => t | _ => O end).
  assert (Ho : forall t', t' <> t -> ctx (mstep atomics s a) t' = ctx s t') by (intros t' H; apply ctx_other; destruct a; subst t; auto).
  pose proof (wkind_ok w s a t q L (proj2 (b_ok _ _ B')) ltac:(destruct a; subst t; auto)) as K.
  assert (Cl : (forall f k f' k' y, ctx s t = CAlloc f k -> ctx (mstep atomics s a) t <> CPush f' k' y) -> clones atomics s a = []).
  { intros H. unfold clones. destruct a as [|t1 sp x| |]; auto. subst t. destruct (ctx s t1) eqn:C; auto.
    destruct (ctx (mstep atomics s (Step t1 sp x)) t1) eqn:C'; auto. exfalso. eapply H; eauto. }
  set (s' := mstep atomics s a) in *.
  assert (In_ : forall x, In x (dcontents q) -> tk s x = false -> In x (dcontents q')).
  { intros x H T. destruct R as (R & _). destruct (R x H); [auto|congruence]. }
  assert (Pu : forall x, (exists t f k, ctx s t = CPush f k x) -> (forall f k, ctx s t = CPush f k x -> ctx s' t = CPush f k x \/ ctx s' t = CPoll2 f k) ->
     In x (dcontents q') \/ exists t f k, ctx s' t = CPush f k x).
  { intros x (t' & f & k & E) H. destruct (Nat.eq_dec t' t) as [->|Hn'].
    - destruct (H _ _ E) as [E'|E']; [right; eauto|left]. destruct R as (_ & R & _). eauto.
    - right. exists t', f, k. now rewrite Ho. }
  assert (Sc : exists b, total (fun t => inc w (ctx s' t)) b /\ (b + inc w (ctx s t) = y0 + inc w (ctx s' t))%nat).
  { apply (total_change Nat.eq_dec (fun t => inc w (ctx s t)) (fun t => inc w (ctx s' t)) y0 t S2). intros y Hy. now rewrite Ho. }
  destruct Sc as (b & Sb & Eb).
  destruct K as [E1 E2 E3 E4 E5|E1 E2 E3 E4 E5 E6 E7 E8|y k E1 E2 E3 E4 E5 E6|f k y E1 E2 E3 E4 E5 E6 E7|o y E1 E2 E3 E4 E5 E6 E7].
  - rewrite Cl by (intros; congruence). constructor; rewrite ?E1, ?E2, ?E3, ?E4, ?E5; auto.
    + intros x Hx T. destruct (W3 x Hx T) as [?|H]; [auto|]. right. exact H.
    + exists x0, y0. repeat split; auto. cbn. lia.
  - rewrite Cl by (intros f k f' k' y H; destruct (E8 f k); congruence). constructor; rewrite ?E1, ?E2.
    + auto.
    + intros x Hx T. destruct (E5 _ T) as [T0|T0]; [|eauto]. destruct (W2 x Hx T0) as (t' & Ht'). exists t'. rewrite Ho; auto. congruence.
    + intros x Hx T. assert (T0 : tk s x = false) by (destruct (tk s x) eqn:T0; auto; apply E4 in T0; congruence).
      destruct (W3 x Hx T0) as [?|H]; [auto|]. apply Pu; auto.
    + exists x0, b. repeat split; auto. cbn. lia.
  - rewrite Cl by (intros f1 k1 f2 k2 y2 H; now rewrite H in E1).
    assert (Hx : forall x, setx (wk s) y None x <> None -> x <> y /\ wk s x <> None) by (intros x; unfold setx; destruct (N.eqb_spec x y); auto; easy).
    constructor; rewrite ?E3, ?E4, ?E5.
    + intros x H. apply W1. now apply Hx.
    + intros x H T. destruct (Hx x H) as (H1 & H2). destruct (W2 x H2 T) as (t' & Ht'). exists t'. rewrite Ho; auto. congruence.
    + intros x H T. destruct (Hx x H) as (H1 & H2). destruct (W3 x H2 T) as [?|P]; [auto|]. apply Pu; auto. intros f k' C. now rewrite C in E1.
    + destruct (total_change N.eq_dec (fun x => inn w (wk s x)) (fun x => inn w (setx (wk s) y None x)) x0 y S1) as (a' & Sa & Ea).
      { intros z Hz. unfold setx. destruct (N.eqb_spec z y); easy. }
      exists a', b. repeat split; auto. unfold setx in Ea. rewrite N.eqb_refl, E2 in Ea. cbn [inn] in Ea. cbn. lia.
  - assert (En : clones atomics s a = [k]).
    { unfold clones. destruct a as [t1 o|t1 sp x| |v]; subst t; cbn [mstep] in s'.
      - exfalso. subst s'. unfold mcall in E2. rewrite E1 in E2. congruence.
      - change (mstep atomics s (Step t1 sp x)) with s'. now rewrite E1, E2.
      - exfalso. subst s'. destruct (gd s); cbn in E2; congruence.
      - exfalso. subst s'. destruct (gd s); cbn in E2; congruence. }
    assert (Wy : wk s y = None) by (destruct (wk s y) eqn:Y; auto; exfalso; apply (W1 y); auto; congruence).
    assert (Hx : forall x, x <> y -> setx (wk s) y (Some k) x = wk s x /\ setx (tk s) y false x = tk s x)
      by (intros x Hy; unfold setx; destruct (N.eqb_spec x y); easy).
    constructor; rewrite ?E4, ?E5.
    + intros x H Hd. apply E6 in Hd as (Hd & Hy). destruct (Hx x Hy) as (G & _). rewrite G in H. now apply (W1 x).
    + intros x. destruct (N.eq_dec x y) as [->|Hy]; [unfold setx; rewrite N.eqb_refl; easy|]. destruct (Hx x Hy) as (-> & ->).
      intros H T. destruct (W2 x H T) as (t' & Ht'). exists t'. rewrite Ho; auto. intros ->. now rewrite E1 in Ht'.
    + intros x. destruct (N.eq_dec x y) as [->|Hy]; [right; eauto|]. destruct (Hx x Hy) as (-> & ->).
      intros H T. destruct (W3 x H T) as [?|P]; [auto|]. apply Pu; auto. intros f' k' C. now rewrite C in E1.
    + destruct (total_change N.eq_dec (fun x => inn w (wk s x)) (fun x => inn w (setx (wk s) y (Some k) x)) x0 y S1) as (a' & Sa & Ea).
      { intros z Hz. now destruct (Hx z Hz) as (-> & _). }
      exists a', b. repeat split; auto. unfold setx in Ea. rewrite N.eqb_refl, Wy in Ea. cbn [inn] in Ea. rewrite En, E7.
      rewrite E1, E2 in Eb. cbn [inc] in Eb. assert (copies w [k] = one w k) by (unfold copies, one; cbn; now destruct (w =? k)). lia.
  - rewrite Cl by (intros; congruence). constructor; rewrite ?E3, ?E4.
    + intros x H Hd. destruct (E6 _ Hd) as [?| ->]; [now apply (W1 x)|]. destruct (W2 y H E5) as (t' & Ht').
      apply (rd_alive s' q' t' y L' B'); auto. rewrite Ho; auto. intros ->. now rewrite E1 in Ht'.
    + intros x H T. destruct (W2 x H T) as (t' & Ht'). exists t'. rewrite Ho; auto. intros ->. now rewrite E1 in Ht'.
    + intros x H T. destruct (W3 x H T) as [?|P]; [auto|]. apply Pu; auto. intros f k C. congruence.
    + exists x0, b. repeat split; auto. rewrite E7. rewrite E1, E2 in Eb. cbn in *. lia.
Qed.

(** Threaded through a run together with the invariants of the mutex. *)
Definition wall (w : N) (n : nat) (s : mst) : Prop :=
  excl s /\ exists q, linv atomics s q /\ (o_stale (order (log s)) = false -> binv s q /\ winv w n s q).
Lemma wall_step w n s a : wall w n s -> wall w (n + copies w (clones atomics s a)) (mstep atomics s a).
Proof.
  intros (X & q & L & H). split; [now apply excl_step|]. destruct (linv_step atomics s q a X L) as (q' & L' & R). exists q'. split; auto. intros St.
  destruct (H (stale_step _ _ _ St)) as (B & W).
  assert (B' : binv (mstep atomics s a) q').
  { destruct a as [t o|t spur x| |v]; simpl in *.
    + now apply (call_b atomics s q).
    + destruct (ctx s t) as [| | | | | | | | | | | |o u|] eqn:C; try (apply (step_b atomics s q); auto; now rewrite C).
      unfold cstep in *. rewrite C in *. now apply (ustep_b atomics s q).
    + destruct (gd s); [now apply (same_b s q)|]. apply (access_b s q q' _ (dt s)); eauto.
    + destruct (gd s); [now apply (same_b s q)|]. apply (access_b s q); eauto. }
  split; auto. now apply (winv_step w n s q q' a).
Qed.
Lemma wall_run w l : forall n s, wall w n s -> wall w (n + copies w (cloned atomics s l)) (mrun atomics s l).
Proof.
  induction l as [|a l IH]; intros n s H; cbn [cloned mrun]; [now rewrite Nat.add_0_r|].
  rewrite copies_app, Nat.add_assoc. apply IH. now apply wall_step.
Qed.
Lemma wall_init w v addrs link : wall w 0 (minit v addrs link).
Proof.
  destruct (minv_init atomics v addrs link) as (X & _ & _ & q & L & H). split; auto. exists q. split; auto. intros St.
  destruct (H St) as (B & _). split; auto. constructor; cbn; try easy.
  exists O, O. repeat split; try (exists []; repeat split; [constructor|cbn; easy]).
Qed.
End Build.

(** ** The destructor *)
Lemma touch_alive m x : x <> 0 -> ~ In x (dead m) -> fault m = false -> fault (dtouch m x) = false.
Proof.
  intros H0 H F. unfold dtouch. cbn -[N.eqb]. rewrite F. destruct (N.eqb_spec x 0); [easy|]. cbn. destruct (mem_N x (dead m)) eqn:M; auto. apply mem_N_In in M. easy.
Qed.
Record nodes_ok (s : mst) (l : list N) : Prop := {
  n_all : forall x, wk s x <> None -> tk s x = false /\ In x l;
  n_in : forall x, In x l -> tk s x = false -> wk s x <> None;
  n_nd : NoDup l;
  n_dead : forall x, In x l -> ~ In x (dead (dsh (dr s)));
  n_ok : fault (dsh (dr s)) = false /\ bad s = false
}.
Lemma drop_node_ok w s x l a : x <> 0 -> nodes_ok s (x :: l) -> total (fun y => inn w (wk s y)) a ->
  let s' := drop_node (visit s x) x in
  nodes_ok s' l /\ nx (dsh (dr s')) = nx (dsh (dr s)) /\ dead (dsh (dr s')) = dead (dsh (dr s)) ++ [x] /\ uaf s' = uaf s /\
  exists a', total (fun y => inn w (wk s' y)) a' /\ (uses w (log s') + a' = uses w (log s) + a)%nat.
Proof.
  intros X0 [NA NI NN ND [NF NB]] T.
  assert (F : fault (dtouch (dtouch (dsh (dr s)) x) x) = false) by (repeat apply touch_alive; auto; cbn; apply ND; now left).
  assert (Dx : dead (dtouch (dtouch (dsh (dr s)) x) x) = dead (dsh (dr s)) /\ nx (dtouch (dtouch (dsh (dr s)) x) x) = nx (dsh (dr s))) by (split; reflexivity).
  pose proof NN as NN'. apply NoDup_cons_iff in NN' as (Nx & Nl).
  unfold drop_node. cbn [visit set_dr tk]. destruct (tk s x) eqn:Tx.
  - cbn -[dtouch uses]. split; [constructor; auto|split; [apply Dx|split; [now rewrite (proj1 Dx)|split; auto]]]; cbn -[dtouch uses].
    + intros y H. destruct (NA y H) as (H1 & [<-|H2]); [congruence|auto].
    + intros y H. apply NI. now right.
    + intros y H. rewrite (proj1 Dx), in_app_iff. cbn. intros [G|[<-|[]]]; auto. apply (ND y); auto. now right.
    + exists a. auto.
  - unfold read_wk. cbn [wk visit set_dr]. destruct (wk s x) as [k|] eqn:Wx; [|exfalso; apply (NI x); auto; now left].
    assert (Hy : forall y, setx (wk s) x None y <> None -> wk s y <> None /\ y <> x) by (intros y; unfold setx; destruct (N.eqb_spec y x); auto; easy).
    cbn -[dtouch uses setx]. split; [constructor; auto|split; [apply Dx|split; [now rewrite (proj1 Dx)|split; auto]]]; cbn -[dtouch uses setx].
    + intros y H. destruct (Hy y H) as (H1 & H2). destruct (NA y H1) as (? & [<-|?]); [easy|auto].
    + intros y H. unfold setx. destruct (N.eqb_spec y x) as [->|Hn]; [easy|]. apply NI. now right.
    + intros y H. rewrite (proj1 Dx), in_app_iff. cbn. intros [G|[<-|[]]]; auto. apply (ND y); auto. now right.
    + destruct (total_change N.eq_dec (fun y => inn w (wk s y)) (fun y => inn w (setx (wk s) x None y)) a x T) as (a' & Ta & Ea).
      { intros z Hz. unfold setx. destruct (N.eqb_spec z x); easy. }
      exists a'. split; auto. unfold setx in Ea. rewrite N.eqb_refl, Wx in Ea. cbn [inn] in Ea. rewrite uses_app. lia.
Qed.
Lemma drop_list_ok w l : forall n s c a, (length l <= n)%nat -> chain (nx (dsh (dr s))) c l -> nodes_ok s l -> total (fun y => inn w (wk s y)) a ->
  let s' := drop_list n s c in
  nodes_ok s' [] /\ dead (dsh (dr s')) = dead (dsh (dr s)) ++ l /\ uaf s' = uaf s /\ uses w (log s') = (uses w (log s) + a)%nat.
Proof.
  induction l as [|x l IH]; intros n s c a Hn C O T s'.
  - cbn in C. subst c. assert (s' = s) as -> by (subst s'; destruct n; reflexivity). rewrite app_nil_r. split; [exact O|]. split; [reflexivity|]. split; [reflexivity|].
    replace a with 0%nat; [lia|]. symmetry. apply (total_zero _ _ T). intros y. destruct (wk s y) eqn:W; auto. destruct (n_all _ _ O y); [congruence|easy].
  - destruct n as [|n]; [cbn in Hn; lia|]. cbn in C. destruct C as (-> & H0 & C). cbn [drop_list] in s'. destruct (N.eqb_spec x 0); [easy|].
    destruct (drop_node_ok w s x l a H0 O T) as (O' & Nx & Dd & U & a' & T' & E).
    destruct (IH n (drop_node (visit s x) x) (nx (dsh (dr s)) x) a') as (A1 & A2 & A3 & A4); auto; [cbn in Hn; lia|now rewrite Nx|].
    subst s'. cbv zeta in *. rewrite A2, A3, A4, Dd, U, <- app_assoc. split; [exact A1|]. split; [reflexivity|]. split; [reflexivity|lia].
Qed.
