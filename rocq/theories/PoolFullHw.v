(** Proofs about exhausted pools, hardware build. *)
Require Import NArith List Bool Arith Lia.
From Verif Require Import AtomicSpec LinSpec Treiber TreiberProofs TreiberSoft PoolFullSpec PoolFull P03_Treiber.
Import ListNotations.
Open Scope nat_scope.

Section Hard.
Variables size edge : N.
Hypothesis Hsize : (0 < size)%N.

Definition tchk (c : thr) : bool :=
  match c with TPop1 true cur => (cur =? 0)%N | TBump0 | TBump1 _ => true | _ => false end.
Definition tnone (c : thr) : bool := match c with TDone RNone => true | _ => false end.
Definition tidle (c : thr) : bool := match c with TIdle => true | _ => false end.
Definition tpops (c : thr) : bool :=
  match c with TPop0 false | TPop1 false _ | TPop2 false _ _ => true | _ => false end.

Lemma tchk_carry c : tchk c = true -> carry c = None.
Proof. now destruct c. Qed.
Lemma tcarry_idle c : carry c <> None -> tidle c = false.
Proof. now destruct c. Qed.
Lemma tchk_idle c : tchk c = true -> tidle c = false.
Proof. now destruct c. Qed.
Lemma tnone_idle c : tnone c = true -> tidle c = false.
Proof. now destruct c. Qed.

Lemma trun_app_log l1 : forall s l2,
  trun size edge s (l1 ++ l2) =
  (fst (trun size edge (fst (trun size edge s l1)) l2),
   snd (trun size edge s l1) ++ snd (trun size edge (fst (trun size edge s l1)) l2)).
Proof.
  induction l1 as [|lb l1 IH]; intros s l2; simpl; [now destruct (trun size edge s l2)|].
  destruct (tstep size edge s lb) as [s1 e1]. rewrite IH.
  destruct (trun size edge s1 l1) as [s2 e2]. simpl. now rewrite app_assoc.
Qed.

Lemma tstep_one s lb : snd (tstep size edge s lb) = [] \/ exists e, snd (tstep size edge s lb) = [e].
Proof.
  unfold tstep. destruct lb as [t o|t sp|t|x v|x].
  - destruct (th s t); simpl; eauto. destruct (may_call (sh s) o); simpl; eauto.
  - left. now destruct (taccess size edge (sh s) (th s t) sp).
  - destruct (th s t); simpl; eauto.
  - left. now destruct (mem_N x (held (sh s))).
  - left. now destruct (mem_N x (held (sh s))).
Qed.

Lemma tfind_event e : forall ls s tr tr', snd (trun size edge s ls) = tr ++ e :: tr' ->
  exists l1 lb l2, ls = l1 ++ lb :: l2 /\ snd (trun size edge s l1) = tr /\
    snd (tstep size edge (fst (trun size edge s l1)) lb) = [e].
Proof.
  induction ls as [|lb ls IH]; intros s tr tr' H; [destruct tr; discriminate|].
  simpl in H. destruct (tstep_one s lb) as [E0|[e0 E0]]; destruct (tstep size edge s lb) as [s1 e1] eqn:Es;
    simpl in E0; subst e1; destruct (trun size edge s1 ls) as [s2 e2] eqn:Er; simpl in H.
  - destruct (IH s1 tr tr') as (l1 & lb' & l2 & A & B & C); [now rewrite Er|].
    exists (lb :: l1), lb', l2. split; [now rewrite A|]. simpl. rewrite Es.
    destruct (trun size edge s1 l1) as [s3 e3]. simpl in *. auto.
  - destruct tr as [|e' tr].
    + injection H as <- ->. exists [], lb, ls. split; [easy|]. split; [easy|]. simpl. now rewrite Es.
    + injection H as <- H. destruct (IH s1 tr tr') as (l1 & lb' & l2 & A & B & C); [now rewrite Er|].
      exists (lb :: l1), lb', l2. split; [now rewrite A|]. simpl. rewrite Es.
      destruct (trun size edge s1 l1) as [s3 e3]. simpl in *. split; [now rewrite B|auto].
Qed.

Record tctx (s s' : tstate) (e : list (lvis top tres)) : Prop := {
  tc_pops : forall t, tpops (th s' t) = false;
  tc_chk : forall t, tchk (th s' t) = true -> tchk (th s t) = false -> hd (sh s') = 0%N;
  tc_un : un (sh s') = un (sh s) \/
    exists t, un (sh s) <> edge /\ un (sh s') = (un (sh s) + size)%N /\ tchk (th s t) = true /\ tchk (th s' t) = false;
  tc_none : forall t, tnone (th s' t) = true -> tnone (th s t) = true \/ (tchk (th s t) = true /\ un (sh s) = edge);
  tc_busy : forall b t, busy b e t =
    match e with [] => b t | e0 :: _ => if of_ctx t e0 then negb (tidle (th s' t)) else b t end;
  tc_idle : forall t, tidle (th s' t) = tidle (th s t) \/ exists e0, e = [e0] /\ of_ctx t e0 = true;
  tc_ev : forall e0 t, e = [e0] -> of_ctx t e0 = true -> tidle (th s t) = true \/ tidle (th s' t) = true;
  tc_ret : forall t, e = [LReturn t RNone] -> tnone (th s t) = true
}.

Lemma tctx_same s m : (forall t, tpops (th s t) = false) -> un m = un (sh s) -> tctx s (TState m (th s)) [].
Proof.
  intros Hp Hu. constructor; cbn [th sh]; auto; try discriminate. intros t A B. congruence.
Qed.

Lemma tctx_step s t m c e : (forall t, tpops (th s t) = false) ->
  tpops c = false ->
  (tchk c = true -> tchk (th s t) = false -> hd m = 0%N) ->
  (un m = un (sh s) \/ (un (sh s) <> edge /\ un m = (un (sh s) + size)%N /\ tchk (th s t) = true /\ tchk c = false)) ->
  (tnone c = true -> tnone (th s t) = true \/ (tchk (th s t) = true /\ un (sh s) = edge)) ->
  (e = [] /\ tidle c = tidle (th s t) \/ (exists o, e = [LCall t o] /\ tidle (th s t) = true /\ tidle c = false) \/
   (exists r, e = [LReturn t r] /\ tidle c = true /\ (r = RNone -> tnone (th s t) = true))) ->
  tctx s (TState m (upd (th s) t c)) e.
Proof.
  intros Hp A1 A2 A3 A4 A5.
  assert (Dt : forall u, (u = t /\ upd (th s) t c u = c) \/ (u <> t /\ upd (th s) t c u = th s u)).
  { intros u. destruct (Nat.eq_dec u t) as [->|Hne]; [left; now rewrite upd_same|right; now rewrite upd_other]. }
  constructor; cbn [th sh].
  - intros u. destruct (Dt u) as [(-> & ->)|(_ & ->)]; auto.
  - intros u. destruct (Dt u) as [(-> & ->)|(_ & ->)]; [auto|]. intros X Y. congruence.
  - destruct A3 as [A3|(X & Y & Z & W)]; [auto|]. right. exists t. rewrite upd_same. auto.
  - intros u. destruct (Dt u) as [(-> & ->)|(_ & ->)]; auto.
  - intros b u. destruct A5 as [(-> & _)|[(o & -> & B & C)|(r & -> & B & _)]]; [easy| |]; simpl;
      destruct (Nat.eqb_spec t u) as [<-|Hne]; rewrite ?upd_same, ?upd_other by auto; rewrite ?B, ?C; auto.
  - intros u. destruct (Dt u) as [(-> & ->)|(_ & ->)]; [|auto].
    destruct A5 as [(-> & B)|[(o & -> & _)|(r & -> & _)]]; [auto| |]; right; eexists; (split; [reflexivity|]);
      simpl; apply Nat.eqb_refl.
  - intros e0 u He Ho. destruct A5 as [(-> & B)|[(o & -> & B & _)|(r & -> & B & _)]]; [discriminate| |];
      injection He as <-; simpl in Ho; apply Nat.eqb_eq in Ho; subst u; rewrite ?upd_same; auto.
  - intros u He. destruct A5 as [(-> & B)|[(o & -> & B & _)|(r & -> & B & C)]]; try discriminate.
    injection He as <- ->. auto.
Qed.

Lemma tstep_ctx s l lb : tinv size edge s l -> (forall t, tpops (th s t) = false) -> pool_label lb ->
  tctx s (fst (tstep size edge s lb)) (snd (tstep size edge s lb)).
Proof.
  intros HI Hp Hl.
  assert (Hsame : tctx s s []) by (destruct s; now apply tctx_same).
  destruct lb as [t o|t sp|t|x v|x]; simpl in Hl; simpl.
  - destruct (th s t) eqn:Et; try exact Hsame. destruct (may_call (sh s) o); [|exact Hsame].
    apply tctx_step; auto; rewrite ?Et; simpl; auto.
    + destruct o; easy.
    + destruct o; discriminate.
    + left. destruct o; reflexivity.
    + destruct o; discriminate.
    + right. left. exists o. split; [easy|]. split; [easy|]. now destruct o.
  - pose proof (Hp t) as Hpt. pose proof (ti_ok _ _ _ _ HI t) as Hok.
    destruct (th s t) as [|x|x cur|x cur|al|al cur|al cur nxt| |u|r] eqn:Et; simpl in Hpt, Hok; simpl;
      try (destruct al; [|discriminate]).
    + apply tctx_step; auto; rewrite ?Et; simpl; auto; try discriminate.
    + apply tctx_step; auto; rewrite ?Et; simpl; auto; try discriminate.
    + apply tctx_step; auto; rewrite ?Et; simpl; auto; try discriminate.
    + destruct (negb sp && (hd (sh s) =? cur)%N); simpl; apply tctx_step; auto; rewrite ?Et; simpl; auto; try discriminate.
    + apply tctx_step; auto; rewrite ?Et; simpl; auto; try discriminate. intros A _. now apply N.eqb_eq.
    + destruct (N.eqb_spec cur 0) as [->|Hne]; simpl; apply tctx_step; auto; rewrite ?Et; simpl; auto; try discriminate.
    + destruct (negb sp && (hd (sh s) =? cur)%N); simpl; apply tctx_step; auto; rewrite ?Et; simpl; auto; try discriminate.
      intros A _. now apply N.eqb_eq.
    + apply tctx_step; auto; rewrite ?Et; simpl; auto; try discriminate.
    + destruct (N.eqb_spec u edge) as [->|Hne]; simpl.
      * apply tctx_step; auto; rewrite ?Et; simpl; auto; try discriminate.
      * destruct (negb sp && (un (sh s) =? u)%N) eqn:Eu; simpl; apply tctx_step; auto; rewrite ?Et; simpl; auto; try discriminate.
        right. apply andb_true_iff in Eu. destruct Eu as [_ Eu]. apply N.eqb_eq in Eu. subst u. auto.
    + apply tctx_step; auto; rewrite ?Et; simpl; auto; try discriminate.
  - destruct (th s t) as [|x|x cur|x cur|al|al cur|al cur nxt| |u|r] eqn:Et; simpl; try exact Hsame.
    apply tctx_step; auto; rewrite ?Et; simpl; auto; try discriminate.
    + destruct r; auto.
    + right. right. exists r. split; [easy|]. split; [easy|]. now intros ->.
  - destruct (mem_N x (held (sh s))); [|exact Hsame]. now apply tctx_same.
  - destruct Hl.
Qed.

Lemma tstep_used s lb : pool_label lb ->
  held (sh (fst (tstep size edge s lb))) = used (held (sh s)) (snd (tstep size edge s lb)) /\
  dead (sh (fst (tstep size edge s lb))) = dead (sh s).
Proof.
  destruct lb as [t o|t sp|t|x v|x]; simpl; intros Hk; [| | | |easy].
  - destruct (th s t); try easy. destruct o as [x| |]; simpl; try easy.
    now destruct (mem_N x (held (sh s))).
  - destruct (th s t); simpl; try easy;
      repeat match goal with |- context [if ?b then _ else _] => destruct b end; easy.
  - destruct (th s t); try easy. now destruct r.
  - now destruct (mem_N x (held (sh s))).
Qed.

Lemma no_reuse_firstn ls : forall n s, no_reuse size edge s ls -> no_reuse size edge s (firstn n ls).
Proof. induction ls as [|lb ls IH]; intros [|n] s H; simpl in *; auto. destruct H. split; auto. Qed.
Lemma solo_pops_firstn ls : forall n s, solo_pops size edge s ls -> solo_pops size edge s (firstn n ls).
Proof. induction ls as [|lb ls IH]; intros [|n] s H; simpl in *; auto. destruct H. split; auto. Qed.
Lemma tame_firstn ls n s : tame size edge s ls -> tame size edge s (firstn n ls).
Proof. intros [H|H]; [left; now apply no_reuse_firstn|right; now apply solo_pops_firstn]. Qed.

Section Run.
Variables (a : N) (count : nat) (link : N -> N) (ls : list tlabel).
Let s0 := tinit (shm_init a [] link).
Hypothesis Ha : (0 < a)%N.
Hypothesis He : edge = (a + size * N.of_nat count)%N.
Hypothesis Hlab : Forall pool_label ls.
Hypothesis Htame : tame size edge s0 ls.

Let st (n : nat) : tstate := fst (trun size edge s0 (firstn n ls)).
Let lg (n : nat) : list (lvis top tres) := snd (trun size edge s0 (firstn n ls)).

Lemma tst_S n : (st (S n) = st n /\ lg (S n) = lg n) \/
  exists lb, nth_error ls n = Some lb /\ st (S n) = fst (tstep size edge (st n) lb) /\
    lg (S n) = lg n ++ snd (tstep size edge (st n) lb).
Proof.
  unfold st, lg. destruct (nth_error ls n) as [lb|] eqn:En.
  - right. exists lb. split; [easy|].
    assert (Ef : firstn (S n) ls = firstn n ls ++ [lb]).
    { clear - En. revert n En. induction ls as [|x r IH]; intros [|n] En; simpl in *; try discriminate.
      - now injection En as ->.
      - f_equal. now apply IH. }
    rewrite Ef, trun_app_log. simpl.
    destruct (tstep size edge (fst (trun size edge s0 (firstn n ls))) lb) as [s1 e1]. simpl.
    now rewrite app_nil_r.
  - left. apply nth_error_None in En. now rewrite !firstn_all2 by lia.
Qed.

Lemma tst_inv n : exists l, tinv size edge (st n) l /\
  forall x, somewhere size edge (shm_init a [] link) [] (fun _ => None) x <->
            somewhere size edge (sh (st n)) l (fun t => carry (th (st n) t)) x.
Proof.
  destruct (tame_run size edge (firstn n ls) a [] link Hsize) as (l & A & B & _).
  - rewrite He. now apply pool_tinv.
  - apply tame_firstn. exact Htame.
  - exists l. auto.
Qed.

Lemma tst_pops n t : tpops (th (st n) t) = false.
Proof.
  revert t. induction n as [|n IH]; intros t; [reflexivity|].
  destruct (tst_S n) as [(-> & _)|(lb & En & -> & _)]; [apply IH|].
  destruct (tst_inv n) as (l & HI & _).
  apply (tc_pops _ _ _ (tstep_ctx (st n) l lb HI IH ltac:(eapply Forall_forall; [exact Hlab|]; eapply nth_error_In; eauto))).
Qed.

Lemma tst_ctx n lb : nth_error ls n = Some lb ->
  pool_label lb /\ tctx (st n) (fst (tstep size edge (st n) lb)) (snd (tstep size edge (st n) lb)).
Proof.
  intros En. destruct (tst_inv n) as (l & HI & _).
  assert (Hl : pool_label lb) by (eapply Forall_forall; [exact Hlab|]; eapply nth_error_In; eauto).
  split; [exact Hl|]. apply (tstep_ctx (st n) l lb HI (tst_pops n) Hl).
Qed.

Lemma tst_busy n t : busy (fun _ => false) (lg n) t = negb (tidle (th (st n) t)).
Proof.
  revert t. induction n as [|n IH]; intros t; [reflexivity|].
  destruct (tst_S n) as [(-> & ->)|(lb & En & -> & ->)]; [apply IH|].
  destruct (tst_ctx n lb En) as [Hl C].
  rewrite busy_app, (tc_busy _ _ _ C). destruct (tstep_one (st n) lb) as [E0|[e E0]]; rewrite E0 in *.
  - rewrite IH. destruct (tc_idle _ _ _ C t) as [->|(e & E1 & _)]; [easy|discriminate].
  - destruct (of_ctx t e) eqn:Eo; [easy|]. rewrite IH.
    destruct (tc_idle _ _ _ C t) as [->|(e' & E1 & Ho)]; [easy|]. injection E1 as <-. congruence.
Qed.

Lemma tst_held n : held (sh (st n)) = used [] (lg n) /\ dead (sh (st n)) = [].
Proof.
  induction n as [|n [IH1 IH2]]; [now split|].
  destruct (tst_S n) as [(-> & ->)|(lb & En & -> & ->)]; [auto|].
  destruct (tst_ctx n lb En) as [Hl C]. destruct (tstep_used (st n) lb Hl) as [A B].
  rewrite A, B, used_app, IH1. auto.
Qed.

Lemma tst_quiet d p q : p <= q -> (forall k, p <= k <= q -> tidle (th (st k) d) = false) ->
  exists tr2, lg q = lg p ++ tr2 /\ forall e, In e tr2 -> of_ctx d e = false.
Proof.
  intros Hpq. induction Hpq as [|q Hpq IH]; intros Hb.
  - exists []. split; [now rewrite app_nil_r|]. intros e [].
  - destruct IH as (tr2 & A & B); [intros k Hk; apply Hb; lia|].
    destruct (tst_S q) as [(Es & El)|(lb & En & Es & El)].
    + exists tr2. now rewrite El.
    + exists (tr2 ++ snd (tstep size edge (st q) lb)). split; [now rewrite El, A, app_assoc|].
      intros e Hin. apply in_app_iff in Hin. destruct Hin as [Hin|Hin]; [auto|].
      destruct (tst_ctx q lb En) as [Hl C].
      destruct (tstep_one (st q) lb) as [E0|[e0 E0]]; rewrite E0 in Hin; [destruct Hin|].
      destruct Hin as [<-|[]]. destruct (of_ctx d e0) eqn:Eo; [|easy].
      destruct (tc_ev _ _ _ C e0 d E0 Eo) as [H|H].
      * rewrite Hb in H by lia. discriminate.
      * rewrite <- Es, Hb in H by lia. discriminate.
Qed.

Theorem hard_exhausted d tr tr' :
  snd (trun size edge s0 ls) = tr ++ LReturn d RNone :: tr' ->
  exists p q tr2, ls = p ++ q /\
    tr = snd (trun size edge s0 p) ++ tr2 /\
    busy (fun _ => false) (snd (trun size edge s0 p)) d = true /\
    (forall e, In e tr2 -> of_ctx d e = false) /\
    exhausted_for d count (snd (trun size edge s0 p)).
Proof.
  intros Hev. destruct (tfind_event _ _ _ _ _ Hev) as (l1 & lb & l2 & El & Etr & Ev).
  set (N := length l1).
  assert (EN : firstn N ls = l1) by (unfold N; rewrite El, firstn_app, firstn_all, Nat.sub_diag; apply app_nil_r).
  assert (Elb : nth_error ls N = Some lb).
  { unfold N. rewrite El, nth_error_app2, Nat.sub_diag by lia. reflexivity. }
  assert (EsN : st N = fst (trun size edge s0 l1)) by (unfold st; now rewrite EN).
  assert (ElN : lg N = tr) by (unfold lg; now rewrite EN).
  rewrite <- EsN in Ev.
  assert (Hnone : tnone (th (st N) d) = true).
  { destruct (tst_ctx N lb Elb) as [Hl C]. now apply (tc_ret _ _ _ C). }
  destruct (none_instant (fun n t => tchk (th (st n) t)) (fun n => hd (sh (st n)) = 0%N)
              (fun n => left_ size edge (un (sh (st n))))) with (none := fun n t => tnone (th (st n) t)) (d := d) (n := N)
    as (T & ts & HT & HE & Hnd & Hlen & Hts & Hbz).
  - intros n t A B. destruct (tst_S n) as [(Es & _)|(lb' & En & Es & _)]; [rewrite Es in A; congruence|].
    destruct (tst_ctx n lb' En) as [Hl C]. rewrite Es in *. eapply (tc_chk _ _ _ C); eauto.
  - intros n. destruct (tst_S n) as [(Es & _)|(lb' & En & Es & _)]; [left; now rewrite Es|].
    destruct (tst_ctx n lb' En) as [Hl C]. rewrite Es in *. destruct (tst_inv n) as (l & HI & _).
    destruct (tc_un _ _ _ C) as [U|(t & U & V & W)]; [left; now rewrite U|].
    right. exists t. rewrite V. split; [|exact W]. apply left_next; auto.
    apply (own_grid _ _ _ _ _ (ti_own _ _ _ _ HI)).
  - intros t. reflexivity.
  - intros t. reflexivity.
  - intros n t A. destruct (tst_S n) as [(Es & _)|(lb' & En & Es & _)]; [rewrite Es in A; auto|].
    destruct (tst_ctx n lb' En) as [Hl C]. rewrite Es in *.
    destruct (tc_none _ _ _ C t A) as [H|[H U]]; [auto|]. right. split; [exact H|]. rewrite U. apply left_edge; auto.
  - exact Hnone.
  - exists (firstn T ls), (skipn T ls).
    destruct (tst_quiet d T N HT) as (tr2 & A & B).
    { intros k Hk. destruct (Hbz k Hk) as [H|H]; [now apply tchk_idle|now apply tnone_idle]. }
    exists tr2. split; [symmetry; apply firstn_skipn|]. split; [now rewrite <- ElN|].
    assert (Hd : tidle (th (st T) d) = false).
    { destruct (Hbz T ltac:(lia)) as [H|H]; [now apply tchk_idle|now apply tnone_idle]. }
    split; [change (busy (fun _ => false) (lg T) d = true); now rewrite tst_busy, Hd|].
    split; [exact B|].
    destruct (tst_inv T) as (l & HI & HW). destruct (tst_held T) as [Eh Ed].
    assert (l = []) as ->.
    { pose proof (own_chain _ _ _ _ _ (ti_own _ _ _ _ HI)) as Hch. destruct l; [easy|]. simpl in Hch.
      destruct Hch as (? & ? & _). congruence. }
    destruct (count_blocks size edge Hsize a count (sh (st T)) (fun t => carry (th (st T) t)) He (ti_own _ _ _ _ HI) Ed)
      as (cs & Ca & Cb & Cc).
    { intros x Hx. apply HW. right. right. right. left. simpl. rewrite He. now apply blocks_unissued. }
    exists (cs ++ ts). split; [|split].
    + apply NoDup_app_intro_; auto. intros t Ht Ht'. apply (Cb t Ht). apply tchk_carry. now apply Hts.
    + intros t Ht. apply in_app_iff in Ht. change (snd (trun size edge s0 (firstn T ls))) with (lg T).
      rewrite tst_busy. destruct Ht as [Ht|Ht].
      * split.
        -- intros ->. apply (Cb d Ht). destruct (Hbz T ltac:(lia)) as [H|H];
             [now apply tchk_carry|]. destruct (th (st T) d); try discriminate; now destruct r.
        -- specialize (Cb t Ht). apply tcarry_idle in Cb. now rewrite Cb.
      * destruct (Hts t Ht) as [H Hne]. split; [exact Hne|]. now rewrite (tchk_idle _ H).
    + change (snd (trun size edge s0 (firstn T ls))) with (lg T). rewrite <- Eh.
      rewrite nodup_fixed_point by apply (own_nd_h _ _ _ _ _ (ti_own _ _ _ _ HI)).
      rewrite app_length. lia.
Qed.
End Run.
End Hard.
