(** Proofs about the shared stack in the critical-section build. *)
Require Import NArith List Bool Arith Lia.
From Verif Require Import AtomicSpec LinSpec Treiber TreiberProofs.
Import ListNotations.
Open Scope N_scope.

Section Soft.
Variables size edge : N.
Hypothesis Hsize : 0 < size.

Definition fcarry (f : sfr) : option N :=
  match f with
  | FBegin (OPush x) | FPaused _ (OPush x) | FLoaded _ (OPush x) _ | FComp _ (OPush x) _ _ => Some x
  | FStored _ (RNode x) | FDone (RNode x) => Some x
  | _ => None
  end.

(** Context at depth [d] of the stack. *)
Definition at_depth (fs : list sfr) (d : nat) : sfr := nth d (rev fs) FIdle.

Definition crs (fs : list sfr) (d : nat) : option N := fcarry (at_depth fs d).

Lemma at_depth_top f rest : at_depth (f :: rest) (length rest) = f.
Proof.
  unfold at_depth. simpl. rewrite app_nth2; rewrite rev_length; [|lia].
  now rewrite Nat.sub_diag.
Qed.

Lemma at_depth_replace f f' rest d :
  at_depth (f' :: rest) d = upd (at_depth (f :: rest)) (length rest) f' d.
Proof.
  destruct (Nat.eq_dec d (length rest)) as [->|Hne].
  - now rewrite upd_same, at_depth_top.
  - rewrite upd_other by easy. unfold at_depth. simpl.
    destruct (Nat.lt_ge_cases d (length rest)).
    + rewrite !app_nth1 by (rewrite rev_length; easy). easy.
    + rewrite !app_nth2 by (rewrite rev_length; easy). rewrite rev_length.
      destruct (d - length rest)%nat as [|k] eqn:E; [lia|]. simpl. now destruct k.
Qed.

Lemma at_depth_push rest d : at_depth (FIdle :: rest) d = at_depth rest d.
Proof.
  unfold at_depth. simpl. destruct (Nat.lt_ge_cases d (length rest)).
  - now rewrite app_nth1 by (rewrite rev_length; easy).
  - rewrite app_nth2 by (rewrite rev_length; easy). rewrite rev_length.
    rewrite (nth_overflow (rev rest)) by (rewrite rev_length; easy).
    destruct (d - length rest)%nat as [|[|k]]; reflexivity.
Qed.

Lemma crs_replace f f' rest d :
  crs (f' :: rest) d = upd (crs (f :: rest)) (length rest) (fcarry f') d.
Proof.
  unfold crs. rewrite (at_depth_replace f f').
  destruct (Nat.eq_dec d (length rest)) as [->|Hne]; now rewrite ?upd_same, ?upd_other.
Qed.

Definition in_cs (f : sfr) : Prop :=
  match f with
  | FIdle | FBegin _ | FBump0 | FDone _ => False
  | _ => True
  end.

(** What the running context knows. *)
Definition top_ok (ie0 : bool) (m : shm) (ie : bool) (f : sfr) : Prop :=
  match f with
  | FIdle | FBegin _ | FBump0 | FDone _ => ie = ie0
  | FPaused sv _ | FStored sv _ | FToBump sv | FBump1 sv => ie = false /\ sv = ie0
  | FLoaded sv _ cur => ie = false /\ sv = ie0 /\ cur = hd m
  | FComp sv o cur new =>
      ie = false /\ sv = ie0 /\ cur = hd m /\
      match o with
      | OPush x => new = x /\ nx m x = cur
      | _ => cur <> 0 /\ new = nx m cur
      end
  | FBump2 sv u => ie = false /\ sv = ie0 /\ u = un m
  end.

Record sinv (ie0 : bool) (s : sstate) (l : list N) : Prop := {
  si_own : own size edge (ssh s) l (crs (sfs s));
  si_fault : fault (ssh s) = false;
  si_top : match sfs s with
           | [] => False
           | f :: rest => top_ok ie0 (ssh s) (sie s) f /\ Forall (fun g => ~ in_cs g) rest
           end
}.

Definition slnext (s : sstate) (lb : slabel) (l : list N) : list N :=
  match lb, sfs s with
  | SLStep, FComp _ (OPush x) _ _ :: _ => x :: l
  | SLStep, FComp _ _ _ _ :: _ => tl l
  | _, _ => l
  end.

Lemma top_not_cs ie0 m ie f : top_ok ie0 m ie f -> ie = true -> ~ in_cs f.
Proof. destruct f; simpl; intuition congruence. Qed.

Lemma sinv_step ie0 s l lb :
  sinv ie0 s l ->
  sinv ie0 (fst (sstep size edge s lb)) (slnext s lb l) /\
  (forall x, somewhere size edge (ssh s) l (crs (sfs s)) x <->
     let s' := fst (sstep size edge s lb) in
     somewhere size edge (ssh s') (slnext s lb l) (crs (sfs s')) x).
Proof.
  intros HI. pose proof HI as [HO HF HT]. unfold sstep, slnext.
  destruct (sfs s) as [|f rest] eqn:Es; [easy|]. destruct HT as [HT HR].
  assert (Hsame : sinv ie0 s l /\ (forall x, somewhere size edge (ssh s) l (crs (f :: rest)) x <->
     somewhere size edge (ssh s) l (crs (sfs s)) x)) by (rewrite Es; split; [exact HI|reflexivity]).
  assert (Hct : crs (f :: rest) (length rest) = fcarry f)
    by (unfold crs; now rewrite at_depth_top).
  (* a step without transfer of ownership *)
  assert (Hloc : forall ie f', fcarry f' = fcarry f -> top_ok ie0 (ssh s) ie f' ->
    sinv ie0 (SState (ssh s) ie (f' :: rest)) l /\
    (forall x, somewhere size edge (ssh s) l (crs (f :: rest)) x <->
       somewhere size edge (ssh s) l (crs (f' :: rest)) x)).
  { intros ie f' Hc Ht.
    assert (E : forall t, crs (f' :: rest) t = crs (f :: rest) t).
    { intros t. rewrite (crs_replace f f').
      destruct (Nat.eq_dec t (length rest)) as [->|Hne]; rewrite ?upd_same, ?upd_other by easy; congruence. }
    split.
    - constructor; simpl; auto. eapply own_cr_ext; [exact E|exact HO].
    - intros x. apply somewhere_cr_ext. exact E. }
  (* a step with transfer of ownership *)
  assert (Htr : forall m ie f' l' c,
    (own size edge m l' (upd (crs (f :: rest)) (length rest) c) /\
     (forall x, somewhere size edge (ssh s) l (crs (f :: rest)) x <->
        somewhere size edge m l' (upd (crs (f :: rest)) (length rest) c) x)) ->
    fcarry f' = c -> top_ok ie0 m ie f' -> fault m = false ->
    sinv ie0 (SState m ie (f' :: rest)) l' /\
    (forall x, somewhere size edge (ssh s) l (crs (f :: rest)) x <->
       somewhere size edge m l' (crs (f' :: rest)) x)).
  { intros m ie f' l' c [O1 O2] Hc Ht Hf. subst c. split.
    - constructor; simpl; auto. eapply own_cr_ext; [|exact O1]. intros t. apply crs_replace.
    - intros x. rewrite O2. apply somewhere_cr_ext. intros t. apply crs_replace. }
  destruct lb as [o| | | | |x v|x].
  - destruct f; simpl; try exact Hsame. simpl in HT.
    destruct o as [x| |]; simpl.
    + destruct (mem_N x (held (ssh s))) eqn:Ex; [|exact Hsame]. apply mem_N_In in Ex. simpl.
      apply (Htr _ _ _ _ (Some x)); auto. apply own_call_push; auto.
    + apply Hloc; simpl; auto.
    + apply Hloc; simpl; auto.
  - destruct f as [|o|sv o|sv o cur|sv o cur new|sv r|sv| |sv|sv u|r]; simpl in HT; simpl.
    + apply Hloc; simpl; auto.
    + apply Hloc; simpl; auto.
    + apply Hloc; simpl; intuition.
    + destruct HT as (T1 & T2 & T3). destruct o as [x| |]; simpl.
      * destruct (own_cr _ _ _ _ _ HO (length rest) x Hct) as (X0 & Xl & _).
        assert (E : forall t, crs (FComp sv (OPush x) cur x :: rest) t = crs (FLoaded sv (OPush x) cur :: rest) t).
        { intros t. rewrite (crs_replace (FLoaded sv (OPush x) cur)).
          destruct (Nat.eq_dec t (length rest)) as [->|Hne]; rewrite ?upd_same, ?upd_other by easy;
            [now rewrite Hct|easy]. }
        split.
        -- constructor; simpl; auto.
           ++ eapply own_cr_ext; [exact E|]. now apply own_write.
           ++ split; [|exact HR]. rewrite nset_same. auto.
        -- intros y. etransitivity; [|apply somewhere_cr_ext; exact E]. reflexivity.
      * destruct (N.eqb_spec cur 0) as [E0|E0]; simpl; [apply Hloc; simpl; auto|].
        assert (Hnd : ~ In cur (dead (ssh s))).
        { apply (own_ld _ _ _ _ _ HO). subst cur.
          destruct (chain_hd_in _ _ _ (own_chain _ _ _ _ _ HO)); easy. }
        assert (Hm : touch (ssh s) cur = ssh s).
        { unfold touch. rewrite (mem_N_false _ _ Hnd), orb_false_r. now destruct (ssh s). }
        rewrite Hm. apply Hloc; simpl; auto 10.
      * destruct (N.eqb_spec cur 0) as [E0|E0]; simpl; [apply Hloc; simpl; auto|].
        assert (Hnd : ~ In cur (dead (ssh s))).
        { apply (own_ld _ _ _ _ _ HO). subst cur.
          destruct (chain_hd_in _ _ _ (own_chain _ _ _ _ _ HO)); easy. }
        assert (Hm : touch (ssh s) cur = ssh s).
        { unfold touch. rewrite (mem_N_false _ _ Hnd), orb_false_r. now destruct (ssh s). }
        rewrite Hm. apply Hloc; simpl; auto 10.
    + destruct HT as (T1 & T2 & T3 & T4). subst cur.
      destruct o as [x| |]; simpl.
      * destruct T4 as [-> T4]. apply (Htr _ _ _ _ None); simpl; auto.
        apply own_pushed; auto.
      * destruct T4 as [T0 ->].
        destruct (chain_hd _ _ _ (own_chain _ _ _ _ _ HO) T0) as (r & El & _). rewrite El in *. simpl.
        apply (Htr _ _ _ _ (Some (hd (ssh s)))); simpl; auto.
        apply own_popped; auto.
      * destruct T4 as [T0 ->].
        destruct (chain_hd _ _ _ (own_chain _ _ _ _ _ HO) T0) as (r & El & _). rewrite El in *. simpl.
        apply (Htr _ _ _ _ (Some (hd (ssh s)))); simpl; auto.
        apply own_popped; auto.
    + apply Hloc; simpl; intuition.
    + apply Hloc; simpl; intuition.
    + apply Hloc; simpl; intuition.
    + apply Hloc; simpl; intuition.
    + destruct HT as (T1 & T2 & ->). destruct (N.eqb_spec (un (ssh s)) edge) as [E0|E0]; simpl.
      * apply Hloc; simpl; auto.
      * apply (Htr _ _ _ _ (Some (un (ssh s)))); simpl; auto. apply own_bumped; auto.
    + apply Hloc; simpl; auto.
  - destruct f; simpl; try exact Hsame. destruct r as [|x|]; simpl; simpl in HT;
      try (apply Hloc; simpl; auto; fail).
    apply (Htr _ _ _ _ None); simpl; auto. apply own_return; auto.
  - destruct (sie s) eqn:Ei; simpl; [|exact Hsame]. split.
    + constructor; simpl; auto.
      * eapply own_cr_ext; [|exact HO]. intros t. unfold crs. now rewrite at_depth_push.
      * assert (Hn : ~ in_cs f) by (eapply top_not_cs; eauto).
        split; [|now constructor]. destruct f; simpl in *; intuition.
    + intros x. apply somewhere_cr_ext. intros t. unfold crs. now rewrite at_depth_push.
  - destruct f; simpl; try exact Hsame. destruct rest as [|g rest]; [exact Hsame|]. simpl. split.
    + constructor; simpl; auto.
      * eapply own_cr_ext; [|exact HO]. intros t. unfold crs. now rewrite at_depth_push.
      * inversion HR as [|? ? Hg HR']; subst. split; [|easy]. simpl in HT.
        destruct g; simpl in *; auto; exfalso; auto.
    + intros x. apply somewhere_cr_ext. intros t. unfold crs. now rewrite at_depth_push.
  - destruct (mem_N x (held (ssh s))) eqn:Ex; [|exact Hsame]. apply mem_N_In in Ex. simpl.
    assert (Hxl : ~ In x l) by (intros Hl; now apply (own_lh _ _ _ _ _ HO x)).
    split; [|reflexivity]. constructor; simpl; auto.
    + now apply own_write.
    + split; [|exact HR]. destruct f as [|o|sv o|sv o cur|sv o cur new|sv r|sv| |sv|sv u|r]; simpl in *; auto.
      destruct HT as (T1 & T2 & T3 & T4). split; [easy|]. split; [easy|]. split; [easy|].
      destruct o as [y| |].
      * destruct T4 as [-> T4]. split; [easy|]. rewrite nset_other; [easy|]. intros ->.
        destruct (own_cr _ _ _ _ _ HO (length rest) x Hct) as (_ & _ & C & _). easy.
      * destruct T4 as [T0 ->]. split; [easy|]. rewrite nset_other; [easy|]. intros ->.
        apply Hxl. subst x. destruct (chain_hd_in _ _ _ (own_chain _ _ _ _ _ HO)); easy.
      * destruct T4 as [T0 ->]. split; [easy|]. rewrite nset_other; [easy|]. intros ->.
        apply Hxl. subst x. destruct (chain_hd_in _ _ _ (own_chain _ _ _ _ _ HO)); easy.
  - destruct (mem_N x (held (ssh s))) eqn:Ex; [|exact Hsame]. apply mem_N_In in Ex. simpl.
    destruct (own_kill size edge (ssh s) l (crs (f :: rest)) x HO Ex) as [O1 O2].
    split; [|exact O2]. constructor; simpl; auto.
Qed.

Lemma sinv_init ie a nodes link :
  NoDup nodes -> (forall x, In x nodes -> x <> 0 /\ ~ unissued size edge a x) ->
  on_grid size edge a -> (0 < a \/ a = edge) ->
  sinv ie (sinit (shm_init a nodes link) ie) [].
Proof.
  intros Hnd Hn Hg Ha. constructor; simpl; auto.
  constructor; simpl; auto; try easy.
  - constructor.
  - intros x Hx. now apply Hn.
  - intros t x. unfold crs, at_depth. simpl. destruct t as [|[|]]; easy.
  - intros t t' x. unfold crs, at_depth. simpl. destruct t as [|[|]]; easy.
  - intros x [[]|[Hx|[]]]. now apply Hn.
Qed.

(** *** Linearizability *)

Definition sno_alloc (lb : slabel) : Prop :=
  match lb with SLInv OAlloc => False | _ => True end.

Definition frel (f : sfr) (a : lstat top tres) : Prop :=
  match f with
  | FIdle => a = LIdle
  | FBegin o | FPaused _ o | FLoaded _ o _ | FComp _ o _ _ => o <> OAlloc /\ a = LPend o
  | FStored _ r | FDone r => a = LDone r
  | FToBump _ | FBump0 | FBump1 _ | FBump2 _ _ => False
  end.

Definition ssim (s : sstate) (l : list N) (tr : list (lvis top tres)) : Prop :=
  exists a, lexec stack_ap [] tr a /\ lobj a = l /\ forall d, frel (at_depth (sfs s) d) (lth a d).

Lemma ssim_step ie0 s l lb tr : sinv ie0 s l -> ssim s l tr -> sno_alloc lb ->
  ssim (fst (sstep size edge s lb)) (slnext s lb l) (tr ++ snd (sstep size edge s lb)).
Proof.
  intros HI (a & Ha & Hl & Hr) Hna. pose proof HI as [HO HF HT]. unfold sstep, slnext.
  destruct (sfs s) as [|f rest] eqn:Es; [easy|]. destruct HT as [HT HR].
  assert (Hsame : ssim s l (tr ++ [])).
  { rewrite app_nil_r. exists a. rewrite Es. auto. }
  pose proof (Hr (length rest)) as Ht. rewrite at_depth_top in Ht.
  assert (Hst : forall m ie f', frel f' (lth a (length rest)) ->
    ssim (SState m ie (f' :: rest)) l (tr ++ [])).
  { intros m ie f' Hc. rewrite app_nil_r. exists a. split; [easy|]. split; [easy|].
    intros d. simpl. rewrite (at_depth_replace f f').
    destruct (Nat.eq_dec d (length rest)) as [->|Hne]; now rewrite ?upd_same, ?upd_other. }
  assert (Heff : forall m ie f' o l', lth a (length rest) = LPend o -> l' = fst (stack_ap o l) ->
            frel f' (LDone (snd (stack_ap o l))) ->
            ssim (SState m ie (f' :: rest)) l' (tr ++ [])).
  { intros m ie f' o l' Hp El Hc. rewrite app_nil_r. subst l.
    eexists. split; [apply (lx_effect _ _ _ _ _ o Ha Hp)|]. split; [now rewrite El|].
    intros d. simpl. rewrite (at_depth_replace f f').
    destruct (Nat.eq_dec d (length rest)) as [->|Hne]; now rewrite ?upd_same, ?upd_other. }
  destruct lb as [o| | | | |x v|x].
  - destruct f; try exact Hsame. simpl in Ht.
    destruct (may_call (ssh s) o); [|exact Hsame]. simpl.
    eexists. split; [apply lx_call; [exact Ha|exact Ht]|]. split; [easy|]. simpl.
    intros d. rewrite (at_depth_replace FIdle (FBegin o)).
    destruct (Nat.eq_dec d (length rest)) as [->|Hne]; rewrite ?upd_same, ?upd_other by easy; [|apply Hr].
    simpl. split; [|easy]. intros ->. easy.
  - destruct f as [|o|sv o|sv o cur|sv o cur new|sv r|sv| |sv|sv u|r]; simpl in HT, Ht; simpl.
    + now apply Hst.
    + now apply Hst.
    + now apply Hst.
    + destruct HT as (T1 & T2 & T3). destruct Ht as [Hn Ht]. destruct o as [x| |]; simpl; [| |easy].
      * apply Hst. simpl. auto.
      * destruct (N.eqb_spec cur 0) as [E0|E0]; simpl; [|apply Hst; simpl; auto].
        assert (l = []) as El.
        { pose proof (own_chain _ _ _ _ _ HO) as Hch. destruct l; [easy|]. simpl in Hch.
          destruct Hch as (? & ? & _). congruence. }
        eapply (Heff _ _ _ OPop); eauto; rewrite El; reflexivity.
    + destruct HT as (T1 & T2 & T3 & T4). destruct Ht as [Hn Ht]. destruct o as [x| |]; simpl; [| |easy].
      * eapply Heff; eauto. reflexivity.
      * destruct T4 as [T0 ->]. subst cur.
        destruct (chain_hd _ _ _ (own_chain _ _ _ _ _ HO) T0) as (r & El & _).
        eapply (Heff _ _ _ OPop); eauto; rewrite El; reflexivity.
    + now apply Hst.
    + easy.
    + easy.
    + easy.
    + easy.
    + now apply Hst.
  - destruct f; try exact Hsame. simpl in Ht. simpl.
    eexists. split; [apply lx_return; [exact Ha|exact Ht]|]. split; [easy|]. simpl.
    intros d. rewrite (at_depth_replace (FDone r) FIdle).
    destruct (Nat.eq_dec d (length rest)) as [->|Hne]; rewrite ?upd_same, ?upd_other by easy; [|apply Hr].
    reflexivity.
  - destruct (sie s); simpl; [|exact Hsame]. rewrite app_nil_r. exists a.
    split; [easy|]. split; [easy|]. simpl. intros d. rewrite at_depth_push. apply Hr.
  - destruct f; try exact Hsame. destruct rest as [|g rest]; [exact Hsame|]. simpl.
    rewrite app_nil_r. exists a. split; [easy|]. split; [easy|]. simpl. intros d.
    rewrite <- at_depth_push. apply Hr.
  - destruct (mem_N x (held (ssh s))); simpl; [|exact Hsame]. rewrite app_nil_r. exists a. auto.
  - destruct (mem_N x (held (ssh s))); simpl; [|exact Hsame]. rewrite app_nil_r. exists a. auto.
Qed.

Lemma sinv_run ie0 ls : forall s l, sinv ie0 s l ->
  exists l', sinv ie0 (fst (srun size edge s ls)) l' /\
    (forall x, somewhere size edge (ssh s) l (crs (sfs s)) x <->
      somewhere size edge (ssh (fst (srun size edge s ls))) l' (crs (sfs (fst (srun size edge s ls)))) x) /\
    (Forall sno_alloc ls -> forall tr, ssim s l tr ->
       ssim (fst (srun size edge s ls)) l' (tr ++ snd (srun size edge s ls))).
Proof.
  induction ls as [|lb ls IH]; intros s l HI.
  - exists l. simpl. split; [easy|]. split; [reflexivity|]. intros _ tr. now rewrite app_nil_r.
  - destruct (sinv_step ie0 s l lb HI) as [HI' HW].
    destruct (IH _ _ HI') as (l' & A & B & C). exists l'. simpl.
    assert (HT : sno_alloc lb -> forall tr, ssim s l tr ->
       ssim (fst (sstep size edge s lb)) (slnext s lb l) (tr ++ snd (sstep size edge s lb))).
    { intros Hn tr Ht. eapply ssim_step; eauto. }
    destruct (sstep size edge s lb) as [s1 e1]. simpl in *.
    destruct (srun size edge s1 ls) as [s2 e2]. simpl in *.
    split; [easy|]. split; [intros x; now rewrite HW|].
    intros Hf tr Ht. inversion Hf; subst. rewrite app_assoc. apply C; auto.
Qed.

(** *** Everything that is not in use can be obtained *)

Definition salloc : list slabel :=
  [SLInv OAlloc; SLStep; SLStep; SLStep; SLStep; SLStep; SLStep; SLStep; SLStep; SLRet].

Fixpoint sallocs (k : nat) : list slabel :=
  match k with O => [] | S k' => salloc ++ sallocs k' end.

Lemma srun_app l1 : forall s l2,
  fst (srun size edge s (l1 ++ l2)) = fst (srun size edge (fst (srun size edge s l1)) l2).
Proof.
  induction l1 as [|lb l1 IH]; intros s l2; [easy|].
  simpl. destruct (sstep size edge s lb) as [s1 e1]. specialize (IH s1 l2).
  destruct (srun size edge s1 (l1 ++ l2)) as [s2 e2].
  destruct (srun size edge s1 l1) as [s3 e3]. simpl in *. exact IH.
Qed.

Lemma chain_det f : forall l l' h, chain f h l -> chain f h l' -> l = l'.
Proof.
  induction l as [|y r IH]; intros [|z l'] h; simpl; try easy.
  - intros -> (-> & H & _). easy.
  - intros (-> & H & _) E. easy.
  - intros (-> & _ & H1) (-> & _ & H2). f_equal. eapply IH; eauto.
Qed.

Lemma salloc_pop ie0 s x r : sinv ie0 s (x :: r) -> sfs s = [FIdle] ->
  let s' := fst (srun size edge s salloc) in
  held (ssh s') = held (ssh s) ++ [x] /\ sinv ie0 s' r /\ sfs s' = [FIdle] /\ un (ssh s') = un (ssh s).
Proof.
  intros HI Hs. cbv zeta.
  pose proof (own_chain _ _ _ _ _ (si_own _ _ _ HI)) as (Eh & X0 & Hc).
  assert (Hnd : ~ In x (dead (ssh s))) by (apply (own_ld _ _ _ _ _ (si_own _ _ _ HI)); now left).
  destruct s as [m ie fs]. cbn [ssh sfs sie] in *. subst fs.
  assert (Hm : touch m x = m).
  { unfold touch. rewrite (mem_N_false _ _ Hnd), orb_false_r. now destruct m. }
  assert (Hrun : fst (srun size edge (SState m ie [FIdle]) salloc) =
     SState (give_held (set_hd m (nx m x)) x) ie [FIdle]).
  { unfold salloc. cbn [srun sstep ssh sfs sie may_call on_call saccess].
    rewrite Eh. destruct (N.eqb_spec x 0) as [?|_]; [easy|].
    cbn [srun sstep ssh sfs sie saccess]. rewrite Hm. reflexivity. }
  destruct (sinv_run ie0 salloc _ _ HI) as (l' & HI' & _).
  rewrite Hrun in *. cbn [ssh sfs]. split; [reflexivity|].
  assert (l' = r) as ->; [|auto].
  pose proof (own_chain _ _ _ _ _ (si_own _ _ _ HI')) as Hc2. simpl in Hc2.
  eapply chain_det; eauto.
Qed.

Lemma salloc_bump ie0 s : sinv ie0 s [] -> sfs s = [FIdle] -> un (ssh s) <> edge ->
  let s' := fst (srun size edge s salloc) in
  held (ssh s') = held (ssh s) ++ [un (ssh s)] /\ sinv ie0 s' [] /\ sfs s' = [FIdle] /\
  un (ssh s') = un (ssh s) + size.
Proof.
  intros HI Hs Hu. cbv zeta.
  pose proof (own_chain _ _ _ _ _ (si_own _ _ _ HI)) as Eh. simpl in Eh.
  destruct s as [m ie fs]. cbn [ssh sfs sie] in *. subst fs.
  assert (Hrun : fst (srun size edge (SState m ie [FIdle]) salloc) =
     SState (give_held (set_un m (un m + size)) (un m)) ie [FIdle]).
  { unfold salloc. cbn [srun sstep ssh sfs sie may_call on_call saccess].
    rewrite Eh, N.eqb_refl. cbn [srun sstep ssh sfs sie saccess].
    destruct (N.eqb_spec (un m) edge) as [?|_]; [easy|]. reflexivity. }
  destruct (sinv_run ie0 salloc _ _ HI) as (l' & HI' & _).
  rewrite Hrun in *. cbn [ssh sfs]. split; [reflexivity|].
  assert (l' = []) as ->; [|auto].
  pose proof (own_chain _ _ _ _ _ (si_own _ _ _ HI')) as Hc2. simpl in Hc2.
  rewrite Eh in Hc2. now apply (chain_det _ _ [] _ Hc2).
Qed.

Lemma sobtain_list ie0 x l : forall s, sinv ie0 s l -> sfs s = [FIdle] -> In x l ->
  exists k, In x (held (ssh (fst (srun size edge s (sallocs k))))).
Proof.
  induction l as [|y r IH]; intros s HI Ht HIn; [easy|].
  destruct (salloc_pop ie0 s y r HI Ht) as (Hh & HI' & Ht' & _).
  destruct (N.eq_dec x y) as [->|Hne].
  - exists 1%nat. change (sallocs 1) with (salloc ++ []). rewrite app_nil_r, Hh. apply In_snoc. auto.
  - destruct HIn as [->|HIn]; [easy|].
    destruct (IH _ HI' Ht' HIn) as [k Hk]. exists (S k). cbn [sallocs]. now rewrite srun_app.
Qed.

Lemma sobtain_fresh ie0 x (n : nat) : forall s l, sinv ie0 s l -> sfs s = [FIdle] ->
  x = un (ssh s) + size * N.of_nat n -> x < edge ->
  exists k, In x (held (ssh (fst (srun size edge s (sallocs k))))).
Proof.
  induction n as [|n IHn]; intros s l; revert s; induction l as [|y r IH]; intros s HI Ht Hx Hlt.
  - assert (un (ssh s) <> edge) as Hu by lia.
    destruct (salloc_bump ie0 s HI Ht Hu) as (Hh & HI' & Ht' & _).
    exists 1%nat. change (sallocs 1) with (salloc ++ []). rewrite app_nil_r, Hh. apply In_snoc. right. lia.
  - destruct (salloc_pop ie0 s y r HI Ht) as (Hh & HI' & Ht' & Hu).
    destruct (IH _ HI' Ht') as [k Hk]; [now rewrite Hu|easy|].
    exists (S k). cbn [sallocs]. now rewrite srun_app.
  - assert (un (ssh s) <> edge) as Hu by nia.
    destruct (salloc_bump ie0 s HI Ht Hu) as (Hh & HI' & Ht' & Hu').
    destruct (IHn _ _ HI' Ht') as [k Hk]; [rewrite Hu'; nia|easy|].
    exists (S k). cbn [sallocs]. now rewrite srun_app.
  - destruct (salloc_pop ie0 s y r HI Ht) as (Hh & HI' & Ht' & Hu).
    destruct (IH _ HI' Ht') as [k Hk]; [now rewrite Hu|easy|].
    exists (S k). cbn [sallocs]. now rewrite srun_app.
Qed.

Lemma sobtain_all ie0 s l x : sinv ie0 s l -> sfs s = [FIdle] ->
  somewhere size edge (ssh s) l (crs (sfs s)) x ->
  ~ In x (held (ssh s)) -> ~ In x (dead (ssh s)) ->
  exists k, In x (held (ssh (fst (srun size edge s (sallocs k))))).
Proof.
  intros HI Hid [H|[H|[H|[(k & E & Hlt)|[t' H]]]]] Hh Hd; try easy.
  - eapply sobtain_list; eauto.
  - apply (sobtain_fresh ie0 x (N.to_nat k) s l); auto. rewrite N2Nat.id. exact E.
  - rewrite Hid in H. unfold crs, at_depth in H. simpl in H. destruct t' as [|[|]]; easy.
Qed.

End Soft.

(** Blocks of a pool. *)
Lemma blocks_unissued a size count x : 0 < size ->
  (In x (blocks a size count) <-> unissued size (a + size * N.of_nat count) a x).
Proof.
  intros Hs. revert a. induction count as [|n IH]; intros a; simpl.
  - split; [easy|]. intros (k & -> & H). nia.
  - rewrite IH. split.
    + intros [<-|(k & -> & H)].
      * exists 0. split; [lia|]. nia.
      * exists (k + 1). split; [lia|]. nia.
    + intros (k & -> & H). destruct (N.eq_dec k 0) as [->|Hk]; [left; lia|right].
      exists (k - 1). split; [|nia].
      replace (a + size + size * (k - 1)) with (a + size * (1 + (k - 1))) by lia.
      f_equal. f_equal. lia.
Qed.

Lemma pool_on_grid a size count : on_grid size (a + size * N.of_nat count) a.
Proof. exists (N.of_nat count). reflexivity. Qed.
