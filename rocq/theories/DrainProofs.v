(** Proofs about draining concurrently with pushes. *)
Require Import NArith List Bool Arith Lia.
From Verif Require Import AtomicSpec Treiber TreiberProofs DrainSpec Drain.
Import ListNotations.
Open Scope N_scope.

Definition head0 (l : list N) : N := match l with [] => 0 | x :: _ => x end.

Lemma NoDup_app_tail (A B : list N) : NoDup (A ++ B) -> NoDup B.
Proof. induction A as [|a A IH]; simpl; [easy|]. intros H. apply IH. now inversion H. Qed.

Lemma chain_head0 f h l : chain f h l -> h = head0 l.
Proof. destruct l; simpl; intuition. Qed.

Lemma chain_mid f A : forall h c B, chain f h (A ++ c :: B) -> c <> 0 /\ chain f (f c) B.
Proof.
  induction A as [|a A IH]; intros h c B; simpl.
  - intuition.
  - intros (_ & _ & H). eapply IH; eauto.
Qed.

Lemma chain_nx f h A c B : chain f h (A ++ c :: B) -> f c = head0 B.
Proof. intros H. apply chain_mid in H. eapply chain_head0. apply H. Qed.

Lemma chain_cut f A : forall h p c B, NoDup (A ++ p :: c :: B) ->
  chain f h (A ++ p :: c :: B) -> chain (nset f p (f c)) h (A ++ p :: B).
Proof.
  induction A as [|a A IH]; intros h p c B Hnd; simpl in *.
  - inversion Hnd as [|? ? Hp Hnd2]; subst. intros (-> & P0 & Ep & C0 & Hc).
    split; [easy|]. split; [easy|]. rewrite nset_same.
    eapply chain_ext; [|exact Hc]. intros x Hx. rewrite nset_other; [easy|].
    intros ->. apply Hp. simpl. auto.
  - inversion Hnd as [|? ? Ha Hnd2]; subst. intros (-> & A0 & Hc).
    split; [easy|]. split; [easy|]. rewrite nset_other.
    + eapply IH; eauto.
    + intros ->. apply Ha. apply in_app_iff. simpl. auto.
Qed.

Definition dcarry (d : dpos) : option N := match d with DOut _ _ x => Some x | _ => None end.
(** Who carries what: the draining context is number 0. *)
Definition crd (th : nat -> thr) (d : dpos) (t : nat) : option N :=
  match t with O => dcarry d | S t => carry (th t) end.

Definition push_ok (m : shm) (c : thr) : Prop :=
  match c with
  | TIdle | TPush0 _ | TPush1 _ _ | TDone RPushed => True
  | TPush2 x cur => nx m x = cur
  | _ => False
  end.

Definition prev_ok (p : N) (f k : list N) : Prop :=
  (p = 0 /\ k = []) \/ (p <> 0 /\ exists pre, f ++ k = pre ++ [p]).

Definition pos_ok (d : dpos) (l : list N) (q : dspec) : Prop :=
  match d, q with
  | DIdle, QIdle l' => l = l'
  | DNext p c, QRun f k t => l = f ++ k ++ t /\ prev_ok p f k /\ c = head0 t
  | DFilter p c n, QRun f k (y :: t) => y = c /\ l = f ++ k ++ c :: t /\ prev_ok p f k /\ n = head0 t
  | DCut p c n, QOut f k y t => y = c /\ l = f ++ k ++ c :: t /\ prev_ok p f k /\ n = head0 t
  | DCas c n, QOut f k y t => y = c /\ k = [] /\ l = f ++ c :: t /\ n = head0 t
  | DWalk p c n, QOut f k y t =>
      y = c /\ k = [] /\ l = f ++ c :: t /\ n = head0 t /\ exists f1 f2, f = f1 ++ p :: f2
  | DWrite p c n, QOut f k y t =>
      y = c /\ k = [] /\ l = f ++ c :: t /\ n = head0 t /\ exists f1, f = f1 ++ [p]
  | DOut p n x, QOut f k y t => y = x /\ l = f ++ k ++ t /\ prev_ok p f k /\ n = head0 t
  | _, _ => False
  end.

Record dinv (s : drstate) (l : list N) (q : dspec) : Prop := {
  di_own : own 1 0 (dsh s) l (crd (dth s) (dpo s));
  di_fault : fault (dsh s) = false;
  di_push : forall t, push_ok (dsh s) (dth s t);
  di_pos : pos_ok (dpo s) l q
}.

Lemma prev_ok_add p f k x : prev_ok p f k -> prev_ok p (x :: f) k.
Proof.
  intros [H|(P0 & pre & E)]; [now left|right]. split; [easy|].
  exists (x :: pre). simpl. now rewrite E.
Qed.

Lemma pos_add d l q x : pos_ok d l q ->
  exists q', daccept q (EAdd x) = Some q' /\ pos_ok d (x :: l) q'.
Proof.
  destruct d, q; simpl; try easy.
  - intros ->. eexists. split; [reflexivity|]. easy.
  - intros (-> & P & ->). eexists. split; [reflexivity|]. simpl. split; [easy|].
    split; [now apply prev_ok_add|easy].
  - destruct t as [|y t]; [easy|]. intros (-> & -> & P & ->). eexists. split; [reflexivity|]. simpl.
    split; [easy|]. split; [easy|]. split; [now apply prev_ok_add|easy].
  - intros (-> & -> & P & ->). eexists. split; [reflexivity|]. simpl.
    split; [easy|]. split; [easy|]. split; [now apply prev_ok_add|easy].
  - intros (-> & -> & -> & ->). eexists. split; [reflexivity|]. simpl. auto.
  - intros (-> & -> & -> & -> & f1 & f2 & ->). eexists. split; [reflexivity|]. simpl.
    repeat (split; [easy|]). exists (x :: f1), f2. easy.
  - intros (-> & -> & -> & -> & f1 & ->). eexists. split; [reflexivity|]. simpl.
    repeat (split; [easy|]). exists (x :: f1). easy.
  - intros (-> & -> & P & ->). eexists. split; [reflexivity|]. simpl.
    split; [easy|]. split; [easy|]. split; [now apply prev_ok_add|easy].
Qed.

Lemma unissued10 u x : ~ unissued 1 0 u x.
Proof. intros (k & -> & H). lia. Qed.

Lemma own_cut m A p c B cr t :
  own 1 0 m (A ++ p :: c :: B) cr -> cr t = None ->
  own 1 0 (set_nx m p (nx m c)) (A ++ p :: B) (upd cr t (Some c)).
Proof.
  intros HO Ht. pose proof (own_nd_l _ _ _ _ _ HO) as Hnd.
  assert (Hinc : forall x, In x (A ++ p :: B) -> In x (A ++ p :: c :: B)).
  { intros x. rewrite !in_app_iff. simpl. intuition. }
  assert (Hc : In c (A ++ p :: c :: B)) by (rewrite in_app_iff; simpl; auto).
  assert (Hnd2 : NoDup (A ++ p :: B) /\ ~ In c (A ++ p :: B)).
  { replace (A ++ p :: c :: B) with ((A ++ [p]) ++ c :: B) in Hnd by now rewrite <- app_assoc.
    apply NoDup_remove in Hnd. now rewrite <- app_assoc in Hnd. }
  destruct Hnd2 as [Hnd2 Hcn]. destruct HO as [Zch Zndl Zndh Zlh Zld Zhd Zh0 Zcr Zcr2 Zfr Zgr Zun]. constructor; simpl; auto.
  - now apply chain_cut.
  - intros t' x. destruct (Nat.eq_dec t' t) as [->|Hne]; rewrite ?upd_same, ?upd_other by easy.
    + intros E. injection E as <-. split; [|split; [easy|split; [|split; [|apply unissued10]]]]; auto.
      apply (chain_mid (nx m) (A ++ [p]) (hd m) c B). rewrite <- app_assoc. exact Zch.
    + intros E. destruct (Zcr _ _ E) as (X1 & X2 & X3). split; [easy|]. split; [|easy]. auto.
  - intros t1 t2 x. destruct (Nat.eq_dec t1 t) as [->|H1]; rewrite ?upd_same, ?upd_other by easy;
      destruct (Nat.eq_dec t2 t) as [->|H2]; rewrite ?upd_same, ?upd_other by easy; try easy.
    + intros E E2. injection E as <-. now apply Zcr in E2.
    + intros E2 E. injection E as <-. now apply Zcr in E2.
    + apply Zcr2.
  - intros x [H|H]; auto.
Qed.

Lemma own_bury m l cr t x :
  own 1 0 m l cr -> cr t = Some x -> own 1 0 (bury m x) l (upd cr t None).
Proof.
  intros HO Hx. destruct (own_cr _ _ _ _ _ HO t x Hx) as (X0 & X1 & X2 & X3 & X4).
  destruct HO as [Zch Zndl Zndh Zlh Zld Zhd Zh0 Zcr Zcr2 Zfr Zgr Zun]. constructor; simpl; auto.
  - intros y Hy. rewrite In_snoc. intros [H| ->]; [now apply (Zld y)|easy].
  - intros y Hy. rewrite In_snoc. intros [H| ->]; [now apply (Zhd y)|easy].
  - intros t' y. destruct (Nat.eq_dec t' t) as [->|Hne]; rewrite ?upd_same, ?upd_other by easy; [easy|].
    intros E. destruct (Zcr _ _ E) as (Y1 & Y2 & Y3 & Y4 & Y5). rewrite In_snoc.
    repeat (split; [easy|]). split; [|easy]. intros [H| ->]; [easy|].
    apply Hne. eapply Zcr2; eauto.
  - intros t1 t2 y. destruct (Nat.eq_dec t1 t) as [->|H1]; rewrite ?upd_same, ?upd_other by easy; [easy|].
    destruct (Nat.eq_dec t2 t) as [->|H2]; rewrite ?upd_same, ?upd_other by easy; [easy|].
    apply Zcr2.
  - intros y. rewrite In_snoc. intros [H|[H|[H| ->]]]; auto.
Qed.

Lemma own_reuse m l cr x :
  own 1 0 m l cr -> In x (dead m) -> x <> 0 -> own 1 0 (reuse m x) l cr.
Proof.
  intros HO Hx X0.
  assert (Hxl : ~ In x l) by (intros H; now apply (own_ld _ _ _ _ _ HO x)).
  assert (Hxh : ~ In x (held m)) by (intros H; now apply (own_hd _ _ _ _ _ HO x)).
  assert (Hxc : forall t, cr t <> Some x).
  { intros t E. now apply (own_cr _ _ _ _ _ HO) in E. }
  assert (Hf : forall y, In y (filter (fun y => negb (y =? x)) (dead m)) -> In y (dead m) /\ y <> x).
  { intros y Hy. apply filter_In in Hy. destruct Hy as [Hy E]. split; [easy|].
    destruct (N.eqb_spec y x); easy. }
  destruct HO as [Zch Zndl Zndh Zlh Zld Zhd Zh0 Zcr Zcr2 Zfr Zgr Zun]. constructor; simpl; auto.
  - now apply NoDup_snoc.
  - intros y Hy. rewrite In_snoc. intros [H| ->]; [now apply (Zlh y)|easy].
  - intros y Hy H. apply Hf in H. now apply (Zld y).
  - intros y. rewrite In_snoc. intros Hy H. apply Hf in H. destruct H as [H1 H2].
    destruct Hy as [Hy| ->]; [now apply (Zhd y)|easy].
  - intros y. rewrite In_snoc. intros [H| ->]; auto.
  - intros t y E. destruct (Zcr _ _ E) as (Y1 & Y2 & Y3 & Y4 & Y5). rewrite In_snoc.
    split; [easy|]. split; [easy|]. split; [|split; [|easy]].
    + intros [H| ->]; [easy|]. now apply (Hxc t).
    + intros H. now apply Hf in H.
  - intros y H. apply Zfr. rewrite In_snoc in H. destruct H as [H|[[H| ->]|H]]; auto.
    right. right. now apply Hf.
Qed.

Lemma crd_th (th : nat -> thr) d t c : forall t',
  crd (upd th t c) d t' = upd (crd th d) (S t) (carry c) t'.
Proof.
  intros [|t']; simpl.
  - now rewrite upd_other.
  - destruct (Nat.eq_dec t' t) as [->|Hne]; [now rewrite !upd_same|].
    rewrite !upd_other by congruence. reflexivity.
Qed.

Lemma crd_d (th : nat -> thr) d d' : forall t', crd th d' t' = upd (crd th d) 0 (dcarry d') t'.
Proof. intros [|t']; simpl; [now rewrite upd_same|now rewrite upd_other]. Qed.

Lemma dtouch_same m x : fault m = false -> x <> 0 -> ~ In x (dead m) -> dtouch m x = m.
Proof.
  intros Hf H0 Hd. unfold dtouch. rewrite (mem_N_false _ _ Hd).
  destruct (N.eqb_spec x 0); [easy|]. rewrite !orb_false_r. now destruct m.
Qed.

Lemma dinv_step fib s l q lb :
  dinv s l q ->
  exists l' q', daccepts q (snd (drstep fib s lb)) = Some q' /\ dinv (fst (drstep fib s lb)) l' q'.
Proof.
  intros HI. pose proof HI as [HO HF HP HQ].
  assert (Hsame : exists l' q', daccepts q [] = Some q' /\ dinv s l' q') by (exists l, q; auto).
  (* pushing contexts: transfer *)
  assert (Hpush : forall m t c l' q' e,
    daccepts q e = Some q' ->
    own 1 0 m l' (upd (crd (dth s) (dpo s)) (S t) (carry c)) -> fault m = false ->
    (forall t', t' <> t -> push_ok m (dth s t')) -> push_ok m c -> pos_ok (dpo s) l' q' ->
    exists l' q', daccepts q e = Some q' /\ dinv (DrState m (upd (dth s) t c) (dpo s)) l' q').
  { intros m t c l' q' e Ha O1 F1 P1 P2 Q1. exists l', q'. split; [easy|]. constructor; simpl; auto.
    - eapply own_cr_ext; [|exact O1]. intros t'. apply crd_th.
    - intros t'. destruct (Nat.eq_dec t' t) as [->|Hne]; rewrite ?upd_same, ?upd_other by easy; auto. }
  assert (Hown_same : forall t c, carry c = carry (dth s t) ->
    own 1 0 (dsh s) l (upd (crd (dth s) (dpo s)) (S t) (carry c))).
  { intros t c E. eapply own_cr_ext; [|exact HO]. intros t'.
    destruct (Nat.eq_dec t' (S t)) as [->|Hne]; rewrite ?upd_same, ?upd_other by easy; [|easy].
    simpl. easy. }
  (* the draining context moves without changing memory *)
  assert (Hdloc : forall d q' e, daccepts q e = Some q' -> dcarry d = dcarry (dpo s) -> pos_ok d l q' ->
    exists l' q', daccepts q e = Some q' /\ dinv (DrState (dsh s) (dth s) d) l' q').
  { intros d q' e Ha Hc Hp. exists l, q'. split; [easy|]. constructor; simpl; auto.
    eapply own_cr_ext; [|exact HO]. intros [|t']; simpl; auto. }
  (* the draining context: transfer *)
  assert (Hdtr : forall m d l' q' e, daccepts q e = Some q' ->
    own 1 0 m l' (upd (crd (dth s) (dpo s)) 0 (dcarry d)) -> fault m = false ->
    (forall t, push_ok m (dth s t)) -> pos_ok d l' q' ->
    exists l' q', daccepts q e = Some q' /\ dinv (DrState m (dth s) d) l' q').
  { intros m d l' q' e Ha O1 F1 P1 Q1. exists l', q'. split; [easy|]. constructor; simpl; auto.
    eapply own_cr_ext; [|exact O1]. intros t'. apply crd_d. }
  (* nodes of the list may be read *)
  assert (Htouch : forall x, In x l -> dtouch (dsh s) x = dsh s).
  { intros x Hx. apply dtouch_same; [easy| |now apply (own_ld _ _ _ _ _ HO)].
    apply in_split in Hx. destruct Hx as (A & B & ->).
    eapply chain_mid. apply (own_chain _ _ _ _ _ HO). }
  assert (Hp_nx : forall p v, In p l -> forall t, push_ok (set_nx (dsh s) p v) (dth s t)).
  { intros p v Hp t. pose proof (HP t) as H. destruct (dth s t) as [| |x cur|x cur| | | | | |[|r|]] eqn:Et; auto.
    simpl in *. rewrite nset_other; [easy|]. intros ->.
    assert (Hc : crd (dth s) (dpo s) (S t) = Some p) by (simpl; now rewrite Et).
    destruct (own_cr _ _ _ _ _ HO _ _ Hc) as (_ & H1 & _). easy. }
  destruct lb as [t x|t sp|t|x|x v|x|x| |sp| |b]; simpl.
  - (* call *)
    destruct (dth s t) eqn:Et; try exact Hsame.
    destruct (mem_N x (held (dsh s))) eqn:Ex; [|exact Hsame]. apply mem_N_In in Ex. simpl.
    destruct (own_call_push 1 0 (dsh s) l (crd (dth s) (dpo s)) (S t) x HO Ex) as [O1 _];
      [simpl; now rewrite Et|].
    eapply (Hpush _ t (TPush0 x) l q []); eauto; try easy.
  - (* access of a pushing context *)
    pose proof (HP t) as Hk. destruct (dth s t) as [|x|x cur|x cur| | | | | |r] eqn:Et; try exact Hsame; simpl.
    + eapply (Hpush _ t (TPush1 x (hd (dsh s))) l q []); eauto; try easy.
      apply Hown_same. now rewrite Et.
    + assert (Hcx : crd (dth s) (dpo s) (S t) = Some x) by (simpl; now rewrite Et).
      destruct (own_cr _ _ _ _ _ HO _ _ Hcx) as (X0 & Xl & Xh & Xd & Xu).
      eapply (Hpush _ t (TPush2 x cur) l q []); eauto; try easy.
      * apply own_write; [|easy]. apply Hown_same. now rewrite Et.
      * intros t' Hne. pose proof (HP t') as H.
        destruct (dth s t') as [| |y c2|y c2| | | | | |r] eqn:Et'; auto. simpl in *.
        rewrite nset_other; [easy|]. intros ->.
        assert (Hcy : crd (dth s) (dpo s) (S t') = Some x) by (simpl; now rewrite Et').
        pose proof (own_cr2 _ _ _ _ _ HO (S t) (S t') x Hcx Hcy). congruence.
      * simpl. apply nset_same.
    + simpl in Hk. destruct sp; simpl.
      * eapply (Hpush _ t (TPush1 x (hd (dsh s))) l q []); eauto; try easy.
        apply Hown_same. now rewrite Et.
      * destruct (N.eqb_spec (hd (dsh s)) cur) as [E|E].
        -- assert (Hcx : crd (dth s) (dpo s) (S t) = Some x) by (simpl; now rewrite Et).
           destruct (pos_add _ _ _ x HQ) as (q' & Hq & Hq2).
           eapply (Hpush (set_hd (dsh s) x) t (TDone RPushed) (x :: l) q' [EAdd x]); eauto; try easy.
           simpl. apply own_pushed; auto. congruence.
        -- eapply (Hpush _ t (TPush1 x (hd (dsh s))) l q []); eauto; try easy.
           apply Hown_same. now rewrite Et.
  - (* return *)
    pose proof (HP t) as Hk. destruct (dth s t) as [|x|x cur|x cur| | | | | |r] eqn:Et; try exact Hsame.
    simpl. destruct r; simpl in Hk; try easy.
    eapply (Hpush _ t TIdle l q []); eauto; try easy. apply Hown_same. now rewrite Et.
  - (* push in one step *)
    destruct (mem_N x (held (dsh s))) eqn:Ex; [|exact Hsame]. apply mem_N_In in Ex. cbn [fst snd].
    destruct (pos_add _ _ _ x HQ) as (q' & Hq & Hq2).
    exists (x :: l), q'. cbn [daccepts]. rewrite Hq. split; [easy|].
    (* an unused context carries the node for a moment *)
    assert (Hxl : ~ In x l) by (intros Hl; now apply (own_lh _ _ _ _ _ HO x)).
    constructor; simpl; auto.
    + set (m1 := take_held (dsh s) x).
      assert (Hgen : forall cr, own 1 0 (dsh s) l cr -> 
                own 1 0 (set_hd (set_nx m1 x (hd (dsh s))) x) (x :: l) cr).
      { intros cr HO'.
        assert (X0 : x <> 0) by now apply (own_h0 _ _ _ _ _ HO').
        assert (Xd : ~ In x (dead (dsh s))) by now apply (own_hd _ _ _ _ _ HO').
        assert (Xc : forall t, cr t <> Some x).
        { intros t E. now apply (own_cr _ _ _ _ _ HO') in E. }
        destruct (remove1_NoDup x _ (own_nd_h _ _ _ _ _ HO')) as [R1 R2].
        destruct HO' as [Zch Zndl Zndh Zlh Zld Zhd Zh0 Zcr Zcr2 Zfr Zgr Zun]. constructor; simpl; auto.
        - split; [easy|]. split; [easy|]. rewrite nset_same.
          eapply chain_ext; [|exact Zch]. intros y Hy. rewrite nset_other; [easy|].
          intros ->. easy.
        - constructor; auto.
        - intros y [<-|Hy]; auto. intros H. apply remove1_incl in H. now apply (Zlh y).
        - intros y [<-|Hy]; auto.
        - intros y Hy. apply remove1_incl in Hy. auto.
        - intros y Hy. apply remove1_incl in Hy. auto.
        - intros t y E. destruct (Zcr _ _ E) as (Y1 & Y2 & Y3 & Y4 & Y5).
          split; [easy|]. split; [|split; [|easy]].
          + intros [<-|H]; [|easy]. now apply (Xc t).
          + intros H. apply remove1_incl in H. easy.
        - intros y _. apply unissued10. }
      apply Hgen. exact HO.
    + intros t. pose proof (HP t) as H. destruct (dth s t) as [| |y c2|y c2| | | | | |r] eqn:Et; auto.
      simpl in *. rewrite nset_other; [easy|]. intros ->.
      assert (Hc : crd (dth s) (dpo s) (S t) = Some x) by (simpl; now rewrite Et).
      now apply (own_cr _ _ _ _ _ HO) in Hc.
  - (* write by the owner *)
    destruct (mem_N x (held (dsh s))) eqn:Ex; [|exact Hsame]. apply mem_N_In in Ex. simpl.
    assert (Hxl : ~ In x l) by (intros Hl; now apply (own_lh _ _ _ _ _ HO x)).
    exists l, q. split; [easy|]. constructor; simpl; auto.
    + now apply own_write.
    + intros t. pose proof (HP t) as H. destruct (dth s t) as [| |y c2|y c2| | | | | |r] eqn:Et; auto.
      simpl in *. rewrite nset_other; [easy|]. intros ->.
      assert (Hc : crd (dth s) (dpo s) (S t) = Some x) by (simpl; now rewrite Et).
      now apply (own_cr _ _ _ _ _ HO) in Hc.
  - (* free by the owner *)
    destruct (mem_N x (held (dsh s))) eqn:Ex; [|exact Hsame]. apply mem_N_In in Ex. simpl.
    destruct (own_kill 1 0 (dsh s) l (crd (dth s) (dpo s)) x HO Ex) as [O1 _].
    exists l, q. split; [easy|]. constructor; simpl; auto.
  - (* memory used again *)
    destruct (mem_N x (dead (dsh s))) eqn:Ex; [|exact Hsame]. apply mem_N_In in Ex. simpl.
    destruct (N.eqb_spec x 0) as [E0|E0]; [exact Hsame|]. simpl.
    exists l, q. split; [easy|]. constructor; simpl; auto. now apply own_reuse.
  - (* a drain starts *)
    destruct (dpo s) eqn:Ed; try exact Hsame. simpl.
    destruct q as [l0| |]; simpl in HQ; try easy. subst l0.
    eapply (Hdloc _ (QRun [] [] l) [EStart]); simpl; auto.
    split; [easy|]. split; [now left|]. apply (chain_head0 (nx (dsh s))). apply (own_chain _ _ _ _ _ HO).
  - (* an access of the drain *)
    destruct (dpo s) as [|p c|p c n|p c n|c n|p c n|p c n|p n x] eqn:Ed; simpl.
    + rewrite <- Ed. destruct s. exact Hsame.
    + destruct q as [|f k t|]; try easy. destruct HQ as (E1 & Hp & Ec).
      destruct (N.eqb_spec c 0) as [E0|E0].
      * assert (Et : t = []).
        { destruct t as [|y t]; [easy|]. simpl in Ec. exfalso. subst y.
          destruct (chain_mid (nx (dsh s)) (f ++ k) (hd (dsh s)) c t); [|easy]. rewrite <- app_assoc, <- E1.
          apply (own_chain _ _ _ _ _ HO). }
        subst t. eapply (Hdloc _ (QIdle (f ++ k)) [EEnd]); simpl; auto.
        rewrite E1. now rewrite app_nil_r.
      * destruct t as [|y t]; [easy|]. simpl in Ec. subst y.
        rewrite Htouch by (rewrite E1, !in_app_iff; simpl; auto).
        eapply (Hdloc _ (QRun f k (c :: t)) []); simpl; auto.
        split; [easy|]. split; [easy|]. split; [easy|].
        eapply (chain_nx _ _ (f ++ k)). rewrite <- app_assoc, <- E1. apply (own_chain _ _ _ _ _ HO).
    + rewrite <- Ed. destruct s. exact Hsame.
    + destruct q as [| |f k y t]; try easy. destruct HQ as (-> & E1 & Hp & En).
      destruct (N.eqb_spec p 0) as [P0|P0].
      * destruct Hp as [[_ Hk]|[Hp _]]; [|easy]. subst k. simpl in E1.
        destruct (N.eqb_spec (hd (dsh s)) c) as [Ec|Ec].
        -- eapply (Hdloc _ (QOut f [] c t) []); simpl; auto.
        -- eapply (Hdloc _ (QOut f [] c t) []); simpl; auto.
           repeat (split; [easy|]). destruct f as [|a f].
           ++ exfalso. apply Ec.
              pose proof (own_chain _ _ _ _ _ HO) as Hc. rewrite E1 in Hc. simpl in Hc. intuition.
           ++ exists [], f. pose proof (own_chain _ _ _ _ _ HO) as Hc. rewrite E1 in Hc. simpl in Hc.
              destruct Hc as (-> & _). reflexivity.
      * destruct Hp as [[Hp _]|(_ & pre & Epre)]; [easy|].
        assert (E2 : l = pre ++ p :: c :: t).
        { rewrite E1, app_assoc, Epre, <- app_assoc. reflexivity. }
        rewrite Htouch by (rewrite E2, in_app_iff; simpl; auto).
        assert (Enx : nx (dsh s) c = n).
        { rewrite En. eapply (chain_nx _ _ (pre ++ [p])). rewrite <- app_assoc. simpl. rewrite <- E2.
          apply (own_chain _ _ _ _ _ HO). }
        eapply (Hdtr _ (DOut p n c) (pre ++ p :: t) (QOut f k c t) []); simpl; auto.
        -- rewrite <- Enx. apply own_cut; [now rewrite <- E2|]. reflexivity.
        -- apply Hp_nx. rewrite E2, in_app_iff. simpl. auto.
        -- split; [easy|]. split; [|split; [right; split; [easy|now exists pre]|easy]].
           rewrite app_assoc, Epre, <- app_assoc. reflexivity.
    + destruct q as [| |f k y t]; try easy. destruct HQ as (-> & -> & E1 & En).
      pose proof (own_chain _ _ _ _ _ HO) as Hc.
      assert (Hfail : exists l' q', daccepts (QOut f [] c t) [] = Some q' /\
         dinv (DrState (dsh s) (dth s) (if hd (dsh s) =? c then DCas c n else DWalk (hd (dsh s)) c n)) l' q').
      { eapply (Hdloc _ (QOut f [] c t) []); auto.
        - now destruct (hd (dsh s) =? c).
        - destruct (N.eqb_spec (hd (dsh s)) c) as [Ec|Ec]; simpl; auto.
          repeat (split; [easy|]). rewrite E1 in Hc. destruct f as [|a f]; simpl in Hc; [intuition|].
          destruct Hc as (-> & _). now exists [], f. }
      destruct sp; simpl; [exact Hfail|].
      destruct (N.eqb_spec (hd (dsh s)) c) as [Ec|Ec]; [|exact Hfail].
      assert (Ef : f = []).
      { destruct f as [|a f]; [easy|]. exfalso. rewrite E1 in Hc. simpl in Hc. destruct Hc as (Ea & _).
        pose proof (own_nd_l _ _ _ _ _ HO) as Hnd. rewrite E1 in Hnd. simpl in Hnd.
        apply NoDup_cons_iff in Hnd. destruct Hnd as [Ha _]. apply Ha. rewrite in_app_iff. simpl.
        right. left. congruence. }
      subst f. simpl in E1.
      assert (Enx : nx (dsh s) c = n).
      { rewrite En. apply (chain_nx (nx (dsh s)) (hd (dsh s)) [] c t). change ([] ++ c :: t) with (c :: t). rewrite <- E1. exact Hc. }
      eapply (Hdtr _ (DOut 0 n c) t (QOut [] [] c t) []); simpl; auto.
      * rewrite <- Enx. rewrite E1 in HO. now apply own_popped.
      * split; [easy|]. split; [easy|]. split; [now left|easy].
    + destruct q as [| |f k y t]; try easy. destruct HQ as (-> & -> & E1 & En & f1 & f2 & ->).
      assert (E2 : l = f1 ++ p :: f2 ++ c :: t) by (rewrite E1, <- app_assoc; reflexivity).
      rewrite Htouch by (rewrite E2, in_app_iff; simpl; auto).
      assert (Enx : nx (dsh s) p = head0 (f2 ++ c :: t)).
      { eapply (chain_nx _ _ f1). rewrite <- E2. apply (own_chain _ _ _ _ _ HO). }
      pose proof (own_nd_l _ _ _ _ _ HO) as Hnd.
      destruct (N.eqb_spec (nx (dsh s) p) c) as [Ec|Ec].
      * assert (f2 = []) as ->.
        { destruct f2 as [|a f2]; [easy|]. exfalso. simpl in Enx. rewrite E2 in Hnd.
          apply NoDup_remove_1 in Hnd. apply NoDup_app_tail in Hnd.
          simpl in Hnd. apply NoDup_cons_iff in Hnd. destruct Hnd as [Ha _]. apply Ha.
          rewrite in_app_iff. simpl. right. left. congruence. }
        eapply (Hdloc _ (QOut (f1 ++ [p]) [] c t) []); simpl; auto.
        repeat (split; [easy|]). now exists f1.
      * destruct f2 as [|a f2]; [easy|]. simpl in Enx.
        eapply (Hdloc _ (QOut (f1 ++ p :: a :: f2) [] c t) []); simpl; auto.
        repeat (split; [easy|]). exists (f1 ++ [p]), f2. rewrite Enx, <- app_assoc. reflexivity.
    + destruct q as [| |f k y t]; try easy. destruct HQ as (-> & -> & E1 & En & f1 & ->).
      assert (E2 : l = f1 ++ p :: c :: t) by (rewrite E1, <- app_assoc; reflexivity).
      rewrite Htouch by (rewrite E2, in_app_iff; simpl; auto).
      assert (Enx : nx (dsh s) c = n).
      { rewrite En. eapply (chain_nx _ _ (f1 ++ [p])). rewrite <- app_assoc. simpl. rewrite <- E2.
        apply (own_chain _ _ _ _ _ HO). }
      assert (P0 : p <> 0).
      { eapply (chain_mid _ f1). rewrite <- E2. apply (own_chain _ _ _ _ _ HO). }
      eapply (Hdtr _ (DOut p n c) (f1 ++ p :: t) (QOut (f1 ++ [p]) [] c t) []); simpl; auto.
      * rewrite <- Enx. apply own_cut; [now rewrite <- E2|]. reflexivity.
      * apply Hp_nx. rewrite E2, in_app_iff. simpl. auto.
      * split; [easy|]. split; [now rewrite <- app_assoc|]. split; [|easy].
        right. split; [easy|]. exists f1. now rewrite app_nil_r.
    + destruct q as [| |f k y t]; try easy. destruct HQ as (-> & E1 & Hp & En).
      eapply (Hdtr _ (DNext p n) l (QRun f k t) [EOut x]); simpl; auto.
      * now rewrite N.eqb_refl.
      * destruct fib.
        -- apply own_bury; [easy|]. reflexivity.
        -- apply own_return; [easy|]. reflexivity.
      * now destruct fib.
      * intros t'. pose proof (HP t') as H. destruct fib; destruct (dth s t'); auto.
  - (* the critical section of cut_out *)
    destruct (dpo s) as [|p c|p c n|p c n|c n|p c n|p c n|p n x] eqn:Ed; try exact Hsame.
    destruct q as [| |f k y t]; try easy. destruct HQ as (-> & E1 & Hp & En).
    destruct (N.eqb_spec p 0) as [P0|P0]; [|exact Hsame].
    destruct Hp as [[_ Hk]|[Hp _]]; [|easy]. subst k. simpl in E1.
    pose proof (own_chain _ _ _ _ _ HO) as Hc.
    destruct (N.eqb_spec (hd (dsh s)) c) as [Ec|Ec]; simpl.
    + assert (Ef : f = []).
      { destruct f as [|a f]; [easy|]. exfalso. rewrite E1 in Hc. simpl in Hc. destruct Hc as (Ea & _).
        pose proof (own_nd_l _ _ _ _ _ HO) as Hnd. rewrite E1 in Hnd. simpl in Hnd.
        apply NoDup_cons_iff in Hnd. destruct Hnd as [Ha _]. apply Ha. rewrite in_app_iff. simpl.
        right. left. congruence. }
      subst f. simpl in E1.
      assert (Enx : nx (dsh s) c = n).
      { rewrite En. apply (chain_nx (nx (dsh s)) (hd (dsh s)) [] c t). change ([] ++ c :: t) with (c :: t). rewrite <- E1. exact Hc. }
      eapply (Hdtr _ (DOut 0 n c) t (QOut [] [] c t) []); simpl; auto.
      * rewrite <- Enx. rewrite E1 in HO. now apply own_popped.
      * split; [easy|]. split; [easy|]. split; [now left|easy].
    + eapply (Hdloc _ (QOut f [] c t) []); simpl; auto.
      repeat (split; [easy|]). rewrite E1 in Hc. destruct f as [|a f]; simpl in Hc; [intuition|].
      destruct Hc as (-> & _). now exists [], f.
  - (* the filter answers *)
    destruct (dpo s) as [|p c|p c n|p c n|c n|p c n|p c n|p n x] eqn:Ed; try exact Hsame. simpl.
    destruct q as [|f k [|y t]|]; try easy. destruct HQ as (-> & E1 & Hp & En).
    destruct b.
    + eapply (Hdloc _ (QOut f k c t) [EVisit c true]); simpl; auto.
      now rewrite N.eqb_refl.
    + eapply (Hdloc _ (QRun f (k ++ [c]) t) [EVisit c false]); simpl; auto.
      * now rewrite N.eqb_refl.
      * split; [rewrite E1, <- app_assoc; reflexivity|]. split; [|easy].
        right. split.
        -- eapply (chain_mid _ (f ++ k) (hd (dsh s)) c t). rewrite <- app_assoc, <- E1.
           apply (own_chain _ _ _ _ _ HO).
        -- exists (f ++ k). now rewrite app_assoc.
Qed.

Lemma daccepts_app t1 : forall q t2,
  daccepts q (t1 ++ t2) = match daccepts q t1 with Some q' => daccepts q' t2 | None => None end.
Proof.
  induction t1 as [|e t1 IH]; intros q t2; [easy|].
  simpl. destruct (daccept q e); [apply IH|easy].
Qed.

Lemma dinv_run fib ls : forall s l q, dinv s l q ->
  exists l' q', daccepts q (snd (drrun fib s ls)) = Some q' /\ dinv (fst (drrun fib s ls)) l' q'.
Proof.
  induction ls as [|lb ls IH]; intros s l q HI.
  - exists l, q. auto.
  - destruct (dinv_step fib s l q lb HI) as (l1 & q1 & Ha & HI1). simpl.
    destruct (drstep fib s lb) as [s1 e1]. simpl in *.
    destruct (IH s1 l1 q1 HI1) as (l2 & q2 & Ha2 & HI2).
    destruct (drrun fib s1 ls) as [s2 e2]. simpl in *.
    exists l2, q2. split; [|easy]. now rewrite daccepts_app, Ha.
Qed.

Lemma dinv_init nodes link : NoDup nodes -> ~ In 0 nodes -> dinv (drinit nodes link) [] (QIdle []).
Proof.
  intros Hnd H0. constructor; simpl; auto; try easy.
  constructor; simpl; auto; try easy.
  - constructor.
  - intros x Hx ->. easy.
  - intros [|t] x; easy.
  - intros [|t] [|t'] x; easy.
  - intros x _. apply unissued10.
  - exists 0. reflexivity.
Qed.

(** The contents of memory. *)
Lemma dinv_contents s l q : dinv s l q ->
  NoDup l /\ (forall x, In x (dcontents q) -> In x l) /\
  match q with QOut _ _ _ _ => True | _ => l = dcontents q end.
Proof.
  intros [HO _ _ HQ]. split; [apply (own_nd_l _ _ _ _ _ HO)|].
  destruct (dpo s), q as [l0|f k t|f k y t]; simpl in HQ; try easy; simpl.
  - subst. auto.
  - destruct HQ as (-> & _). auto.
  - destruct t as [|y t]; [easy|]. destruct HQ as (-> & -> & _). auto.
  - destruct HQ as (-> & -> & _). split; [|easy]. intros x. rewrite !in_app_iff. simpl. tauto.
  - destruct HQ as (-> & -> & -> & _). split; [|easy]. intros x. simpl. rewrite !in_app_iff. simpl. tauto.
  - destruct HQ as (-> & -> & -> & _). split; [|easy]. intros x. simpl. rewrite !in_app_iff. simpl. tauto.
  - destruct HQ as (-> & -> & -> & _). split; [|easy]. intros x. simpl. rewrite !in_app_iff. simpl. tauto.
  - destruct HQ as (-> & -> & _). auto.
Qed.

(** ** A drain left alone finishes, whatever the filter answers *)

Definition alone_label (ans : N -> bool) (s : drstate) : dlabel :=
  match dpo s with DFilter _ c _ => DAnswer (ans c) | _ => DStep false end.

Fixpoint alone (fib : bool) (ans : N -> bool) (n : nat) (s : drstate) : drstate :=
  match n with
  | O => s
  | S n => alone fib ans n (fst (drstep fib s (alone_label ans s)))
  end.

Lemma alone_add fib ans a : forall b s, alone fib ans (a + b) s = alone fib ans b (alone fib ans a s).
Proof. induction a as [|a IH]; intros b s; [easy|]. simpl. apply IH. Qed.

(** A silent step keeps the abstract state. *)
Lemma silent_step fib s l q lb : dinv s l q -> snd (drstep fib s lb) = [] ->
  exists l', dinv (fst (drstep fib s lb)) l' q.
Proof.
  intros HI He. destruct (dinv_step fib s l q lb HI) as (l' & q' & Ha & HI').
  rewrite He in Ha. simpl in Ha. injection Ha as <-. eauto.
Qed.

Lemma walk_done fib ans f2 : forall s l f1 p c n t, dpo s = DWalk p c n ->
  dinv s l (QOut (f1 ++ p :: f2) [] c t) ->
  exists k p' l', dpo (alone fib ans k s) = DWrite p' c n /\
    dinv (alone fib ans k s) l' (QOut (f1 ++ p :: f2) [] c t).
Proof.
  induction f2 as [|a f2 IH]; intros s l f1 p c n t Ed HI.
  - assert (He : snd (drstep fib s (DStep false)) = []) by (simpl; now rewrite Ed).
    destruct (silent_step fib s l _ _ HI He) as (l' & HI').
    exists 1%nat, p, l'. simpl. unfold alone_label. rewrite Ed. split; [|exact HI'].
    pose proof (di_pos _ _ _ HI) as HQ. rewrite Ed in HQ. destruct HQ as (_ & _ & E1 & _).
    simpl. rewrite Ed. simpl.
    assert (Enx : nx (dsh s) p = c).
    { apply (chain_nx (nx (dsh s)) (hd (dsh s)) f1 p (c :: t)).
      replace (f1 ++ p :: c :: t) with l by (rewrite E1, <- app_assoc; reflexivity).
      apply (own_chain _ _ _ _ _ (di_own _ _ _ HI)). }
    now rewrite Enx, N.eqb_refl.
  - assert (He : snd (drstep fib s (DStep false)) = []) by (simpl; now rewrite Ed).
    destruct (silent_step fib s l _ _ HI He) as (l' & HI').
    pose proof (di_pos _ _ _ HI) as HQ. rewrite Ed in HQ. destruct HQ as (_ & _ & E1 & _).
    assert (Enx : nx (dsh s) p = a).
    { apply (chain_nx (nx (dsh s)) (hd (dsh s)) f1 p (a :: f2 ++ c :: t)).
      replace (f1 ++ p :: a :: f2 ++ c :: t) with l by (rewrite E1, <- app_assoc; reflexivity).
      apply (own_chain _ _ _ _ _ (di_own _ _ _ HI)). }
    assert (Hac : a <> c).
    { pose proof (own_nd_l _ _ _ _ _ (di_own _ _ _ HI)) as Hnd. rewrite E1, <- app_assoc in Hnd.
      simpl in Hnd. apply NoDup_remove_1 in Hnd. apply NoDup_app_tail in Hnd.
      apply NoDup_cons_iff in Hnd. destruct Hnd as [Ha _]. intros ->. apply Ha.
      rewrite in_app_iff. simpl. auto. }
    set (s1 := fst (drstep fib s (DStep false))) in *.
    assert (Ed1 : dpo s1 = DWalk a c n).
    { unfold s1. simpl. rewrite Ed. simpl. rewrite Enx.
      destruct (N.eqb_spec a c); easy. }
    destruct (IH s1 l' (f1 ++ [p]) a c n t Ed1) as (k & p' & l2 & A & B).
    { rewrite <- app_assoc. exact HI'. }
    exists (S k), p', l2. simpl. unfold alone_label. rewrite Ed. fold s1.
    rewrite <- app_assoc in B. auto.
Qed.

Lemma out_done fib ans s l f k x t : dinv s l (QOut f k x t) ->
  exists n p c l', dpo (alone fib ans n s) = DNext p c /\ dinv (alone fib ans n s) l' (QRun f k t).
Proof.
  assert (Hout : forall s l p n x, dpo s = DOut p n x -> dinv s l (QOut f k x t) ->
    exists m p c l', dpo (alone fib ans m s) = DNext p c /\ dinv (alone fib ans m s) l' (QRun f k t)).
  { clear. intros s l p n x Ed HI.
    destruct (dinv_step fib s l _ (DStep false) HI) as (l' & q' & Ha & HI').
    exists 1%nat, p, n, l'. simpl. unfold alone_label. rewrite Ed.
    simpl in Ha, HI'. rewrite Ed in Ha, HI'. simpl in Ha, HI'. rewrite N.eqb_refl in Ha.
    injection Ha as <-. simpl. rewrite Ed. auto. }
  assert (Hstep : forall s l x, dinv s l (QOut f k x t) -> alone_label ans s = DStep false ->
     snd (drstep fib s (DStep false)) = [] ->
     (forall l', dinv (fst (drstep fib s (DStep false))) l' (QOut f k x t) ->
       exists m p c l', dpo (alone fib ans m (fst (drstep fib s (DStep false)))) = DNext p c /\
         dinv (alone fib ans m (fst (drstep fib s (DStep false)))) l' (QRun f k t)) ->
     exists m p c l', dpo (alone fib ans m s) = DNext p c /\ dinv (alone fib ans m s) l' (QRun f k t)).
  { clear. intros s l x HI Hl He Hk. destruct (silent_step fib s l _ _ HI He) as (l' & HI').
    destruct (Hk l' HI') as (m & p & c & l2 & A & B). exists (S m), p, c, l2. simpl.
    rewrite Hl. auto. }
  assert (Hwr : forall s l p c n, dpo s = DWrite p c n -> dinv s l (QOut f k c t) ->
    exists m p c l', dpo (alone fib ans m s) = DNext p c /\ dinv (alone fib ans m s) l' (QRun f k t)).
  { intros s0 l0 p c n Ed HI. eapply (Hstep s0 l0 c HI).
    - unfold alone_label. now rewrite Ed.
    - simpl. now rewrite Ed.
    - intros l' HI'. eapply (Hout _ l' p n c); [|exact HI']. simpl. now rewrite Ed. }
  assert (Hwalk : forall s l p c n, dpo s = DWalk p c n -> dinv s l (QOut f k c t) ->
    exists m p c l', dpo (alone fib ans m s) = DNext p c /\ dinv (alone fib ans m s) l' (QRun f k t)).
  { intros s0 l0 p c n Ed HI. pose proof (di_pos _ _ _ HI) as HQ. rewrite Ed in HQ.
    destruct HQ as (_ & Ek & _ & _ & f1 & f2 & Ef). rewrite Ek, Ef in HI.
    destruct (walk_done fib ans f2 s0 l0 f1 p c n t Ed HI) as (j & p' & l1 & A & B).
    rewrite <- Ek, <- Ef in B. destruct (Hwr _ _ _ _ _ A B) as (m & p2 & c2 & l2 & C & D).
    exists (j + m)%nat, p2, c2, l2. rewrite alone_add. auto. }
  assert (Hcas : forall s l c n, dpo s = DCas c n -> dinv s l (QOut f k c t) ->
    exists m p c l', dpo (alone fib ans m s) = DNext p c /\ dinv (alone fib ans m s) l' (QRun f k t)).
  { intros s0 l0 c n Ed HI. eapply (Hstep s0 l0 c HI).
    - unfold alone_label. now rewrite Ed.
    - simpl. rewrite Ed. simpl. now destruct (hd (dsh s0) =? c).
    - intros l' HI'. destruct (hd (dsh s0) =? c) eqn:Eh.
      + eapply (Hout _ l' 0 n c); [|exact HI']. simpl. rewrite Ed. simpl. now rewrite Eh.
      + eapply (Hwalk _ l' (hd (dsh s0)) c n); [|exact HI']. simpl. rewrite Ed. simpl. now rewrite Eh. }
  intros HI. pose proof (di_pos _ _ _ HI) as HQ.
  destruct (dpo s) as [|p c|p c n|p c n|c n|p c n|p c n|p n y] eqn:Ed; simpl in HQ; try easy.
  - destruct HQ as (-> & _).
    eapply (Hstep s l c HI).
    + unfold alone_label. now rewrite Ed.
    + simpl. rewrite Ed. simpl. now destruct (p =? 0).
    + intros l' HI'. destruct (p =? 0) eqn:Ep; [destruct (hd (dsh s) =? c) eqn:Eh|].
      * eapply (Hcas _ l' c n); [|exact HI']. simpl. rewrite Ed. simpl. now rewrite Ep, Eh.
      * eapply (Hwalk _ l' (hd (dsh s)) c n); [|exact HI']. simpl. rewrite Ed. simpl. now rewrite Ep, Eh.
      * eapply (Hout _ l' p n c); [|exact HI']. simpl. rewrite Ed. simpl. now rewrite Ep.
  - destruct HQ as (-> & _). eapply Hcas; eauto.
  - destruct HQ as (-> & _). eapply Hwalk; eauto.
  - destruct HQ as (-> & _). eapply Hwr; eauto.
  - destruct HQ as (-> & _). eapply Hout; eauto.
Qed.

Lemma run_done fib ans t : forall s l f k, dinv s l (QRun f k t) ->
  exists n, dpo (alone fib ans n s) = DIdle.
Proof.
  induction t as [|x t IH]; intros s l f k HI; pose proof (di_pos _ _ _ HI) as HQ.
  - destruct (dpo s) as [|p c|p c n|p c n|c n|p c n|p c n|p n y] eqn:Ed; simpl in HQ; try easy.
    destruct HQ as (_ & _ & ->). exists 1%nat. simpl. unfold alone_label. rewrite Ed. simpl.
    now rewrite Ed.
  - (* one element *)
    assert (Hf : forall s l p n, dpo s = DFilter p x n -> dinv s l (QRun f k (x :: t)) ->
      exists m, dpo (alone fib ans m s) = DIdle).
    { clear - IH. intros s l p n Ed HI.
      destruct (dinv_step fib s l _ (DAnswer (ans x)) HI) as (l' & q' & Ha & HI').
      assert (Es : alone_label ans s = DAnswer (ans x)) by (unfold alone_label; now rewrite Ed).
      simpl in Ha. rewrite Ed in Ha. simpl in Ha. rewrite N.eqb_refl in Ha.
      destruct (ans x) eqn:Ex.
      - injection Ha as <-. destruct (out_done fib ans _ _ _ _ _ _ HI') as (m & p2 & c2 & l2 & A & B).
        destruct (IH _ _ _ _ B) as (m2 & C). exists (S m + m2)%nat. rewrite alone_add. simpl.
        rewrite Es. exact C.
      - injection Ha as <-. destruct (IH _ _ _ _ HI') as (m2 & C). exists (S m2). simpl.
        rewrite Es. exact C. }
    destruct (dpo s) as [|p c|p c n|p c n|c n|p c n|p c n|p n y] eqn:Ed; simpl in HQ; try easy.
    + destruct HQ as (E1 & _ & ->).
      assert (X0 : x <> 0).
      { apply (chain_mid (nx (dsh s)) (f ++ k) (hd (dsh s)) x t). rewrite <- app_assoc, <- E1.
        apply (own_chain _ _ _ _ _ (di_own _ _ _ HI)). }
      assert (He : snd (drstep fib s (DStep false)) = []).
      { simpl. rewrite Ed. simpl. destruct (N.eqb_spec x 0); easy. }
      destruct (silent_step fib s l _ _ HI He) as (l' & HI').
      assert (Ed' : dpo (fst (drstep fib s (DStep false))) = DFilter p x (nx (dsh s) x)).
      { simpl. rewrite Ed. simpl. destruct (N.eqb_spec x 0); easy. }
      destruct (Hf _ l' p (nx (dsh s) x) Ed' HI') as (m & A).
      exists (S m). simpl. unfold alone_label. now rewrite Ed.
    + destruct HQ as (-> & _). eapply Hf; eauto.
Qed.

Lemma drain_terminates fib ans s l q : dinv s l q -> exists n, dpo (alone fib ans n s) = DIdle.
Proof.
  intros HI. destruct q as [l0|f k t|f k x t].
  - exists 0%nat. pose proof (di_pos _ _ _ HI) as HQ. simpl. destruct (dpo s); easy.
  - eapply run_done; eauto.
  - destruct (out_done fib ans _ _ _ _ _ _ HI) as (m & p & c & l2 & A & B).
    destruct (run_done fib ans _ _ _ _ _ B) as (m2 & C). exists (m + m2)%nat. now rewrite alone_add.
Qed.
