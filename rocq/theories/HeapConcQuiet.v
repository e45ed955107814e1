(** An allocation that nothing interrupts, in any state the contexts have left the heap in. *)
Require Import NArith List Bool Arith Lia.
From Verif Require Import AtomicSpec LinSpec Treiber TreiberProofs TreiberSoft Heap HeapSpec HeapProofs HeapConc HeapConcSpec PoolFull HeapConcProofs.
Import ListNotations.
Open Scope N_scope.

Section Quiet.
Variable ws : nat.
Variable base : N.
Variable cfg : list pcfg.
Hypothesis Hcfg : wf_cfg ws base cfg.
Variable ie0 : bool.

Notation hstep := (hstep base cfg).
Notation hrun := (hrun base cfg).
Notation psize := (psize cfg).
Notation pedge := (pedge cfg).
Notation hinv := (hinv cfg ie0).

Definition steps (n : nat) : list hlabel := repeat HLStep n.

Lemma hrun_app l1 : forall s l2, hrun s (l1 ++ l2) =
  let (s1, e1) := hrun s l1 in let (s2, e2) := hrun s1 l2 in (s2, e1 ++ e2).
Proof.
  induction l1 as [|lb l1 IH]; intros s l2; cbn [app HeapConc.hrun].
  - destruct (hrun s l2); reflexivity.
  - destruct (hstep s lb) as [s1 e1]. rewrite IH. destruct (hrun s1 l1) as [s2 e2].
    destruct (hrun s2 l2) as [s3 e3]. now rewrite app_assoc.
Qed.

(** The context runs alone, inside pool [i]. *)
Definition at_ (s : hstate) (o : hop) (i : nat) (m : shm) (ie : bool) (g : sfr) (lv : list blk) : Prop :=
  hp s i = m /\ hie s = ie /\ hfs s = [HIn o i g] /\ hlive s = lv.

Lemma at_step s o i m ie g lv m' ie' g' : at_ s o i m ie g lv -> g <> FDone RNone ->
  saccess (psize i) (pedge i) m ie g = (m', ie', g') ->
  at_ (fst (hstep s HLStep)) o i m' ie' g' lv /\ snd (hstep s HLStep) = [].
Proof.
  intros (A & B & C & D) Hg E. rewrite (hstep_access base cfg s o i g [] C Hg), A, B, E.
  unfold at_. cbn. rewrite upd_same. auto.
Qed.

Definition quiet (P : hstate -> Prop) (n : nat) (s : hstate) : Prop :=
  P (fst (hrun s (steps n))) /\ snd (hrun s (steps n)) = [].

Lemma quiet_S P n s : snd (hstep s HLStep) = [] -> quiet P n (fst (hstep s HLStep)) -> quiet P (S n) s.
Proof.
  unfold quiet, steps. cbn [repeat HeapConc.hrun]. destruct (hstep s HLStep) as [s1 e1]. cbn [fst snd]. intros ->.
  destruct (hrun s1 (repeat HLStep n)). auto.
Qed.
Lemma quiet_add P n m s : quiet (quiet P m) n s -> quiet P (n + m) s.
Proof.
  unfold quiet, steps. intros [[A B] C]. rewrite repeat_app, hrun_app.
  destruct (hrun s (repeat HLStep n)) as [s1 e1]. cbn [fst snd] in *.
  destruct (hrun s1 (repeat HLStep m)) as [s2 e2]. cbn [fst snd] in *. subst. auto.
Qed.
Lemma quiet_impl (P Q : hstate -> Prop) n s : (forall s, P s -> Q s) -> quiet P n s -> quiet Q n s.
Proof. intros H [A B]. split; auto. Qed.

Lemma quiet_at P n s o i m ie g lv m' ie' g' : at_ s o i m ie g lv -> g <> FDone RNone ->
  saccess (psize i) (pedge i) m ie g = (m', ie', g') ->
  (forall s', at_ s' o i m' ie' g' lv -> quiet P n s') -> quiet P (S n) s.
Proof.
  intros Ha Hg E H. destruct (at_step s o i m ie g lv m' ie' g' Ha Hg E) as [A B].
  apply quiet_S; auto.
Qed.

(** Eight steps in one pool. *)
Lemma one_pool s o i m ie lv : at_ s o i m ie (FBegin OAlloc) lv ->
  quiet (fun s' => exists m' r, at_ s' o i m' ie (FDone r) lv /\ r <> RPushed /\
     (r = RNone -> hd m = 0 /\ un m = pedge i /\ m' = m)) 8 s.
Proof.
  intros Ha.
  eapply quiet_at; [exact Ha|discriminate|reflexivity|]. clear s Ha; intros s Ha.
  eapply quiet_at; [exact Ha|discriminate|reflexivity|]. clear s Ha; intros s Ha.
  destruct (N.eqb_spec (hd m) 0) as [E0|E0].
  - eapply quiet_at; [exact Ha|discriminate|cbn [saccess]; rewrite E0; reflexivity|]. clear s Ha; intros s Ha.
    eapply quiet_at; [exact Ha|discriminate|reflexivity|]. clear s Ha; intros s Ha.
    eapply quiet_at; [exact Ha|discriminate|reflexivity|]. clear s Ha; intros s Ha.
    eapply quiet_at; [exact Ha|discriminate|reflexivity|]. clear s Ha; intros s Ha.
    destruct (N.eqb_spec (un m) (pedge i)) as [E1|E1].
    + eapply quiet_at; [exact Ha|discriminate|cbn [saccess]; rewrite E1, N.eqb_refl; reflexivity|]. clear s Ha; intros s Ha.
      eapply quiet_at; [exact Ha|discriminate|reflexivity|]. clear s Ha; intros s Ha.
      split; [|reflexivity]. exists m, RNone. split; [exact Ha|]. split; [discriminate|auto].
    + eapply quiet_at; [exact Ha|discriminate|cbn [saccess]; rewrite (proj2 (N.eqb_neq _ _) E1); reflexivity|]. clear s Ha; intros s Ha.
      eapply quiet_at; [exact Ha|discriminate|reflexivity|]. clear s Ha; intros s Ha.
      split; [|reflexivity]. exists (set_un m (un m + psize i)), (RNode (un m)). split; [exact Ha|]. split; discriminate.
  - eapply quiet_at; [exact Ha|discriminate|cbn [saccess]; rewrite (proj2 (N.eqb_neq _ _) E0); reflexivity|]. clear s Ha; intros s Ha.
    eapply quiet_at; [exact Ha|discriminate|reflexivity|]. clear s Ha; intros s Ha.
    eapply quiet_at; [exact Ha|discriminate|reflexivity|]. clear s Ha; intros s Ha.
    eapply quiet_at; [exact Ha|discriminate|reflexivity|]. clear s Ha; intros s Ha.
    eapply quiet_at; [exact Ha|discriminate|reflexivity|]. clear s Ha; intros s Ha.
    eapply quiet_at; [exact Ha|discriminate|reflexivity|]. clear s Ha; intros s Ha.
    split; [|reflexivity]. eexists _, (RNode (hd m)). split; [exact Ha|]. split; discriminate.
Qed.

(** Counting. *)
Lemma held_le s ls i a z c : hinv s ls -> nth_error cfg i = Some (a, z, c) ->
  NoDup (held (hp s i)) /\ incl (held (hp s i)) (blocks a z (N.to_nat c)).
Proof.
  intros HI En. assert (Hi : (i < length cfg)%nat) by (apply nth_error_Some; congruence).
  split.
  - apply (own_nd_h _ _ _ _ _ (si_own _ _ _ _ _ (hi_pool _ _ _ _ HI i Hi))).
  - intros x Hx. apply (hi_all _ _ _ _ HI i a z c En x). right. now left.
Qed.

Lemma full_pool s ls i a z c o g : hinv s ls -> nth_error cfg i = Some (a, z, c) -> hfs s = [HIn o i g] -> fcarry g = None ->
  hd (hp s i) = 0 -> un (hp s i) = pedge i -> full (hlive s) (a, z, c).
Proof.
  intros HI En Ef Hg Eh Eu. assert (Hi : (i < length cfg)%nat) by (apply nth_error_Some; congruence).
  destruct (cfg_pos ws base cfg Hcfg _ _ _ _ En) as [Ha Hz].
  destruct (held_le s ls i a z c HI En) as [ND IN].
  assert (Lb : length (blocks a z (N.to_nat c)) = N.to_nat c) by apply blocks_length.
  assert (L : length (held (hp s i)) = N.to_nat c).
  { rewrite <- Lb. apply Nat.le_antisymm; [now apply NoDup_incl_length|].
    apply NoDup_incl_length; [now apply blocks_NoDup|]. intros x Hx.
    apply (hi_all _ _ _ _ HI i a z c En x) in Hx.
    pose proof (hi_pool _ _ _ _ HI i Hi) as P. pose proof (own_chain _ _ _ _ _ (si_own _ _ _ _ _ P)) as C.
    unfold proj in C. cbn [ssh] in C. rewrite Eh in C.
    destruct Hx as [Hx|[Hx|[Hx|[(k & E1 & E2)|[t Hx]]]]].
    - destruct (ls i) as [|y r]; [easy|]. simpl in C. destruct C as (? & ? & _). congruence.
    - exact Hx.
    - rewrite (hi_dead _ _ _ _ HI) in Hx. destruct Hx.
    - rewrite Eu, (pedge_nth _ _ _ _ _ En) in E1. nia.
    - rewrite Ef in Hx. unfold crs, at_depth in Hx. simpl in Hx. rewrite Nat.eqb_refl in Hx.
      destruct t as [|[|]]; simpl in Hx; [congruence|discriminate|discriminate]. }
  unfold full, in_use. cbn [snd]. rewrite <- (hi_held _ _ _ _ HI i a z c En), L. apply N2Nat.id.
Qed.

Lemma room_pool s ls i a z c o g x rest : hinv s ls -> nth_error cfg i = Some (a, z, c) -> hfs s = HIn o i g :: rest ->
  fcarry g = Some x -> in_use (hlive s) (a, z, c) < c.
Proof.
  intros HI En Ef Hg. destruct (carried ws base cfg Hcfg ie0 s ls o i g rest x HI Ef Hg) as [[j S] Hn].
  destruct (cfg_pos ws base cfg Hcfg _ _ _ _ En) as [Ha Hz].
  destruct (held_le s ls i a z c HI En) as [ND IN].
  assert (B : In x (blocks a z (N.to_nat c))).
  { apply blocks_unissued; [exact Hz|]. destruct S as (a' & z' & c' & E & Hj & ->). rewrite En in E. injection E as <- <- <-.
    exists j. split; [reflexivity|]. rewrite N2Nat.id. nia. }
  assert (L : (length (x :: held (hp s i)) <= length (blocks a z (N.to_nat c)))%nat).
  { apply NoDup_incl_length; [now constructor|]. intros y [<-|Hy]; auto. }
  rewrite blocks_length in L. simpl in L.
  unfold in_use. rewrite <- (hi_held _ _ _ _ HI i a z c En). lia.
Qed.

(** The answer of the loop over the pools. *)
Definition answer (live : list blk) (i0 : nat) (s : hstate) (o : hop) : Prop :=
  exists ls i m ie r, hinv s ls /\ at_ s o i m ie (FDone r) live /\ (i < length cfg)%nat /\ (i0 <= i)%nat /\ r <> RPushed /\
    (forall k a z c, (i0 <= k < i)%nat -> nth_error cfg k = Some (a, z, c) -> full live (a, z, c)) /\
    match r with
    | RNode x => True
    | _ => S i = length cfg /\ forall a z c, nth_error cfg i = Some (a, z, c) -> full live (a, z, c)
    end.

Lemma steps_inv s ls n : hinv s ls -> exists ls', hinv (fst (hrun s (steps n))) ls'.
Proof. intros H. now apply (hinv_run ws base cfg Hcfg ie0 (steps n) s ls). Qed.

Lemma answer_stays live i0 o n : forall s, answer live i0 s o -> quiet (fun s' => answer live i0 s' o) n s.
Proof.
  induction n as [|n IH]; intros s H; [split; [exact H|reflexivity]|].
  destruct H as (ls & i & m & ie & r & HI & Ha & Hi & Hi0 & Hr & Hf & Hm).
  destruct (hinv_step ws base cfg Hcfg ie0 s ls HLStep HI) as [ls' HI'].
  assert (D : at_ (fst (hstep s HLStep)) o i m ie (FDone r) live /\ snd (hstep s HLStep) = []).
  { destruct r as [|x|].
    - easy.
    - now apply (at_step s o i m ie (FDone (RNode x)) live).
    - destruct Hm as [HS _]. destruct Ha as (A & B & C & E). unfold HeapConc.hstep. rewrite C.
      rewrite pools_length. destruct (Nat.ltb_spec (S i) (length cfg)); [lia|]. unfold at_. auto. }
  destruct D as [D1 D2]. apply quiet_S; [exact D2|]. apply IH. exists ls', i, m, ie, r. auto 10.
Qed.

Lemma loop live size align n : forall i s ls m ie, hinv s ls -> (length cfg - i = S n)%nat ->
  at_ s (HAlloc size align) i m ie (FBegin OAlloc) live ->
  quiet (fun s' => answer live i s' (HAlloc size align)) (9 * S n) s.
Proof.
  induction n as [|n IH]; intros i s ls m ie HI Hn Ha.
  all: set (o := HAlloc size align) in *.
  - replace (9 * 1)%nat with (8 + 1)%nat by lia. apply quiet_add.
    pose proof (one_pool s o i m ie live Ha) as [H1 H2].
    destruct (steps_inv s ls 8 HI) as [ls' HI']. split; [|exact H2].
    destruct H1 as (m' & r & A & Hr & Hnone). apply answer_stays.
    exists ls', i, m', ie, r. split; [exact HI'|]. split; [exact A|]. split; [lia|]. split; [lia|]. split; [exact Hr|].
    split; [intros k a z c Hk; lia|]. destruct r as [|x|]; [easy|exact Logic.I|].
    split; [lia|]. intros a z c En. destruct (Hnone eq_refl) as (E1 & E2 & ->). destruct A as (A1 & A2 & A3 & A4).
    rewrite <- A4. eapply full_pool; eauto; now rewrite A1.
  - replace (9 * S (S n))%nat with (8 + (1 + 9 * S n))%nat by lia. apply quiet_add.
    pose proof (one_pool s o i m ie live Ha) as [H1 H2].
    destruct (steps_inv s ls 8 HI) as [ls' HI']. split; [|exact H2].
    destruct H1 as (m' & r & A & Hr & Hnone). set (s1 := fst (hrun s (steps 8))) in *.
    destruct r as [|x|]; [easy| |].
    + apply answer_stays. exists ls', i, m', ie, (RNode x). split; [exact HI'|]. split; [exact A|]. split; [lia|]. split; [lia|].
      split; [exact Hr|]. split; [intros k a z c Hk; lia|exact Logic.I].
    + destruct (Hnone eq_refl) as (E1 & E2 & ->). pose proof A as (A1 & A2 & A3 & A4).
      assert (Ef : forall a z c, nth_error cfg i = Some (a, z, c) -> full live (a, z, c)).
      { intros a z c En. rewrite <- A4. eapply full_pool; eauto; now rewrite A1. }
      assert (Es : hstep s1 HLStep = (HState (hp s1) (hie s1) [HIn o (S i) (FBegin OAlloc)] (hlive s1), [])).
      { unfold HeapConc.hstep. rewrite A3, pools_length. destruct (Nat.ltb_spec (S i) (length cfg)); [reflexivity|lia]. }
      destruct (hinv_step ws base cfg Hcfg ie0 s1 ls' HLStep HI') as [ls2 HI2].
      apply (quiet_S _ (9 * S n)%nat); rewrite Es in *; [reflexivity|]. cbn [fst] in *.
      eapply quiet_impl; [|eapply (IH (S i)); [exact HI2|lia|]].
      * intros s' (ls3 & i' & m3 & ie3 & r & H). destruct H as (B1 & B2 & B3 & B4 & B5 & B6 & B7).
        exists ls3, i', m3, ie3, r. split; [exact B1|]. split; [exact B2|]. split; [exact B3|]. split; [lia|]. split; [exact B5|].
        split; [|exact B7]. intros k a z c Hk En. destruct (Nat.eq_dec k i) as [->|]; [now apply Ef|]. apply (B6 k); [lia|exact En].
      * unfold at_. cbn. rewrite A4. eauto.
Qed.

Theorem conc_best_fit s ls size align : hinv s ls -> hfs s = [HIdle] ->
  exists r, snd (hrun s (HLInv (HAlloc size align) :: repeat HLStep (9 * length cfg) ++ [HLRet])) =
     [LCall 0 (HAlloc size align); LReturn 0 r] /\ alloc_result cfg (hlive s) size align (result_of r).
Proof.
  intros HI Es. set (o := HAlloc size align).
  destruct (hinv_step ws base cfg Hcfg ie0 s ls (HLInv o) HI) as [ls1 HI1].
  assert (E1 : hstep s (HLInv o) = (HState (hp s) (hie s) [hstart base cfg o] (hlive s), [LCall 0%nat o])).
  { unfold HeapConc.hstep. rewrite Es. reflexivity. }
  rewrite E1 in HI1. cbn [fst] in HI1.
  cbn [HeapConc.hrun]. rewrite E1. set (s1 := HState (hp s) (hie s) [hstart base cfg o] (hlive s)) in *.
  rewrite hrun_app.
  assert (Done : forall r, hstart base cfg o = HDone o r -> forall n, exists s2, hrun s1 (repeat HLStep n) = (s2, []) /\ hfs s2 = [HDone o r]).
  { intros r Er n. assert (Ef : hfs s1 = [HDone o r]) by (unfold s1; cbn [hfs]; now rewrite Er). clearbody s1. clear - Ef. revert s1 Ef.
    induction n as [|n IH]; intros s1 Ef; [exists s1; auto|]. cbn [repeat HeapConc.hrun].
    assert (Ex : hstep s1 HLStep = (s1, [])) by (unfold HeapConc.hstep; now rewrite Ef). rewrite Ex.
    destruct (IH s1 Ef) as (s2 & A & B). exists s2. rewrite A. auto. }
  destruct (search_layout ws base cfg Hcfg size) as (i & Ei & P1 & P2 & P3).
  destruct (N.eq_dec size 0) as [Hz|Hz].
  - assert (Er : hstart base cfg o = HDone o (HBlock align 0)) by (unfold o; rewrite Hz; reflexivity).
    destruct (Done _ Er (9 * length cfg)%nat) as (s2 & -> & Ef). unfold HeapConc.hrun, HeapConc.hstep. rewrite Ef.
    exists (HBlock align 0). split; [reflexivity|]. simpl. left. auto.
  - destruct (Nat.eq_dec i (length cfg)) as [Hi|Hi].
    + assert (Er : hstart base cfg o = HDone o HFail).
      { unfold o, hstart. rewrite (proj2 (N.eqb_neq _ _) Hz), Ei, pools_length, Hi, Nat.ltb_irrefl. reflexivity. }
      destruct (Done _ Er (9 * length cfg)%nat) as (s2 & -> & Ef). unfold HeapConc.hrun, HeapConc.hstep. rewrite Ef.
      exists HFail. split; [reflexivity|]. simpl. split; [lia|]. intros k a z c En Hs.
      assert (k < length cfg)%nat by (apply nth_error_Some; congruence).
      specialize (P2 k ltac:(lia)). rewrite (psize_nth _ _ _ _ _ En) in P2. lia.
    + assert (Er : hstart base cfg o = HIn o i (FBegin OAlloc)).
      { unfold o, hstart. rewrite (proj2 (N.eqb_neq _ _) Hz), Ei, pools_length. destruct (Nat.ltb_spec i (length cfg)); [reflexivity|lia]. }
      assert (Q : quiet (fun s' => answer (hlive s) i s' o) (9 * length cfg) s1).
      { destruct (length cfg - i)%nat as [|n] eqn:En; [lia|].
        replace (9 * length cfg)%nat with (9 * S n + 9 * i)%nat by lia. apply quiet_add.
        eapply quiet_impl; [|apply (loop (hlive s) size align n i s1 ls1 (hp s i) (hie s) HI1 En)].
        - intros s'. apply answer_stays.
        - unfold at_, s1. cbn [hp hie hfs hlive]. rewrite Er. auto. }
      destruct Q as [Q1 Q2]. unfold steps in *. destruct (hrun s1 (repeat HLStep (9 * length cfg))) as [s2 e2]. cbn [fst snd] in *. subst e2.
      destruct Q1 as (ls2 & i' & m & ie & r & HI2 & (A1 & A2 & A3 & A4) & Hi' & Hii & Hr & Hf & Hm).
      assert (Small : forall k a z c, nth_error cfg k = Some (a, z, c) -> size <= z -> (i <= k)%nat).
      { intros k a z c En Hs. destruct (Nat.lt_ge_cases k i) as [L|L]; [|exact L].
        specialize (P2 k L). rewrite (psize_nth _ _ _ _ _ En) in P2. lia. }
      destruct r as [|x|]; [easy| |].
      * exists (HBlock x (psize i')). unfold HeapConc.hrun, HeapConc.hstep. rewrite A3. split; [reflexivity|].
        simpl. right. split; [lia|]. destruct (cfg_nth cfg i' Hi') as (a & z & c & En). exists i', a, c.
        rewrite (psize_nth _ _ _ _ _ En). split; [exact En|].
        split; [specialize (P3 i' ltac:(lia)); now rewrite (psize_nth _ _ _ _ _ En) in P3|].
        destruct (carried ws base cfg Hcfg ie0 s2 ls2 o i' _ [] x HI2 A3 eq_refl) as [S _]. split; [exact S|].
        split; [rewrite <- A4; eapply room_pool; eauto; reflexivity|].
        intros k a' z' c' Hk Ek Hs. apply (Hf k); [|exact Ek]. specialize (Small k a' z' c' Ek Hs). lia.
      * destruct Hm as [HS Hm]. exists HFail. unfold HeapConc.hrun, HeapConc.hstep. rewrite A3. unfold hret. rewrite pools_length.
        destruct (Nat.ltb_spec (S i') (length cfg)); [lia|]. split; [reflexivity|]. simpl. split; [lia|].
        intros k a z c Ek Hs. specialize (Small k a z c Ek Hs).
        assert (k < length cfg)%nat by (apply nth_error_Some; congruence).
        destruct (Nat.eq_dec k i') as [->|]; [now apply Hm|]. apply (Hf k); [lia|exact Ek].
Qed.
End Quiet.
