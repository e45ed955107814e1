(** The links that the pools follow are the bytes in memory. *)
Require Import NArith List Bool Arith Lia.
From Verif Require Import AtomicSpec LinSpec Treiber TreiberProofs TreiberSoft Heap HeapSpec HeapProofs HeapConc HeapConcSpec HeapConcProofs HeapUseSpec HeapUse HeapUseProofs.
Import ListNotations.
Open Scope N_scope.

Section Links.
Variable ws : nat.
Variable base : N.
Variable cfg : list pcfg.
Hypothesis Hcfg : wf_cfg ws base cfg.
Variable ie0 : bool.

Notation hstep := (hstep base cfg).
Notation hinv := (hinv cfg ie0).
Notation ustep := (ustep ws base cfg).
Notation uinv := (uinv cfg ie0).
Notation wget := (wget ws).
Notation wput := (wput ws).

Lemma wsum_ext n m m' : forall x, (forall k, k < N.of_nat n -> m' (x + k) = m (x + k)) -> wsum n m' x = wsum n m x.
Proof.
  induction n as [|n IH]; intros x H; [easy|]. cbn [wsum]. rewrite <- (N.add_0_r x) at 1. rewrite (H 0) by lia. rewrite N.add_0_r.
  rewrite IH; [reflexivity|]. intros k Hk. replace (x + 1 + k) with (x + (k + 1)) by lia. apply H. lia.
Qed.
Lemma wsum_put n : forall v m x, (forall k, k < N.of_nat n -> m (x + k) = v / 256 ^ k mod 256) -> wsum n m x = v mod 256 ^ N.of_nat n.
Proof.
  induction n as [|n IH]; intros v m x H; [cbn; now rewrite N.mod_1_r|]. cbn [wsum].
  rewrite <- (N.add_0_r x) at 1. rewrite (H 0) by lia. rewrite (IH (v / 256)).
  - rewrite N.pow_0_r, N.div_1_r, Nat2N.inj_succ, N.pow_succ_r'. symmetry. apply N.mod_mul_r; [lia|]. apply N.pow_nonzero. lia.
  - intros k Hk. replace (x + 1 + k) with (x + (k + 1)) by lia. rewrite H by lia.
    rewrite N.add_1_r, N.pow_succ_r', N.div_div; [reflexivity|lia|apply N.pow_nonzero; lia].
Qed.
Lemma wget_wput m x v : v < 256 ^ N.of_nat ws -> wget (wput m x v) x = v.
Proof.
  intros Hv. unfold HeapUse.wget. rewrite (wsum_put _ v).
  - now apply N.mod_small.
  - intros k Hk. unfold HeapUse.wput. destruct (N.leb_spec x (x + k)); [|lia]. destruct (N.ltb_spec (x + k) (x + N.of_nat ws)); [|lia].
    cbn. now replace (x + k - x) with k by lia.
Qed.

Definition coherent (s : ustate) : Prop := forall i j x, slot cfg i j x -> nx (hp (uh s) i) x = wget (umem s) x.

Lemma slot_cfg i j x : slot cfg i j x -> exists a z c, nth_error cfg i = Some (a, z, c) /\ N.of_nat ws <= z.
Proof.
  intros (a & z & c & E & _). exists a, z, c. split; [exact E|]. exact (wf_word ws cfg base 0 (proj2 Hcfg) i a z c E).
Qed.
Lemma slot_one i j x i' j' : slot cfg i j x -> slot cfg i' j' x -> i = i'.
Proof.
  intros S S'. pose proof (search_owner ws base cfg Hcfg i j x S) as P. pose proof (search_owner ws base cfg Hcfg i' j' x S') as P'. congruence.
Qed.

(** A link that is written is zero or the address of a block. *)
Lemma link_word h ls o i sv x cur rest : hinv h ls -> hfs h = HIn o i (FLoaded sv (OPush x) cur) :: rest -> cur < 256 ^ N.of_nat ws.
Proof.
  intros HI E. destruct (top_pool cfg ie0 h ls o i _ rest HI E) as (Hi & T & P). destruct T as (_ & _ & ->).
  pose proof (own_chain _ _ _ _ _ (si_own _ _ _ _ _ P)) as C. cbn [ssh] in C. destruct (ls i) as [|y r] eqn:El; cbn in C.
  - rewrite C. apply N.neq_0_lt_0, N.pow_nonzero. lia.
  - destruct C as (-> & _). destruct (cfg_nth cfg i Hi) as (a & z & c & En).
    assert (B : In y (blocks a z (N.to_nat c))).
    { apply (hi_all _ _ _ _ HI i a z c En y). left. rewrite El. now left. }
    destruct (cfg_pos ws base cfg Hcfg _ _ _ _ En) as [Pa Pz].
    apply blocks_unissued in B; [|exact Pz]. destruct B as (j & Ej & Hj). rewrite N2Nat.id in Hj.
    assert (S : slot cfg i j y) by (exists a, z, c; split; [exact En|split; [nia|lia]]).
    destruct (slot_range _ _ _ _ _ _ _ _ _ Hcfg En S) as (_ & _ & _ & _ & H). exact H.
Qed.

(** Steps that write no link. *)
Lemma nx_other h lb i : match lb with HLStep | HLWrite _ _ => False | _ => True end -> nx (hp (fst (hstep h lb)) i) = nx (hp h i).
Proof.
  intros L. unfold HeapConc.hstep. destruct (hfs h) as [|f rest]; [easy|]. destruct lb as [o| | | | |x v]; try easy.
  - destruct f; try easy. destruct o as [sz al|p z]; cbn [hcall]; [easy|]. destruct (release p z (hlive h)); [|easy]. cbn [fst hp].
    destruct (hstart base cfg (HDealloc p z)) as [|o' i' g|]; try easy. unfold upd. destruct (Nat.eqb_spec i i') as [<-|]; easy.
  - destruct f as [|o i' g|]; try easy. destruct g; try easy. destruct (hret _ _ _ _); [|easy]. cbn. unfold upd.
    destruct (Nat.eqb_spec i i') as [<-|]; [|easy]. destruct r; easy.
  - destruct (hie h); easy.
  - destruct f; try easy. destruct rest; easy.
Qed.
Lemma nx_step h o k g rest i : hfs h = HIn o k g :: rest ->
  nx (hp (fst (hstep h HLStep)) i) = match g with
    | FLoaded _ (OPush x) cur => if Nat.eqb i k then nset (nx (hp h i)) x cur else nx (hp h i)
    | _ => nx (hp h i) end.
Proof.
  intros E. unfold HeapConc.hstep. rewrite E. unfold upd.
  destruct g as [|p|sv p|sv p cur|sv p cur new|sv r|sv| |sv|sv u|r]; try destruct p; try destruct r; cbn;
    repeat match goal with |- context [if ?b then _ else _] => destruct b eqn:?; cbn end; try reflexivity;
    repeat match goal with H : Nat.eqb _ _ = true |- _ => apply Nat.eqb_eq in H; subst end; try reflexivity; try discriminate.
Qed.

Lemma coh_same s h fs : coherent s -> (forall i, nx (hp h i) = nx (hp (uh s) i)) -> coherent (U h (umem s) fs).
Proof. intros C E i j x S. cbn. rewrite E. now apply (C i j). Qed.
Lemma coh_poke s K b a v : uinv s K -> coherent s -> In b (hlive (uh s)) -> b_ptr b <= a < b_ptr b + b_len b ->
  coherent (poke ws base cfg s (b_ptr b) a v).
Proof.
  intros I C B Ha i j x S. destruct (ui_h _ _ _ _ I) as [ls HI]. unfold poke. cbn [uh umem].
  destruct (live_slot cfg ie0 _ ls b HI B ltac:(lia)) as (k & j' & a0 & c & En & S').
  unfold HeapConc.hstep. destruct (hfs (uh s)) eqn:Ef.
  { pose proof (hi_ie _ _ _ _ HI) as F. rewrite Ef in F. easy. }
  cbn [fst hp]. destruct (N.eq_dec x (b_ptr b)) as [->|Hne].
  - rewrite (slot_one _ _ _ _ _ S S') in *. replace (mem_N (b_ptr b) (held (hp (uh s) k))) with true; [cbn; unfold nset; now rewrite N.eqb_refl|].
    symmetry. apply mem_N_in. rewrite (hi_held _ _ _ _ HI k a0 _ c En). unfold used_in. apply in_map, filter_In. split; [exact B|].
    apply (in_pool_slot ws base cfg Hcfg k j'); auto. lia.
  - replace (nx (if mem_N (b_ptr b) (held (hp (uh s) i)) then _ else _) x) with (nx (hp (uh s) i) x)
      by (destruct (mem_N _ _); [cbn; unfold nset; now rewrite (proj2 (N.eqb_neq _ _) Hne)|reflexivity]).
    rewrite (C i j x S). symmetry. apply wsum_ext. intros n Hn. unfold bput. destruct (N.eqb_spec (x + n) a) as [E|]; [|reflexivity]. exfalso.
    destruct (slot_cfg i j x S) as (a1 & z1 & c1 & E1 & W1).
    destruct (slots_disjoint _ _ _ _ _ _ _ _ _ _ _ _ _ _ _ Hcfg E1 En S S' Hne); lia.
Qed.
Lemma coh_pool s K o k g fr : uinv s K -> coherent s -> hfs (uh s) = HIn o k g :: fr ->
  coherent (U (fst (hstep (uh s) HLStep)) (linked ws (HIn o k g) (umem s)) (ufs s)).
Proof.
  intros I C Ef i j x S. destruct (ui_h _ _ _ _ I) as [ls HI]. cbn [uh umem]. rewrite (nx_step _ _ _ _ _ i Ef).
  destruct g as [| | |sv [y| |] cur| | | | | | |]; try (apply (C i j x S)). cbn [linked].
  destruct (carried ws base cfg Hcfg ie0 _ ls o k _ fr y HI Ef eq_refl) as [[j' S'] _].
  destruct (N.eq_dec x y) as [->|Hne].
  - rewrite (slot_one _ _ _ _ _ S S'), Nat.eqb_refl. unfold nset. rewrite N.eqb_refl. symmetry. apply wget_wput. eapply link_word; eauto.
  - replace ((if Nat.eqb i k then nset (nx (hp (uh s) i)) y cur else nx (hp (uh s) i)) x) with (nx (hp (uh s) i) x)
      by (destruct (Nat.eqb i k); [unfold nset; now rewrite (proj2 (N.eqb_neq _ _) Hne)|reflexivity]).
    rewrite (C i j x S). symmetry. apply wsum_ext. intros n Hn. unfold HeapUse.wput.
    destruct (slot_cfg i j x S) as (a1 & z1 & c1 & E1 & W1). destruct (slot_cfg k j' y S') as (a2 & z2 & c2 & E2 & W2).
    destruct (slots_disjoint _ _ _ _ _ _ _ _ _ _ _ _ _ _ _ Hcfg E1 E2 S S' Hne);
      destruct (N.leb_spec y (x + n)), (N.ltb_spec (x + n) (y + N.of_nat ws)); cbn; try reflexivity; lia.
Qed.

Lemma coh_step s K l : uinv s K -> coherent s -> coherent (fst (ustep s l)).
Proof.
  intros I C. unfold HeapUse.ustep. destruct (hfs (uh s)) as [|f fr] eqn:Ef; [exact C|]. destruct (ufs s) as [|u ur] eqn:Eu; [exact C|].
  rewrite <- Eu. pose proof (ui_fr _ _ _ _ I) as FR. rewrite Eu in FR. cbn [frames_ok] in FR. destruct FR as [FR _].
  assert (N0 : forall lb h e fs, match lb with HLStep | HLWrite _ _ => False | _ => True end -> hstep (uh s) lb = (h, e) -> coherent (U h (umem s) fs)).
  { intros lb h e fs L H. apply coh_same; [exact C|]. intros i. pose proof (nx_other (uh s) lb i L) as Q. now rewrite H in Q. }
  destruct l as [r|p z| | | | |a v|a].
  - destruct f; try exact C. destruct u; try exact C. destruct (req_ok s r); [|exact C]. apply coh_same; [exact C|]. intros i. now apply nx_other.
  - destruct f; try exact C. destruct u; try exact C. destruct (_ || _); [|exact C].
    destruct (hstep _ _) as [h [|e er]] eqn:H; [exact C|]. exact (N0 (HLInv (HDealloc p z)) _ _ _ Logic.I H).
  - destruct f as [|o i g|o g]; [|now apply (coh_pool s K o i g fr)|destruct u; exact C].
    destruct u as [|r|r q len k|r q len k|r q len]; try exact C.
    + destruct (N.ltb_spec k len) as [Hk|Hk].
      * destruct FR as (_ & _ & _ & _ & [B|(b & B & <- & L)] & _); [lia|]. pose proof (coh_poke s K b (b_ptr b + k) 0 I C B ltac:(lia)) as Q.
        exact Q.
      * unfold copying. destruct (old_of r); exact C.
    + destruct (old_of r) as [p|] eqn:Ho; [|exact C]. destruct (N.ltb_spec k (keeps r)) as [Hk|Hk].
      * destruct FR as (A & _ & _ & A2 & [B|(b & B & <- & L)] & _); [destruct A; lia|].
        pose proof (coh_poke s K b (b_ptr b + k) (umem s (p + k)) I C B ltac:(destruct A; lia)) as Q. exact Q.
      * destruct (old_size r =? 0); [exact C|]. destruct (hstep _ _) as [h [|e er]] eqn:H; [exact C|]. exact (N0 (HLInv (HDealloc p (old_size r))) _ _ _ Logic.I H).
  - destruct (hstep (uh s) HLRet) as [h e] eqn:H. destruct e as [|[d0 op0|d0 o] [|]]; try exact C.
    destruct u; try exact C; try exact (N0 HLRet _ _ _ Logic.I H). destruct (got r o) as [u' e]. exact (N0 HLRet _ _ _ Logic.I H).
  - destruct (hie (uh s)); [|exact C]. apply coh_same; [exact C|]. intros i. now apply nx_other.
  - destruct f; try exact C. destruct u; try exact C. destruct fr; [exact C|]. apply coh_same; [exact C|]. intros i. now apply nx_other.
  - destruct (mine s a) as [b|] eqn:M; [|exact C]. apply find_some in M. destruct M as [Bl M]. rewrite !andb_true_iff in M.
    destruct M as ((M1 & M2) & _). apply N.leb_le in M1. apply N.ltb_lt in M2. now apply (coh_poke s K b a v).
  - destruct (mine s a); exact C.
Qed.

Lemma coh_run ls : forall s K, uinv s K -> coherent s -> coherent (fst (urun ws base cfg s ls)).
Proof.
  induction ls as [|l ls IH]; intros s K I C; [exact C|]. cbn [urun]. pose proof (uinv_step ws base cfg Hcfg ie0 s K l I) as I1.
  pose proof (coh_step s K l I C) as C1. destruct (ustep s l) as [s1 e1]. cbn [fst snd] in *. specialize (IH s1 _ I1 C1).
  destruct (urun ws base cfg s1 ls). exact IH.
Qed.
Lemma coh_init m : coherent (uinit ws cfg m ie0).
Proof. intros i j x _. reflexivity. Qed.
End Links.
