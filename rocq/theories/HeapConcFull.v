(** An allocation that fails has found every large enough pool exhausted, one after the other. *)
Require Import NArith List Bool Arith Lia.
From Verif Require Import AtomicSpec LinSpec Treiber TreiberProofs TreiberSoft Heap HeapSpec HeapProofs HeapConc PoolFullSpec PoolFull HeapConcSpec HeapConcProofs HeapConcQuiet.
Import ListNotations.
Open Scope nat_scope.

Lemma hbusy_app t1 : forall b t2, hbusy b (t1 ++ t2) = hbusy (hbusy b t1) t2.
Proof. induction t1 as [|[t o|t r] t1 IH]; intros b t2; simpl; auto. Qed.

Section Full.
Variable ws : nat.
Variable base : N.
Variable cfg : list pcfg.
Hypothesis Hcfg : wf_cfg ws base cfg.
Variable ie0 : bool.

Notation hstep := (hstep base cfg).
Notation hrun := (hrun base cfg).
Notation psize := (psize cfg).
Notation pedge := (pedge cfg).
Notation hinv := (hinv cfg ie0).
Notation hstart := (hstart base cfg).

Lemma at_proj i fs t : at_depth (map (hpf i) fs) t = hpf i (hat fs t).
Proof. unfold at_depth, hat. rewrite <- map_rev. change FIdle with (hpf i HIdle). apply map_nth. Qed.

(** What one step does to the contexts. *)
Inductive ctx_step (s s' : hstate) : list (lvis hop hres) -> Prop :=
| cs_same : (forall t, hat (hfs s') t = hat (hfs s) t) -> ctx_step s s' []
| cs_in o i g i' g' rest : hfs s = HIn o i g :: rest -> hfs s' = HIn o i' g' :: rest ->
    (i' = i \/ (i' = S i /\ g = FDone RNone)) -> ctx_step s s' []
| cs_call o rest : hfs s = HIdle :: rest -> hfs s' = hstart o :: rest -> ctx_step s s' [LCall (length rest) o]
| cs_ret f r rest : hfs s = f :: rest -> f <> HIdle -> hfs s' = HIdle :: rest ->
    (exists o, f = HDone o r \/ exists i r0, f = HIn o i (FDone r0) /\ hret cfg o i r0 = Some r) ->
    ctx_step s s' [LReturn (length rest) r].

Lemma hstep_ctx s lb : ctx_step s (fst (hstep s lb)) (snd (hstep s lb)).
Proof.
  assert (Same : ctx_step s s []) by (now apply cs_same).
  destruct (hfs s) as [|f rest] eqn:Es; [unfold HeapConc.hstep; rewrite Es; exact Same|].
  destruct lb as [o| | | | |x v].
  - unfold HeapConc.hstep. rewrite Es. destruct f; [|exact Same|exact Same].
    destruct (hcall base cfg s o) as [s1|]; [|exact Same]. cbn [fst snd]. now apply cs_call.
  - destruct f as [|o i g|]; [unfold HeapConc.hstep; rewrite Es; exact Same| |unfold HeapConc.hstep; rewrite Es; exact Same].
    assert (D : g = FDone RNone \/ g <> FDone RNone) by (destruct g as [| | | | | | | | | |[]]; auto; right; discriminate).
    destruct D as [->|Hg].
    + unfold HeapConc.hstep. rewrite Es. destruct (Nat.ltb (S i) (length (pools cfg))); [|exact Same]. cbn [fst snd].
      eapply cs_in; [exact Es|reflexivity|]. auto.
    + rewrite (hstep_access base cfg s o i g rest Es Hg). destruct (saccess _ _ _ _ _) as [[m ie] g']. cbn [fst snd].
      eapply cs_in; [exact Es|reflexivity|]. auto.
  - unfold HeapConc.hstep. rewrite Es. destruct f as [|o i g|o r]; [exact Same| |].
    + destruct g as [| | | | | | | | | |r]; try exact Same.
      destruct (hret cfg o i r) as [h|] eqn:Eh; [|exact Same]. cbn [fst snd].
      eapply cs_ret; [exact Es|discriminate|reflexivity|]. eauto 6.
    + cbn [fst snd]. eapply cs_ret; [exact Es|discriminate|reflexivity|]. eauto.
  - unfold HeapConc.hstep. rewrite Es. destruct (hie s); [|exact Same]. cbn [fst snd]. apply cs_same.
    intros t. cbn [hfs]. rewrite hat_push. now rewrite Es.
  - unfold HeapConc.hstep. rewrite Es. destruct f; try exact Same. destruct rest as [|f' rest]; [exact Same|]. cbn [fst snd].
    apply cs_same. intros t. cbn [hfs]. rewrite Es. now rewrite hat_push.
  - unfold HeapConc.hstep. rewrite Es. cbn [fst snd]. apply cs_same. intros t. cbn [hfs]. now rewrite Es.
Qed.

Definition hidle (f : hfr) : bool := match f with HIdle => true | _ => false end.
Lemma hstart_idle o : hidle (hstart o) = false.
Proof.
  unfold HeapConc.hstart. destruct o as [sz al|ptr sz]; destruct (N.eqb sz 0); try reflexivity.
  - destruct (pool_range_by_layout (pools cfg) sz) as [i|]; [|reflexivity]. destruct (Nat.ltb i (length (pools cfg))); reflexivity.
  - destruct (pool_by_ptr (pools cfg) base ptr); reflexivity.
Qed.

(** A context keeps its frame, or steps on top. *)
Lemma ctx_busy s s' e : ctx_step s s' e -> forall b t, (forall t, b t = negb (hidle (hat (hfs s) t))) ->
  hbusy b e t = negb (hidle (hat (hfs s') t)).
Proof.
  intros H b t Hb. destruct H as [H|o i g i' g' rest H H' _|o rest H H'|f r rest H Hf H' _]; cbn [hbusy].
  - now rewrite H, Hb.
  - rewrite Hb, H, H'. destruct (Nat.eq_dec t (length rest)) as [->|Hne]; [now rewrite !hat_top|].
    now rewrite (hat_other (HIn o i g) (HIn o i' g')).
  - rewrite H'. destruct (Nat.eq_dec t (length rest)) as [->|Hne]; [now rewrite upd_same, hat_top, hstart_idle|].
    rewrite upd_other by easy. rewrite Hb, H. now rewrite (hat_other HIdle (hstart o)).
  - rewrite H'. destruct (Nat.eq_dec t (length rest)) as [->|Hne]; [now rewrite upd_same, hat_top|].
    rewrite upd_other by easy. rewrite Hb, H. now rewrite (hat_other f HIdle).
Qed.

Lemma ctx_quiet s s' e d : ctx_step s s' e -> hidle (hat (hfs s) d) = false -> hidle (hat (hfs s') d) = false ->
  forall x, In x e -> hof d x = false.
Proof.
  intros H A B x Hx. destruct H as [H|o i g i' g' rest H H' _|o rest H H'|f r rest H Hf H' _]; [destruct Hx|destruct Hx| |]; destruct Hx as [<-|[]]; simpl;
    apply Nat.eqb_neq; intros <-; [rewrite H, hat_top in A|rewrite H', hat_top in B]; discriminate.
Qed.

Lemma ctx_one s s' e : ctx_step s s' e -> e = [] \/ exists x, e = [x].
Proof. intros []; eauto. Qed.

Lemma fr_pops f k : fr_ok cfg f -> fpops (hpf k f) = false.
Proof.
  destruct f as [|o i g|o r]; [reflexivity| |reflexivity]. simpl. destruct (Nat.eqb i k); [|reflexivity].
  destruct o; [intros (_ & _ & _ & H)|intros (_ & H)]; destruct g; simpl in *; try reflexivity; try (subst; reflexivity); destruct H; subst; reflexivity.
Qed.

Lemma proj_pops s ls k t : hinv s ls -> fpops (sat (proj ie0 k s) t) = false.
Proof.
  intros HI. unfold sat, proj. cbn [sfs]. rewrite at_proj. apply fr_pops. pose proof (hi_fr _ _ _ _ HI) as F.
  rewrite Forall_forall in F. unfold hat. destruct (nth_in_or_default t (rev (hfs s)) HIdle) as [H|H].
  - apply F. now apply in_rev.
  - rewrite H. exact Logic.I.
Qed.

Section Run.
Variables (link : nat -> N -> N) (ls : list hlabel).
Let st (n : nat) : hstate := fst (hrun (hinit cfg link ie0) (firstn n ls)).
Let lg (n : nat) : list (lvis hop hres) := snd (hrun (hinit cfg link ie0) (firstn n ls)).

Lemma hst_inv n : exists l, hinv (st n) l.
Proof. apply (hinv_run ws base cfg Hcfg ie0 (firstn n ls) _ _ (hinit_inv ws base cfg Hcfg ie0 link)). Qed.

Lemma hst_S n : (st (S n) = st n /\ lg (S n) = lg n) \/
  exists lb, nth_error ls n = Some lb /\ st (S n) = fst (hstep (st n) lb) /\ lg (S n) = lg n ++ snd (hstep (st n) lb).
Proof.
  unfold st, lg. destruct (nth_error ls n) as [lb|] eqn:En.
  - right. exists lb. split; [easy|].
    assert (Ef : firstn (S n) ls = firstn n ls ++ [lb]).
    { clear - En. revert n En. induction ls as [|x r IH]; intros [|n] En; simpl in *; try discriminate.
      - now injection En as ->.
      - f_equal. now apply IH. }
    rewrite Ef, hrun_app. destruct (hrun (hinit cfg link ie0) (firstn n ls)) as [s1 e1]. cbn [fst snd HeapConc.hrun].
    destruct (hstep s1 lb) as [s2 e2]. cbn. now rewrite app_nil_r.
  - left. apply nth_error_None in En. now rewrite !firstn_all2 by lia.
Qed.

(** Steps as seen by contexts. *)
Lemma hst_ctx n : exists e, lg (S n) = lg n ++ e /\ ctx_step (st n) (st (S n)) e.
Proof.
  destruct (hst_S n) as [(Es & El)|(lb & _ & Es & El)].
  - exists []. rewrite Es, El, app_nil_r. split; [reflexivity|]. now apply cs_same.
  - exists (snd (hstep (st n) lb)). rewrite El, Es. split; [reflexivity|]. apply hstep_ctx.
Qed.

(** Steps as seen by a pool. *)
Lemma hst_pool n k : k < length cfg -> pmove cfg k (proj ie0 k (st n)) (proj ie0 k (st (S n))).
Proof.
  intros Hk. destruct (hst_S n) as [(Es & _)|(lb & _ & Es & _)]; rewrite Es; [now left|].
  destruct (hst_inv n) as [l HI]. apply (hinv_step_moves ws base cfg Hcfg ie0 (st n) l lb HI). exact Hk.
Qed.

Lemma hst_busy n t : hbusy (fun _ => false) (lg n) t = negb (hidle (hat (hfs (st n)) t)).
Proof.
  revert t. induction n as [|n IH]; intros t.
  - unfold lg, st, hat. simpl. destruct t as [|[|]]; reflexivity.
  - destruct (hst_ctx n) as (e & El & H). rewrite El, hbusy_app. now apply (ctx_busy _ _ _ H).
Qed.

Lemma hst_quiet d p q : p <= q -> (forall k, p <= k <= q -> hidle (hat (hfs (st k)) d) = false) ->
  exists tr2, lg q = lg p ++ tr2 /\ forall e, In e tr2 -> hof d e = false.
Proof.
  intros Hpq. induction Hpq as [|q Hpq IH]; intros Hb.
  - exists []. split; [now rewrite app_nil_r|]. intros e [].
  - destruct IH as (tr2 & A & B); [intros k Hk; apply Hb; lia|].
    destruct (hst_ctx q) as (e & El & H). exists (tr2 ++ e). split; [now rewrite El, A, app_assoc|].
    intros x Hx. apply in_app_iff in Hx. destruct Hx as [Hx|Hx]; [auto|].
    eapply (ctx_quiet _ _ _ d H); eauto; apply Hb; lia.
Qed.

Lemma hst_live n : hlive (st n) = live_of (fun _ => 0%N) [] (lg n).
Proof.
  pose proof (reach ws base cfg Hcfg ie0 link (firstn n ls)) as H. unfold st, lg.
  destruct (hrun (hinit cfg link ie0) (firstn n ls)). apply H.
Qed.

(** The instant at which pool [k] was exhausted. *)
Lemma pool_instant k a z c d n : nth_error cfg k = Some (a, z, c) ->
  fnone (hpf k (hat (hfs (st n)) d)) = true ->
  exists T, T <= n /\ (forall j, T <= j <= n -> hidle (hat (hfs (st j)) d) = false) /\
    exhausted_for [(a, z, c)] d (lg T).
Proof.
  intros En Hn. assert (Hk : k < length cfg) by (apply nth_error_Some; congruence).
  pose proof (psize_pos ws base cfg Hcfg k Hk) as Hz.
  assert (Ctx : forall n, exists lb l, sinv (psize k) (pedge k) ie0 (proj ie0 k (st n)) l /\
     (forall t, fpops (sat (proj ie0 k (st n)) t) = false) /\ (proj ie0 k (st (S n)) = proj ie0 k (st n) \/
       (pool_slabel lb /\ proj ie0 k (st (S n)) = fst (sstep (psize k) (pedge k) (proj ie0 k (st n)) lb)))).
  { intros m. destruct (hst_inv m) as [l HI]. destruct (hst_pool m k Hk) as [E|(lb & Hl & E)].
    - exists SLStep, (l k). split; [apply (hi_pool _ _ _ _ HI k Hk)|]. split; [intros t; eapply proj_pops; eauto|]. auto.
    - exists lb, (l k). split; [apply (hi_pool _ _ _ _ HI k Hk)|]. split; [intros t; eapply proj_pops; eauto|]. auto. }
  assert (Nonidle : forall j t, fidle (sat (proj ie0 k (st j)) t) = false -> hidle (hat (hfs (st j)) t) = false).
  { intros j t. unfold sat, proj. cbn [sfs]. rewrite at_proj. destruct (hat (hfs (st j)) t); [discriminate|reflexivity|reflexivity]. }
  destruct (none_instant (fun n t => fchk (sat (proj ie0 k (st n)) t)) (fun n => hd (ssh (proj ie0 k (st n))) = 0%N)
              (fun n => left_ (psize k) (pedge k) (un (ssh (proj ie0 k (st n))))))
    with (none := fun n t => fnone (sat (proj ie0 k (st n)) t)) (d := d) (n := n)
    as (T & ts & HT & HE & Hnd & Hlen & Hts & Hbz).
  - intros m t A B. destruct (Ctx m) as (lb & l & HI & Hp & [E|[Hl E]]); [rewrite E in A; congruence|]. rewrite E in *.
    eapply (sstep_ctx (psize k) (pedge k) Hz ie0 _ l lb HI Hp Hl); eauto.
  - intros m. destruct (Ctx m) as (lb & l & HI & Hp & [E|[Hl E]]); [left; now rewrite E|]. rewrite E.
    destruct (sstep_ctx (psize k) (pedge k) Hz ie0 _ l lb HI Hp Hl) as (_ & _ & [U|(t & U & V & W)] & _); [left; now rewrite U|].
    right. exists t. rewrite V. split; [|exact W]. apply left_next; auto.
    apply (own_grid _ _ _ _ _ (si_own _ _ _ _ _ HI)).
  - intros t. unfold st, sat, at_depth. simpl. destruct t as [|[|t]]; reflexivity.
  - intros t. unfold st, sat, at_depth. simpl. destruct t as [|[|t]]; reflexivity.
  - intros m t A. destruct (Ctx m) as (lb & l & HI & Hp & [E|[Hl E]]); [rewrite E in A; auto|]. rewrite E in *.
    destruct (sstep_ctx (psize k) (pedge k) Hz ie0 _ l lb HI Hp Hl) as (_ & _ & _ & C & _).
    destruct (C t A) as [H|[H U]]; [auto|]. right. split; [exact H|]. rewrite U. apply left_edge; auto.
  - unfold sat, proj. cbn [sfs]. now rewrite at_proj.
  - exists T. split; [exact HT|]. split.
    { intros j Hj. apply Nonidle. destruct (Hbz j Hj) as [H|H]; [now apply fchk_idle|now apply fnone_idle]. }
    destruct (hst_inv T) as [l HI]. pose proof (hi_pool _ _ _ _ HI k Hk) as P.
    assert (El : l k = []).
    { pose proof (own_chain _ _ _ _ _ (si_own _ _ _ _ _ P)) as Hch. destruct (l k); [easy|]. simpl in Hch, HE.
      destruct Hch as (? & ? & _). congruence. }
    rewrite El in P.
    assert (He : pedge k = (a + psize k * N.of_nat (N.to_nat c))%N).
    { rewrite (pedge_nth _ _ _ _ _ En), (psize_nth _ _ _ _ _ En). now rewrite N2Nat.id. }
    destruct (count_blocks (psize k) (pedge k) Hz a (N.to_nat c) (hp (st T) k) (crs (map (hpf k) (hfs (st T)))) He
                (si_own _ _ _ _ _ P) (hi_dead _ _ _ _ HI k)) as (cs & Ca & Cb & Cc).
    { intros x Hx. rewrite (psize_nth _ _ _ _ _ En) in *. rewrite (pedge_nth _ _ _ _ _ En).
      rewrite <- El. now apply (hi_all _ _ _ _ HI k a z c En x). }
    exists (cs ++ ts). split; [|split].
    + apply NoDup_app_intro_; auto. intros t Ht Ht'. apply (Cb t Ht). apply fchk_carry. now apply (Hts t).
    + intros t Ht. apply in_app_iff in Ht. rewrite hst_busy.
      assert (N1 : forall g, fidle (sat (proj ie0 k (st T)) g) = false -> negb (hidle (hat (hfs (st T)) g)) = true).
      { intros g Hg. now rewrite (Nonidle T g Hg). }
      destruct Ht as [Ht|Ht].
      * split.
        -- intros ->. apply (Cb d Ht). unfold crs. change (fcarry (sat (proj ie0 k (st T)) d) = None).
           destruct (Hbz T ltac:(lia)) as [H|H]; [now apply fchk_carry|].
           destruct (sat (proj ie0 k (st T)) d); try discriminate; now destruct r.
        -- apply N1. apply fcarry_idle. exact (Cb t Ht).
      * destruct (Hts t Ht) as [H Hne]. split; [exact Hne|]. apply N1. now apply fchk_idle.
    + cbn [blocks_of used_of fold_right snd]. rewrite <- hst_live. unfold in_use.
      rewrite <- (hi_held _ _ _ _ HI k a z c En). cbn [ssh proj] in Hlen. rewrite app_length. lia.
Qed.

(** The pools the call of [d] has left behind. *)
Definition behind (d n : nat) (sz : N) (k : nat) : Prop :=
  exists m, m <= n /\ fnone (hpf k (hat (hfs (st m)) d)) = true /\
    forall j, m <= j <= n -> hidle (hat (hfs (st j)) d) = false.

Lemma left_behind d : forall n sz al i g, hat (hfs (st n)) d = HIn (HAlloc sz al) i g ->
  forall k, k < i -> (sz <= psize k)%N -> behind d n sz k.
Proof.
  induction n as [|n IH]; intros sz al i g Ef k Hk Hs.
  - unfold st, hat in Ef. simpl in Ef. destruct d as [|[|]]; discriminate.
  - assert (Ext : behind d n sz k -> behind d (S n) sz k).
    { intros (m & A & B & C). exists m. split; [lia|]. split; [exact B|]. intros j Hj.
      destruct (Nat.eq_dec j (S n)) as [->|]; [now rewrite Ef|]. apply C. lia. }
    destruct (hst_ctx n) as (e & _ & H).
    destruct H as [H|o i0 g0 i' g' rest H H' D|o rest H H'|f r rest H Hf H' _].
    + apply Ext. rewrite H in Ef. eapply IH; eauto.
    + destruct (Nat.eq_dec d (length rest)) as [->|Hne].
      * rewrite H', hat_top in Ef. injection Ef as -> -> ->.
        assert (Eh : hat (hfs (st n)) (length rest) = HIn (HAlloc sz al) i0 g0) by (rewrite H; apply hat_top).
        destruct D as [->|[-> ->]]; [apply Ext; eapply IH; eauto|].
        destruct (Nat.eq_dec k i0) as [->|]; [|apply Ext; eapply IH; eauto; lia].
        exists n. split; [lia|]. split; [rewrite Eh, hpf_same; reflexivity|]. intros j Hj.
        destruct (Nat.eq_dec j (S n)) as [->|]; [now rewrite H', hat_top|]. replace j with n by lia. now rewrite Eh.
      * rewrite H' in Ef. rewrite (hat_other (HIn o i' g') (HIn o i0 g0) rest d Hne), <- H in Ef. apply Ext. eapply IH; eauto.
    + destruct (Nat.eq_dec d (length rest)) as [->|Hne].
      * rewrite H', hat_top in Ef. exfalso. unfold HeapConc.hstart in Ef.
        destruct (search_layout ws base cfg Hcfg sz) as (i0 & E0 & _ & P2 & _).
        destruct o as [sz' al'|ptr sz'].
        -- destruct (N.eqb sz' 0); [discriminate|].
           destruct (pool_range_by_layout (pools cfg) sz') as [i1|] eqn:E1; [|discriminate].
           destruct (Nat.ltb i1 (length (pools cfg))); [|discriminate]. injection Ef as -> -> -> _.
           assert (i0 = i) as -> by congruence. specialize (P2 k Hk). lia.
        -- destruct (N.eqb sz' 0); [discriminate|]. destruct (pool_by_ptr (pools cfg) base ptr); discriminate.
      * rewrite H' in Ef. rewrite (hat_other (hstart o) HIdle rest d Hne), <- H in Ef. apply Ext. eapply IH; eauto.
    + destruct (Nat.eq_dec d (length rest)) as [->|Hne]; [rewrite H', hat_top in Ef; discriminate|].
      rewrite H' in Ef. rewrite (hat_other HIdle f rest d Hne), <- H in Ef. apply Ext. eapply IH; eauto.
Qed.

Lemma hfind_event e : forall l s tr tr', snd (hrun s l) = tr ++ e :: tr' ->
  exists l1 lb l2, l = l1 ++ lb :: l2 /\ snd (hrun s l1) = tr /\ snd (hstep (fst (hrun s l1)) lb) = [e].
Proof.
  induction l as [|lb l IH]; intros s tr tr' H; [destruct tr; discriminate|].
  cbn [HeapConc.hrun] in H. destruct (ctx_one _ _ _ (hstep_ctx s lb)) as [E0|[e0 E0]]; destruct (hstep s lb) as [s1 e1] eqn:Es;
    cbn [snd] in E0; subst e1; destruct (hrun s1 l) as [s2 e2] eqn:Er; cbn [snd app] in H.
  - destruct (IH s1 tr tr') as (l1 & lb' & l2 & A & B & C); [now rewrite Er|].
    exists (lb :: l1), lb', l2. split; [now rewrite A|]. cbn [HeapConc.hrun]. rewrite Es.
    destruct (hrun s1 l1) as [s3 e3]. cbn [fst snd app] in *. auto.
  - destruct tr as [|e' tr].
    + injection H as <- ->. exists [], lb, l. split; [easy|]. split; [easy|]. cbn [HeapConc.hrun fst]. now rewrite Es.
    + injection H as <- H. destruct (IH s1 tr tr') as (l1 & lb' & l2 & A & B & C); [now rewrite Er|].
      exists (lb :: l1), lb', l2. split; [now rewrite A|]. cbn [HeapConc.hrun]. rewrite Es.
      destruct (hrun s1 l1) as [s3 e3]. cbn [fst snd app] in *. split; [now rewrite B|auto].
Qed.

Lemma hst_pinv n : pinv (st n) (pend_of (fun _ => 0%N) (lg n)).
Proof.
  induction n as [|n IH].
  - intros d sz. unfold st, hat. simpl. destruct d as [|[|]]; discriminate.
  - destruct (hst_S n) as [(-> & ->)|(lb & _ & Es & El)]; [exact IH|]. rewrite Es, El.
    destruct (hst_inv n) as [l HI]. destruct (live_step base cfg ie0 (st n) l _ lb HI IH) as [_ H].
    assert (Ap : forall t1 p t2, pend_of p (t1 ++ t2) = pend_of (pend_of p t1) t2).
    { induction t1 as [|[t []|t []] t1 IH1]; intros p t2; simpl; auto. }
    now rewrite Ap.
Qed.

Theorem conc_failed d tr tr' c : snd (hrun (hinit cfg link ie0) ls) = tr ++ LReturn d HFail :: tr' ->
  In c (fitting cfg (pend_of (fun _ => 0%N) tr d)) ->
  during (fun p => snd (hrun (hinit cfg link ie0) p)) ls d tr (exhausted_for [c] d).
Proof.
  intros Hev Hin. destruct (hfind_event _ _ _ _ _ Hev) as (l1 & lb & l2 & El & Etr & Ev).
  set (N := length l1).
  assert (EN : firstn N ls = l1) by (unfold N; rewrite El, firstn_app, firstn_all, Nat.sub_diag; apply app_nil_r).
  assert (EsN : st N = fst (hrun (hinit cfg link ie0) l1)) by (unfold st; now rewrite EN).
  assert (ElN : lg N = tr) by (unfold lg; now rewrite EN).
  rewrite <- EsN in Ev. pose proof (hstep_ctx (st N) lb) as HC. rewrite Ev in HC.
  inversion HC as [| | |f r rest Hf Hfi Hf' (o & Ho) E0]. subst r. subst d.
  assert (Ef : hat (hfs (st N)) (length rest) = f) by (rewrite Hf; apply hat_top).
  destruct (hst_inv N) as [l HI].
  assert (Fok : fr_ok cfg f) by (pose proof (hi_fr _ _ _ _ HI) as F; rewrite Hf in F; now apply Forall_inv in F).
  apply filter_In in Hin. destruct Hin as [Hin Hfit]. destruct c as [[a z] c]. cbn [fst snd] in Hfit. apply N.leb_le in Hfit.
  destruct (In_nth_error _ _ Hin) as [k Ek]. assert (Hk : k < length cfg) by (apply nth_error_Some; intros X; discriminate (eq_trans (eq_sym Ek) X)).
  assert (Hsz : forall sz, hsize f = Some sz -> (sz <= psize k)%N).
  { intros sz Hs. rewrite (psize_nth _ _ _ _ _ Ek). pose proof (hst_pinv N (length rest) sz) as P. rewrite Ef in P.
    specialize (P Hs). rewrite ElN in P. now rewrite <- P. }
  assert (Hb : behind (length rest) N 0 k).
  { destruct Ho as [->|(i & r0 & -> & Hr)].
    - exfalso. destruct o as [sz al|ptr sz]; simpl in Fok; [|discriminate]. destruct Fok as [[_ D]|(_ & _ & D)]; [discriminate|].
      specialize (D k Hk). specialize (Hsz sz eq_refl). lia.
    - destruct o as [sz al|ptr sz]; simpl in Fok; [|destruct Fok as [_ ->]; discriminate].
      destruct r0 as [|x|]; [destruct Fok as (_ & _ & _ & C); now elim C|discriminate|].
      unfold hret in Hr. rewrite pools_length in Hr. destruct (Nat.ltb_spec (S i) (length cfg)); [discriminate|].
      destruct (Nat.eq_dec k i) as [->|Hne].
      + exists N. split; [lia|]. split; [rewrite Ef, hpf_same; reflexivity|]. intros j Hj. replace j with N by lia. now rewrite Ef.
      + apply (left_behind (length rest) N sz al i (FDone RNone) Ef k); [lia|]. now apply Hsz. }
  destruct Hb as (m & Hm & Hn & Hbz).
  destruct (pool_instant k a z c (length rest) m Ek Hn) as (T & HT & Hbz' & HX).
  assert (Hall : forall j, T <= j <= N -> hidle (hat (hfs (st j)) (length rest)) = false).
  { intros j Hj. destruct (Nat.le_gt_cases j m); [apply Hbz'; lia|apply Hbz; lia]. }
  destruct (hst_quiet (length rest) T N ltac:(lia) Hall) as (tr2 & A & B).
  exists (firstn T ls), (skipn T ls), tr2. split; [symmetry; apply firstn_skipn|]. split; [now rewrite <- ElN|].
  change (snd (hrun (hinit cfg link ie0) (firstn T ls))) with (lg T). split; [now rewrite hst_busy, Hall by lia|]. auto.
Qed.
End Run.
End Full.
