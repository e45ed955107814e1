(** Proofs that every call for memory returns after a number of its own steps that is known at the call. *)
Require Import NArith List Bool Arith Lia.
From Verif Require Import AtomicSpec LinSpec Treiber TreiberProofs TreiberSoft Heap HeapSpec HeapProofs HeapConc HeapConcSpec HeapConcProofs HeapUseSpec HeapUse HeapUseProofs HeapUseTurns.
Import ListNotations.
Open Scope nat_scope.

Section Wait.
Variable ws : nat.
Variable base : N.
Variable cfg : list pcfg.
Hypothesis Hcfg : wf_cfg ws base cfg.
Variable ie0 : bool.
Variable big : N.
Hypothesis Hbig : forall i, (psize cfg i <= big)%N.

Notation hstep := (hstep base cfg).
Notation ustep := (ustep ws base cfg).
Notation uinv := (uinv cfg ie0).

(** Frames that occur. *)
Definition pushing (g : sfr) : Prop :=
  match g with
  | FBegin (OPush _) | FPaused _ (OPush _) | FLoaded _ (OPush _) _ | FComp _ (OPush _) _ _ | FStored _ RPushed | FDone RPushed => True
  | _ => False
  end.
Definition taking (g : sfr) : Prop :=
  match g with
  | FBegin OAlloc | FPaused _ OAlloc | FLoaded _ OAlloc _ | FComp _ OAlloc _ _ | FToBump _ | FBump0 | FBump1 _ | FBump2 _ _ => True
  | FStored _ r | FDone r => r <> RPushed
  | _ => False
  end.
Definition sane (f : hfr) : Prop :=
  match f with
  | HIdle => True
  | HIn (HAlloc _ _) i g => (i < length cfg)%nat /\ taking g
  | HIn (HDealloc _ _) i g => pushing g
  | HDone _ (HBlock _ len) => len = 0%N
  | HDone _ _ => True
  end.

Lemma npools : length (pools cfg) = length cfg.
Proof. unfold pools. apply map_length. Qed.
Lemma start_sane o : sane (hstart base cfg o).
Proof.
  unfold hstart. destruct o.
  - destruct (_ =? 0)%N; [reflexivity|]. destruct (pool_range_by_layout _ _); [|exact I].
    destruct (Nat.ltb_spec n (length (pools cfg))); [|exact I]. cbn. rewrite npools in H. auto.
  - destruct (_ =? 0)%N; [exact I|]. destruct (pool_by_ptr _ _ _); exact I.
Qed.
Lemma access_pushing size edge m ie g : pushing g -> pushing (snd (saccess size edge m ie g)).
Proof. destruct g as [|[]|? []|? [] ?|? [] ? ?|? []|?| |?|? ?|[]]; cbn; tauto. Qed.
Lemma access_taking size edge m ie g : taking g -> taking (snd (saccess size edge m ie g)).
Proof.
  destruct g as [|[]|? []|? [] ?|? [] ? ?|? []|?| |?|? ?|[]]; cbn; try tauto; try discriminate.
  - destruct (_ =? 0)%N; cbn; auto.
  - destruct (_ =? _)%N; cbn; discriminate.
Qed.

Lemma sane_step h l : Forall sane (hfs h) -> Forall sane (hfs (fst (hstep h l))).
Proof.
  intros F. unfold HeapConc.hstep. destruct (hfs h) as [|f rest] eqn:E; [cbn; now rewrite E|]. inversion F as [|? ? F1 F2]; subst.
  assert (Same : Forall sane (hfs h)) by (rewrite E; exact F).
  destruct l as [o| | | | |x v].
  - destruct f; try exact Same. destruct (hcall _ _ _ _); [|exact Same]. cbn. constructor; [apply start_sane|exact F2].
  - destruct f as [|o i g|]; try exact Same.
    assert (Gen : g <> FDone RNone -> Forall sane (hfs (fst (let '(m, ie, g') := saccess (psize cfg i) (pedge cfg i) (hp h i) (hie h) g in
       (HState (upd (hp h) i m) ie (HIn o i g' :: rest) (hlive h), @nil (lvis hop hres)))))).
    { intros _. pose proof (access_pushing (psize cfg i) (pedge cfg i) (hp h i) (hie h) g) as P.
      pose proof (access_taking (psize cfg i) (pedge cfg i) (hp h i) (hie h) g) as T.
      destruct (saccess _ _ _ _ _) as [[m ie] g']. cbn in *. constructor; [|exact F2]. destruct o; cbn in *; [split; [|apply T]; tauto|auto]. }
    destruct g as [| | | | | | | | | |[| |]]; try (apply Gen; discriminate).
    destruct (Nat.ltb_spec (S i) (length (pools cfg))) as [L|]; [|exact Same]. cbn. constructor; [|exact F2].
    rewrite npools in L. destruct o; cbn in *; [auto|]. easy.
  - destruct f as [|o i [| | | | | | | | | |g]|]; try exact Same.
    + destruct (hret _ _ _ _); [|exact Same]. constructor; [exact I|exact F2].
    + constructor; [exact I|exact F2].
  - destruct (hie h); [|exact Same]. cbn. constructor; [exact I|exact F].
  - destruct f; try exact Same. destruct rest; [exact Same|exact F2].
  - exact F.
Qed.

Lemma ustep_hstep s l : uh (fst (ustep s l)) = uh s \/ exists l', uh (fst (ustep s l)) = fst (hstep (uh s) l').
Proof.
  assert (E : forall l' h e, hstep (uh s) l' = (h, e) -> exists l'', h = fst (hstep (uh s) l'')) by (intros l' h e H; exists l'; now rewrite H).
  unfold HeapUse.ustep, poke. destruct (hfs (uh s)) as [|f fr]; [now left|]. destruct (ufs s) as [|u ur]; [now left|].
  destruct l as [r|p z| | | | |a v|a].
  - destruct f; try (now left). destruct u; try (now left). destruct (req_ok s r); [right; eexists; reflexivity|now left].
  - destruct f; try (now left). destruct u; try (now left). destruct (_ || _); [|now left].
    destruct (hstep _ _) as [h [|e er]] eqn:H; [now left|right]. cbn. eauto.
  - destruct f; try (right; eexists; reflexivity); destruct u; try (now left).
    + destruct (_ <? _)%N; [right; eexists; reflexivity|left]. unfold copying. destruct (old_of r); reflexivity.
    + destruct (old_of r); [|now left]. destruct (_ <? _)%N; [right; eexists; reflexivity|]. destruct (_ =? 0)%N; [now left|].
      destruct (hstep _ _) as [h [|e er]] eqn:H; [now left|right]. cbn. eauto.
  - destruct (hstep _ _) as [h [|[d op|d o] [|]]] eqn:H; try (now left). destruct u; try (now left); right; cbn; eauto.
    unfold got, copying. destruct o; cbn; eauto. destruct (zeroes r); cbn; eauto. destruct (old_of r); cbn; eauto.
  - destruct (hie _); [right; eexists; reflexivity|now left].
  - destruct f; try (now left). destruct u; try (now left). destruct fr; [now left|right; eexists; reflexivity].
  - destruct (mine s a); [right; eexists; reflexivity|now left].
  - destruct (mine s a); now left.
Qed.
Lemma sane_ustep s l : Forall sane (hfs (uh s)) -> Forall sane (hfs (uh (fst (ustep s l)))).
Proof. intros F. destruct (ustep_hstep s l) as [->|[l' ->]]; [exact F|now apply sane_step]. Qed.

(** ** What is left to do *)
Definition rg (g : sfr) : nat :=
  match g with
  | FIdle | FDone _ => 0 | FBegin _ => 8 | FPaused _ _ => 7 | FLoaded _ _ _ => 6 | FToBump _ => 5 | FBump0 => 4 | FBump1 _ => 3
  | FBump2 _ _ | FComp _ _ _ _ => 2 | FStored _ _ => 1
  end.
Definition rf (f : hfr) : nat :=
  match f with
  | HIdle => 0
  | HIn (HAlloc _ _) i g => rg g + 9 * (length cfg - S i) + 1
  | HIn (HDealloc _ _) _ g => rg g + 1
  | HDone _ _ => 1
  end.
Definition rcopy (r : ureq) : nat := match old_of r with None => 0 | Some _ => N.to_nat (keeps r) + 10 end.
Definition ru (u : ufr) : nat :=
  match u with
  | UPlain | UFree _ _ _ => 0
  | UGet r => (if zeroes r then N.to_nat big + 1 else 0) + rcopy r
  | UZero r _ len k => (N.to_nat len - N.to_nat k) + 1 + rcopy r
  | UCopy r _ _ k => (N.to_nat (keeps r) - N.to_nat k) + 10
  end.
Definition rk (f : hfr) (u : ufr) : nat := rf f + ru u.
Fixpoint rank (fs : list hfr) (us : list ufr) (d : nat) : nat :=
  match fs, us with
  | f :: fr, u :: ur => if Nat.eqb d (length fr) then rk f u else rank fr ur d
  | _, _ => 0
  end.
Definition left_ (s : ustate) (d : nat) : nat := rank (hfs (uh s)) (ufs s) d.

Lemma rank_above fs : forall us d, length fs <= d -> rank fs us d = 0.
Proof.
  induction fs as [|f fr IH]; intros us d L; [now destruct us|]. destruct us as [|u ur]; [reflexivity|]. cbn in *.
  destruct (Nat.eqb_spec d (length fr)); [lia|]. apply IH. lia.
Qed.
Lemma start_give_rank p z : rf (hstart base cfg (HDealloc p z)) <= 9.
Proof. unfold hstart. destruct (_ =? 0)%N; [cbn; lia|]. destruct (pool_by_ptr _ _ _); cbn; lia. Qed.
Lemma start_alloc_rank z al : rf (hstart base cfg (HAlloc z al)) <= 9 * length cfg + 1.
Proof.
  unfold hstart. destruct (_ =? 0)%N; [cbn [rf rg]; lia|]. destruct (pool_range_by_layout _ _); [|cbn [rf rg]; lia].
  destruct (Nat.ltb_spec n (length (pools cfg))) as [L|]; cbn [rf rg]; [|lia]. rewrite npools in L. lia.
Qed.

Definition back (d : nat) (e : list uevent) : Prop := (exists o, In (UBack d o) e) \/ In (UGiven d) e.

(** A step inside of a pool. *)
Lemma pool_rank h o i g rest : hfs h = HIn o i g :: rest -> sane (HIn o i g) ->
  exists f', hfs (fst (hstep h HLStep)) = f' :: rest /\ f' <> HIdle /\
    ((rf f' < rf (HIn o i g))%nat \/ f' = HIn o i g /\ exists r x, g = FDone r /\ hret cfg o i r = Some x).
Proof.
  intros E Sn. unfold HeapConc.hstep. rewrite E.
  pose proof npools as LP.
  destruct g as [|q|sv q|sv q c|sv q c n|sv r|sv| |sv|sv c|r].
  - destruct o; cbn in Sn; tauto.
  - eexists. split; [reflexivity|]. split; [discriminate|]. left. destruct o; cbn; lia.
  - eexists. split; [reflexivity|]. split; [discriminate|]. left. destruct o; cbn; lia.
  - destruct o as [z al|p z]; destruct q; cbn in Sn; try tauto.
    + cbn [saccess]. destruct (c =? 0)%N; cbn; eexists; (split; [reflexivity|]); (split; [discriminate|]); left; cbn; lia.
    + cbn. eexists. split; [reflexivity|]. split; [discriminate|]. left. cbn; lia.
  - eexists. split; [reflexivity|]. split; [discriminate|]. left. destruct o; cbn; lia.
  - eexists. split; [reflexivity|]. split; [discriminate|]. left. destruct o; cbn; lia.
  - eexists. split; [reflexivity|]. split; [discriminate|]. left. destruct o; cbn; lia.
  - eexists. split; [reflexivity|]. split; [discriminate|]. left. destruct o; cbn; lia.
  - eexists. split; [reflexivity|]. split; [discriminate|]. left. destruct o; cbn; lia.
  - cbn [saccess]. destruct (c =? pedge cfg i)%N; cbn; eexists; (split; [reflexivity|]); (split; [discriminate|]); left; destruct o; cbn; lia.
  - destruct r as [|x|].
    + cbn. eexists. split; [reflexivity|]. split; [discriminate|]. right. split; [reflexivity|]. eexists _, _. split; reflexivity.
    + cbn. eexists. split; [reflexivity|]. split; [discriminate|]. right. split; [reflexivity|]. eexists _, _. split; reflexivity.
    + destruct (Nat.ltb_spec (S i) (length (pools cfg))) as [L|L].
      * cbn. eexists. split; [reflexivity|]. split; [discriminate|]. left. destruct o as [z al|p z]; cbn in *; [lia|easy].
      * cbn. exists (HIn o i (FDone RNone)). split; [exact E|]. split; [discriminate|]. right. split; [reflexivity|]. exists RNone, HFail. split; [reflexivity|].
        unfold hret. destruct (Nat.ltb_spec (S i) (length (pools cfg))); [lia|reflexivity].
Qed.

(** The old block can be given back. *)
Lemma release_some p z : forall l b, In b l -> b_ptr b = p -> (b_req b <= z)%N -> (z <= b_len b)%N -> release p z l <> None.
Proof.
  induction l as [|c l IH]; intros b B Hp H1 H2; [easy|]. cbn. destruct ((b_ptr c =? p)%N && fits_blk c z) eqn:E; [discriminate|].
  destruct B as [->|B].
  - exfalso. rewrite Hp, N.eqb_refl in E. unfold fits_blk in E. destruct (N.leb_spec (b_req b) z); [|lia]. destruct (N.leb_spec z (b_len b)); [|lia]. easy.
  - specialize (IH b B Hp H1 H2). destruct (release p z l); [discriminate|easy].
Qed.
Lemma old_released s K r q len k ur p : uinv s K -> ufs s = UCopy r q len k :: ur -> old_of r = Some p -> old_size r <> 0%N ->
  release p (old_size r) (hlive (uh s)) <> None.
Proof.
  intros I Eu Ho Hz. pose proof (ui_fr _ _ _ _ I) as FR. rewrite Eu in FR. destruct FR as [(_ & _ & (_ & _ & O) & _) _]. rewrite Ho in O.
  destruct O as [O|(b & B1 & B2 & B3 & B4 & B5 & B6 & _)]; [easy|]. apply (release_some _ _ _ b); auto.
Qed.

(** A return. *)
Lemma ret_rank s d f fr u ur : hfs (uh s) = f :: fr -> ufs s = u :: ur -> length fr = length ur -> d = length fr -> sane f -> shape f u ->
  let (s', e) := ustep s ULRet in
  back d e \/ (exists f' u', hfs (uh s') = f' :: fr /\ ufs s' = u' :: ur /\ (rk f' u' < rk f u)%nat /\ (0 < rk f' u')%nat) \/
  (s' = s /\ snd (hstep (uh s) HLRet) = []).
Proof.
  intros Ef Eu Hl Hd Hs Sh. unfold HeapUse.ustep. rewrite Ef, Eu.
  assert (D : (exists o, snd (hstep (uh s) HLRet) = [LReturn (length fr) o] /\ hfs (fst (hstep (uh s) HLRet)) = HIdle :: fr /\ (0 < rf f)%nat /\
             match o with HBlock _ n => (n <= big)%N | _ => True end) \/
           snd (hstep (uh s) HLRet) = []).
  { unfold HeapConc.hstep. rewrite Ef. destruct f as [|o i g|o r]; [now right| |].
    - destruct g; try (now right). destruct (hret cfg o i r) as [x|] eqn:Hr; [|now right]. left. exists x. cbn. repeat split; auto.
      + destruct o; cbn; lia.
      + unfold hret in Hr. destruct r; try (injection Hr as <-; auto; fail). destruct (Nat.ltb _ _); [discriminate|]. injection Hr as <-. exact I.
    - left. exists r. cbn. repeat split; auto. destruct r; auto. cbn in Hs. subst. lia. }
  destruct (hstep (uh s) HLRet) as [h e] eqn:H. cbn [fst snd] in D. destruct D as [(o & -> & Hh & Hf & Hb)| ->]; [|right; right; auto].
  rewrite Hd. destruct u as [|r|r q len k|r q len k|r q len].
  - left. right. now left.
  - unfold got. destruct o as [q n| |].
    + unfold copying. destruct (zeroes r) eqn:Z; [|destruct (old_of r) as [p|] eqn:Ho].
      * right. left. exists HIdle, (UZero r q n 0). cbn [uh ufs]. repeat split; auto; unfold rk; cbn; rewrite ?Z; lia.
      * right. left. exists HIdle, (UCopy r q n 0). cbn [uh ufs]. repeat split; auto; unfold rk; cbn; unfold rcopy; rewrite ?Z, ?Ho; lia.
      * left. left. eexists. now left.
    + left. left. eexists. now left.
    + left. left. eexists. now left.
  - cbn in Sh. subst f. cbn in Hf. lia.
  - cbn in Sh. subst f. cbn in Hf. lia.
  - left. left. eexists. now left.
Qed.

(** A step; it can do nothing only if the call is about to return. *)
Lemma own_rank s K d f fr u ur : uinv s K -> hfs (uh s) = f :: fr -> ufs s = u :: ur -> length fr = length ur -> d = length fr -> sane f -> shape f u ->
  (0 < rk f u)%nat ->
  let (s', e) := ustep s ULStep in
  back d e \/ (exists f' u', hfs (uh s') = f' :: fr /\ ufs s' = u' :: ur /\ (rk f' u' < rk f u)%nat /\ (0 < rk f' u')%nat) \/
  (hfs (uh s') = f :: fr /\ ufs s' = u :: ur /\ e = [] /\ snd (hstep (uh s') HLRet) <> []).
Proof.
  intros I Ef Eu Hl Hd Hs Sh R. unfold HeapUse.ustep. rewrite Ef, Eu.
  destruct f as [|o i g|o x].
  - destruct u as [|r|r q len k|r q len k|r q len]; cbn in Sh; try easy.
    + destruct (N.ltb_spec k len) as [Hk|Hk].
      * right. left. exists HIdle, (UZero r q len (k + 1)). unfold poke. cbn [uh ufs].
        match goal with |- context[HLWrite ?x ?w] => destruct (hs_write base cfg (uh s) x w) as [Q _] end.
        rewrite Q. repeat split; auto; unfold rk; cbn; lia.
      * unfold copying. destruct (old_of r) as [p|] eqn:Ho.
        -- right. left. exists HIdle, (UCopy r q len 0). cbn [uh ufs]. repeat split; auto; unfold rk; cbn; unfold rcopy; rewrite ?Ho; lia.
        -- left. left. subst d. eexists. now left.
    + pose proof (ui_fr _ _ _ _ I) as FR. rewrite Eu in FR. destruct FR as [(_ & Hn & _) _]. destruct (old_of r) as [p|] eqn:Ho; [|easy].
      destruct (N.ltb_spec k (keeps r)) as [Hk|Hk].
      * right. left. exists HIdle, (UCopy r q len (k + 1)). unfold poke. cbn [uh ufs].
        match goal with |- context[HLWrite ?x ?w] => destruct (hs_write base cfg (uh s) x w) as [Q _] end.
        rewrite Q. repeat split; auto; unfold rk; cbn; lia.
      * destruct (N.eqb_spec (old_size r) 0) as [Z|Z]; [left; left; subst d; eexists; now left|].
        pose proof (old_released s K r q len k ur p I Eu Ho Z) as Rl.
        assert (E : exists h, hstep (uh s) (HLInv (HDealloc p (old_size r))) = (h, [LCall (length fr) (HDealloc p (old_size r))]) /\
                     hfs h = hstart base cfg (HDealloc p (old_size r)) :: fr).
        { unfold HeapConc.hstep. rewrite Ef. cbn [hcall]. destruct (release _ _ _); [|easy]. eexists. split; reflexivity. }
        destruct E as (h & -> & Hh). right. left. eexists _, (UFree r q len). cbn [uh ufs]. split; [exact Hh|]. split; [reflexivity|].
        pose proof (start_give_rank p (old_size r)) as G. unfold rk. cbn [ru]. split; [cbn [rf]; lia|].
        unfold hstart. destruct (_ =? 0)%N; [cbn; lia|]. destruct (pool_by_ptr _ _ _); cbn; lia.
  - destruct (pool_rank (uh s) o i g fr Ef Hs) as (f' & Hf & Hn & [L|(-> & r & x & -> & Hr)]).
    + right. left. exists f', u. cbn [uh ufs]. repeat split; auto; unfold rk in *; [lia|]. destruct f' as [|[]|]; cbn; try lia. easy.
    + right. right. cbn [uh ufs]. repeat split; auto. unfold HeapConc.hstep at 1. rewrite Hf, Hr. discriminate.
  - destruct u; right; right; repeat split; auto; unfold HeapConc.hstep; rewrite Ef; discriminate.
Qed.

(** No step of anyone adds to what is left to do. *)
Lemma other_rank s K l d : uinv s K -> Forall sane (hfs (uh s)) -> (0 < left_ s d)%nat ->
  let (s', e) := ustep s l in back d e \/ (0 < left_ s' d <= left_ s d)%nat.
Proof.
  intros I F R. unfold left_ in *.
  destruct (hfs (uh s)) as [|f fr] eqn:Ef; [cbn in R; lia|]. destruct (ufs s) as [|u ur] eqn:Eu; [cbn in R; lia|].
  pose proof (len_eq _ _ _ _ _ _ _ _ I Ef Eu) as Hl. pose proof (ui_sh _ _ _ _ I) as SH. rewrite Ef, Eu in SH.
  inversion SH as [|? ? ? ? SH1 SH2]; subst. inversion F as [|? ? F1 F2]; subst.
  assert (Top : d = length fr -> l = ULStep \/ l = ULRet -> let (s', e) := ustep s l in back d e \/ (0 < rank (hfs (uh s')) (ufs s') d <= rank (f :: fr) (u :: ur) d)%nat).
  { intros -> Hlab. cbn [rank] in *. rewrite Nat.eqb_refl in R |- *. destruct Hlab as [-> | ->].
    - pose proof (own_rank s K (length fr) f fr u ur I Ef Eu Hl eq_refl F1 SH1 R) as Q. destruct (ustep s ULStep) as [s' e].
      destruct Q as [Q|[(f' & u' & A & B & C & D)|(A & B & _)]]; [now left|right..]; rewrite A, B; cbn [rank]; rewrite Nat.eqb_refl; lia.
    - pose proof (ret_rank s (length fr) f fr u ur Ef Eu Hl eq_refl F1 SH1) as Q. destruct (ustep s ULRet) as [s' e].
      destruct Q as [Q|[(f' & u' & A & B & C & D)|(-> & _)]]; [now left|right..]; [rewrite A, B|rewrite Ef, Eu]; cbn [rank]; rewrite Nat.eqb_refl; lia. }
  assert (Low : d <> length fr -> forall f' u', rank (f' :: fr) (u' :: ur) d = rank (f :: fr) (u :: ur) d).
  { intros Hd f' u'. cbn. destruct (Nat.eqb_spec d (length fr)); [easy|reflexivity]. }
  assert (Rest : forall s' e, d <> length fr -> (exists f' u', hfs (uh s') = f' :: fr /\ ufs s' = u' :: ur) ->
    back d e \/ (0 < rank (hfs (uh s')) (ufs s') d <= rank (f :: fr) (u :: ur) d)%nat).
  { intros s' e Hd (f' & u' & -> & ->). right. rewrite (Low Hd f' u'). lia. }
  assert (Same : forall s' e, hfs (uh s') = f :: fr -> ufs s' = u :: ur -> back d e \/ (0 < rank (hfs (uh s')) (ufs s') d <= rank (f :: fr) (u :: ur) d)%nat).
  { intros s' e -> ->. right. lia. }
  assert (Busy : f = HIdle -> u = UPlain -> d <> length fr).
  { intros -> -> ->. cbn in R. rewrite Nat.eqb_refl in R. cbn in R. lia. }
  destruct (Nat.eq_dec d (length fr)) as [Hd|Hd].
  - destruct l as [r|p z| | | | |a v|a]; [| |apply Top; auto|apply Top; auto| | | |]; unfold HeapUse.ustep; rewrite Ef, Eu.
    + destruct f; try (now apply Same). destruct u; try (now apply Same). now elim (Busy eq_refl eq_refl).
    + destruct f; try (now apply Same). destruct u; try (now apply Same). now elim (Busy eq_refl eq_refl).
    + destruct (hie (uh s)) eqn:Hi; [|now apply Same]. right. unfold HeapConc.hstep. rewrite Ef, Hi. cbn [fst uh hfs ufs].
      cbn [rank length]. destruct (Nat.eqb_spec d (S (length fr))); [lia|]. cbn [rank] in R. lia.
    + destruct f; try (now apply Same). destruct u; try (now apply Same). now elim (Busy eq_refl eq_refl).
    + destruct (mine s a); [|now apply Same]. apply Same; [|exact Eu]. unfold poke. cbn [uh].
      match goal with |- context[HLWrite ?x ?w] => destruct (hs_write base cfg (uh s) x w) as [Q _] end. now rewrite Q.
    + destruct (mine s a); now apply Same.
  - assert (Hs : forall lb h e, hstep (uh s) lb = (h, e) -> match lb with HLIrq | HLIret => False | _ => True end -> exists f', hfs h = f' :: fr).
    { intros lb h e H Hlb. revert H. unfold HeapConc.hstep. rewrite Ef. destruct lb; try easy.
      - destruct f; try (intros [= <- _]; eauto; fail). destruct (hcall _ _ _ _); intros [= <- _]; cbn; eauto.
      - destruct f as [|o i g|]; try (intros [= <- _]; eauto; fail).
        destruct g as [| | | | | | | | | |[| |]]; try (destruct (saccess _ _ _ _ _) as [[? ?] ?]; intros [= <- _]; cbn; eauto; fail).
        destruct (Nat.ltb _ _); intros [= <- _]; cbn; eauto.
      - destruct f as [|o i [| | | | | | | | | |g]|]; try (intros [= <- _]; eauto; fail); [|intros [= <- _]; cbn; eauto].
        destruct (hret _ _ _ _); intros [= <- _]; cbn; eauto.
      - intros [= <- _]. cbn. eauto. }
    assert (Hs' : forall lb, match lb with HLIrq | HLIret => False | _ => True end -> exists f', hfs (fst (hstep (uh s) lb)) = f' :: fr).
    { intros lb Hlb. destruct (hstep (uh s) lb) as [h e] eqn:H. now apply (Hs lb h e). }
    unfold HeapUse.ustep, poke. rewrite Ef, Eu.
    destruct l as [r|p z| | | | |a v|a].
    + destruct f; try (now apply Same). destruct u; try (now apply Same). destruct (req_ok s r); [|now apply Same].
      apply Rest; [exact Hd|]. destruct (Hs' (HLInv (HAlloc (size_of r) (align_of r))) Logic.I) as [f' E]. cbn [uh ufs]. eauto.
    + destruct f; try (now apply Same). destruct u; try (now apply Same). destruct (_ || _); [|now apply Same].
      destruct (hstep _ _) as [h [|e er]] eqn:H; [now apply Same|]. destruct (Hs _ _ _ H Logic.I) as [f' E]. apply Rest; [exact Hd|]. cbn [uh ufs]. eauto.
    + destruct f as [|o i g|].
      * destruct u; try (now apply Same).
        -- destruct (_ <? _)%N.
           ++ apply Rest; [exact Hd|]. cbn [uh ufs]. match goal with |- context[HLWrite ?x ?w] => destruct (Hs' (HLWrite x w) Logic.I) as [f' E] end. eauto.
           ++ destruct (copying _ _ _) as [u' e]. apply Rest; [exact Hd|]. cbn [uh ufs]. eauto.
        -- destruct (old_of r); [|now apply Same]. destruct (_ <? _)%N.
           ++ apply Rest; [exact Hd|]. cbn [uh ufs]. match goal with |- context[HLWrite ?x ?w] => destruct (Hs' (HLWrite x w) Logic.I) as [f' E] end. eauto.
           ++ destruct (_ =? 0)%N; [apply Rest; [exact Hd|]; cbn [uh ufs]; eauto|].
              destruct (hstep _ _) as [h [|e er]] eqn:H; [now apply Same|]. destruct (Hs _ _ _ H Logic.I) as [f' E]. apply Rest; [exact Hd|]. cbn [uh ufs]. eauto.
      * apply Rest; [exact Hd|]. destruct (Hs' HLStep Logic.I) as [f' E]. cbn [uh ufs]. eauto.
      * destruct u; now apply Same.
    + destruct (hstep _ _) as [h [|[d0 op|d0 o] [|]]] eqn:H; try (now apply Same). destruct (Hs _ _ _ H Logic.I) as [f' E].
      destruct u; try (now apply Same); [| |]; try (destruct (got r o) as [u' e]); (apply Rest; [exact Hd|]; cbn [uh ufs]; eauto).
    + destruct (hie (uh s)) eqn:Hi; [|now apply Same]. right. unfold HeapConc.hstep. rewrite Ef, Hi. cbn [fst uh hfs ufs].
      cbn [rank length] in *. destruct (Nat.eqb_spec d (S (length fr))) as [->|]; [|lia].
      destruct (Nat.eqb_spec (S (length fr)) (length fr)); [lia|]. rewrite rank_above in R by lia. lia.
    + destruct f; try (now apply Same). destruct u; try (now apply Same). destruct fr as [|f' fr]; [now apply Same|]. right.
      unfold HeapConc.hstep. rewrite Ef. cbn [fst uh hfs ufs]. cbn [rank] in R |- * . destruct (Nat.eqb_spec d (length (f' :: fr))); [easy|]. lia.
    + destruct (mine s a); [|now apply Same]. apply Rest; [exact Hd|]. cbn [uh ufs].
      match goal with |- context[HLWrite ?x ?w] => destruct (Hs' (HLWrite x w) Logic.I) as [f' E] end. eauto.
    + destruct (mine s a); now apply Same.
Qed.

Lemma back_l d e e' : back d e -> back d (e ++ e').
Proof. intros [[o H]|H]; [left; exists o|right]; apply in_app_iff; now left. Qed.
Lemma back_r d e e' : back d e' -> back d (e ++ e').
Proof. intros [[o H]|H]; [left; exists o|right]; apply in_app_iff; now right. Qed.

Notation urun := (urun ws base cfg).
Lemma urun_cons s l ls : urun s (l :: ls) = (fst (urun (fst (ustep s l)) ls), snd (ustep s l) ++ snd (urun (fst (ustep s l)) ls)).
Proof. cbn [HeapUse.urun]. destruct (ustep s l) as [s1 e1]. cbn [fst snd]. now destruct (urun s1 ls). Qed.

Lemma wait ts : forall s K d, uinv s K -> Forall sane (hfs (uh s)) -> 0 < left_ s d -> left_ s d <= turns ws base cfg d s ts ->
  back d (snd (play ws base cfg s ts)).
Proof.
  unfold play. induction ts as [|t ts IH]; intros s K d I F R T; [cbn in T; lia|]. cbn [turns] in T. unfold play in T. cbn [flat_map] in *. rewrite app_nil_r in T.
  pose proof (uinv_step ws base cfg Hcfg ie0 s K ULStep I) as I1. pose proof (sane_ustep s ULStep F) as F1.
  destruct t as [|l]; cbn [labels app] in *.
  - rewrite !urun_cons. cbn [snd]. rewrite !urun_cons in T. cbn [fst snd HeapUse.urun] in T.
    pose proof (uinv_step ws base cfg Hcfg ie0 _ _ ULRet I1) as I2. pose proof (sane_ustep _ ULRet F1) as F2.
    assert (Q : back d (snd (ustep s ULStep)) \/ back d (snd (ustep (fst (ustep s ULStep)) ULRet)) \/
                0 < left_ (fst (ustep (fst (ustep s ULStep)) ULRet)) d /\
                left_ (fst (ustep (fst (ustep s ULStep)) ULRet)) d + (if runs d s then 1 else 0) <= left_ s d).
    { destruct (runs d s) eqn:Rn.
      - apply Nat.eqb_eq in Rn. unfold left_ in R |- *. destruct (hfs (uh s)) as [|f fr] eqn:Ef; [discriminate|]. destruct (ufs s) as [|u ur] eqn:Eu; [cbn in R; lia|].
        injection Rn as Rn. cbn [rank] in R |- *. rewrite <- Rn, Nat.eqb_refl in R |- *.
        pose proof (len_eq _ _ _ _ _ _ _ _ I Ef Eu) as Hl. pose proof (ui_sh _ _ _ _ I) as SH. rewrite Ef, Eu in SH.
        inversion SH as [|? ? ? ? SH1 SH2]; subst. inversion F as [|? ? Fa Fb]; subst.
        pose proof (own_rank s K (length fr) f fr u ur I Ef Eu Hl eq_refl Fa SH1 R) as Q.
        destruct (ustep s ULStep) as [s1 e1]. cbn [fst snd] in *. destruct Q as [Q|[(f' & u' & A & B & C & D)|(A & B & _ & C)]]; [now left|right..].
        + pose proof (other_rank s1 _ ULRet (length fr) I1 F1) as Q. unfold left_ in Q. rewrite A, B in Q. cbn [rank] in Q. rewrite Nat.eqb_refl in Q.
          specialize (Q D). destruct (ustep s1 ULRet) as [s2 e2]. cbn [fst snd]. destruct Q as [Q|Q]; [now left|right; lia].
        + pose proof (ret_rank s1 (length fr) f fr u ur A B Hl eq_refl Fa SH1) as Q. destruct (ustep s1 ULRet) as [s2 e2]. cbn [fst snd].
          destruct Q as [Q|[(f' & u' & A' & B' & C' & D')|(_ & E)]]; [now left| |easy]. right. rewrite A', B'. cbn [rank]. rewrite Nat.eqb_refl. lia.
      - pose proof (other_rank s K ULStep d I F R) as Q. destruct (ustep s ULStep) as [s1 e1]. cbn [fst snd] in *. destruct Q as [Q|Q]; [now left|right].
        pose proof (other_rank s1 _ ULRet d I1 F1 (proj1 Q)) as Q'. destruct (ustep s1 ULRet) as [s2 e2]. cbn [fst snd]. destruct Q' as [Q'|Q']; [now left|right; lia]. }
    destruct Q as [Q|[Q|[Q1 Q2]]]; [now apply back_l|apply back_r; now apply back_l|]. apply back_r, back_r.
    apply (IH _ _ d I2 F2 Q1). lia.
  - clear I1 F1. pose proof (uinv_step ws base cfg Hcfg ie0 s K l I) as I1. pose proof (sane_ustep s l F) as F1.
    rewrite urun_cons. cbn [snd]. rewrite urun_cons in T. cbn [fst HeapUse.urun] in T.
    pose proof (other_rank s K l d I F R) as Q. destruct (ustep s l) as [s1 e1]. cbn [fst snd] in *. destruct Q as [Q|Q]; [now apply back_l|].
    apply back_r. apply (IH _ _ d I1 F1 (proj1 Q)). lia.
Qed.

(** ** Which return *)
Fixpoint uat (us : list ufr) (d : nat) : ufr := match us with [] => UPlain | u :: ur => if Nat.eqb d (length ur) then u else uat ur d end.
Definition plain (u : ufr) : bool := match u with UPlain => true | _ => false end.
Definition no_back (d : nat) (e : list uevent) : Prop := forall o, ~ In (UBack d o) e.
Definition no_given (d : nat) (e : list uevent) : Prop := ~ In (UGiven d) e.

Lemma step_kind s l f fr u ur : hfs (uh s) = f :: fr -> ufs s = u :: ur ->
  let (s', e) := ustep s l in
  (forall j, j <> length fr -> no_back j e /\ no_given j e) /\
  ((exists u', ufs s' = u' :: ur /\
     (rk f u = 0 \/ (plain u = true -> In (UGiven (length fr)) e \/ no_back (length fr) e /\ plain u' = true) /\
      (plain u = false -> (exists o, In (UBack (length fr) o) e) \/ no_given (length fr) e /\ plain u' = false))) \/
   (ufs s' = UPlain :: u :: ur /\ e = []) \/ (ufs s' = ur /\ e = [] /\ rk f u = 0)).
Proof.
  intros Ef Eu. unfold HeapUse.ustep. rewrite Ef, Eu.
  assert (Nil : forall j, no_back j [] /\ no_given j []) by (intros j; split; [intros o|]; intros []).
  assert (One : forall i j o, j <> i -> no_back j [UBack i o] /\ no_given j [UBack i o]).
  { intros i j o Hj. split; [intros x|]; intros [H|[]]; [injection H as -> _; easy|discriminate]. }
  assert (OneG : forall i j, j <> i -> no_back j [UGiven i] /\ no_given j [UGiven i]).
  { intros i j Hj. split; [intros x|]; intros [H|[]]; [discriminate|injection H as ->; easy]. }
  assert (Same : forall s' e, ufs s' = u :: ur -> (forall j, no_back j e /\ no_given j e) ->
    (forall j, j <> length fr -> no_back j e /\ no_given j e) /\
    ((exists u', ufs s' = u' :: ur /\
       (rk f u = 0 \/ (plain u = true -> In (UGiven (length fr)) e \/ no_back (length fr) e /\ plain u' = true) /\
        (plain u = false -> (exists o, In (UBack (length fr) o) e) \/ no_given (length fr) e /\ plain u' = false))) \/
     (ufs s' = UPlain :: u :: ur /\ e = []) \/ (ufs s' = ur /\ e = [] /\ rk f u = 0))).
  { intros s' e E N. split; [auto|]. left. exists u. split; [exact E|]. right. split; intros P; right; split; auto; apply N. }
  destruct l as [r|p z| | | | |a v|a].
  - destruct f; try (now apply Same). destruct u; try (now apply Same). destruct (req_ok s r); [|now apply Same].
    split; [intros j _; split; [intros x|]; intros [H|[]]; discriminate|]. left. eexists. split; [reflexivity|]. now left.
  - destruct f; try (now apply Same). destruct u; try (now apply Same). destruct (_ || _); [|now apply Same].
    destruct (hstep _ _) as [h [|e er]]; [now apply Same|].
    split; [intros j _; split; [intros x|]; intros [H|[]]; discriminate|]. left. eexists. split; [first [exact Eu|reflexivity]|]. now left.
  - destruct f as [|o i g|].
    + destruct u as [|r|r q len k|r q len k|r q len]; try (now apply Same).
      * destruct (_ <? _)%N.
        -- split; [auto|]. left. eexists. split; [reflexivity|]. right. split; [discriminate|]. right. split; [apply Nil|reflexivity].
        -- unfold copying. destruct (old_of r); cbn [map].
           ++ split; [auto|]. left. eexists. split; [reflexivity|]. right. split; [discriminate|]. right. split; [apply Nil|reflexivity].
           ++ split; [auto|]. left. eexists. split; [reflexivity|]. right. split; [discriminate|]. left. eexists. now left.
      * destruct (old_of r); [|now apply Same]. destruct (_ <? _)%N; [|destruct (_ =? 0)%N].
        -- split; [auto|]. left. eexists. split; [reflexivity|]. right. split; [discriminate|]. right. split; [apply Nil|reflexivity].
        -- split; [auto|]. left. eexists. split; [reflexivity|]. right. split; [discriminate|]. left. eexists. now left.
        -- destruct (hstep _ _) as [h [|e er]]; [now apply Same|].
           split; [auto|]. left. eexists. split; [reflexivity|]. right. split; [discriminate|]. right. split; [apply Nil|reflexivity].
    + now apply Same.
    + destruct u; now apply Same.
  - destruct (hstep _ _) as [h [|[d0 op|d0 o] [|]]]; try (now apply Same). destruct u as [|r|r q len k|r q len k|r q len]; try (now apply Same).
    + split; [auto|]. left. exists UPlain. split; [first [exact Eu|reflexivity]|]. right. split; [|discriminate]. left. now left.
    + unfold got, copying. destruct o as [q n| |]; [destruct (zeroes r); [|destruct (old_of r)]|..]; cbn [map].
      * split; [auto|]. left. eexists. split; [reflexivity|]. right. split; [discriminate|]. right. split; [apply Nil|reflexivity].
      * split; [auto|]. left. eexists. split; [reflexivity|]. right. split; [discriminate|]. right. split; [apply Nil|reflexivity].
      * split; [auto|]. left. eexists. split; [reflexivity|]. right. split; [discriminate|]. left. eexists. now left.
      * split; [auto|]. left. eexists. split; [reflexivity|]. right. split; [discriminate|]. left. eexists. now left.
      * split; [auto|]. left. eexists. split; [reflexivity|]. right. split; [discriminate|]. left. eexists. now left.
    + split; [auto|]. left. eexists. split; [reflexivity|]. right. split; [discriminate|]. left. eexists. now left.
  - destruct (hie (uh s)); [|now apply Same]. split; [auto|]. right. left. auto.
  - destruct f; try (now apply Same). destruct u; try (now apply Same). destruct fr; [now apply Same|]. split; [auto|]. right. right. auto.
  - destruct (mine s a); [|now apply Same]. apply Same; [first [exact Eu|reflexivity]|]. intros j. split; [intros x|]; intros [H|[]]; discriminate.
  - destruct (mine s a); [|now apply Same]. apply Same; [first [exact Eu|reflexivity]|]. intros j. split; [intros x|]; intros [H|[]]; discriminate.
Qed.

Lemma kind ls : forall s K d, uinv s K -> Forall sane (hfs (uh s)) -> 0 < left_ s d -> back d (snd (urun s ls)) ->
  if plain (uat (ufs s) d) then In (UGiven d) (snd (urun s ls)) else exists o, In (UBack d o) (snd (urun s ls)).
Proof.
  induction ls as [|l ls IH]; intros s K d I F R B; [destruct B as [[o []]|[]]|]. rewrite urun_cons in B |- *. cbn [snd] in *.
  pose proof (uinv_step ws base cfg Hcfg ie0 s K l I) as I1. pose proof (sane_ustep s l F) as F1.
  pose proof (other_rank s K l d I F R) as Q. unfold left_ in R, Q. destruct (hfs (uh s)) as [|f fr] eqn:Ef; [cbn in R; lia|].
  destruct (ufs s) as [|u ur] eqn:Eu; [cbn in R; lia|].
  pose proof (len_eq _ _ _ _ _ _ _ _ I Ef Eu) as Hl. pose proof (step_kind s l f fr u ur Ef Eu) as Kd.
  destruct (ustep s l) as [s1 e1]. cbn [fst snd] in *. destruct Kd as [K1 K2].
  assert (Rec : forall b, (~ back d e1 -> plain (uat (ufs s1) d) = b) -> (if b then no_back d e1 else no_given d e1) ->
    if b then In (UGiven d) (e1 ++ snd (urun s1 ls)) else exists o, In (UBack d o) (e1 ++ snd (urun s1 ls))).
  { intros b Hb N. assert (D : back d e1 \/ ~ back d e1 /\ back d (snd (urun s1 ls)) /\ 0 < left_ s1 d).
    { assert (Dec : back d e1 \/ ~ back d e1).
      { destruct (existsb (fun e => match e with UBack j _ | UGiven j => Nat.eqb j d | _ => false end) e1) eqn:X.
        - left. apply existsb_exists in X. destruct X as (e & X1 & X2). destruct e; try discriminate; apply Nat.eqb_eq in X2; subst; [left; eauto|now right].
        - right. intros [[x Y]|Y]; (assert (Z : existsb (fun e => match e with UBack j _ | UGiven j => Nat.eqb j d | _ => false end) e1 = true);
            [apply existsb_exists; eexists; split; [exact Y|apply Nat.eqb_refl]|congruence]). }
      destruct Dec as [Dec|Dec]; [now left|right]. split; [exact Dec|]. split; [|destruct Q as [Q|Q]; [easy|apply Q]].
      destruct B as [[o B]|B]; apply in_app_iff in B; destruct B as [B|B]; [elim Dec; left; eauto|left; eauto|elim Dec; now right|now right]. }
    destruct D as [[[o D]|D]|(D0 & D1 & D2)].
    - destruct b; [now elim (N o)|]. exists o. apply in_app_iff. now left.
    - destruct b; [apply in_app_iff; now left|now elim N].
    - specialize (IH s1 _ d I1 F1 D2 D1). rewrite (Hb D0) in IH. destruct b.
      + apply in_app_iff. now right.
      + destruct IH as [o IH]. exists o. apply in_app_iff. now right. }
  destruct (Nat.eq_dec d (length fr)) as [Hd|Hd].
  - assert (Pu : uat (u :: ur) d = u) by (cbn; rewrite <- Hl, Hd, Nat.eqb_refl; reflexivity). rewrite Pu.
    destruct K2 as [(u' & E & [Z|[P1 P2]])|[(E & ->)|(E & -> & Z)]].
    + cbn in R. rewrite Hd, Nat.eqb_refl in R. lia.
    + assert (Pu' : uat (ufs s1) d = u') by (rewrite E; cbn; rewrite <- Hl, Hd, Nat.eqb_refl; reflexivity).
      destruct (plain u).
      * destruct (P1 eq_refl) as [G|[G1 G2]]; [rewrite Hd; apply in_app_iff; now left|]. apply (Rec true); [intros _; now rewrite Pu'|now rewrite Hd].
      * destruct (P2 eq_refl) as [[o G]|[G1 G2]]; [exists o; rewrite Hd; apply in_app_iff; now left|]. apply (Rec false); [intros _; now rewrite Pu'|now rewrite Hd].
    + apply (Rec (plain u)).
      * intros _. rewrite E. cbn. destruct (Nat.eqb_spec d (S (length ur))); [lia|]. now rewrite <- Hl, Hd, Nat.eqb_refl.
      * destruct (plain u); [intros o []|intros []].
    + cbn in R. rewrite Hd, Nat.eqb_refl in R. lia.
  - destruct (K1 d Hd) as [N1 N2]. apply (Rec (plain (uat (u :: ur) d))).
    + intros _. cbn [uat]. destruct (Nat.eqb_spec d (length ur)); [lia|].
      destruct K2 as [(u' & E & _)|[(E & _)|(E & _)]]; rewrite E; cbn [uat]; auto.
      * now destruct (Nat.eqb_spec d (length ur)); [lia|].
      * cbn [length]. destruct (Nat.eqb_spec d (S (length ur))) as [X|X].
        -- cbn [rank] in R. destruct (Nat.eqb_spec d (length fr)); [lia|]. rewrite rank_above in R by lia. lia.
        -- now destruct (Nat.eqb_spec d (length ur)); [lia|].
    + destruct (plain (uat (u :: ur) d)); [exact N1|exact N2].
Qed.

Lemma urun_sane ls : forall s, Forall sane (hfs (uh s)) -> Forall sane (hfs (uh (fst (urun s ls)))).
Proof. induction ls as [|l ls IH]; intros s F; [exact F|]. rewrite urun_cons. cbn [fst]. apply IH. now apply sane_ustep. Qed.
End Wait.

Lemma psize_big cfg i : (psize cfg i <= largest cfg)%N.
Proof.
  unfold psize, pools. revert i. induction cfg as [|[[a z] c] l IH]; intros i; [destruct i; cbn; lia|].
  change (largest ((a, z, c) :: l)) with (N.max z (largest l)). destruct i; [cbn -[N.max]; lia|].
  apply N.le_trans with (largest l); [exact (IH i)|lia].
Qed.
