(** Proofs about the heap shared by contexts. *)
Require Import NArith List Bool Arith Lia.
From Verif Require Import AtomicSpec LinSpec Treiber TreiberProofs TreiberSoft Heap HeapSpec HeapProofs HeapConc HeapConcSpec PoolFullSpec PoolFull.
Import ListNotations.
Open Scope N_scope.

Section Proofs.
Variable ws : nat.
Variable base : N.
Variable cfg : list pcfg.
Hypothesis Hcfg : wf_cfg ws base cfg.
Variable ie0 : bool.

Notation hstep := (hstep base cfg).
Notation hstart := (hstart base cfg).
Notation psize := (psize cfg).
Notation pedge := (pedge cfg).

Lemma pools_length : length (pools cfg) = length cfg.
Proof. apply map_length. Qed.

Lemma pools_nth i a s c : nth_error cfg i = Some (a, s, c) ->
  nth i (pools cfg) (Pool 0 0 0 0) = pool_new a s c.
Proof.
  intros H. apply nth_error_nth. unfold pools. now rewrite (map_nth_error _ _ _ H).
Qed.
Lemma psize_nth i a s c : nth_error cfg i = Some (a, s, c) -> psize i = s.
Proof. intros H. unfold HeapConc.psize. now rewrite (pools_nth _ _ _ _ H). Qed.
Lemma pedge_nth i a s c : nth_error cfg i = Some (a, s, c) -> pedge i = a + s * c.
Proof. intros H. unfold HeapConc.pedge. now rewrite (pools_nth _ _ _ _ H). Qed.

Lemma cfg_nth i : (i < length cfg)%nat -> exists a s c, nth_error cfg i = Some (a, s, c).
Proof.
  intros H. destruct (nth_error cfg i) as [[[a s] c]|] eqn:E; [eauto|]. apply nth_error_None in E. lia.
Qed.

Lemma cfg_pos i a s c : nth_error cfg i = Some (a, s, c) -> 0 < a /\ 0 < s.
Proof.
  intros H. destruct Hcfg as [Hb Hw]. destruct (wf_from_nth _ _ _ _ _ _ _ _ Hw H) as (A & _ & _ & B & _). lia.
Qed.
Lemma psize_pos i : (i < length cfg)%nat -> 0 < psize i.
Proof.
  intros H. destruct (cfg_nth i H) as (a & s & c & E). rewrite (psize_nth _ _ _ _ E). apply (cfg_pos _ _ _ _ E).
Qed.

(** ** What each pool sees *)
Definition hpf (i : nat) (f : hfr) : sfr :=
  match f with HIn _ i' g => if Nat.eqb i' i then g else FIdle | _ => FIdle end.
Definition pie (i : nat) (s : hstate) : bool :=
  match hfs s with HIn _ i' _ :: _ => if Nat.eqb i' i then hie s else ie0 | _ => ie0 end.
Definition proj (i : nat) (s : hstate) : sstate := SState (hp s i) (pie i s) (map (hpf i) (hfs s)).

Definition falloc (f : sfr) : Prop :=
  match f with
  | FBegin o | FPaused _ o | FLoaded _ o _ | FComp _ o _ _ => o = OAlloc
  | FStored _ r | FDone r => r <> RPushed
  | FIdle => False
  | _ => True
  end.
Definition fpush (f : sfr) : Prop :=
  match f with
  | FBegin o | FPaused _ o | FLoaded _ o _ | FComp _ o _ _ => exists x, o = OPush x
  | FStored _ r | FDone r => r = RPushed
  | _ => False
  end.

Definition fr_ok (f : hfr) : Prop :=
  match f with
  | HIdle => True
  | HIn (HAlloc sz _) i g => (i < length cfg)%nat /\ 0 < sz /\ sz <= psize i /\ falloc g
  | HIn (HDealloc _ _) i g => (i < length cfg)%nat /\ fpush g
  | HDone (HAlloc sz al) r => (sz = 0 /\ r = HBlock al 0) \/ (r = HFail /\ 0 < sz /\ forall i, (i < length cfg)%nat -> psize i < sz)
  | HDone (HDealloc _ _) r => r = HFreed
  end.

Definition live_ok (b : blk) : Prop :=
  (b_len b = 0 /\ b_req b = 0) \/
  (0 < b_req b /\ b_req b <= b_len b /\ exists i j a c, nth_error cfg i = Some (a, b_len b, c) /\ slot cfg i j (b_ptr b)).

Definition solid (b : blk) : bool := 0 <? b_len b.

Record hinv (s : hstate) (ls : nat -> list N) : Prop := {
  hi_pool : forall i, (i < length cfg)%nat -> sinv (psize i) (pedge i) ie0 (proj i s) (ls i);
  hi_ie : match hfs s with HIn _ i _ :: _ => True | _ :: _ => hie s = ie0 | [] => False end;
  hi_all : forall i a z c, nth_error cfg i = Some (a, z, c) -> forall x,
    In x (blocks a z (N.to_nat c)) <-> somewhere z (a + z * c) (hp s i) (ls i) (crs (map (hpf i) (hfs s))) x;
  hi_dead : forall i, dead (hp s i) = [];
  hi_held : forall i a z c, nth_error cfg i = Some (a, z, c) -> held (hp s i) = used_in a (a + z * c) (hlive s);
  hi_live : Forall live_ok (hlive s);
  hi_nd : NoDup (map b_ptr (filter solid (hlive s)));
  hi_fr : Forall fr_ok (hfs s)
}.

(** ** Searches *)
Lemma hinv0 : heap_inv ws base cfg (heap_new base cfg (fun _ => 0)) [].
Proof. apply inv_init. Qed.

Lemma search_owner i j x : slot cfg i j x -> pool_by_ptr (pools cfg) base x = Some i.
Proof. intros H. apply (pool_by_ptr_owner ws base cfg Hcfg _ [] i j x hinv0 H). Qed.

Lemma search_layout sz : exists i, pool_range_by_layout (pools cfg) sz = Some i /\ (i <= length cfg)%nat /\
  (forall k, (k < i)%nat -> psize k < sz) /\ (forall k, (i <= k < length cfg)%nat -> sz <= psize k).
Proof.
  destruct (binary_search_spec _ _ (size_monotone ws base cfg Hcfg _ [] sz hinv0)) as (i & E & P1 & P2 & P3).
  exists i. split; [exact E|]. change (h_pools (heap_new base cfg (fun _ => 0))) with (pools cfg) in *.
  rewrite pools_length in P1. split; [exact P1|].
  assert (Q : forall k, (k < length cfg)%nat -> exists p, nth_error (pools cfg) k = Some p /\ psize k = p_size p).
  { intros k Hk. destruct (nth_error (pools cfg) k) as [p|] eqn:Ep.
    - exists p. split; [easy|]. unfold HeapConc.psize. now rewrite (nth_error_nth _ _ _ Ep).
    - apply nth_error_None in Ep. rewrite pools_length in Ep. lia. }
  split; intros k Hk.
  - destruct (Q k ltac:(lia)) as (p & Ep & ->). apply N.leb_gt. apply (P2 k p Ep Hk).
  - destruct (Q k ltac:(lia)) as (p & Ep & ->). apply N.leb_le. apply (P3 k p Ep). lia.
Qed.

(** ** Releasing *)
Lemma release_split ptr sz : forall l l', release ptr sz l = Some l' ->
  exists l1 b l2, l = l1 ++ b :: l2 /\ l' = l1 ++ l2 /\ b_ptr b = ptr /\ b_req b <= sz /\ sz <= b_len b.
Proof.
  induction l as [|b l IH]; intros l' H; [discriminate|]. simpl in H.
  destruct ((b_ptr b =? ptr) && fits_blk b sz) eqn:E.
  - injection H as <-. exists [], b, l. apply andb_true_iff in E. destruct E as [E1 E2].
    unfold fits_blk in E2. apply andb_true_iff in E2. destruct E2 as [E2 E3].
    apply N.eqb_eq in E1. apply N.leb_le in E2, E3. auto.
  - destruct (release ptr sz l) as [l0|]; [|discriminate]. injection H as <-.
    destruct (IH l0 eq_refl) as (l1 & b0 & l2 & -> & -> & A). exists (b :: l1), b0, l2. auto.
Qed.

Lemma solid_filter_app l1 l2 : filter solid (l1 ++ l2) = filter solid l1 ++ filter solid l2.
Proof. apply filter_app. Qed.

Lemma used_in_solid lo hi l x : In x (used_in lo hi l) -> In x (map b_ptr (filter solid l)).
Proof.
  unfold used_in. rewrite !in_map_iff. intros (b & <- & H). exists b. split; [easy|].
  apply filter_In in H. destruct H as [H1 H2]. apply filter_In. split; [easy|].
  unfold in_pool in H2. rewrite !andb_true_iff in H2. apply H2.
Qed.

Lemma remove1_app_notin x l1 l2 : ~ In x l1 -> remove1 x (l1 ++ x :: l2) = l1 ++ l2.
Proof.
  induction l1 as [|y l1 IH]; intros H; simpl.
  - now rewrite N.eqb_refl.
  - destruct (N.eqb_spec x y) as [->|]; [exfalso; apply H; now left|].
    rewrite IH; [easy|]. intros G. apply H. now right.
Qed.

(** ** Preservation *)
Lemma map_hpf_rest i (f : hfr) rest : map (hpf i) (f :: rest) = hpf i f :: map (hpf i) rest.
Proof. reflexivity. Qed.

Definition pmove (i : nat) (p p' : sstate) : Prop :=
  p' = p \/ exists lb, pool_slabel lb /\ p' = fst (sstep (psize i) (pedge i) p lb).

Lemma pmove_inv i p p' l : (i < length cfg)%nat -> sinv (psize i) (pedge i) ie0 p l -> pmove i p p' ->
  exists l', sinv (psize i) (pedge i) ie0 p' l' /\
    forall x, somewhere (psize i) (pedge i) (ssh p) l (crs (sfs p)) x <->
              somewhere (psize i) (pedge i) (ssh p') l' (crs (sfs p')) x.
Proof.
  intros Hi HI [->|[lb [_ ->]]]; [exists l; split; [easy|reflexivity]|].
  exists (slnext p lb l). apply sinv_step; auto. now apply psize_pos.
Qed.

(** From moves of the pools and the rest of the invariant. *)
Lemma hinv_moves s ls s' : hinv s ls ->
  (forall i, (i < length cfg)%nat -> pmove i (proj i s) (proj i s')) ->
  match hfs s' with HIn _ i _ :: _ => True | _ :: _ => hie s' = ie0 | [] => False end ->
  (forall i, dead (hp s' i) = []) ->
  (forall i a z c, nth_error cfg i = Some (a, z, c) -> held (hp s' i) = used_in a (a + z * c) (hlive s')) ->
  Forall live_ok (hlive s') -> NoDup (map b_ptr (filter solid (hlive s'))) -> Forall fr_ok (hfs s') ->
  (exists ls', hinv s' ls') /\ forall i, (i < length cfg)%nat -> pmove i (proj i s) (proj i s').
Proof.
  intros HI Hm Hie Hd Hh Hl Hn Hf. split; [|exact Hm].
  assert (P : forall n, (n <= length cfg)%nat -> exists ls', forall i, (i < n)%nat ->
     sinv (psize i) (pedge i) ie0 (proj i s') (ls' i) /\
     forall x, somewhere (psize i) (pedge i) (hp s i) (ls i) (crs (map (hpf i) (hfs s))) x <->
               somewhere (psize i) (pedge i) (hp s' i) (ls' i) (crs (map (hpf i) (hfs s'))) x).
  { induction n as [|n IH]; intros Hn'; [exists ls; intros; lia|].
    destruct IH as [ls' IH]; [lia|].
    destruct (pmove_inv n _ _ _ ltac:(lia) (hi_pool _ _ HI n ltac:(lia)) (Hm n ltac:(lia))) as (l & A & B).
    exists (upd ls' n l). intros i Hi. destruct (Nat.eq_dec i n) as [->|Hne].
    - rewrite upd_same. split; [exact A|exact B].
    - rewrite upd_other by easy. apply IH. lia. }
  destruct (P (length cfg) ltac:(lia)) as [ls' H]. exists ls'. constructor; auto.
  - intros i Hi. now apply H.
  - intros i a z c Hi x. assert (L : (i < length cfg)%nat) by (apply nth_error_Some; congruence).
    destruct (H i L) as [_ W]. rewrite (psize_nth _ _ _ _ Hi), (pedge_nth _ _ _ _ Hi) in W.
    rewrite (hi_all _ _ HI i a z c Hi x). apply W.
Qed.

Lemma hinit_inv link : hinv (hinit cfg link ie0) (fun _ => []).
Proof.
  constructor; cbn [hinit hfs hie hp hlive].
  - intros i Hi. destruct (cfg_nth i Hi) as (a & z & c & E). destruct (cfg_pos _ _ _ _ E) as [Ha Hz].
    unfold proj. simpl. rewrite (psize_nth _ _ _ _ E), (pedge_nth _ _ _ _ E), (pools_nth _ _ _ _ E). simpl.
    apply (sinv_init z (a + z * c) ie0 a [] (link i)); [constructor|intros x []| |now left].
    exists c. reflexivity.
  - reflexivity.
  - intros i a z c H x. rewrite (pools_nth _ _ _ _ H). simpl. destruct (cfg_pos _ _ _ _ H) as [Ha Hz].
    rewrite blocks_unissued by exact Hz. rewrite N2Nat.id. split.
    + intros Hx. right. right. right. now left.
    + intros [[]|[[]|[[]|[Hx|[t Hx]]]]]; [exact Hx|].
      unfold crs, at_depth in Hx. simpl in Hx. destruct t as [|[|]]; easy.
  - reflexivity.
  - reflexivity.
  - constructor.
  - constructor.
  - repeat constructor.
Qed.

(** ** The steps of a pool *)
Lemma saccess_held sz ed m ie g m' ie' g' : saccess sz ed m ie g = (m', ie', g') -> held m' = held m /\ dead m' = dead m.
Proof.
  destruct g as [|[]|? []|? [] ?|? [] ? ?| | | | | |]; simpl; intros H;
    repeat match type of H with context [if ?b then _ else _] => destruct b end;
    injection H as <- <- <-; auto.
Qed.

Lemma saccess_alloc sz ed m ie g m' ie' g' : falloc g -> saccess sz ed m ie g = (m', ie', g') -> falloc g'.
Proof.
  intros Hg H. destruct g; simpl in Hg; try subst o; simpl in H;
    repeat match type of H with context [if ?b then _ else _] => destruct b end;
    injection H as <- <- <-; simpl; auto; discriminate.
Qed.
Lemma saccess_push sz ed m ie g m' ie' g' : fpush g -> saccess sz ed m ie g = (m', ie', g') -> fpush g'.
Proof.
  intros Hg H. destruct g; simpl in Hg; try easy; try subst r; try (destruct Hg as [y Hy]; subst o); simpl in H;
    injection H as <- <- <-; simpl; eauto.
Qed.

Lemma hstep_access s o i g rest : hfs s = HIn o i g :: rest -> g <> FDone RNone ->
  hstep s HLStep = let '(m, ie, g') := saccess (psize i) (pedge i) (hp s i) (hie s) g in
     (HState (upd (hp s) i m) ie (HIn o i g' :: rest) (hlive s), []).
Proof.
  intros E Hg. unfold HeapConc.hstep. rewrite E. destruct g as [| | | | | | | | | |[]]; try reflexivity. congruence.
Qed.

Lemma hpf_other o i g k : i <> k -> hpf k (HIn o i g) = FIdle.
Proof. intros H. simpl. now rewrite (proj2 (Nat.eqb_neq i k) H). Qed.
Lemma hpf_same o i g : hpf i (HIn o i g) = g.
Proof. simpl. now rewrite Nat.eqb_refl. Qed.

(** The pool in which the running context is. *)
Lemma top_pool s ls o i g rest : hinv s ls -> hfs s = HIn o i g :: rest -> (i < length cfg)%nat /\
  top_ok ie0 (hp s i) (hie s) g /\ sinv (psize i) (pedge i) ie0 (SState (hp s i) (hie s) (g :: map (hpf i) rest)) (ls i).
Proof.
  intros HI E. pose proof (hi_fr _ _ HI) as F. rewrite E in F. apply Forall_inv in F.
  assert (Hi : (i < length cfg)%nat) by (destruct o; apply F). split; [exact Hi|].
  pose proof (hi_pool _ _ HI i Hi) as P. unfold proj, pie in P. rewrite E in P. simpl in P. rewrite Nat.eqb_refl in P.
  split; [apply (si_top _ _ _ _ _ P)|exact P].
Qed.

(** A block carried by the running context is a block of its pool, and owned by nobody. *)
Lemma carried s ls o i g rest x : hinv s ls -> hfs s = HIn o i g :: rest -> fcarry g = Some x ->
  (exists j, slot cfg i j x) /\ ~ In x (held (hp s i)).
Proof.
  intros HI E Hc. destruct (top_pool s ls o i g rest HI E) as (Hi & _ & P).
  assert (C : crs (g :: map (hpf i) rest) (length (map (hpf i) rest)) = Some x).
  { unfold crs. now rewrite (at_depth_top _ (psize_pos i Hi)). }
  split.
  - destruct (cfg_nth i Hi) as (a & z & c & En).
    assert (B : In x (blocks a z (N.to_nat c))).
    { apply (hi_all _ _ HI i a z c En x). rewrite E. simpl. rewrite Nat.eqb_refl.
      right. right. right. right. eauto. }
    apply blocks_unissued in B; [|apply (cfg_pos _ _ _ _ En)]. destruct B as (j & Ej & Hj). rewrite N2Nat.id in Hj.
    exists j, a, z, c. split; [exact En|]. split; [|lia].
    destruct (cfg_pos _ _ _ _ En). nia.
  - apply (own_cr _ _ _ _ _ (si_own _ _ _ _ _ P) _ _ C).
Qed.

(** An idle context lets the others be. *)
Lemma pie_idle i s : (match hfs s with HIn _ _ _ :: _ => False | _ => True end) -> pie i s = ie0.
Proof. unfold pie. destruct (hfs s) as [|[]]; easy. Qed.

Lemma proj_same i s s' : hp s' i = hp s i -> pie i s' = pie i s -> map (hpf i) (hfs s') = map (hpf i) (hfs s) ->
  proj i s' = proj i s.
Proof. unfold proj. intros -> -> ->. reflexivity. Qed.

Lemma live_slot s ls b : hinv s ls -> In b (hlive s) -> 0 < b_len b ->
  exists i j a c, nth_error cfg i = Some (a, b_len b, c) /\ slot cfg i j (b_ptr b).
Proof.
  intros HI Hb Hl. pose proof (hi_live _ _ HI) as F. rewrite Forall_forall in F. destruct (F b Hb) as [[A _]|(_ & _ & A)]; [lia|exact A].
Qed.

(** The owner of a block calls. *)
Lemma dealloc_call s ls ptr sz l : hinv s ls -> release ptr sz (hlive s) = Some l ->
  Forall live_ok l /\ NoDup (map b_ptr (filter solid l)) /\
  ((sz = 0 /\ (forall lo hi, used_in lo hi l = used_in lo hi (hlive s))) \/
   (0 < sz /\ exists i a z c, nth_error cfg i = Some (a, z, c) /\ pool_by_ptr (pools cfg) base ptr = Some i /\
      In ptr (held (hp s i)) /\ used_in a (a + z * c) l = remove1 ptr (held (hp s i)) /\
      forall k a' z' c', k <> i -> nth_error cfg k = Some (a', z', c') ->
        used_in a' (a' + z' * c') l = used_in a' (a' + z' * c') (hlive s))).
Proof.
  intros HI H. destruct (release_split _ _ _ _ H) as (l1 & b & l2 & E & -> & Hp & H1 & H2).
  pose proof (hi_live _ _ HI) as F. pose proof (hi_nd _ _ HI) as ND. rewrite E in F, ND.
  assert (Fb : live_ok b) by (rewrite Forall_forall in F; apply F; apply in_elt).
  split; [rewrite Forall_app in *; destruct F as [F1 F2]; split; [exact F1|]; inversion F2; auto|].
  split.
  { rewrite filter_app, map_app in *. simpl in ND. destruct (solid b); [|exact ND]. simpl in ND. now apply NoDup_remove_1 in ND. }
  destruct (N.eq_dec sz 0) as [->|Hz]; [left|right].
  - split; [reflexivity|]. intros lo hi. rewrite E, !used_in_app, used_in_cons.
    destruct Fb as [[L _]|(L & _)]; [|lia]. unfold in_pool. rewrite L. reflexivity.
  - split; [lia|]. destruct Fb as [[L _]|(L1 & L2 & i & j & a & c & En & S)]; [lia|].
    exists i, a, (b_len b), c. split; [exact En|]. rewrite Hp in S. split; [now apply search_owner with j|].
    rewrite (hi_held _ _ HI i a _ c En), E. rewrite !used_in_app, used_in_cons.
    assert (P : in_pool a (a + b_len b * c) b = true).
    { apply (in_pool_slot ws base cfg Hcfg i j); [exact En|now rewrite Hp|lia]. }
    rewrite P, Hp. simpl. split; [apply in_elt|]. split.
    + rewrite remove1_app_notin; [reflexivity|]. intros G. apply used_in_solid in G.
      rewrite filter_app, map_app in ND. simpl in ND. assert (Sb : solid b = true) by (unfold solid; apply N.ltb_lt; lia).
      rewrite Sb in ND. simpl in ND. apply NoDup_remove_2 in ND. apply ND. rewrite Hp. apply in_or_app. now left.
    + intros k a' z' c' Hk Ek. rewrite !used_in_app, used_in_cons.
      rewrite (in_pool_other ws base cfg Hcfg i k j a' z' c' b); auto. now rewrite Hp.
Qed.

Lemma hinv_step_moves s ls lb : hinv s ls ->
  (exists ls', hinv (fst (hstep s lb)) ls') /\
  forall i, (i < length cfg)%nat -> pmove i (proj i s) (proj i (fst (hstep s lb))).
Proof.
  intros HI. assert (Same : (exists ls', hinv s ls') /\ forall i, (i < length cfg)%nat -> pmove i (proj i s) (proj i s)).
  { split; [now exists ls|]. intros i _. now left. }
  pose proof (hi_fr _ _ HI) as HF. pose proof (hi_ie _ _ HI) as HE.
  destruct (hfs s) as [|f rest] eqn:Es; [easy|].
  pose proof (Forall_inv HF) as Hf. pose proof (Forall_inv_tail HF) as Hr.
  destruct lb as [o| | | | |x v].
  - (* call *)
    unfold HeapConc.hstep. rewrite Es. destruct f as [| |]; [|exact Same|exact Same].
    destruct (hcall base cfg s o) as [s1|] eqn:Hc; [|exact Same]. cbn [fst].
    destruct o as [size align|ptr size]; cbn [hcall] in Hc.
    + injection Hc as <-. 
      assert (D : exists r, hstart (HAlloc size align) = HDone (HAlloc size align) r /\ fr_ok (HDone (HAlloc size align) r) \/
        exists i, (i < length cfg)%nat /\ 0 < size /\ size <= psize i /\ hstart (HAlloc size align) = HIn (HAlloc size align) i (FBegin OAlloc)).
      { unfold HeapConc.hstart. destruct (N.eqb_spec size 0) as [->|Hz].
        - exists (HBlock align 0). left. split; [reflexivity|]. left. auto.
        - destruct (search_layout size) as (i & E & P1 & P2 & P3). rewrite E, pools_length.
          destruct (Nat.ltb_spec i (length cfg)).
          + exists HFail. right. exists i. split; [easy|]. split; [lia|]. split; [apply P3; lia|reflexivity].
          + exists HFail. left. split; [reflexivity|]. right. split; [easy|]. split; [lia|]. intros k Hk. apply P2. lia. }
      destruct D as [r [[E Hok]|(i & Hi & Hz & Hsz & E)]]; rewrite E.
      * apply (hinv_moves s ls); cbn [hfs hie hp hlive]; auto.
        -- intros k _. left. apply proj_same; [reflexivity| |].
           ++ unfold pie. rewrite Es. reflexivity.
           ++ rewrite Es. reflexivity.
        -- apply (hi_dead _ _ HI).
        -- apply (hi_held _ _ HI).
        -- apply (hi_live _ _ HI).
        -- apply (hi_nd _ _ HI).
      * apply (hinv_moves s ls); cbn [hfs hie hp hlive]; auto.
        -- intros k Hk. destruct (Nat.eq_dec i k) as [<-|Hne].
           ++ right. exists (SLInv OAlloc). split; [discriminate|]. unfold proj, pie. cbn [hp hie hfs]. rewrite Es. simpl. rewrite Nat.eqb_refl.
              unfold sstep. simpl. now rewrite HE.
           ++ left. apply proj_same; [reflexivity| |].
              ** unfold pie. cbn [hfs hie]. rewrite Es. now rewrite (proj2 (Nat.eqb_neq _ _) Hne).
              ** cbn [hfs]. rewrite Es. simpl. now rewrite (proj2 (Nat.eqb_neq _ _) Hne).
        -- apply (hi_dead _ _ HI).
        -- apply (hi_held _ _ HI).
        -- apply (hi_live _ _ HI).
        -- apply (hi_nd _ _ HI).
        -- constructor; [|exact Hr]. simpl. auto.
    + destruct (release ptr size (hlive s)) as [l|] eqn:Er; [|discriminate].
      injection Hc as <-. cbn [hp hie hlive].
      destruct (dealloc_call s ls ptr size l HI Er) as (HL & HN & [[-> HU]|(Hz & i & a & z & c & En & Ep & Hin & HU & HO)]).
      * cbn [HeapConc.hstart N.eqb]. apply (hinv_moves s ls); cbn [hfs hie hp hlive]; auto.
        -- intros k _. left. apply proj_same; [reflexivity| |].
           ++ unfold pie. rewrite Es. reflexivity.
           ++ rewrite Es. reflexivity.
        -- apply (hi_dead _ _ HI).
        -- intros i a z c En. rewrite HU. now apply (hi_held _ _ HI).
        -- constructor; [reflexivity|exact Hr].
      * unfold HeapConc.hstart. destruct (N.eqb_spec size 0) as [|_]; [lia|]. rewrite Ep. cbv iota.
        assert (Hi : (i < length cfg)%nat) by (apply nth_error_Some; congruence).
        apply (hinv_moves s ls); cbn [hfs hie hp hlive]; auto.
        -- intros k Hk. destruct (Nat.eq_dec i k) as [<-|Hne].
           ++ right. exists (SLInv (OPush ptr)). split; [discriminate|]. unfold proj, pie. cbn [hp hie hfs]. rewrite Es. simpl. rewrite Nat.eqb_refl.
              unfold sstep. simpl. rewrite (proj2 (mem_N_In _ _) Hin). simpl. rewrite HE, ?upd_same. reflexivity.
           ++ left. apply proj_same; [now apply upd_other; auto| |].
              ** unfold pie. cbn [hfs hie]. rewrite Es. now rewrite (proj2 (Nat.eqb_neq _ _) Hne).
              ** cbn [hfs]. rewrite Es. simpl. now rewrite (proj2 (Nat.eqb_neq _ _) Hne).
        -- intros k. destruct (Nat.eq_dec k i) as [->|Hne]; [rewrite upd_same|rewrite upd_other by easy]; apply (hi_dead _ _ HI).
        -- intros k a' z' c' Ek. destruct (Nat.eq_dec k i) as [->|Hne].
           ++ rewrite upd_same. rewrite En in Ek. injection Ek as <- <- <-. now rewrite HU.
           ++ rewrite upd_other by easy. rewrite (HO k a' z' c' Hne Ek). now apply (hi_held _ _ HI).
        -- constructor; [|exact Hr]. simpl. split; [exact Hi|eauto].
  - (* access *)
    destruct f as [|o i g|]; [unfold HeapConc.hstep; rewrite Es; exact Same| |unfold HeapConc.hstep; rewrite Es; exact Same].
    destruct (top_pool s ls o i g rest HI Es) as (Hi & Ht & P).
    assert (D : g = FDone RNone \/ g <> FDone RNone) by (destruct g as [| | | | | | | | | |[]]; auto; right; discriminate).
    destruct D as [->|Hg].
    + unfold HeapConc.hstep. rewrite Es. destruct (Nat.ltb_spec (S i) (length (pools cfg))) as [Hl|Hl]; [|exact Same].
      rewrite pools_length in Hl. cbn [fst].
      assert (Ho : exists size align, o = HAlloc size align).
      { destruct o; [eauto|]. simpl in Hf. destruct Hf as [_ Hf]. discriminate. }
      destruct Ho as (size & align & ->). simpl in Hf. destruct Hf as (_ & Hz & Hsz & _).
      apply (hinv_moves s ls); cbn [hfs hie hp hlive]; auto.
      * intros k Hk. destruct (Nat.eq_dec k i) as [->|N1]; [|destruct (Nat.eq_dec k (S i)) as [->|N2]].
        -- right. exists SLRet. split; [exact Logic.I|]. unfold proj, pie. cbn [hfs hie hp]. rewrite Es. cbn [map]. rewrite hpf_same, hpf_other by lia.
           rewrite Nat.eqb_refl. rewrite (proj2 (Nat.eqb_neq (S i) i)) by lia. simpl in Ht. rewrite Ht. reflexivity.
        -- right. exists (SLInv OAlloc). split; [discriminate|]. unfold proj, pie. cbn [hfs hie hp]. rewrite Es. cbn [map]. rewrite hpf_same, hpf_other by lia.
           rewrite Nat.eqb_refl. rewrite (proj2 (Nat.eqb_neq i (S i))) by lia. simpl in Ht. rewrite Ht. reflexivity.
        -- left. apply proj_same; [reflexivity| |].
           ++ unfold pie. cbn [hfs hie]. rewrite Es. rewrite (proj2 (Nat.eqb_neq _ _) (not_eq_sym N1)), (proj2 (Nat.eqb_neq _ _) (not_eq_sym N2)). reflexivity.
           ++ cbn [hfs]. rewrite Es. cbn [map]. now rewrite !hpf_other by auto.
      * apply (hi_dead _ _ HI).
      * apply (hi_held _ _ HI).
      * apply (hi_live _ _ HI).
      * apply (hi_nd _ _ HI).
      * constructor; [|exact Hr]. simpl. split; [lia|]. split; [lia|]. split; [|easy].
        destruct (cfg_nth i Hi) as (a & z & c & E1). destruct (cfg_nth (S i) Hl) as (a' & z' & c' & E2).
        rewrite (psize_nth _ _ _ _ E1) in Hsz. rewrite (psize_nth _ _ _ _ E2).
        destruct Hcfg as [_ Hw]. destruct (wf_from_order _ _ _ _ _ _ _ _ _ _ _ _ Hw (Nat.lt_succ_diag_r i) E1 E2). lia.
    + rewrite (hstep_access s o i g rest Es Hg).
      destruct (saccess (psize i) (pedge i) (hp s i) (hie s) g) as [[m ie] g'] eqn:Ea.
      destruct (saccess_held _ _ _ _ _ _ _ _ Ea) as [Eh Ed]. cbn [fst].
      apply (hinv_moves s ls); cbn [hfs hie hp hlive]; auto.
      * intros k Hk. destruct (Nat.eq_dec k i) as [->|N1].
        -- right. exists SLStep. split; [exact Logic.I|]. unfold proj, pie. cbn [hfs hie hp]. rewrite Es. cbn [map]. rewrite !hpf_same, Nat.eqb_refl, upd_same.
           unfold sstep. cbn [sfs ssh sie]. rewrite Ea. reflexivity.
        -- left. apply proj_same; [now apply upd_other| |].
           ++ unfold pie. cbn [hfs hie]. rewrite Es. now rewrite (proj2 (Nat.eqb_neq _ _) (not_eq_sym N1)).
           ++ cbn [hfs]. rewrite Es. cbn [map]. now rewrite !hpf_other by auto.
      * intros k. destruct (Nat.eq_dec k i) as [->|Hne]; [rewrite upd_same, Ed|rewrite upd_other by easy]; apply (hi_dead _ _ HI).
      * intros k a z c Ek. destruct (Nat.eq_dec k i) as [->|Hne]; [rewrite upd_same, Eh|rewrite upd_other by easy]; now apply (hi_held _ _ HI).
      * apply (hi_live _ _ HI).
      * apply (hi_nd _ _ HI).
      * constructor; [|exact Hr]. destruct o; simpl in *.
        -- destruct Hf as (H1 & H2 & H3 & H4). repeat split; auto. eapply saccess_alloc; eauto.
        -- destruct Hf as (H1 & H4). split; auto. eapply saccess_push; eauto.
  - (* return *)
    unfold HeapConc.hstep. rewrite Es. destruct f as [|o i g|o r]; [exact Same| |].
    + destruct g as [| | | | | | | | | |r]; try exact Same.
      destruct (top_pool s ls o i (FDone r) rest HI Es) as (Hi & Ht & P). simpl in Ht.
      destruct (hret cfg o i r) as [h|] eqn:Eh; [|exact Same]. cbn [fst].
      assert (Hm : forall k, (k < length cfg)%nat -> pmove k (proj k s)
        (proj k (HState (upd (hp s) i (on_return (hp s i) r)) (hie s) (HIdle :: rest) (own_ o h (hlive s))))).
      { intros k Hk. destruct (Nat.eq_dec k i) as [->|N1].
        - right. exists SLRet. split; [exact Logic.I|]. unfold proj, pie. cbn [hfs hie hp]. rewrite Es. cbn [map]. rewrite !hpf_same, Nat.eqb_refl, upd_same.
          unfold sstep. cbn [sfs ssh sie fst]. now rewrite Ht.
        - left. apply proj_same; [now apply upd_other| |].
          + unfold pie. cbn [hfs hie]. rewrite Es. now rewrite (proj2 (Nat.eqb_neq _ _) (not_eq_sym N1)).
          + cbn [hfs]. rewrite Es. cbn [map]. now rewrite !hpf_other by auto. }
      assert (Hd : forall k, dead (upd (hp s) i (on_return (hp s i) r) k) = []).
      { intros k. destruct (Nat.eq_dec k i) as [->|Hne]; [rewrite upd_same|rewrite upd_other by easy; apply (hi_dead _ _ HI)].
        destruct r; apply (hi_dead _ _ HI). }
      destruct o as [size align|ptr size].
      * simpl in Hf. destruct Hf as (_ & Hz & Hsz & Hfa).
        destruct r as [|x|]; simpl in Eh; [easy| |].
        -- injection Eh as <-. destruct (carried s ls _ _ _ _ x HI Es eq_refl) as [[j S] Hnh].
           destruct (cfg_nth i Hi) as (a & z & c & En). cbn [own_].
           assert (Hnew : ~ In x (map b_ptr (filter solid (hlive s)))).
           { rewrite in_map_iff. intros (b & Eb & Hb). apply filter_In in Hb. destruct Hb as [Hb Hs]. apply N.ltb_lt in Hs.
             destruct (live_slot s ls b HI Hb Hs) as (i' & j' & a' & c' & En' & S'). rewrite Eb in S'.
             destruct (slot_inj _ _ _ _ _ _ _ _ Hcfg S S') as [<- <-].
             apply Hnh. rewrite (hi_held _ _ HI i a z c En). unfold used_in. rewrite <- Eb. apply in_map. apply filter_In. split; [exact Hb|].
             apply (in_pool_slot ws base cfg Hcfg i j); auto. now rewrite Eb. }
           apply (hinv_moves s ls); cbn [hfs hie hp hlive]; auto.
           ++ intros k a' z' c' Ek. rewrite used_in_app, used_in_cons. cbn [b_ptr].
              destruct (Nat.eq_dec k i) as [->|Hne].
              ** rewrite upd_same. rewrite En in Ek. injection Ek as <- <- <-.
                 rewrite (in_pool_slot ws base cfg Hcfg i j); auto; [|simpl; lia].
                 simpl. now rewrite (hi_held _ _ HI i a z c En).
              ** rewrite upd_other by easy. rewrite (in_pool_other ws base cfg Hcfg i k j a' z' c'); auto.
                 simpl. rewrite app_nil_r. now apply (hi_held _ _ HI).
           ++ apply Forall_app. split; [apply (hi_live _ _ HI)|]. constructor; [|constructor]. right. simpl.
              split; [exact Hz|]. split; [exact Hsz|]. exists i, j, a, c. rewrite (psize_nth _ _ _ _ En). auto.
           ++ rewrite filter_app, map_app. simpl. destruct (solid _); simpl; [|rewrite app_nil_r; apply (hi_nd _ _ HI)].
              apply NoDup_Add with (a := x) (l := map b_ptr (filter solid (hlive s))); [|split; [apply (hi_nd _ _ HI)|exact Hnew]].
              pose proof (Add_app x (map b_ptr (filter solid (hlive s))) []) as A. now rewrite app_nil_r in A.
        -- destruct (Nat.ltb (S i) (length (pools cfg))); [discriminate|]. injection Eh as <-. cbn [own_].
           apply (hinv_moves s ls); cbn [hfs hie hp hlive]; auto.
           ++ intros k a' z' c' Ek. destruct (Nat.eq_dec k i) as [->|Hne]; [rewrite upd_same|rewrite upd_other by easy]; now apply (hi_held _ _ HI).
           ++ apply (hi_live _ _ HI).
           ++ apply (hi_nd _ _ HI).
      * simpl in Hf. destruct Hf as [_ ->]. simpl in Eh. injection Eh as <-. cbn [own_].
        apply (hinv_moves s ls); cbn [hfs hie hp hlive]; auto.
        -- intros k a' z' c' Ek. destruct (Nat.eq_dec k i) as [->|Hne]; [rewrite upd_same|rewrite upd_other by easy]; now apply (hi_held _ _ HI).
        -- apply (hi_live _ _ HI).
        -- apply (hi_nd _ _ HI).
    + cbn [fst]. assert (Hm : forall l k, pmove k (proj k s) (proj k (HState (hp s) (hie s) (HIdle :: rest) l))).
      { intros l k. left. apply proj_same; [reflexivity| |].
        - unfold pie. rewrite Es. reflexivity.
        - rewrite Es. reflexivity. }
      apply (hinv_moves s ls); cbn [hfs hie hp hlive]; auto.
      * apply (hi_dead _ _ HI).
      * intros k a z c Ek. rewrite (hi_held _ _ HI k a z c Ek). destruct o as [size align|]; [|reflexivity].
        destruct Hf as [[-> ->]|[-> _]]; [|reflexivity]. simpl. rewrite used_in_app, used_in_cons. simpl. now rewrite app_nil_r.
      * destruct o as [size align|]; [|apply (hi_live _ _ HI)].
        destruct Hf as [[-> ->]|[-> _]]; [|apply (hi_live _ _ HI)]. simpl. apply Forall_app. split; [apply (hi_live _ _ HI)|].
        constructor; [|constructor]. left. auto.
      * destruct o as [size align|]; [|apply (hi_nd _ _ HI)].
        destruct Hf as [[-> ->]|[-> _]]; [|apply (hi_nd _ _ HI)]. simpl. rewrite filter_app. simpl. rewrite app_nil_r. apply (hi_nd _ _ HI).
      * constructor; [exact Logic.I|exact Hr].
  - (* interrupt *)
    unfold HeapConc.hstep. rewrite Es. destruct (hie s) eqn:Ei; [|exact Same]. cbn [fst].
    assert (E0 : ie0 = true).
    { destruct f as [|o i g|]; [congruence| |congruence].
      destruct (top_pool s ls o i g rest HI Es) as (_ & Ht & _). rewrite Ei in Ht.
      destruct g; simpl in Ht; try tauto; try (symmetry; exact Ht); destruct Ht; discriminate. }
    apply (hinv_moves s ls); cbn [hfs hie hp hlive]; auto.
    + intros k Hk. right. exists SLIrq. split; [exact Logic.I|]. unfold proj, pie. cbn [hfs hie hp]. rewrite Es.
      unfold sstep. cbn [map sfs sie ssh].
      assert (Q : (match f with HIn _ i' _ => if Nat.eqb i' k then hie s else ie0 | _ => ie0 end) = true).
      { destruct f; auto. destruct (Nat.eqb i k); congruence. }
      rewrite Q. cbn [fst]. now rewrite E0.
    + apply (hi_dead _ _ HI).
    + apply (hi_held _ _ HI).
    + apply (hi_live _ _ HI).
    + apply (hi_nd _ _ HI).
    + constructor; [exact Logic.I|exact HF].
  - (* end of an interrupt *)
    unfold HeapConc.hstep. rewrite Es. destruct f as [| |]; [|exact Same|exact Same].
    destruct rest as [|f' rest]; [exact Same|]. cbn [fst].
    apply (hinv_moves s ls); cbn [hfs hie hp hlive]; auto.
    + intros k Hk. right. exists SLIret. split; [exact Logic.I|]. unfold proj, pie. cbn [hfs hie hp]. rewrite Es.
      unfold sstep. cbn [map sfs sie ssh hpf fst]. rewrite HE.
      destruct f' as [|? i' ?|]; auto. now destruct (Nat.eqb i' k).
    + destruct f'; auto.
    + apply (hi_dead _ _ HI).
    + apply (hi_held _ _ HI).
    + apply (hi_live _ _ HI).
    + apply (hi_nd _ _ HI).
  - (* write *)
    unfold HeapConc.hstep. rewrite Es. cbn [fst].
    assert (Hh : forall k, held (if mem_N x (held (hp s k)) then set_nx (hp s k) x v else hp s k) = held (hp s k)
                        /\ dead (if mem_N x (held (hp s k)) then set_nx (hp s k) x v else hp s k) = dead (hp s k)).
    { intros k. destruct (mem_N x (held (hp s k))); auto. }
    rewrite <- Es. apply (hinv_moves s ls); cbn [hfs hie hp hlive]; auto.
    + intros k Hk. right. exists (SLWrite x v). split; [exact Logic.I|]. unfold proj, pie. cbn [hfs hie hp]. rewrite Es.
      unfold sstep. cbn [map sfs sie ssh]. now destruct (mem_N x (held (hp s k))).
    + rewrite Es. exact HE.
    + intros k. rewrite (proj2 (Hh k)). apply (hi_dead _ _ HI).
    + intros k a z c Ek. rewrite (proj1 (Hh k)). now apply (hi_held _ _ HI).
    + apply (hi_live _ _ HI).
    + apply (hi_nd _ _ HI).
    + rewrite Es. exact HF.
Qed.

Lemma hinv_step s ls lb : hinv s ls -> exists ls', hinv (fst (hstep s lb)) ls'.
Proof. intros HI. apply (hinv_step_moves s ls lb HI). Qed.

Lemma hinv_run lbs : forall s ls, hinv s ls -> exists ls', hinv (fst (hrun base cfg s lbs)) ls'.
Proof.
  induction lbs as [|lb lbs IH]; intros s ls HI; simpl; [now exists ls|].
  destruct (hinv_step s ls lb HI) as [ls1 H1]. destruct (hstep s lb) as [s1 e1]. cbn [fst] in H1.
  destruct (IH s1 ls1 H1) as [ls2 H2]. destruct (hrun base cfg s1 lbs). exists ls2. exact H2.
Qed.

(** ** The log *)
Definition hsize (f : hfr) : option N :=
  match f with HIn (HAlloc sz _) _ _ | HDone (HAlloc sz _) _ => Some sz | _ => None end.
Definition hat (fs : list hfr) (d : nat) : hfr := nth d (rev fs) HIdle.

Lemma hat_top f rest : hat (f :: rest) (length rest) = f.
Proof. unfold hat. simpl. rewrite app_nth2; rewrite rev_length; [|lia]. now rewrite Nat.sub_diag. Qed.
Lemma hat_other f f' rest d : d <> length rest -> hat (f :: rest) d = hat (f' :: rest) d.
Proof.
  intros H. unfold hat. simpl. destruct (Nat.lt_ge_cases d (length rest)).
  - now rewrite !app_nth1 by now rewrite rev_length.
  - rewrite !app_nth2 by (rewrite rev_length; lia). rewrite rev_length.
    destruct (d - length rest)%nat as [|[|]] eqn:E; [lia|reflexivity|reflexivity].
Qed.
Lemma hat_push fs d : hat (HIdle :: fs) d = hat fs d.
Proof.
  unfold hat. simpl. destruct (Nat.lt_ge_cases d (length fs)).
  - now rewrite app_nth1 by now rewrite rev_length.
  - rewrite app_nth2 by (rewrite rev_length; lia). rewrite rev_length.
    rewrite (nth_overflow (rev fs)) by (rewrite rev_length; lia). now destruct (d - length fs)%nat as [|[|]].
Qed.

Lemma live_of_app t1 : forall pend l t2, live_of pend l (t1 ++ t2) = live_of (pend_of pend t1) (live_of pend l t1) t2.
Proof. induction t1 as [|[t []|t []] t1 IH]; intros pend l t2; simpl; auto. Qed.

Lemma hsize_start o : hsize (hstart o) = match o with HAlloc sz _ => Some sz | _ => None end.
Proof.
  unfold HeapConc.hstart. destruct o as [sz al|ptr sz]; destruct (sz =? 0); try reflexivity.
  - destruct (pool_range_by_layout (pools cfg) sz) as [i|]; [|reflexivity]. destruct (Nat.ltb i (length (pools cfg))); reflexivity.
  - destruct (pool_by_ptr (pools cfg) base ptr); reflexivity.
Qed.

Definition pinv (s : hstate) (pend : nat -> N) : Prop := forall d sz, hsize (hat (hfs s) d) = Some sz -> pend d = sz.

Lemma live_step s ls pend lb : hinv s ls -> pinv s pend ->
  hlive (fst (hstep s lb)) = live_of pend (hlive s) (snd (hstep s lb)) /\
  pinv (fst (hstep s lb)) (pend_of pend (snd (hstep s lb))).
Proof.
  intros HI HP. pose proof (hi_fr _ _ HI) as HF.
  assert (Same : hlive s = hlive s /\ pinv s pend) by auto.
  unfold pinv in *. destruct (hfs s) as [|f rest] eqn:Es; [unfold HeapConc.hstep; rewrite Es; simpl; rewrite Es; auto|].
  pose proof (Forall_inv HF) as Hf.
  (* the running context changes, its size stays or goes *)
  assert (Loc : forall f' : hfr, (forall sz, hsize f' = Some sz -> hsize f = Some sz) ->
     forall d sz, hsize (hat (f' :: rest) d) = Some sz -> pend d = sz).
  { intros f' Hs d sz H. apply HP. destruct (Nat.eq_dec d (length rest)) as [->|Hne].
    - rewrite hat_top in *. auto.
    - now rewrite (hat_other f f'). }
  destruct lb as [o| | | | |x v].
  - unfold HeapConc.hstep. rewrite Es. destruct f as [| |]; simpl; rewrite ?Es; auto.
    destruct (hcall base cfg s o) as [s1|] eqn:Hc; simpl; rewrite ?Es; auto.
    destruct o as [size align|ptr size]; unfold hcall in Hc.
    + injection Hc as <-. cbn [fst snd hfs hlive live_of pend_of]. split; [reflexivity|]. intros d sz H.
      destruct (Nat.eq_dec d (length rest)) as [->|Hne].
      * rewrite upd_same. rewrite hat_top, hsize_start in H. congruence.
      * rewrite upd_other by easy. apply HP. rewrite (hat_other HIdle (hstart (HAlloc size align)) rest d Hne). exact H.
    + destruct (release ptr size (hlive s)) eqn:Er; [|discriminate]. injection Hc as <-. cbn [fst snd hfs hlive live_of pend_of]. split; [reflexivity|].
      apply Loc. intros sz H. rewrite hsize_start in H. discriminate.
  - destruct f as [|o i g|]; [unfold HeapConc.hstep; rewrite Es; simpl; rewrite Es; auto| |unfold HeapConc.hstep; rewrite Es; simpl; rewrite Es; auto].
    assert (D : g = FDone RNone \/ g <> FDone RNone) by (destruct g as [| | | | | | | | | |[]]; auto; right; discriminate).
    destruct D as [->|Hg].
    + unfold HeapConc.hstep. rewrite Es. destruct (Nat.ltb (S i) (length (pools cfg))); simpl; rewrite ?Es; auto.
      split; [reflexivity|]. apply Loc. intros sz H. exact H.
    + rewrite (hstep_access s o i g rest Es Hg). destruct (saccess _ _ _ _ _) as [[m ie] g']. simpl.
      split; [reflexivity|]. apply Loc. intros sz H. exact H.
  - unfold HeapConc.hstep. rewrite Es. destruct f as [|o i g|o r]; [simpl; rewrite Es; auto| |].
    + destruct g as [| | | | | | | | | |r]; try (simpl; rewrite Es; auto; fail).
      destruct (hret cfg o i r) as [h|] eqn:Eh; [|simpl; rewrite Es; auto]. cbn [fst snd hlive hfs].
      assert (Pn : pend_of pend [LReturn (length rest) h] = pend) by reflexivity. rewrite Pn.
      split; [|apply Loc; discriminate].
      destruct o as [size align|ptr size].
      * specialize (HP (length rest) size). rewrite hat_top in HP. simpl in HP.
        destruct h; simpl; auto. now rewrite HP.
      * simpl in Hf. destruct Hf as [_ ->]. simpl in Eh. injection Eh as <-. reflexivity.
    + cbn [fst snd hlive hfs]. assert (Pn : pend_of pend [LReturn (length rest) r] = pend) by reflexivity. rewrite Pn.
      split; [|apply Loc; discriminate].
      destruct o as [size align|ptr size].
      * specialize (HP (length rest) size). rewrite hat_top in HP. simpl in HP.
        destruct r; simpl; auto. now rewrite HP.
      * simpl in Hf. subst r. reflexivity.
  - unfold HeapConc.hstep. rewrite Es. destruct (hie s); simpl; rewrite ?Es; auto. split; [reflexivity|].
    intros d sz. rewrite hat_push. apply HP.
  - unfold HeapConc.hstep. rewrite Es. destruct f; simpl; rewrite ?Es; auto. destruct rest as [|f' rest]; simpl; rewrite ?Es; auto.
    split; [reflexivity|]. intros d sz H. apply HP. now rewrite hat_push.
  - unfold HeapConc.hstep. rewrite Es. simpl. auto.
Qed.

Lemma live_run lbs : forall s ls pend, hinv s ls -> pinv s pend ->
  hlive (fst (hrun base cfg s lbs)) = live_of pend (hlive s) (snd (hrun base cfg s lbs)).
Proof.
  induction lbs as [|lb lbs IH]; intros s ls pend HI HP; [reflexivity|].
  destruct (live_step s ls pend lb HI HP) as [A B]. destruct (hinv_step s ls lb HI) as [ls1 H1].
  cbn [hrun]. destruct (hstep s lb) as [s1 e1]. cbn [fst snd] in *.
  specialize (IH s1 ls1 _ H1 B). destruct (hrun base cfg s1 lbs) as [s2 e2]. cbn [fst snd] in *.
  now rewrite live_of_app, <- A.
Qed.

Lemma reach link lbs : let '(s, tr) := hrun base cfg (hinit cfg link ie0) lbs in
  (exists ls, hinv s ls) /\ hlive s = live_of (fun _ => 0) [] tr.
Proof.
  destruct (hrun base cfg (hinit cfg link ie0) lbs) as [s tr] eqn:E. split.
  - destruct (hinv_run lbs _ _ (hinit_inv link)) as [ls H]. rewrite E in H. eauto.
  - pose proof (live_run lbs _ _ (fun _ => 0) (hinit_inv link)) as H. rewrite E in H. apply H.
    intros d sz. unfold hat. simpl. destruct d as [|[|]]; discriminate.
Qed.

(** ** Live allocations *)
Lemma NoDup_nth_ {A} (l : list A) i j x : NoDup l -> nth_error l i = Some x -> nth_error l j = Some x -> i = j.
Proof.
  intros ND Hi Hj. apply (proj1 (NoDup_nth_error l) ND); [apply nth_error_Some; congruence|congruence].
Qed.

Lemma solid_ptrs l : NoDup (map b_ptr (filter solid l)) -> forall i j b b',
  nth_error l i = Some b -> nth_error l j = Some b' -> i <> j -> 0 < b_len b -> 0 < b_len b' -> b_ptr b <> b_ptr b'.
Proof.
  intros ND i j b b' Hi Hj Hne Hb Hb' E.
  assert (Q : forall i j b b', nth_error l i = Some b -> nth_error l j = Some b' -> (i < j)%nat ->
     0 < b_len b -> 0 < b_len b' -> b_ptr b <> b_ptr b').
  { clear - ND. intros i j b b' Hi Hj Hlt Hb Hb' E.
    destruct (nth_error_split _ _ Hi) as (l1 & l2 & -> & Hl).
    rewrite nth_error_app2 in Hj by lia. destruct (j - length l1)%nat as [|k] eqn:Ek; [lia|]. simpl in Hj.
    rewrite filter_app, map_app in ND. simpl in ND.
    assert (Sb : solid b = true) by (now apply N.ltb_lt). rewrite Sb in ND. simpl in ND.
    apply NoDup_remove_2 in ND. apply ND. apply in_or_app. right. rewrite E. apply in_map. apply filter_In.
    split; [eapply nth_error_In; eauto|now apply N.ltb_lt]. }
  destruct (Nat.lt_trichotomy i j) as [L|[L|L]]; [|easy|].
  - exact (Q i j b b' Hi Hj L Hb Hb' E).
  - exact (Q j i b' b Hj Hi L Hb' Hb (eq_sym E)).
Qed.

Lemma conc_live s ls : hinv s ls ->
  (forall i j b b', nth_error (hlive s) i = Some b -> nth_error (hlive s) j = Some b' -> i <> j ->
     0 < b_len b -> 0 < b_len b' ->
     b_ptr b + b_len b <= b_ptr b' \/ b_ptr b' + b_len b' <= b_ptr b) /\
  (forall b, In b (hlive s) -> b_req b <= b_len b /\ (0 < b_len b ->
     exists i a n, nth_error cfg i = Some (a, b_len b, n) /\
       a <= b_ptr b /\ b_ptr b + b_len b <= a + b_len b * n)).
Proof.
  intros HI. split.
  - intros i j b b' Hi Hj Hne Hb Hb'.
    pose proof (solid_ptrs _ (hi_nd _ _ HI) i j b b' Hi Hj Hne Hb Hb') as Hp.
    destruct (live_slot s ls b HI (nth_error_In _ _ Hi) Hb) as (k & x & a & c & E & S).
    destruct (live_slot s ls b' HI (nth_error_In _ _ Hj) Hb') as (k' & x' & a' & c' & E' & S').
    exact (slots_disjoint _ _ _ _ _ _ _ _ _ _ _ _ _ _ _ Hcfg E E' S S' Hp).
  - intros b Hb. pose proof (hi_live _ _ HI) as F. rewrite Forall_forall in F.
    split; [destruct (F b Hb) as [[A B]|(A & B & _)]; lia|]. intros Hl.
    destruct (live_slot s ls b HI Hb Hl) as (k & x & a & c & E & S). exists k, a, c. split; [exact E|].
    destruct (slot_range _ _ _ _ _ _ _ _ _ Hcfg E S) as (A & B & _). auto.
Qed.
End Proofs.
