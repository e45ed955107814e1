(** Proofs about the contents of allocated memory. *)
Require Import NArith List Bool Arith Lia.
From Verif Require Import AtomicSpec LinSpec Treiber TreiberProofs TreiberSoft Heap HeapSpec HeapProofs HeapConc HeapConcSpec HeapConcProofs HeapUseSpec HeapUse.
Import ListNotations.
Open Scope N_scope.

Lemma mem_N_in x l : mem_N x l = true <-> In x l.
Proof.
  induction l as [|y l IH]; simpl; [easy|]. rewrite orb_true_iff, N.eqb_eq, IH. intuition congruence.
Qed.
Lemma mem_N_out x l : negb (mem_N x l) = true <-> ~ In x l.
Proof. rewrite negb_true_iff, <- mem_N_in. destruct (mem_N x l); intuition congruence. Qed.

Lemma NoDup_app_not_in {A} (l1 l2 : list A) x : NoDup (l1 ++ l2) -> In x l1 -> ~ In x l2.
Proof.
  induction l1 as [|y l1 IH]; intros ND H; [easy|]. cbn in ND. inversion ND; subst. destruct H as [->|H]; [|now apply IH].
  intros G. apply H2. apply in_app_iff. now right.
Qed.

Lemma Forall2_len {A B} (R : A -> B -> Prop) l l' : Forall2 R l l' -> length l = length l'.
Proof. induction 1; cbn; congruence. Qed.

Section Use.
Variable ws : nat.
Variable base : N.
Variable cfg : list pcfg.
Hypothesis Hcfg : wf_cfg ws base cfg.
Variable ie0 : bool.

Notation hstep := (hstep base cfg).
Notation hinv := (hinv cfg ie0).
Notation ustep := (ustep ws base cfg).

(** ** Steps of the pools *)
Lemma hs_alloc h rest sz al : hfs h = HIdle :: rest ->
  fst (hstep h (HLInv (HAlloc sz al))) = HState (hp h) (hie h) (hstart base cfg (HAlloc sz al) :: rest) (hlive h).
Proof. intros E. unfold HeapConc.hstep. rewrite E. reflexivity. Qed.
Lemma hs_give h rest p z h' e r : hfs h = HIdle :: rest -> hstep h (HLInv (HDealloc p z)) = (h', e :: r) ->
  exists l, release p z (hlive h) = Some l /\ hlive h' = l /\ hfs h' = hstart base cfg (HDealloc p z) :: rest.
Proof.
  intros E. unfold HeapConc.hstep. rewrite E. cbn [hcall]. destruct (release p z (hlive h)) as [l|]; [|discriminate].
  intros [= <- _ _]. exists l. auto.
Qed.
Lemma hs_step h o i g rest : hfs h = HIn o i g :: rest ->
  exists i' g', hfs (fst (hstep h HLStep)) = HIn o i' g' :: rest /\ hlive (fst (hstep h HLStep)) = hlive h.
Proof.
  intros E. unfold HeapConc.hstep. rewrite E.
  destruct g; try (destruct (saccess _ _ _ _ _) as [[m ie] g']; cbn; eauto; fail).
  destruct r; try (destruct (saccess _ _ _ _ _) as [[m ie] g']; cbn; eauto; fail).
  destruct (Nat.ltb _ _); cbn; eauto.
Qed.
Lemma hs_write h x v : hfs (fst (hstep h (HLWrite x v))) = hfs h /\ hlive (fst (hstep h (HLWrite x v))) = hlive h.
Proof. unfold HeapConc.hstep. destruct (hfs h) eqn:E; cbn; auto. Qed.
Lemma hs_ret h f rest h' d o : hfs h = f :: rest -> hstep h HLRet = (h', [LReturn d o]) ->
  hfs h' = HIdle :: rest /\ ((exists op, f = HDone op o /\ hlive h' = own_ op o (hlive h)) \/
    exists op i g, f = HIn op i (FDone g) /\ hret cfg op i g = Some o /\ hlive h' = own_ op o (hlive h)).
Proof.
  intros E. unfold HeapConc.hstep. rewrite E. destruct f as [|op i g|op r]; [discriminate| |].
  - destruct g; try discriminate. destruct (hret _ _ _ _) as [x|] eqn:Hr; [|discriminate]. intros [= <- <- <-]. cbn.
    split; [easy|]. right. exists op, i, r. auto.
  - intros [= <- <- <-]. split; [easy|]. left. eauto.
Qed.

(** ** Live blocks *)
Lemma live_one h ls b b' : hinv h ls -> In b (hlive h) -> In b' (hlive h) -> 0 < b_len b -> 0 < b_len b' ->
  b_ptr b = b_ptr b' -> b = b'.
Proof.
  intros HI B B' L L' E. apply In_nth_error in B, B'. destruct B as [i B]. destruct B' as [j B'].
  destruct (Nat.eq_dec i j) as [->|Hne]; [congruence|].
  now elim (solid_ptrs _ (hi_nd _ _ _ _ HI) i j b b' B B' Hne L L').
Qed.
Lemma live_apart h ls b b' : hinv h ls -> In b (hlive h) -> In b' (hlive h) -> 0 < b_len b -> 0 < b_len b' ->
  b_ptr b <> b_ptr b' -> b_ptr b + b_len b <= b_ptr b' \/ b_ptr b' + b_len b' <= b_ptr b.
Proof.
  intros HI B B' L L' E. apply In_nth_error in B, B'. destruct B as [i B]. destruct B' as [j B'].
  destruct (Nat.eq_dec i j) as [->|Hne]; [congruence|].
  apply (proj1 (conc_live ws base cfg Hcfg ie0 h ls HI) i j b b'); auto.
Qed.
Lemma wf_word : forall l lo smin, wf_from ws lo smin l -> forall i a s c, nth_error l i = Some (a, s, c) -> N.of_nat ws <= s.
Proof.
  induction l as [|[[a0 s0] c0] l IH]; intros lo smin W i a s c E; [now destruct i|].
  cbn in W. destruct i; [injection E as <- <- <-; tauto|]. apply (IH _ _ (proj2 (proj2 (proj2 (proj2 (proj2 W))))) i a s c E).
Qed.
Lemma link_apart h ls o i sv x cur rest b : hinv h ls -> hfs h = HIn o i (FLoaded sv (OPush x) cur) :: rest ->
  In b (hlive h) -> 0 < b_len b -> x + N.of_nat ws <= b_ptr b \/ b_ptr b + b_len b <= x.
Proof.
  intros HI E B L. destruct (carried ws base cfg Hcfg ie0 h ls o i _ rest x HI E eq_refl) as [[j S] NH].
  destruct (live_slot cfg ie0 h ls b HI B L) as (k & j' & a & c & En & S').
  destruct S as (a0 & z0 & c0 & En0 & Hj & Hx). assert (S : slot cfg i j x) by (exists a0, z0, c0; auto).
  pose proof (wf_word _ _ _ (proj2 Hcfg) i a0 z0 c0 En0) as W.
  assert (Hne : x <> b_ptr b).
  { intros ->. pose proof (search_owner ws base cfg Hcfg i j _ S) as P1.
    pose proof (search_owner ws base cfg Hcfg k j' _ S') as P2. rewrite P1 in P2. injection P2 as <-.
    apply NH. rewrite (hi_held _ _ _ _ HI i a _ c En). unfold used_in. apply in_map, filter_In. split; [exact B|].
    apply (in_pool_slot ws base cfg Hcfg i j'); auto. }
  destruct (slots_disjoint _ _ _ _ _ _ _ _ _ _ _ _ _ _ _ Hcfg En0 En S S' Hne); lia.
Qed.

(** ** The invariant *)
Definition shape (f : hfr) (u : ufr) : Prop :=
  match u with
  | UPlain => match f with HIdle | HIn (HDealloc _ _) _ _ | HDone (HDealloc _ _) _ => True | _ => False end
  | UGet r => match f with HIn (HAlloc s _) _ _ | HDone (HAlloc s _) _ => s = size_of r | _ => False end
  | UZero _ _ _ _ | UCopy _ _ _ _ => f = HIdle
  | UFree _ _ _ => match f with HIn (HDealloc _ _) _ _ | HDone (HDealloc _ _) _ => True | _ => False end
  end.

Definition fresh1 (u : ufr) : list N :=
  match u with UZero _ q len _ | UCopy _ q len _ | UFree _ q len => news q len | _ => [] end.
Definition freshs (l : list ufr) : list N := concat (map fresh1 l).

Definition holds (mem : N -> N) (p e : N) (g : N -> option N) : Prop := forall k v, k < e -> g k = Some v -> mem (p + k) = v.
Definition old_ok (mem : N -> N) (live : list blk) (r : ureq) (g : N -> option N) : Prop :=
  keeps r <= old_size r /\ keeps r <= size_of r /\
  match old_of r with
  | None => keeps r = 0
  | Some p => old_size r = 0 \/
      exists b, In b live /\ b_ptr b = p /\ 0 < b_len b /\ old_size r <= b_len b /\ 0 < old_size r /\ b_req b <= old_size r /\ holds mem p (old_size r) g
  end.
Definition new_ok (mem : N -> N) (live : list blk) (r : ureq) (q len : N) (g : N -> option N) : Prop :=
  size_of r <= len /\ (len = 0 \/ exists b, In b live /\ b_ptr b = q /\ b_len b = len) /\ holds mem q len g.
Definition frame_ok (K : known) (mem : N -> N) (live : list blk) (d : nat) (u : ufr) : Prop :=
  let snap := snd (then_ K d) in
  let ok r := fst (then_ K d) = r /\ keeps r <= size_of r in
  match u with
  | UPlain => True
  | UGet r => ok r /\ old_ok mem live r snap
  | UZero r q len k => ok r /\ zeroes r = true /\ old_ok mem live r snap /\
      new_ok mem live r q len (fun j => if j <? k then Some 0 else None)
  | UCopy r q len k => ok r /\ old_of r <> None /\ old_ok mem live r snap /\
      new_ok mem live r q len (fun j => if j <? keeps r then (if j <? k then snap j else None) else if zeroes r then Some 0 else None)
  | UFree r q len => ok r /\ new_ok mem live r q len (handed r snap)
  end.
Fixpoint frames_ok (K : known) (mem : N -> N) (live : list blk) (l : list ufr) : Prop :=
  match l with [] => True | u :: r => frame_ok K mem live (length r) u /\ frames_ok K mem live r end.

Record uinv (s : ustate) (K : known) : Prop := {
  ui_h : exists ls, hinv (uh s) ls;
  ui_sh : Forall2 shape (hfs (uh s)) (ufs s);
  ui_nd : NoDup (lent (ufs s));
  ui_fr : frames_ok K (umem s) (hlive (uh s)) (ufs s);
  ui_now : forall b, In b (hlive (uh s)) -> 0 < b_len b -> ~ In (b_ptr b) (freshs (ufs s)) ->
    holds (umem s) (b_ptr b) (b_len b) (fun k => now K (b_ptr b + k))
}.

Lemma fresh_lent u x : In x (fresh1 u) -> In x (has u).
Proof. destruct u; cbn; try tauto; rewrite ?in_app_iff; tauto. Qed.
Lemma freshs_lent l x : In x (freshs l) -> In x (lent l).
Proof.
  unfold freshs, lent. rewrite !in_concat. intros (y & Y & Hx). apply in_map_iff in Y. destruct Y as (u & <- & Hu).
  exists (has u). split; [now apply in_map|now apply fresh_lent].
Qed.

(** Frames of which the blocks are left alone. *)
Definition kept (mem mem' : N -> N) (live live' : list blk) (p : N) : Prop :=
  forall b, In b live -> 0 < b_len b -> b_ptr b = p -> In b live' /\ forall k, k < b_len b -> mem' (p + k) = mem (p + k).
Lemma old_keep mem mem' live live' r g : (forall p, In p (olds r) -> kept mem mem' live live' p) ->
  old_ok mem live r g -> old_ok mem' live' r g.
Proof.
  intros H (A & B & C). split; [exact A|]. split; [exact B|]. unfold olds in H. destruct (old_of r) as [p|]; [|exact C].
  destruct C as [C|C]; [now left|right]. destruct C as (b & C1 & C2 & C3 & C4 & C5 & C5' & C6). destruct (N.eqb_spec (old_size r) 0); [lia|].
  destruct (H p (or_introl eq_refl) b C1 C3 C2) as [D1 D2].
  exists b. repeat (split; [assumption|]). intros k v Hk Hv. rewrite D2 by lia. now apply C6.
Qed.
Lemma new_keep mem mem' live live' r q len g : (forall p, In p (news q len) -> kept mem mem' live live' p) ->
  new_ok mem live r q len g -> new_ok mem' live' r q len g.
Proof.
  intros H (A & B & C). split; [exact A|]. unfold news in H. destruct (N.eqb_spec len 0) as [->|Hl].
  - split; [now left|]. intros k v Hk. lia.
  - destruct B as [B|(b & B1 & B2 & B3)]; [easy|]. destruct (H q (or_introl eq_refl) b B1 ltac:(lia) B2) as [D1 D2].
    split; [right; eauto|]. intros k v Hk Hv. rewrite D2 by lia. now apply C.
Qed.
Lemma frame_keep K K' mem mem' live live' d u : (forall p, In p (has u) -> kept mem mem' live live' p) ->
  then_ K' d = then_ K d -> frame_ok K mem live d u -> frame_ok K' mem' live' d u.
Proof.
  intros H E F. unfold frame_ok in *. rewrite E. destruct u; cbn [has] in H; auto.
  - destruct F as (A & B). split; [exact A|]. now apply (old_keep mem mem' live live').
  - destruct F as (A & Z & B & C). split; [exact A|]. split; [exact Z|]. split.
    + apply (old_keep mem mem' live live'); auto. intros p Hp. apply H. apply in_app_iff. now right.
    + apply (new_keep mem mem' live live'); auto. intros p Hp. apply H. apply in_app_iff. now left.
  - destruct F as (A & Z & B & C). split; [exact A|]. split; [exact Z|]. split.
    + apply (old_keep mem mem' live live'); auto. intros p Hp. apply H. apply in_app_iff. now right.
    + apply (new_keep mem mem' live live'); auto. intros p Hp. apply H. apply in_app_iff. now left.
  - destruct F as (A & C). split; [exact A|]. apply (new_keep mem mem' live live'); auto.
Qed.
Lemma frames_keep K K' mem mem' live live' l : (forall p, In p (lent l) -> kept mem mem' live live' p) ->
  (forall d, (d < length l)%nat -> then_ K' d = then_ K d) -> frames_ok K mem live l -> frames_ok K' mem' live' l.
Proof.
  induction l as [|u l IH]; intros H E F; [easy|]. cbn in F. destruct F as [F1 F2]. unfold lent in *. cbn in H. split.
  - apply (frame_keep K K' mem mem' live live'); [|apply E; cbn; lia|exact F1].
    intros p Hp. apply H. apply in_app_iff. now left.
  - apply IH; [| |exact F2]; [intros p Hp; apply H; apply in_app_iff; now right|intros d Hd; apply E; cbn; lia].
Qed.
Lemma kept_same mem live p : kept mem mem live live p.
Proof. intros b B L E. auto. Qed.

(** The blocks of calls in progress are live. *)
Lemma lent_live K mem live l p : frames_ok K mem live l -> In p (lent l) -> exists b, In b live /\ b_ptr b = p /\ 0 < b_len b.
Proof.
  assert (O : forall r g, old_ok mem live r g -> In p (olds r) -> exists b, In b live /\ b_ptr b = p /\ 0 < b_len b).
  { intros r g (_ & _ & C) Hp. unfold olds in Hp. destruct (old_of r) as [x|]; [|easy]. destruct (N.eqb_spec (old_size r) 0); [easy|]. destruct Hp as [->|[]].
    destruct C as [C|C]; [easy|]. destruct C as (b & C1 & C2 & C3 & _). eauto. }
  assert (W : forall r q len g, new_ok mem live r q len g -> In p (news q len) -> exists b, In b live /\ b_ptr b = p /\ 0 < b_len b).
  { intros r q len g (_ & B & _) Hp. unfold news in Hp. destruct (N.eqb_spec len 0); [easy|]. destruct Hp as [->|[]].
    destruct B as [B|(b & B1 & B2 & B3)]; [easy|]. exists b. repeat split; auto. lia. }
  induction l as [|u l IH]; intros F Hp; [easy|]. cbn in F. destruct F as [F1 F2]. unfold lent in Hp. cbn in Hp.
  apply in_app_iff in Hp. destruct Hp as [Hp|Hp]; [|auto].
  destruct u; cbn in Hp, F1; try tauto; rewrite ?in_app_iff in Hp; try destruct Hp; intuition eauto.
Qed.

(** ** Steps *)
Lemma bput_kept h ls mem b k v p : hinv h ls -> In b (hlive h) -> k < b_len b -> p <> b_ptr b ->
  kept mem (bput mem (b_ptr b + k) v) (hlive h) (hlive h) p.
Proof.
  intros HI B Hk Hp b' B' L' E'. split; [exact B'|]. intros j Hj. unfold bput.
  destruct (N.eqb_spec (p + j) (b_ptr b + k)) as [Q|]; [|reflexivity]. exfalso.
  destruct (live_apart h ls b b' HI B B' ltac:(lia) L' ltac:(congruence)); lia.
Qed.
Lemma linked_kept h ls f rest mem p : hinv h ls -> hfs h = f :: rest -> kept mem (linked ws f mem) (hlive h) (hlive h) p.
Proof.
  intros HI E b B L Ep. split; [exact B|]. intros k Hk. destruct f as [|o i g|]; try reflexivity.
  destruct g as [| | |sv [x| |] cur| | | | | | |]; try reflexivity. cbn. unfold wput.
  destruct (link_apart h ls o i sv x cur rest b HI E B L) as [A|A];
    destruct (N.leb_spec x (p + k)), (N.ltb_spec (p + k) (x + N.of_nat ws)); cbn; try reflexivity; lia.
Qed.
Lemma now_kept mem mem' live live' b g : kept mem mem' live live' (b_ptr b) -> In b live -> 0 < b_len b ->
  holds mem (b_ptr b) (b_len b) g -> holds mem' (b_ptr b) (b_len b) g.
Proof.
  intros Kp B L H k v Hk Hv. destruct (Kp b B L eq_refl) as [_ M]. rewrite M by exact Hk. now apply H.
Qed.
Lemma live_zero h ls b : hinv h ls -> In b (hlive h) -> 0 < b_len b -> 0 < b_req b /\ b_req b <= b_len b.
Proof.
  intros HI B L. pose proof (hi_live _ _ _ _ HI) as F. rewrite Forall_forall in F. destruct (F b B) as [[A _]|(A & A' & _)]; lia.
Qed.
Lemma req_facts s r : req_ok s r = true -> keeps r <= old_size r /\ keeps r <= size_of r /\
  match old_of r with
  | None => keeps r = 0
  | Some p => old_size r = 0 \/ ~ In p (lent (ufs s)) /\
      exists b, In b (hlive (uh s)) /\ b_ptr b = p /\ 0 < b_len b /\ old_size r <= b_len b /\ 0 < old_size r /\ b_req b <= old_size r
  end.
Proof.
  assert (Q : forall p o c, ((o =? 0) || negb (mem_N p (lent (ufs s)))) &&
      (match release p o (hlive (uh s)) with Some _ => true | None => false end) && c = true ->
      (o = 0 \/ ~ In p (lent (ufs s)) /\ exists b, In b (hlive (uh s)) /\ b_ptr b = p /\ 0 < b_len b /\ o <= b_len b /\ 0 < o /\ b_req b <= o) /\ c = true).
  { intros p o c H. rewrite !andb_true_iff in H. destruct H as ((H2 & H3) & H4). split; [|exact H4].
    destruct (N.eqb_spec o 0) as [H1|H1]; [now left|right]. cbn in H2. apply mem_N_out in H2. split; [exact H2|].
    destruct (release p o (hlive (uh s))) as [l|] eqn:R; [|discriminate].
    destruct (release_split _ _ _ _ R) as (l1 & b & l2 & -> & _ & Hp & Hr & Hb). exists b. split; [apply in_elt|]. repeat split; auto; lia. }
  destruct r; cbn; intros H; [repeat split; lia| |]; apply Q in H; destruct H as (A & C); apply N.leb_le in C;
    (split; [lia|]); (split; [lia|exact A]).
Qed.
(** A block is given back. *)
Lemma give_kept h ls p z l mem q : hinv h ls -> release p z (hlive h) = Some l -> z = 0 \/ q <> p -> kept mem mem (hlive h) l q.
Proof.
  intros HI R Hz b B L E. split; [|reflexivity]. destruct (release_split _ _ _ _ R) as (l1 & b0 & l2 & El & -> & Hp & H1 & H2).
  assert (B0 : In b0 (hlive h)) by (rewrite El; apply in_elt).
  rewrite El in B. apply in_app_iff in B. apply in_app_iff. destruct B as [B|[->|B]]; [now left| |now right].
  exfalso. destruct Hz as [->|Hz]; [|congruence]. pose proof (live_zero h ls b HI B0 L). lia.
Qed.
Lemma give_less h p z l b : release p z (hlive h) = Some l -> In b l -> In b (hlive h).
Proof.
  intros R B. destruct (release_split _ _ _ _ R) as (l1 & b0 & l2 & -> & -> & _). rewrite in_app_iff in *. cbn. tauto.
Qed.
Lemma give_gone h ls h' ls' p z l b : hinv h ls -> hinv h' ls' -> hlive h' = l -> release p z (hlive h) = Some l -> 0 < z ->
  In b l -> 0 < b_len b -> b_ptr b <> p.
Proof.
  intros HI HI' <- R Hz B L E. destruct (release_split _ _ _ _ R) as (l1 & b0 & l2 & El & El' & Hp & H1 & H2).
  pose proof (hi_nd _ _ _ _ HI) as ND. rewrite El, filter_app, map_app in ND. cbn [filter] in ND.
  assert (Sb : solid b0 = true) by (apply N.ltb_lt; lia). rewrite Sb in ND. cbn [map] in ND. apply NoDup_remove_2 in ND. apply ND.
  rewrite <- map_app, <- filter_app, <- El'. rewrite Hp, <- E. apply in_map, filter_In. split; [exact B|now apply N.ltb_lt].
Qed.

Lemma shape_start_alloc r : shape (hstart base cfg (HAlloc (size_of r) (align_of r))) (UGet r).
Proof.
  unfold hstart. destruct (_ =? 0); [reflexivity|]. destruct (pool_range_by_layout _ _); [|reflexivity]. destruct (Nat.ltb _ _); reflexivity.
Qed.
Lemma shape_start_give p z u : u = UPlain \/ (exists r q len, u = UFree r q len) -> shape (hstart base cfg (HDealloc p z)) u.
Proof.
  unfold hstart. intros [->|(r & q & len & ->)]; (destruct (_ =? 0); [exact I|]; destruct (pool_by_ptr _ _ _); exact I).
Qed.

(** The call returns with the block [q]. *)
Lemma back_now h ls mem K r q len fs : hinv h ls ->
  fst (then_ K (length fs)) = r -> new_ok mem (hlive h) r q len (handed r (snd (then_ K (length fs)))) ->
  (forall b, In b (hlive h) -> 0 < b_len b -> ~ In (b_ptr b) (news q len ++ freshs fs) ->
    holds mem (b_ptr b) (b_len b) (fun k => now K (b_ptr b + k))) ->
  forall b, In b (hlive h) -> 0 < b_len b -> ~ In (b_ptr b) (freshs fs) ->
    holds mem (b_ptr b) (b_len b) (fun k => now (learn K (UBack (length fs) (Some (q, len)))) (b_ptr b + k)).
Proof.
  intros HI Er (A & B & C) NW b Hb L Hn k v Hk. cbn. rewrite Er.
  destruct (N.leb_spec q (b_ptr b + k)) as [Q1|Q1]; destruct (N.ltb_spec (b_ptr b + k) (q + len)) as [Q2|Q2]; cbn.
  - assert (L0 : len <> 0) by lia. destruct B as [B|(b' & B1 & B2 & B3)]; [easy|].
    assert (b' = b) as <-.
    { destruct (N.eq_dec (b_ptr b') (b_ptr b)) as [E|E]; [apply (live_one h ls b' b HI); auto; lia|].
      destruct (live_apart h ls b' b HI B1 Hb ltac:(lia) L E); lia. }
    rewrite B2. replace (q + k - q) with k by lia. intros Hv. apply C; [lia|exact Hv].
  - destruct (N.eq_dec len 0) as [L0|L0].
    + apply NW; auto. unfold news. rewrite L0. exact Hn.
    + destruct B as [B|(b' & B1 & B2 & B3)]; [easy|]. apply NW; auto. unfold news. destruct (N.eqb_spec len 0); [easy|].
      intros [E|G]; [|now apply Hn]. assert (b' = b) as <- by (apply (live_one h ls b' b HI); auto; try lia; congruence). lia.
  - destruct (N.eq_dec len 0) as [L0|L0]; [apply NW; auto; unfold news; rewrite L0; exact Hn|].
    destruct B as [B|(b' & B1 & B2 & B3)]; [easy|]. apply NW; auto. unfold news. destruct (N.eqb_spec len 0); [easy|].
    intros [E|G]; [|now apply Hn]. lia.
  - destruct (N.eq_dec len 0) as [L0|L0]; [apply NW; auto; unfold news; rewrite L0; exact Hn|].
    destruct B as [B|(b' & B1 & B2 & B3)]; [easy|]. apply NW; auto. unfold news. destruct (N.eqb_spec len 0); [easy|].
    intros [E|G]; [|now apply Hn]. lia.
Qed.

Lemma len_eq s K f fr u ur : uinv s K -> hfs (uh s) = f :: fr -> ufs s = u :: ur -> length fr = length ur.
Proof. intros I Ef Eu. pose proof (ui_sh _ _ I) as SH. rewrite Ef, Eu in SH. inversion SH; subst. eapply Forall2_len; eauto. Qed.

Ltac hyps I Ef Eu :=
  let HI := fresh "HI" in let SH := fresh "SH" in let ND := fresh "ND" in let FR := fresh "FR" in let NW := fresh "NW" in
  destruct (ui_h _ _ I) as [ls HI]; pose proof (ui_sh _ _ I) as SH; pose proof (ui_nd _ _ I) as ND;
  pose proof (ui_fr _ _ I) as FR; pose proof (ui_now _ _ I) as NW; rewrite Eu in ND, FR, NW; rewrite Ef, Eu in SH;
  inversion SH as [|? ? ? ? SH1 SH2]; subst; clear SH; cbn [frames_ok] in FR; destruct FR as [FR1 FR2].

Lemma step_req s K fr ur r : uinv s K -> hfs (uh s) = HIdle :: fr -> ufs s = UPlain :: ur -> req_ok s r = true ->
  uinv (U (fst (hstep (uh s) (HLInv (HAlloc (size_of r) (align_of r))))) (umem s) (UGet r :: ur)) (learn K (UCall (length fr) r)).
Proof.
  intros I Ef Eu R. pose proof (len_eq _ _ _ _ _ _ I Ef Eu) as Hl. hyps I Ef Eu. apply req_facts in R. destruct R as (R1 & R2 & R3).
  constructor; cbn [uh umem ufs].
  - apply (hinv_step ws base cfg Hcfg ie0 _ _ _ HI).
  - rewrite (hs_alloc _ _ _ _ Ef). cbn [hfs]. constructor; [apply shape_start_alloc|exact SH2].
  - unfold lent in *. cbn in *. unfold olds. destruct (old_of r) as [p|]; [|exact ND]. destruct (N.eqb_spec (old_size r) 0); [exact ND|].
    destruct R3 as [R3|R3]; [easy|]. constructor; [|exact ND]. rewrite Eu in R3. apply R3.
  - rewrite (hs_alloc _ _ _ _ Ef). cbn [hlive frames_ok]. split.
    + cbn. rewrite Hl, Nat.eqb_refl. cbn. split; [split; [reflexivity|exact R2]|]. split; [exact R1|]. split; [exact R2|].
      destruct (old_of r) as [p|]; [|exact R3]. destruct R3 as [R3|R3]; [now left|right]. destruct R3 as (R3 & b & B1 & B2 & B3 & B4 & B5 & B6). exists b.
      repeat (split; [assumption|]). intros k v Hk Hv. rewrite <- B2 in Hv |- *.
      apply (NW b B1 B3); [|lia|exact Hv]. intros G. apply R3. rewrite Eu, <- B2. now apply freshs_lent.
    + apply (frames_keep K _ (umem s) _ (hlive (uh s))); [intros; apply kept_same| |exact FR2].
      intros d Hd. cbn. destruct (Nat.eqb_spec d (length fr)); [lia|reflexivity].
  - rewrite (hs_alloc _ _ _ _ Ef). cbn [hlive]. exact NW.
Qed.

Lemma step_give s K fr ur p z h e er : uinv s K -> hfs (uh s) = HIdle :: fr -> ufs s = UPlain :: ur ->
  (z =? 0) || negb (mem_N p (lent (ufs s))) = true -> hstep (uh s) (HLInv (HDealloc p z)) = (h, e :: er) ->
  uinv (U h (umem s) (ufs s)) K.
Proof.
  intros I Ef Eu R H. hyps I Ef Eu. destruct (hs_give _ _ _ _ _ _ _ Ef H) as (l & Rl & <- & Hf).
  destruct (hinv_step ws base cfg Hcfg ie0 _ _ (HLInv (HDealloc p z)) HI) as [ls' HI']. rewrite H in HI'. cbn [fst] in HI'.
  assert (Kp : forall q, In q (lent (ufs s)) -> kept (umem s) (umem s) (hlive (uh s)) (hlive h) q).
  { intros q Hq. apply (give_kept (uh s) ls p z); auto. apply orb_true_iff in R. destruct R as [R|R]; [left; now apply N.eqb_eq|right].
    apply mem_N_out in R. congruence. }
  rewrite Eu in Kp |- *.
  constructor; cbn [uh umem ufs].
  - eauto.
  - rewrite Hf. constructor; [apply shape_start_give; now left|exact SH2].
  - exact ND.
  - apply (frames_keep K _ (umem s) _ (hlive (uh s))); auto. split; auto.
  - intros b B. apply NW. now apply (give_less _ _ _ _ _ Rl).
Qed.

Lemma step_pool s K o i g fr u ur : uinv s K -> hfs (uh s) = HIn o i g :: fr -> ufs s = u :: ur ->
  uinv (U (fst (hstep (uh s) HLStep)) (linked ws (HIn o i g) (umem s)) (ufs s)) K.
Proof.
  intros I Ef Eu. hyps I Ef Eu. destruct (hs_step _ _ _ _ _ Ef) as (i' & g' & Hf & Hl). rewrite Eu.
  constructor; cbn [uh umem ufs].
  - apply (hinv_step ws base cfg Hcfg ie0 _ _ _ HI).
  - rewrite Hf. constructor; [|exact SH2]. destruct u; cbn in *; destruct o; try easy.
  - exact ND.
  - rewrite Hl. apply (frames_keep K _ (umem s) _ (hlive (uh s))); auto; [|split; auto].
    intros p _. apply (linked_kept _ ls _ fr); auto.
  - rewrite Hl. intros b B L Hn. apply (now_kept (umem s) _ (hlive (uh s)) (hlive (uh s))); auto.
    apply (linked_kept _ ls _ fr); auto.
Qed.

(** A byte of the new block is written. *)
Lemma step_poke s K fr u u' ur b k v : uinv s K -> hfs (uh s) = HIdle :: fr -> ufs s = u :: ur ->
  In b (hlive (uh s)) -> k < b_len b -> In (b_ptr b) (fresh1 u) -> has u' = has u -> fresh1 u' = fresh1 u ->
  shape HIdle u' ->
  (forall m', m' = bput (umem s) (b_ptr b + k) v ->
    (forall p, In p (has u) -> p <> b_ptr b -> kept (umem s) m' (hlive (uh s)) (hlive (uh s)) p) ->
    frame_ok K m' (hlive (uh s)) (length ur) u') ->
  let s' := poke ws base cfg s (b_ptr b) (b_ptr b + k) v in uinv (U (uh s') (umem s') (u' :: ur)) K.
Proof.
  intros I Ef Eu B Hk Hb Eh Efr Sh Hu s'. hyps I Ef Eu. subst s'. unfold poke. cbn [uh umem].
  match goal with |- uinv (U (fst (hstep _ (HLWrite ?x ?w))) _ _) _ => destruct (hs_write (uh s) x w) as [Hf Hl] end.
  assert (Kp : forall p, p <> b_ptr b -> kept (umem s) (bput (umem s) (b_ptr b + k) v) (hlive (uh s)) (hlive (uh s)) p).
  { intros p Hp. now apply (bput_kept (uh s) ls). }
  constructor; cbn [uh umem ufs].
  - apply (hinv_step ws base cfg Hcfg ie0 _ _ _ HI).
  - rewrite Hf, Ef. constructor; auto.
  - unfold lent in *. cbn in *. now rewrite Eh.
  - rewrite Hl. split; [apply Hu; auto|]. apply (frames_keep K _ (umem s) _ (hlive (uh s))); auto.
    intros p Hp. apply Kp. intros ->. unfold lent in ND. cbn in ND. revert Hp. apply (NoDup_app_not_in (has u)); auto. now apply fresh_lent.
  - rewrite Hl. intros b' B' L' Hn. unfold freshs in Hn, NW. cbn in Hn, NW. rewrite Efr in Hn.
    apply (now_kept (umem s) _ (hlive (uh s)) (hlive (uh s))); auto. apply Kp. intros E. apply Hn. rewrite E. apply in_app_iff. now left.
Qed.

Lemma has_nd u ur : NoDup (lent (u :: ur)) -> NoDup (has u) /\ NoDup (lent ur).
Proof.
  unfold lent. cbn. generalize (concat (map has ur)). intros l. induction (has u) as [|x h IH]; cbn; intros ND; [split; [constructor|exact ND]|].
  inversion ND as [|? ? N1 N2]; subst. destruct (IH N2) as [A B]. split; [|exact B]. constructor; [|exact A]. intros G. apply N1, in_app_iff. now left.
Qed.
Lemma old_other r q len p ur : NoDup (lent (UZero r q len 0 :: ur)) -> len <> 0 -> In p (olds r) -> p <> q.
Proof.
  intros ND Hl Hp ->. apply has_nd in ND. destruct ND as [ND _]. cbn in ND. unfold news in ND. destruct (N.eqb_spec len 0); [easy|].
  cbn in ND. inversion ND; subst. easy.
Qed.

Lemma step_zero s K fr ur r q len k : uinv s K -> hfs (uh s) = HIdle :: fr -> ufs s = UZero r q len k :: ur -> k < len ->
  let s' := poke ws base cfg s q (q + k) 0 in uinv (U (uh s') (umem s') (UZero r q len (k + 1) :: ur)) K.
Proof.
  intros I Ef Eu Hk. pose proof I as I0. hyps I Ef Eu. destruct FR1 as (A & Z & B & C1 & C2 & C3).
  destruct C2 as [C2|(b & C2 & <- & C4)]; [lia|].
  apply (step_poke s K fr (UZero r (b_ptr b) len k)); auto; [lia|cbn; unfold news; destruct (N.eqb_spec len 0); [lia|now left]|].
  intros m' -> Kp. cbn. split; [exact A|]. split; [exact Z|]. split.
  - apply (old_keep (umem s) _ (hlive (uh s)) (hlive (uh s))); auto. intros p Hp. apply Kp; [cbn; apply in_app_iff; now right|].
    apply (old_other r _ len p ur); auto. lia.
  - split; [exact C1|]. split; [right; eauto|]. intros j v Hj Hv. unfold bput.
    destruct (N.eqb_spec (b_ptr b + j) (b_ptr b + k)) as [E|E].
    + destruct (j <? k + 1); congruence.
    + apply C3; [exact Hj|]. destruct (N.ltb_spec j (k + 1)), (N.ltb_spec j k); auto; lia.
Qed.

Lemma step_copy s K fr ur r q len k p : uinv s K -> hfs (uh s) = HIdle :: fr -> ufs s = UCopy r q len k :: ur ->
  old_of r = Some p -> k < keeps r ->
  let s' := poke ws base cfg s q (q + k) (umem s (p + k)) in uinv (U (uh s') (umem s') (UCopy r q len (k + 1) :: ur)) K.
Proof.
  intros I Ef Eu Ho Hk. pose proof I as I0. hyps I Ef Eu. destruct FR1 as (A & Z & B & C1 & C2 & C3).
  assert (Hl : k < len) by (destruct A; lia).
  destruct C2 as [C2|(b & C2 & <- & C4)]; [lia|].
  apply (step_poke s K fr (UCopy r (b_ptr b) len k)); auto; [lia|cbn; unfold news; destruct (N.eqb_spec len 0); [lia|now left]|].
  intros m' -> Kp. cbn. split; [exact A|]. split; [exact Z|]. split.
  - apply (old_keep (umem s) _ (hlive (uh s)) (hlive (uh s))); auto. intros x Hx. apply Kp; [cbn; apply in_app_iff; now right|].
    apply (old_other r _ len x ur); auto. lia.
  - split; [exact C1|]. split; [right; eauto|]. intros j v Hj Hv. unfold bput.
    destruct (N.eqb_spec (b_ptr b + j) (b_ptr b + k)) as [E|E].
    + assert (j = k) as -> by lia. destruct (N.ltb_spec k (keeps r)); [|lia]. destruct (N.ltb_spec k (k + 1)); [|lia].
      destruct B as (B1 & B2 & B3). rewrite Ho in B3. destruct B3 as [B3|B3]; [lia|]. destruct B3 as (b' & _ & _ & _ & _ & _ & _ & B3). apply B3; [lia|exact Hv].
    + apply C3; [exact Hj|]. destruct (N.ltb_spec j (keeps r)); [|exact Hv].
      destruct (N.ltb_spec j (k + 1)), (N.ltb_spec j k); auto; lia.
Qed.

Lemma step_zeroed s K fr ur r q len k : uinv s K -> hfs (uh s) = HIdle :: fr -> ufs s = UZero r q len k :: ur -> len <= k ->
  let (u', e) := copying r q len in
  uinv (U (uh s) (umem s) (u' :: ur)) (fold_left learn (map (UBack (length fr)) e) K).
Proof.
  intros I Ef Eu Hk. pose proof (len_eq _ _ _ _ _ _ I Ef Eu) as Hl. pose proof I as I0. hyps I Ef Eu.
  destruct FR1 as (A & Z & B & C1 & C2 & C3).
  assert (M : forall j, j < len -> umem s (q + j) = 0).
  { intros j Hj. apply C3; [exact Hj|]. destruct (N.ltb_spec j k); [reflexivity|lia]. }
  unfold copying. destruct (old_of r) as [p|] eqn:Ho; cbn [map fold_left].
  - constructor; cbn [uh umem ufs]; auto; [eauto|rewrite Ef; constructor; [reflexivity|exact SH2]|].
    split; [|exact FR2]. cbn. split; [exact A|]. split; [congruence|]. split; [exact B|]. split; [exact C1|]. split; [exact C2|].
    intros j v Hj Hv. rewrite (M j Hj). destruct (j <? keeps r); [destruct (N.ltb_spec j 0); [lia|discriminate]|]. destruct (zeroes r); congruence.
  - destruct B as (B1 & B2 & B3). rewrite Ho in B3.
    assert (NO : new_ok (umem s) (hlive (uh s)) r q len (handed r (snd (then_ K (length ur))))).
    { split; [exact C1|]. split; [exact C2|]. intros j v Hj. unfold handed. rewrite B3, Z. destruct (N.ltb_spec j 0); [lia|].
      intros [= <-]. now apply M. }
    constructor; cbn [uh umem ufs]; [eauto|rewrite Ef; constructor; [exact Logic.I|exact SH2]|apply (proj2 (has_nd _ _ ND))| |].
    + cbn [frames_ok]. split; [exact Logic.I|]. apply (frames_keep K _ (umem s) _ (hlive (uh s))); auto. intros; apply kept_same.
    + rewrite Hl. cbn [learn]. change (freshs (UPlain :: ur)) with (freshs ur). apply (back_now (uh s) ls (umem s) K r q len ur); auto. apply A.
Qed.

Lemma step_copied0 s K fr ur r q len k : uinv s K -> hfs (uh s) = HIdle :: fr -> ufs s = UCopy r q len k :: ur ->
  keeps r <= k -> uinv (U (uh s) (umem s) (UPlain :: ur)) (learn K (UBack (length fr) (Some (q, len)))).
Proof.
  intros I Ef Eu Hk. pose proof (len_eq _ _ _ _ _ _ I Ef Eu) as Hl. pose proof I as I0. hyps I Ef Eu. destruct FR1 as (A & Z & B & C).
  rewrite Hl. constructor; cbn [uh umem ufs]; [eauto|rewrite Ef; constructor; [exact Logic.I|exact SH2]|apply (proj2 (has_nd _ _ ND))| |].
  - split; [exact Logic.I|]. apply (frames_keep K _ (umem s) _ (hlive (uh s))); auto. intros; apply kept_same.
  - change (freshs (UPlain :: ur)) with (freshs ur). apply (back_now (uh s) ls (umem s) K r q len ur); auto; [apply A|].
    destruct C as (C1 & C2 & C3). split; [exact C1|]. split; [exact C2|]. intros j v Hj Hv. apply C3; [exact Hj|].
    unfold handed in Hv. destruct (N.ltb_spec j (keeps r)); [|exact Hv]. destruct (N.ltb_spec j k); [exact Hv|lia].
Qed.

Lemma step_copied s K fr ur r q len k p h e er : uinv s K -> hfs (uh s) = HIdle :: fr -> ufs s = UCopy r q len k :: ur ->
  old_of r = Some p -> keeps r <= k -> hstep (uh s) (HLInv (HDealloc p (old_size r))) = (h, e :: er) ->
  uinv (U h (umem s) (UFree r q len :: ur)) K.
Proof.
  intros I Ef Eu Ho Hk H. pose proof I as I0. hyps I Ef Eu. destruct FR1 as (A & Z & B & C).
  destruct (hs_give _ _ _ _ _ _ _ Ef H) as (l & Rl & <- & Hf).
  destruct (hinv_step ws base cfg Hcfg ie0 _ _ (HLInv (HDealloc p (old_size r))) HI) as [ls' HI']. rewrite H in HI'. cbn [fst] in HI'.
  assert (Kp : forall x, old_size r = 0 \/ x <> p -> kept (umem s) (umem s) (hlive (uh s)) (hlive h) x) by (intros x Hx; apply (give_kept (uh s) ls p (old_size r)); auto).
  assert (NDs : NoDup (news q len ++ lent ur) /\ forall x, In x (news q len) \/ In x (lent ur) -> old_size r = 0 \/ x <> p).
  { unfold lent in ND. cbn in ND. unfold olds in ND. rewrite Ho, <- app_assoc in ND. change (concat (map has ur)) with (lent ur) in ND.
    destruct (N.eqb_spec (old_size r) 0) as [E0|E0]; cbn in ND; [split; auto|].
    split; [apply (NoDup_remove_1 _ _ _ ND)|]. intros x Hx. right. intros ->. apply NoDup_remove_2 in ND. apply ND. now apply in_app_iff. }
  destruct NDs as [ND1 ND2].
  constructor; cbn [uh umem ufs].
  - eauto.
  - rewrite Hf. constructor; [apply shape_start_give; right; eauto|exact SH2].
  - exact ND1.
  - cbn [frames_ok frame_ok]. split.
    + split; [exact A|]. apply (new_keep (umem s) _ (hlive (uh s))).
      * intros x Hx. apply Kp, ND2. now left.
      * destruct C as (C1 & C2 & C3). split; [exact C1|]. split; [exact C2|]. intros j v Hj Hv. apply C3; [exact Hj|].
        unfold handed in Hv. destruct (N.ltb_spec j (keeps r)); [|exact Hv]. destruct (N.ltb_spec j k); [exact Hv|lia].
    + apply (frames_keep K _ (umem s) _ (hlive (uh s))); auto.
  - intros b B0. apply NW. now apply (give_less _ _ _ _ _ Rl).
Qed.

Lemma kept_more mem live live' p : (forall b, In b live -> In b live') -> kept mem mem live live' p.
Proof. intros H b B L E. auto. Qed.

(** An allocation returns. *)
Lemma step_got s K fr ur r h ls' o al : uinv s K -> length fr = length ur -> ufs s = UGet r :: ur -> Forall2 shape fr ur ->
  hinv h ls' -> hfs h = HIdle :: fr -> hlive h = own_ (HAlloc (size_of r) al) o (hlive (uh s)) ->
  let (u', e) := got r o in uinv (U h (umem s) (u' :: ur)) (fold_left learn (map (UBack (length fr)) e) K).
Proof.
  intros I Hl Eu SH2 HI' Hf Hlive. pose proof (ui_nd _ _ I) as ND. pose proof (ui_fr _ _ I) as FR. pose proof (ui_now _ _ I) as NW.
  rewrite Eu in ND, FR, NW. cbn [frames_ok] in FR. destruct FR as [[A B] FR2].
  assert (Sub : forall b, In b (hlive (uh s)) -> In b (hlive h)).
  { intros b Hb. rewrite Hlive. cbn. destruct o; auto. apply in_app_iff. now left. }
  assert (Plain : forall K', then_ K' = then_ K -> frames_ok K' (umem s) (hlive h) (UPlain :: ur)).
  { intros K' EK. split; [exact Logic.I|]. apply (frames_keep K _ (umem s) _ (hlive (uh s))); auto; [intros; now apply kept_more|now rewrite EK]. }
  assert (Fail : hlive h = hlive (uh s) -> uinv (U h (umem s) (UPlain :: ur)) K).
  { intros E. constructor; cbn [uh umem ufs]; [eauto|rewrite Hf; now constructor|apply (proj2 (has_nd _ _ ND))|now apply Plain|].
    rewrite E. exact NW. }
  unfold got. destruct o as [q len| |]; [|now apply Fail..]. cbn in Hlive.
  set (n := Blk q len (size_of r) (fun _ => None)) in *.
  assert (Bn : In n (hlive h)) by (rewrite Hlive; apply in_elt).
  assert (Sz : size_of r <= len).
  { pose proof (hi_live _ _ _ _ HI') as F. rewrite Forall_forall in F. destruct (F n Bn) as [[F1 F2]|(F1 & F2 & _)]; cbn in *; lia. }
  assert (Nq : len <> 0 -> ~ In q (lent (UGet r :: ur))).
  { intros L0 G. apply (lent_live K (umem s) (hlive (uh s)) (UGet r :: ur)) in G; [|split; [split; [exact A|exact B]|exact FR2]]. destruct G as (b & B1 & B2 & B3).
    pose proof (hi_nd _ _ _ _ HI') as N1. rewrite Hlive, filter_app, map_app in N1. cbn [filter] in N1.
    assert (Sn : solid n = true) by (apply N.ltb_lt; cbn; lia). rewrite Sn in N1. cbn [map] in N1. apply NoDup_remove_2 in N1.
    apply N1. rewrite app_nil_r. cbn. rewrite <- B2. apply in_map, filter_In. split; [exact B1|now apply N.ltb_lt]. }
  assert (NDn : NoDup (news q len ++ lent (UGet r :: ur))).
  { unfold news. destruct (N.eqb_spec len 0); [exact ND|]. cbn. constructor; [now apply Nq|exact ND]. }
  assert (Nw : forall b, In b (hlive h) -> 0 < b_len b -> ~ In (b_ptr b) (news q len ++ freshs ur) ->
    holds (umem s) (b_ptr b) (b_len b) (fun k => now K (b_ptr b + k))).
  { intros b Hb Lb Hn. rewrite Hlive in Hb. apply in_app_iff in Hb. destruct Hb as [Hb|[<-|[]]].
    - apply NW; auto. intros G. apply Hn, in_app_iff. now right.
    - exfalso. apply Hn. cbn in Lb. cbn. unfold news. destruct (N.eqb_spec len 0); [lia|]. now left. }
  assert (B' : old_ok (umem s) (hlive h) r (snd (then_ K (length ur)))).
  { apply (old_keep (umem s) _ (hlive (uh s))); auto. intros; now apply kept_more. }
  assert (R' : frames_ok K (umem s) (hlive h) ur) by (apply (Plain K eq_refl)).
  assert (Nn : len = 0 \/ exists b, In b (hlive h) /\ b_ptr b = q /\ b_len b = len) by (right; exists n; auto).
  assert (Shift : NoDup ((news q len ++ olds r) ++ lent ur)) by (rewrite <- app_assoc; exact NDn).
  destruct (zeroes r) eqn:Z.
  - cbn [map fold_left]. constructor; cbn [uh umem ufs]; [eauto|rewrite Hf; constructor; [reflexivity|exact SH2]|exact Shift| |].
    + split; [|exact R']. cbn. split; [exact A|]. split; [exact Z|]. split; [exact B'|]. split; [exact Sz|]. split; [exact Nn|].
      intros j v Hj Hv. destruct (N.ltb_spec j 0); [lia|discriminate].
    + exact Nw.
  - unfold copying. destruct (old_of r) as [p|] eqn:Ho; cbn [map fold_left].
    + constructor; cbn [uh umem ufs]; [eauto|rewrite Hf; constructor; [reflexivity|exact SH2]|exact Shift| |].
      * split; [|exact R']. cbn. split; [exact A|]. split; [congruence|]. split; [exact B'|]. split; [exact Sz|]. split; [exact Nn|].
        intros j v Hj Hv. rewrite Z in Hv. destruct (j <? keeps r); [destruct (N.ltb_spec j 0); [lia|discriminate]|discriminate].
      * exact Nw.
    + rewrite Hl. constructor; cbn [uh umem ufs]; [eauto|rewrite Hf; constructor; [exact Logic.I|exact SH2]|apply (proj2 (has_nd _ _ ND))|now apply Plain|].
      change (freshs (UPlain :: ur)) with (freshs ur). apply (back_now h ls' (umem s) K r q len ur); auto; [apply A|].
      split; [exact Sz|]. split; [exact Nn|]. intros j v Hj. unfold handed. rewrite Z. destruct B as (_ & _ & B). rewrite Ho in B. rewrite B.
      destruct (N.ltb_spec j 0); [lia|discriminate].
Qed.

Lemma uinv_step s K l : uinv s K -> uinv (fst (ustep s l)) (fold_left learn (snd (ustep s l)) K).
Proof.
  intros I. unfold HeapUse.ustep. destruct (hfs (uh s)) as [|f fr] eqn:Ef; [exact I|]. destruct (ufs s) as [|u ur] eqn:Eu; [exact I|].
  pose proof (len_eq _ _ _ _ _ _ I Ef Eu) as Hl. rewrite <- Eu.
  destruct l as [r|p z| | | | |a v|a].
  - destruct f; try exact I. destruct u; try exact I. destruct (req_ok s r) eqn:R; [|exact I]. now apply step_req.
  - destruct f; try exact I. destruct u; try exact I. destruct (_ || _) eqn:R; [|exact I].
    destruct (hstep _ _) as [h [|e er]] eqn:H; [exact I|]. now apply (step_give s K fr ur p z h e er).
  - destruct f as [|o i g|o g]; [|apply (step_pool s K o i g fr u ur); auto|destruct u; exact I].
    destruct u as [|r|r q len k|r q len k|r q len]; try exact I.
    + destruct (N.ltb_spec k len) as [Hk|Hk]; [now apply (step_zero s K fr ur r q len k)|].
      pose proof (step_zeroed s K fr ur r q len k I Ef Eu Hk) as Q. destruct (copying r q len) as [u' e]. exact Q.
    + destruct (old_of r) as [p|] eqn:Ho; [|exact I]. destruct (N.ltb_spec k (keeps r)) as [Hk|Hk]; [now apply (step_copy s K fr ur r q len k p)|].
      destruct (old_size r =? 0); [now apply (step_copied0 s K fr ur r q len k)|].
      destruct (hstep _ _) as [h [|e er]] eqn:H; [exact I|]. now apply (step_copied s K fr ur r q len k p h e er).
  - destruct (hstep (uh s) HLRet) as [h e] eqn:H. destruct e as [|[d0 op0|d0 o] [|]]; try exact I.
    pose proof I as I0. hyps I Ef Eu. destruct (hinv_step ws base cfg Hcfg ie0 _ _ HLRet HI) as [ls' HI']. rewrite H in HI'. cbn [fst] in HI'.
    destruct (hs_ret _ _ _ _ _ _ Ef H) as [Hf Hr].
    assert (Hop : exists op, hlive h = own_ op o (hlive (uh s)) /\
      match op with HDealloc _ _ => True | HAlloc sz _ => exists r, u = UGet r /\ sz = size_of r end /\
      match u with UGet _ => match op with HDealloc _ _ => False | _ => True end | _ => True end).
    { destruct Hr as [(op & -> & E)|(op & i & g & -> & _ & E)]; exists op; (split; [exact E|]);
        destruct u; cbn in SH1; destruct op; try easy; eauto. }
    assert (Same : match u with UPlain | UFree _ _ _ => hlive h = hlive (uh s) | _ => True end).
    { destruct Hop as ([sz al|p z] & E & O1 & O2); [destruct O1 as (r & -> & _); exact Logic.I|]. cbn in E. destruct u; auto. }
    destruct u as [|r|r q len k|r q len k|r q len]; try exact I0.
    + cbn [fst snd fold_left learn]. rewrite Eu. constructor; cbn [uh umem ufs]; [eauto|rewrite Hf; constructor; [exact Logic.I|exact SH2]|exact ND| |].
      * rewrite Same. split; auto.
      * rewrite Same. exact NW.
    + destruct Hop as ([sz al|p z] & E & O1 & O2); [|easy]. destruct O1 as (r' & [= <-] & ->).
      pose proof (step_got s K fr ur r h ls' o al I0 Hl Eu SH2 HI' Hf E) as Q. destruct (got r o) as [u' e]. exact Q.
    + cbn [fst snd fold_left]. destruct FR1 as [A C]. constructor; cbn [uh umem ufs];
        [eauto|rewrite Hf; constructor; [exact Logic.I|exact SH2]|apply (proj2 (has_nd _ _ ND))| |]; rewrite Same, Hl.
      * split; [exact Logic.I|]. apply (frames_keep K _ (umem s) _ (hlive (uh s))); auto. intros; apply kept_same.
      * change (freshs (UPlain :: ur)) with (freshs ur). apply (back_now (uh s) ls (umem s) K r q len ur); auto. apply A.
  - destruct (hie (uh s)) eqn:R; [|exact I]. hyps I Ef Eu. cbn [fst snd fold_left].
    assert (E : hfs (fst (hstep (uh s) HLIrq)) = HIdle :: f :: fr /\ hlive (fst (hstep (uh s) HLIrq)) = hlive (uh s)).
    { unfold HeapConc.hstep. rewrite Ef, R. auto. }
    destruct E as [E1 E2]. constructor; cbn [uh umem ufs].
    + apply (hinv_step ws base cfg Hcfg ie0 _ _ _ HI).
    + rewrite E1, Eu. constructor; [exact Logic.I|]. now constructor.
    + rewrite Eu. exact ND.
    + rewrite E2, Eu. split; [exact Logic.I|]. split; auto.
    + rewrite E2, Eu. exact NW.
  - destruct f; try exact I. destruct u; try exact I. destruct fr as [|f' fr]; [exact I|]. hyps I Ef Eu. cbn [fst snd fold_left].
    assert (E : hfs (fst (hstep (uh s) HLIret)) = f' :: fr /\ hlive (fst (hstep (uh s) HLIret)) = hlive (uh s)).
    { unfold HeapConc.hstep. rewrite Ef. auto. }
    destruct E as [E1 E2]. constructor; cbn [uh umem ufs].
    + apply (hinv_step ws base cfg Hcfg ie0 _ _ _ HI).
    + rewrite E1. exact SH2.
    + exact ND.
    + rewrite E2. exact FR2.
    + rewrite E2. exact NW.
  - destruct (mine s a) as [b|] eqn:M; [|exact I]. apply find_some in M. destruct M as [Bl M]. rewrite !andb_true_iff in M.
    destruct M as ((M1 & M2) & M3). apply N.leb_le in M1. apply N.ltb_lt in M2. apply mem_N_out in M3.
    destruct (ui_h _ _ I) as [ls HI].
    assert (Kp : forall p, p <> b_ptr b -> kept (umem s) (bput (umem s) a v) (hlive (uh s)) (hlive (uh s)) p).
    { intros p Hp. replace a with (b_ptr b + (a - b_ptr b)) by lia. apply (bput_kept (uh s) ls); auto. lia. }
    cbn [fst snd fold_left]. unfold poke.
    match goal with |- uinv (U (fst (hstep _ (HLWrite ?x ?w))) _ _) _ => destruct (hs_write (uh s) x w) as [Hf Hlv] end.
    constructor; cbn [uh umem ufs].
    + apply (hinv_step ws base cfg Hcfg ie0 _ _ _ HI).
    + rewrite Hf. apply (ui_sh _ _ I).
    + apply (ui_nd _ _ I).
    + rewrite Hlv. apply (frames_keep K _ (umem s) _ (hlive (uh s))); [| |apply (ui_fr _ _ I)].
      * intros p Hp. apply Kp. congruence.
      * reflexivity.
    + rewrite Hlv. intros b' B' L' Hn. pose proof (ui_now _ _ I b' B' L' Hn) as Q. intros k w Hk. cbn. unfold bput.
      destruct (N.eqb_spec (b_ptr b' + k) a) as [E|E]; [congruence|]. apply Q. exact Hk.
  - destruct (mine s a); exact I.
Qed.

Lemma step_read s K l a v : uinv s K -> In (URead a v) (snd (ustep s l)) -> snd (ustep s l) = [URead a v] /\ forall w, now K a = Some w -> v = w.
Proof.
  intros I. unfold HeapUse.ustep. destruct (hfs (uh s)) as [|f fr] eqn:Ef; [easy|]. destruct (ufs s) as [|u ur] eqn:Eu; [easy|].
  destruct l as [r|p z| | | | |b w|b].
  - destruct f; try easy. destruct u; try easy. destruct (req_ok s r); intros [H|[]] || intros []; discriminate.
  - destruct f; try easy. destruct u; try easy. destruct (_ || _); [|easy]. destruct (hstep _ _) as [h [|e er]]; [easy|]. intros [H|[]]. discriminate.
  - destruct f; try easy; destruct u; try easy.
    + destruct (_ <? _); [easy|]. unfold copying. destruct (old_of r); cbn; [easy|]. intros [H|[]]. discriminate.
    + destruct (old_of r); [|easy]. destruct (_ <? _); [easy|]. destruct (_ =? 0); [intros [H|[]]; discriminate|]. destruct (hstep _ _) as [h [|e er]]; easy.
  - destruct (hstep _ _) as [h [|[d op|d o] [|]]]; try easy. destruct u; try easy.
    + intros [H|[]]. discriminate.
    + unfold got, copying. destruct o; cbn; try (destruct (zeroes r); [easy|]; destruct (old_of r); cbn; [easy|]); intros [H|[]]; discriminate.
    + intros [H|[]]. discriminate.
  - destruct (hie _); easy.
  - destruct f; try easy. destruct u; try easy. destruct fr; easy.
  - destruct (mine s b); [|easy]. intros [H|[]]. discriminate.
  - destruct (mine s b) as [c|] eqn:M; [|easy]. intros [[= <- <-]|[]]. split; [reflexivity|]. intros w Hw.
    apply find_some in M. destruct M as [Bl M]. rewrite !andb_true_iff in M.
    destruct M as ((M1 & M2) & M3). apply N.leb_le in M1. apply N.ltb_lt in M2. apply mem_N_out in M3.
    pose proof (ui_now _ _ I c Bl ltac:(lia)) as Q. specialize (Q ltac:(intros G; apply M3; now apply freshs_lent)).
    specialize (Q (b - b_ptr c) w ltac:(lia)). cbn in Q. replace (b_ptr c + (b - b_ptr c)) with b in Q by lia. auto.
Qed.

Lemma urun_inv ls : forall s K, uinv s K -> uinv (fst (urun ws base cfg s ls)) (fold_left learn (snd (urun ws base cfg s ls)) K).
Proof.
  induction ls as [|l ls IH]; intros s K I; [exact I|]. cbn [urun]. pose proof (uinv_step s K l I) as I1.
  destruct (ustep s l) as [s1 e1]. cbn [fst snd] in I1. specialize (IH s1 _ I1). destruct (urun ws base cfg s1 ls) as [s2 e2]. cbn [fst snd] in *.
  now rewrite fold_left_app.
Qed.
Lemma urun_reads ls : forall s K, uinv s K -> forall h1 a v h2 w,
  snd (urun ws base cfg s ls) = h1 ++ URead a v :: h2 -> now (fold_left learn h1 K) a = Some w -> v = w.
Proof.
  induction ls as [|l ls IH]; intros s K I h1 a v h2 w E Hw; [now destruct h1|]. cbn [urun] in E.
  pose proof (uinv_step s K l I) as I1. pose proof (step_read s K l) as R.
  destruct (ustep s l) as [s1 e1]. cbn [fst snd] in I1, R. specialize (IH s1 _ I1). destruct (urun ws base cfg s1 ls) as [s2 e2]. cbn [fst snd] in *.
  assert (Q : forall e1 h1 e2, e1 ++ e2 = h1 ++ URead a v :: h2 ->
    (exists x, h1 = e1 ++ x /\ e2 = x ++ URead a v :: h2) \/ In (URead a v) e1).
  { clear. induction e1 as [|e e1 IH]; intros h1 e2 E; [left; exists h1; auto|]. destruct h1 as [|e' h1]; injection E as <- E; [right; now left|].
    destruct (IH _ _ E) as [(x & -> & ->)|H]; [left; exists x; auto|right; now right]. }
  destruct (Q _ _ _ E) as [(x & -> & Ex)|H].
  - rewrite fold_left_app in Hw. eapply IH; eauto.
  - destruct (R a v I H) as [-> R2]. destruct h1 as [|e' h1]; [now apply R2|]. injection E as <- E.
    rewrite E in IH. refine (IH h1 a v h2 w eq_refl _). exact Hw.
Qed.

Lemma uinv_init m : uinv (uinit ws cfg m ie0) known0.
Proof.
  constructor; cbn.
  - exists (fun _ => []). apply (hinit_inv ws base cfg Hcfg ie0).
  - constructor; [exact Logic.I|constructor].
  - constructor.
  - auto.
  - easy.
Qed.
End Use.
