(** Invariants of the streams over restarts. *)
Require Import NArith List Bool Arith Lia.
From Verif Require Import Stream StreamSpec StreamProofs P05_Stream BootSpec Boot.
Import ListNotations.
Open Scope N_scope.

(** ** Memory *)
Lemma poke_out bs : forall m a x, x < a \/ a + N.of_nat (length bs) <= x -> poke m a bs x = m x.
Proof.
  induction bs as [|b r IH]; intros m a x H; [easy|]. cbn [poke]. simpl length in H.
  rewrite IH by lia. unfold bput. destruct (N.eqb_spec x a); [lia|easy].
Qed.
Lemma poke_in bs : forall m a i, (i < length bs)%nat -> poke m a bs (a + N.of_nat i) = nth i bs 0.
Proof.
  induction bs as [|b r IH]; intros m a i H; [simpl in H; lia|]. cbn [poke]. destruct i as [|i].
  - rewrite poke_out by (simpl; lia). unfold bput. simpl N.of_nat. now rewrite N.add_0_r, N.eqb_refl.
  - simpl length in H. replace (a + N.of_nat (S i)) with (a + 1 + N.of_nat i) by lia. rewrite IH by lia. easy.
Qed.
Lemma map_nth_seq (l : list N) : map (fun i => nth i l 0) (seq 0 (length l)) = l.
Proof.
  induction l as [|x l IH]; [easy|]. simpl. f_equal. rewrite <- seq_shift, map_map. exact IH.
Qed.
Lemma poke_starts m a x y : starts_with (poke m a (x ++ y)) a x.
Proof.
  unfold starts_with, bytes_at. rewrite Nnat.Nat2N.id. transitivity (map (fun i => nth i x 0) (seq 0 (length x))); [|apply map_nth_seq].
  apply map_ext_in. intros i Hi. apply in_seq in Hi. rewrite poke_in by (rewrite app_length; lia).
  now rewrite app_nth1 by lia.
Qed.
Lemma starts_hd m a boot : boot <> [] -> starts_with m a boot -> m a = hd 0 boot.
Proof.
  destruct boot as [|b r]; [easy|]. intros _ H. unfold starts_with, bytes_at in H.
  rewrite Nnat.Nat2N.id in H. simpl in H. injection H as H _. now rewrite N.add_0_r in H.
Qed.
Lemma starts_ext m m' a b boot : (forall i, i < N.of_nat (length boot) -> m (a + i) = m' (b + i)) ->
  starts_with m a boot <-> starts_with m' b boot.
Proof.
  intros E. unfold starts_with, bytes_at. rewrite Nnat.Nat2N.id.
  rewrite (map_ext_in (fun i => m (a + N.of_nat i)) (fun i => m' (b + N.of_nat i))); [easy|].
  intros i Hi. apply in_seq in Hi. apply E. lia.
Qed.

(** ** Words *)
Definition quad (m : N -> N) (a v : N) : Prop := forall i, (i < 4)%nat -> m (a + N.of_nat i) = nth i (le4 v) 0.
Lemma le4_sum v : v < 2 ^ 32 ->
  v mod 256 + 256 * (v / 256 mod 256) + 65536 * (v / 65536 mod 256) + 16777216 * (v / 16777216 mod 256) = v.
Proof.
  intros B. change (2 ^ 32) with 4294967296 in B.
  rewrite (N.mod_small (v / 16777216) 256) by (apply N.div_lt_upper_bound; lia).
  replace (v / 16777216) with (v / 65536 / 256) by (now rewrite N.div_div by lia).
  replace (v / 65536) with (v / 256 / 256) by (now rewrite N.div_div by lia).
  pose proof (N.div_mod v 256 ltac:(lia)). pose proof (N.div_mod (v / 256) 256 ltac:(lia)).
  pose proof (N.div_mod (v / 256 / 256) 256 ltac:(lia)). lia.
Qed.
Lemma get4_quad m a v : v < 2 ^ 32 -> quad m a v -> get4 m a = v.
Proof.
  intros B Q. pose proof (Q 0%nat ltac:(lia)) as Q0. pose proof (Q 1%nat ltac:(lia)) as Q1.
  pose proof (Q 2%nat ltac:(lia)) as Q2. pose proof (Q 3%nat ltac:(lia)) as Q3.
  cbn [nth le4 N.of_nat] in *. rewrite N.add_0_r in Q0.
  change (a + N.pos (Pos.of_succ_nat 0)) with (a + 1) in Q1. change (a + N.pos (Pos.of_succ_nat 1)) with (a + 2) in Q2.
  change (a + N.pos (Pos.of_succ_nat 2)) with (a + 3) in Q3.
  unfold get4. rewrite Q0, Q1, Q2, Q3. now apply le4_sum.
Qed.
Lemma four (P : nat -> Prop) : P 0%nat -> P 1%nat -> P 2%nat -> P 3%nat -> forall i, (i < 4)%nat -> P i.
Proof. intros ? ? ? ? [|[|[|[|i]]]] H; auto; lia. Qed.
Lemma byte_le4 v i : (i < 4)%nat -> byte v (N.of_nat i) = nth i (le4 v) 0.
Proof.
  revert i. apply four; unfold byte, le4; cbn [nth]; cbn; try reflexivity. now rewrite N.div_1_r.
Qed.
Lemma word_ok_lt v : word_ok v = true -> v < 2 ^ 32.
Proof. apply N.ltb_lt. Qed.

Lemma flat_stream mask m a : flat mask m (16 + a) = m a.
Proof.
  unfold flat. destruct (N.ltb_spec (16 + a) 4); [lia|]. destruct (N.ltb_spec (16 + a) 16); [lia|].
  f_equal. lia.
Qed.
Lemma flat_mask mask m : quad (flat mask m) 0 mask.
Proof.
  intros i H. unfold flat. destruct (N.ltb_spec (0 + N.of_nat i) 4); [|lia]. f_equal. lia.
Qed.

Section Inv.
Variables (boot : list N) (ds : list dstream) (mask0 : N).
Hypothesis boot_nonempty : boot <> [].
Hypothesis boot_high : stream_count <= hd 0 boot.
Hypothesis sizes : forall k d, nth_error ds k = Some d -> d_size d < 2 ^ 32.
Hypothesis mask0_ok : mask0 < 2 ^ 32.

Definition primary (k : nat) : bool := match nth_error ds k with Some d => d_primary d | None => false end.

Definition request (m : N -> N) (rt : runtime) (v : N) : Prop :=
  starts_with m 12 boot /\ rt_ok rt = true /\ word_ok v = true /\
  forall i, (i < 16)%nat -> m (12 + N.of_nat (length boot) + N.of_nat i) = nth i (words rt ++ le4 v) 0.

Lemma request_poke m rt v : rt_ok rt = true -> word_ok v = true ->
  request (poke m 12 (boot ++ words rt ++ le4 v)) rt v.
Proof.
  intros A B. split; [apply poke_starts|]. split; [easy|]. split; [easy|]. intros i H.
  replace (12 + N.of_nat (length boot) + N.of_nat i) with (12 + N.of_nat (length boot + i)) by lia.
  rewrite poke_in.
  - rewrite app_nth2 by lia. f_equal. lia.
  - rewrite app_length. change (length (words rt ++ le4 v)) with 16%nat. lia.
Qed.

(** ** Initialisation *)
Lemma init_adopts mask m d rt v : request m rt v -> d_size d < 2 ^ 32 -> mask < 2 ^ 32 ->
  let m' := stream_init boot (flat mask m) 16 0 (d_size d) (d_primary d) in
  struct_of (smem (open m')) = rt /\ get4 m' 0 = (if d_primary d then v else mask) /\ sbuf (smem (open m')) 0 = 0.
Proof.
  intros (St & Rok & Vok & Q) Sz Mk m'.
  assert (St' : starts_with (flat mask m) (16 + 12) boot).
  { apply (starts_ext _ m (16 + 12) 12); [|exact St]. intros i _. rewrite <- N.add_assoc. apply flat_stream. }
  destruct (C59_init boot (flat mask m) 16 0 (d_size d) (d_primary d)) as [A _]; auto; try lia.
  { unfold stream_count in *. lia. }
  destruct (A St') as (A1 & A2 & _ & _). fold m' in A1, A2. clear A.
  assert (R : forall i, (i < 12)%nat -> m' (16 + N.of_nat i) = nth i (words rt ++ le4 v) 0).
  { intros i H. rewrite A1 by lia. rewrite <- Q by lia. rewrite <- (flat_stream mask m).
    f_equal. lia. }
  unfold rt_ok in Rok. apply andb_true_iff in Rok. destruct Rok as [Rok R3]. apply andb_true_iff in Rok.
  destruct Rok as [R1 R2]. apply word_ok_lt in R1, R2, R3, Vok.
  assert (F : forall k w, (k < 3)%nat -> w < 2 ^ 32 ->
     (forall i, (i < 4)%nat -> nth (4 * k + i) (words rt ++ le4 v) 0 = nth i (le4 w) 0) ->
     get4 m' (16 + 4 * N.of_nat k) = w).
  { intros k w Hk Hw E. apply get4_quad; [easy|]. intros i Hi. rewrite <- E by easy. rewrite <- R by lia. f_equal. lia. }
  split; [|split].
  - unfold struct_of, open. cbn [smem ssize sr sw]. destruct rt as [a b c]. cbn [rt_size rt_r rt_w] in *.
    rewrite <- (F 0%nat a), <- (F 1%nat b), <- (F 2%nat c); auto; try lia;
      apply four; reflexivity.
  - destruct (d_primary d).
    + apply get4_quad; [easy|]. intros i Hi. rewrite A2 by lia.
      pose proof (Q (12 + i)%nat ltac:(lia)) as Qi.
      replace (nth (12 + i) (words rt ++ le4 v) 0) with (nth i (le4 v) 0) in Qi
        by (rewrite app_nth2 by (change (length (words rt)) with 12%nat; lia);
            change (length (words rt)) with 12%nat; f_equal; lia).
      rewrite <- Qi, <- (flat_stream mask m). f_equal. lia.
    + apply get4_quad; [easy|]. intros i Hi. rewrite A2 by lia. now apply flat_mask.
  - unfold m', stream_init. destruct (match_boot_spec (flat mask m) boot (16 + runtime_size)) as [[_ E]|[C _]].
    + rewrite E. cbn [N.eqb]. unfold open. cbn [smem sbuf]. unfold bput.
      change (28 + 0 =? 16 + runtime_size) with true. easy.
    + now destruct C.
Qed.

Lemma init_resets mask m d : ~ starts_with m 12 boot -> d_size d < 2 ^ 32 -> mask < 2 ^ 32 ->
  let m' := stream_init boot (flat mask m) 16 0 (d_size d) (d_primary d) in
  struct_of (smem (open m')) = Rt (d_size d) 0 0 /\ get4 m' 0 = (if d_primary d then 0 else mask) /\
  ~ starts_with (sbuf (smem (open m'))) 0 boot.
Proof.
  intros St Sz Mk m'.
  assert (St' : ~ starts_with (flat mask m) (16 + 12) boot).
  { intros C. apply St. apply (starts_ext (flat mask m) m (16 + 12) 12); [|exact C].
    intros i _. rewrite <- N.add_assoc. apply flat_stream. }
  destruct (C59_init boot (flat mask m) 16 0 (d_size d) (d_primary d)) as [_ A]; auto; try lia.
  { unfold stream_count in *. lia. }
  destruct (A St') as (A1 & A2 & A3). fold m' in A1, A2, A3. clear A.
  split; [|split].
  - unfold struct_of, open. cbn [smem ssize sr sw]. f_equal; apply get4_quad; try lia; intros i Hi;
      destruct (A1 (N.of_nat i) ltac:(lia)) as (B1 & B2 & B3).
    + rewrite B1. now apply byte_le4.
    + replace (20 + N.of_nat i) with (16 + 4 + N.of_nat i) by lia. rewrite B2. revert i Hi B1 B2 B3.
      intros i Hi _ _ _. revert i Hi. now apply four.
    + replace (24 + N.of_nat i) with (16 + 8 + N.of_nat i) by lia. rewrite B3. revert i Hi B1 B2 B3.
      intros i Hi _ _ _. revert i Hi. now apply four.
  - destruct (d_primary d); apply get4_quad; try lia; intros i Hi; rewrite A2 by lia.
    + revert i Hi. now apply four.
    + now apply flat_mask.
  - intros C. apply St'. revert C. apply starts_ext. intros i _. cbn [open smem sbuf].
    rewrite A3; [f_equal; lia| |]; unfold in_range; lia.
Qed.

(** ** Printing never makes a request *)
Definition clean (x : ssys) : Prop :=
  fst (sfr x) < stream_count /\
  match swp x with WByte todo a _ => a = 0 -> todo = enc (sfr x) | WMark a => a <> 0 | _ => True end /\
  (sbuf (smem x) 0 <> hd 0 boot \/
   ~ starts_with (sbuf (smem x)) 0 boot /\ sw (smem x) = 0 /\ sr (smem x) = 0 /\ srp x = RIdle /\
   match swp x with WReadW r => r = 0 | WByte _ a _ => a = 0 | WCommit _ | WMark _ | WMarkW => False | _ => True end).

Lemma clean_starts x : clean x -> ~ starts_with (sbuf (smem x)) 0 boot.
Proof.
  intros (_ & _ & [H|[H _]]); [|easy]. intros C. apply H. now apply starts_hd.
Qed.
Lemma clean_step x l : clean x -> clean (fst (sstep x l)).
Proof.
  intros (F & W & B). destruct l as [f| |]; cbn [sstep].
  - destruct (swp x) eqn:E; try (cbn [fst]; unfold clean; rewrite E; tauto).
    destruct (startable f) eqn:Es; [|cbn [fst]; unfold clean; rewrite E; tauto].
    unfold startable in Es. apply andb_true_iff in Es. destruct Es as [Es _]. apply N.ltb_lt in Es.
    unfold clean. cbn. rewrite ?E in B. tauto.
  - unfold wstep. destruct (swp x) as [| |r0|[|b todo] a next|next|a| |b] eqn:E.
    + unfold clean. cbn. rewrite E. tauto.
    + unfold clean. cbn. intuition.
    + unfold clean. cbn -[decide]. split; [easy|].
      assert (D : match decide (ssize (smem x)) r0 (sw (smem x)) (sfr x) with
         | WByte todo a _ => todo = enc (sfr x) /\ a = sw (smem x)
         | WMark a => r0 <> 0 /\ r0 <= a /\ a = sw (smem x) | WRes _ => True | _ => False end).
      { unfold decide. destruct (_ <=? sub32 _ _); [destruct (_ =? r0); easy|].
        destruct (N.leb_spec r0 (sw (smem x))); cbn; [|easy]. destruct (N.eqb_spec r0 0); cbn; [easy|]. lia. }
      split.
      * destruct (decide _ _ _ _) eqn:Ed; auto; try tauto. lia.
      * destruct B as [B|(B1 & B2 & B3 & B4 & B5)]; [tauto|]. right. repeat (split; [tauto|]).
        destruct (decide _ _ _ _) eqn:Ed; auto; lia.
    + unfold clean. cbn. split; [easy|]. split; [easy|]. destruct B as [B|(B1 & B2 & B3 & B4 & B5)]; [tauto|].
      specialize (W B5). discriminate W.
    + unfold clean. cbn. split; [easy|]. split; [lia|]. destruct (N.eq_dec a 0) as [->|Ha].
      * specialize (W eq_refl). rewrite enc_eq in W. injection W as -> _. left. rewrite bput_same.
        unfold stream_count in *. lia.
      * destruct B as [B|(B1 & B2 & B3 & B4 & B5)]; [|lia]. left. rewrite bput_other by auto. exact B.
    + unfold clean. cbn. split; [easy|]. split; [easy|]. destruct B as [B|B]; [tauto|]. tauto.
    + unfold clean. cbn. split; [easy|]. split; [easy|]. destruct B as [B|B]; [|tauto]. left.
      now rewrite bput_other by auto.
    + unfold clean. cbn. split; [easy|]. split; [easy|]. destruct B as [B|B]; [tauto|]. tauto.
    + unfold clean. cbn. split; [easy|]. split; [easy|]. destruct B as [B|B]; [tauto|]. right. tauto.
  - unfold rstep. destruct (srp x) as [| | |st|st n acc] eqn:R; cbn [fst].
    + destruct (sr (smem x) =? sw (smem x)) eqn:E.
      * unfold clean. rewrite R. tauto.
      * unfold clean. cbn. split; [easy|]. split; [easy|]. destruct B as [B|(B1 & B2 & B3 & B4 & B5)]; [tauto|].
        rewrite B2, B3 in E. discriminate.
    + unfold clean. cbn. split; [easy|]. split; [easy|]. destruct B as [B|(B1 & B2 & B3 & B4 & B5)]; [tauto|discriminate].
    + unfold clean. cbn. split; [easy|]. split; [easy|]. destruct B as [B|(B1 & B2 & B3 & B4 & B5)]; [tauto|discriminate].
    + unfold clean. cbn. split; [easy|]. split; [easy|]. destruct B as [B|(B1 & B2 & B3 & B4 & B5)]; [tauto|discriminate].
    + destruct (_ <? n); unfold clean; cbn; (split; [easy|]); (split; [easy|]);
        (destruct B as [B|(B1 & B2 & B3 & B4 & B5)]; [tauto|discriminate]).
Qed.

(** ** Histories *)
Lemma asked_app k h e : asked k (h ++ e) = fold_left (asked1 k) e (asked k h).
Proof. apply fold_left_app. Qed.
Lemma session_app k h e : session k (h ++ e) = fold_left (session1 k) e (session k h).
Proof. apply fold_left_app. Qed.
Lemma asked_str k j e : forall o, fold_left (asked1 k) (map (EStr j) e) o = o.
Proof. induction e; simpl; auto. Qed.
Lemma session_str k j e : forall o, fold_left (session1 k) (map (EStr j) e) o =
  if Nat.eqb j k then option_map (fun l => l ++ e) o else o.
Proof.
  induction e as [|x e IH]; intros o; simpl.
  - destruct (Nat.eqb j k); [|easy]. destruct o; simpl; [now rewrite app_nil_r|easy].
  - rewrite IH. destruct (Nat.eqb j k); [|easy]. destruct o as [l|]; simpl; [|easy]. now rewrite <- app_assoc.
Qed.
Lemma enabled_str p m j e : forall r, enabled p m (rev (map (EStr j) e) ++ r) = enabled p m r.
Proof.
  induction e as [|x e IH]; intros r; simpl; [easy|]. rewrite <- app_assoc, IH. easy.
Qed.

(** ** The invariant *)
Definition ok1 (h : list bevent) (k : nat) (s : st) : Prop :=
  match s with
  | Off m => session k h = None /\
      match asked k h with None => ~ starts_with m 12 boot | Some (rt, v) => request m rt v end
  | On x => asked k h = None /\ clean x
  end.
Definition inv1 (b : board) (h : list bevent) : Prop :=
  b_mask b < 2 ^ 32 /\ b_mask b = enabled primary mask0 (rev h) /\
  forall k d, nth_error ds k = Some d -> ok1 h k (b_str b k).

Lemma left_starts x : starts_with (left x) 12 boot <-> starts_with (sbuf (smem x)) 0 boot.
Proof.
  apply starts_ext. intros i _. unfold left. destruct (N.ltb_spec (12 + i) 12); [lia|]. f_equal. lia.
Qed.

Lemma init_spec b h k d m : inv1 b h -> nth_error ds k = Some d -> b_str b k = Off m ->
  let m' := stream_init boot (flat (b_mask b) m) 16 0 (d_size d) (d_primary d) in
  struct_of (smem (open m')) = begins (d_size d) (asked k h) /\
  get4 m' 0 = (if d_primary d then match asked k h with Some (_, v) => v | None => 0 end else b_mask b) /\
  clean (open m').
Proof.
  intros (M & _ & K) D E m'. specialize (K k d D). rewrite E in K. cbn in K. destruct K as [_ K].
  assert (C0 : forall m', fst (sfr (open m')) < stream_count) by (intros; reflexivity).
  destruct (asked k h) as [[rt v]|].
  - destruct (init_adopts (b_mask b) m d rt v K (sizes k d D) M) as (A & B & C). fold m' in A, B, C.
    split; [exact A|]. split; [exact B|]. split; [easy|]. split; [easy|]. left. rewrite C.
    unfold stream_count in *. lia.
  - destruct (init_resets (b_mask b) m d K (sizes k d D) M) as (A & B & C). fold m' in A, B, C.
    split; [exact A|]. split; [exact B|]. split; [easy|]. split; [easy|]. right. split; [exact C|].
    unfold struct_of, begins in A. injection A as A1 A2 A3. cbn [open smem sr sw srp swp]. auto.
Qed.

Lemma upd_same {A} (f : nat -> A) k v : upd f k v k = v.
Proof. unfold upd. now rewrite Nat.eqb_refl. Qed.
Lemma upd_other {A} (f : nat -> A) k v j : j <> k -> upd f k v j = f j.
Proof. intros H. unfold upd. now destruct (Nat.eqb_spec j k). Qed.

Lemma inv1_step b h a : inv1 b h -> inv1 (fst (bstep boot ds b a)) (h ++ snd (bstep boot ds b a)).
Proof.
  intros I. pose proof I as (M & E & K). destruct a as [|k rt v|k|k l|v|s]; cbn [bstep].
  - (* reset *)
    cbn. split; [easy|]. split; [rewrite rev_app_distr; exact E|]. intros j d D. specialize (K j d D).
    unfold ok1. rewrite asked_app, session_app. cbn. destruct (b_str b j) as [m|x]; cbn in K.
    + tauto.
    + split; [easy|]. destruct K as [K1 K2]. rewrite K1. rewrite left_starts. now apply clean_starts.
  - (* request *)
    destruct (nth_error ds k) as [d|] eqn:D; [|now rewrite app_nil_r].
    destruct (b_str b k) as [m|x] eqn:S; [|now rewrite app_nil_r].
    destruct (rt_ok rt && word_ok v && _) eqn:G; [|now rewrite app_nil_r]. cbn.
    apply andb_true_iff in G. destruct G as [G _]. apply andb_true_iff in G. destruct G as [G1 G2].
    split; [easy|]. split; [rewrite rev_app_distr; exact E|]. intros j e De. specialize (K j e De).
    unfold ok1. rewrite asked_app, session_app. cbn. destruct (Nat.eq_dec j k) as [->|N].
    + rewrite upd_same, Nat.eqb_refl. rewrite S in K. split; [apply K|]. now apply request_poke.
    + rewrite upd_other by auto. destruct (Nat.eqb_spec k j); [congruence|]. exact K.
  - (* init *)
    destruct (nth_error ds k) as [d|] eqn:D; [|now rewrite app_nil_r].
    destruct (b_str b k) as [m|x] eqn:S; [|now rewrite app_nil_r].
    destruct (init_spec b h k d m I D S) as (A & B & C). cbn [fst snd].
    assert (M' : enabled primary mask0 (rev (h ++ [EInit k])) =
       if d_primary d then match asked k h with Some (_, v) => v | None => 0 end else b_mask b).
    { rewrite rev_app_distr. cbn. unfold primary at 1. rewrite D, rev_involutive, E. easy. }
    split; [|split].
    + cbn [b_mask]. rewrite B. destruct (d_primary d); [|easy]. specialize (K k d D). rewrite S in K.
      destruct K as [_ K]. destruct (asked k h) as [[rt v]|]; [|easy]. destruct K as (_ & _ & V & _).
      now apply word_ok_lt.
    + cbn [b_mask]. now rewrite M'.
    + intros j e De. specialize (K j e De). unfold ok1. cbn [b_str]. rewrite asked_app, session_app. cbn.
      destruct (Nat.eq_dec j k) as [->|N].
      * rewrite upd_same, Nat.eqb_refl. split; [easy|exact C].
      * rewrite upd_other by auto. destruct (Nat.eqb_spec k j); [congruence|]. exact K.
  - (* run *)
    destruct (b_str b k) as [m|x] eqn:S; [now rewrite app_nil_r|].
    pose proof (clean_step x l) as CS. destruct (sstep x l) as [x' e]. cbn [fst snd] in *.
    split; [easy|]. split; [cbn [b_mask]; rewrite rev_app_distr, enabled_str; exact E|].
    intros j d D. specialize (K j d D). unfold ok1. cbn [b_str].
    rewrite asked_app, session_app, asked_str, session_str.
    destruct (Nat.eq_dec j k) as [->|N].
    + rewrite upd_same. rewrite S in K. cbn in K. tauto.
    + rewrite upd_other by auto. destruct (Nat.eqb_spec k j); [congruence|]. exact K.
  - (* mask *)
    destruct (word_ok v) eqn:V; [|now rewrite app_nil_r]. cbn. apply word_ok_lt in V.
    split; [easy|]. split; [rewrite rev_app_distr; reflexivity|]. intros j d D. specialize (K j d D).
    unfold ok1. rewrite asked_app, session_app. exact K.
  - (* is_enabled *)
    destruct (s <? stream_count); [|now rewrite app_nil_r]. cbn.
    split; [easy|]. split; [rewrite rev_app_distr; exact E|]. intros j d D. specialize (K j d D).
    unfold ok1. rewrite asked_app, session_app. exact K.
Qed.

(** ** Sessions *)
Definition ok2 (h : list bevent) (k : nat) (d : dstream) (s : st) : Prop :=
  match s with
  | Off _ => session k h = None
  | On x => exists tr pend, session k h = Some tr /\ sinv x pend /\ wrote tr = got tr ++ pend /\
      starts tr = outcomes tr ++ current x /\ ssize (smem x) <= d_size d
  end.
Definition inv2 (b : board) (h : list bevent) : Prop :=
  forall k d, nth_error ds k = Some d -> 0 < d_size d -> ok2 h k d (b_str b k).
Definition size_of (k : nat) : N := match nth_error ds k with Some d => d_size d | None => 0 end.

Lemma asked_in k h rt v : asked k h = Some (rt, v) -> In (EBoot k rt v) h.
Proof.
  induction h as [|e h IH] using rev_ind; [discriminate|]. rewrite asked_app. cbn. intros A. apply in_app_iff.
  destruct e; cbn in A; try (left; now apply IH).
  - destruct (Nat.eqb_spec k0 k) as [->|]; [|left; now apply IH]. injection A as -> ->. right. now left.
  - destruct (Nat.eqb_spec k0 k); [discriminate|left; now apply IH].
Qed.

Lemma sinv_open m size : struct_of (smem (open m)) = Rt size (sr (smem (open m))) (sw (smem (open m))) ->
  0 < size < 2 ^ 32 -> sr (smem (open m)) = sw (smem (open m)) -> sw (smem (open m)) < size -> sinv (open m) [].
Proof.
  intros A S C L. injection A as A. cbn in *. constructor; cbn; try easy.
  - lia.
  - exists false. split; [|easy]. rewrite C. apply lay_a; cbn; auto; lia.
Qed.

Lemma inv2_step b h a : inv1 b h -> inv2 b h -> polite size_of h ->
  inv2 (fst (bstep boot ds b a)) (h ++ snd (bstep boot ds b a)).
Proof.
  intros I K P. destruct a as [|k rt v|k|k l|v|s]; cbn [bstep].
  - intros j d D Z. cbn. specialize (K j d D Z). unfold ok2 in *. rewrite session_app. cbn.
    destruct (b_str b j); easy.
  - destruct (nth_error ds k) as [d|] eqn:D; [|now rewrite app_nil_r].
    destruct (b_str b k) as [m|x] eqn:S; [|now rewrite app_nil_r].
    destruct (rt_ok rt && word_ok v && _); [|now rewrite app_nil_r]. cbn.
    intros j e De Z. specialize (K j e De Z). unfold ok2 in *. cbn [b_str]. rewrite session_app. cbn.
    destruct (Nat.eq_dec j k) as [->|N].
    + rewrite upd_same. now rewrite S in K.
    + rewrite upd_other by auto. exact K.
  - destruct (nth_error ds k) as [d|] eqn:D; [|now rewrite app_nil_r].
    destruct (b_str b k) as [m|x] eqn:S; [|now rewrite app_nil_r].
    destruct (init_spec b h k d m I D S) as (A & _ & _). cbn [fst snd].
    intros j e De Z. specialize (K j e De Z). unfold ok2 in *. cbn [b_str]. rewrite session_app. cbn.
    destruct (Nat.eq_dec j k) as [->|N].
    + rewrite upd_same, Nat.eqb_refl. assert (e = d) as -> by congruence.
      remember (open _) as x eqn:Ex. pose proof (sizes k d D) as Sz.
      assert (Q : suits (d_size d) (begins (d_size d) (asked k h))).
      { destruct (asked k h) as [[rt v]|] eqn:Ea.
        - apply asked_in in Ea. apply P in Ea. unfold size_of in Ea. now rewrite D in Ea.
        - unfold suits. cbn. lia. }
      rewrite <- A in Q. destruct Q as (Q1 & Q2 & Q3). cbn in Q1, Q2, Q3.
      exists [], []. split; [easy|]. split; [|split; [easy|]; split; [subst x; easy|apply Q1]].
      subst x. apply (sinv_open _ (ssize (smem (open (stream_init boot (flat (b_mask b) m) 16 0 (d_size d) (d_primary d))))));
        auto; lia.
    + rewrite upd_other by auto. destruct (Nat.eqb_spec k j); [congruence|]. exact K.
  - destruct (b_str b k) as [m|x] eqn:S; [now rewrite app_nil_r|].
    destruct (sstep x l) as [x' e] eqn:X. cbn [fst snd].
    intros j d D Z. specialize (K j d D Z). unfold ok2 in *. cbn [b_str]. rewrite session_app, session_str.
    destruct (Nat.eq_dec j k) as [->|N].
    + rewrite upd_same, Nat.eqb_refl. rewrite S in K. destruct K as (tr & pend & K1 & K2 & K3 & K4 & K5).
      destruct (sinv_run [l] x pend K2) as (pend' & L1 & L2 & _ & L4). pose proof (current_run [l] x) as L5.
      cbn [srun] in *. rewrite X in *. cbn [fst snd] in *. rewrite app_nil_r in *.
      exists (tr ++ e), pend'. split; [now rewrite K1|]. split; [exact L1|].
      rewrite wrote_app, got_app, starts_app, outcomes_app, K3, K4, <- !app_assoc, L2, L5. split; [easy|].
      split; [easy|]. rewrite L4. exact K5.
    + rewrite upd_other by auto. destruct (Nat.eqb_spec k j); [congruence|]. exact K.
  - destruct (word_ok v); [|now rewrite app_nil_r]. intros j d D Z. specialize (K j d D Z). unfold ok2 in *.
    rewrite session_app. exact K.
  - destruct (s <? stream_count); [|now rewrite app_nil_r]. intros j d D Z. specialize (K j d D Z).
    unfold ok2 in *. rewrite session_app. exact K.
Qed.

Lemma brun_inv1 l : forall b h, inv1 b h -> inv1 (fst (brun boot ds b l)) (h ++ snd (brun boot ds b l)).
Proof.
  induction l as [|a l IH]; intros b h I; cbn; [now rewrite app_nil_r|].
  pose proof (inv1_step b h a I) as J. destruct (bstep boot ds b a) as [b1 e1]. cbn in J.
  specialize (IH b1 _ J). destruct (brun boot ds b1 l) as [b2 e2]. cbn in *. now rewrite app_assoc.
Qed.
Lemma brun_inv2 l : forall b h, inv1 b h -> inv2 b h -> polite size_of (h ++ snd (brun boot ds b l)) ->
  inv2 (fst (brun boot ds b l)) (h ++ snd (brun boot ds b l)).
Proof.
  induction l as [|a l IH]; intros b h I J P; cbn in *; [now rewrite app_nil_r|].
  pose proof (inv1_step b h a I) as I'. pose proof (inv2_step b h a I J) as J'.
  destruct (bstep boot ds b a) as [b1 e1]. cbn in I', J'.
  specialize (IH b1 _ I'). destruct (brun boot ds b1 l) as [b2 e2]. cbn in *. rewrite app_assoc in P |- *.
  apply IH; auto. apply J'. intros k rt v Hi. apply (P k rt v). rewrite <- !app_assoc, in_app_iff. now left.
Qed.

Definition untouched (ms : nat -> N -> N) : Prop :=
  forall k d, nth_error ds k = Some d -> ~ starts_with (ms k) 12 boot.
Lemma inv1_on ms : untouched ms -> inv1 (power_on mask0 ms) [].
Proof. intros U. split; [easy|]. split; [easy|]. intros k d D. cbn. split; [easy|]. now apply (U k d). Qed.
Lemma inv2_on ms : inv2 (power_on mask0 ms) [].
Proof. intros k d D Z. easy. Qed.

Lemma brun_app a : forall b c, brun boot ds b (a ++ c) =
  (fst (brun boot ds (fst (brun boot ds b a)) c), snd (brun boot ds b a) ++ snd (brun boot ds (fst (brun boot ds b a)) c)).
Proof.
  induction a as [|x a IH]; intros b c; cbn; [now destruct (brun boot ds b c)|].
  destruct (bstep boot ds b x) as [b1 e1]. rewrite IH. destruct (brun boot ds b1 a) as [b2 e2]. cbn.
  now rewrite app_assoc.
Qed.

(** Answers. *)
Lemma testbit_enabled m s : is_enabled m s = N.testbit m s.
Proof.
  unfold is_enabled. rewrite N.shiftl_1_l. destruct (N.testbit m s) eqn:T.
  - destruct (N.eqb_spec (N.land m (2 ^ s)) 0) as [Z|]; [|easy].
    assert (B : N.testbit (N.land m (2 ^ s)) s = true) by (rewrite N.land_spec, T, N.pow2_bits_true; easy).
    rewrite Z in B. now rewrite N.bits_0 in B.
  - replace (N.land m (2 ^ s)) with 0; [easy|]. symmetry. apply N.bits_inj. intros i. rewrite N.land_spec, N.bits_0.
    destruct (N.eq_dec i s) as [->|]; [now rewrite T|]. rewrite N.pow2_bits_false by auto. apply andb_false_r.
Qed.
Lemma answers_snoc p m h e : answers p m h ->
  (forall s b, e = EAsk s b -> b = N.testbit (enabled p m (rev h)) s) -> answers p m (h ++ [e]).
Proof.
  intros A B a s b c E. destruct c as [|y c _] using rev_ind.
  - apply app_inj_tail in E. destruct E as [-> ->]. now apply B.
  - rewrite app_comm_cons, app_assoc in E. apply app_inj_tail in E. destruct E as [E _]. now apply (A a s b c).
Qed.
Lemma answers_str p m h k e : answers p m h -> answers p m (h ++ map (EStr k) e).
Proof.
  revert h. induction e as [|x e IH]; intros h A; cbn; [now rewrite app_nil_r|].
  change (EStr k x :: map (EStr k) e) with ([EStr k x] ++ map (EStr k) e). rewrite app_assoc. apply IH.
  apply answers_snoc; [easy|]. intros s b [=].
Qed.
Lemma answers_step b h a : inv1 b h -> answers primary mask0 h ->
  answers primary mask0 (h ++ snd (bstep boot ds b a)).
Proof.
  intros (_ & E & _) A. destruct a as [|k rt v|k|k l|v|s]; cbn [bstep].
  - apply answers_snoc; [easy|]. intros s c [=].
  - destruct (nth_error ds k) as [d|]; [|now rewrite app_nil_r]. destruct (b_str b k) as [m|x]; [|now rewrite app_nil_r].
    destruct (_ && _); [|now rewrite app_nil_r]. apply answers_snoc; [easy|]. intros s c [=].
  - destruct (nth_error ds k) as [d|]; [|now rewrite app_nil_r]. destruct (b_str b k) as [m|x]; [|now rewrite app_nil_r].
    apply answers_snoc; [easy|]. intros s c [=].
  - destruct (b_str b k) as [m|x]; [now rewrite app_nil_r|]. destruct (sstep x l). now apply answers_str.
  - destruct (word_ok v); [|now rewrite app_nil_r]. apply answers_snoc; [easy|]. intros s c [=].
  - destruct (s <? stream_count); [|now rewrite app_nil_r]. apply answers_snoc; [easy|]. intros s' c [= <- <-].
    rewrite <- E. apply testbit_enabled.
Qed.
Lemma brun_answers l : forall b h, inv1 b h -> answers primary mask0 h ->
  answers primary mask0 (h ++ snd (brun boot ds b l)).
Proof.
  induction l as [|a l IH]; intros b h I A; cbn; [now rewrite app_nil_r|].
  pose proof (inv1_step b h a I) as J. pose proof (answers_step b h a I A) as B.
  destruct (bstep boot ds b a) as [b1 e1]. cbn in J, B.
  specialize (IH b1 _ J B). destruct (brun boot ds b1 l) as [b2 e2]. cbn in *. now rewrite app_assoc.
Qed.
End Inv.
