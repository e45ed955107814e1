(** Invariant of the debug stream buffer. *)
Require Import NArith List Bool Lia Arith.
From Verif Require Import Stream StreamSpec.
Import ListNotations.
Open Scope N_scope.

Definition elen (f : frame) : N := N.of_nat (length (enc f)).
Lemma elen_eq f : elen f = flen f + 2.
Proof. unfold elen, enc, flen. simpl length. lia. Qed.
Lemma enc_eq f : enc f = fst f :: flen f :: snd f.
Proof. reflexivity. Qed.
#[local] Opaque enc.

(** Bytes [bs] at address [a]. *)
Fixpoint holds (b : N -> N) (a : N) (bs : list N) : Prop :=
  match bs with [] => True | v :: r => b a = v /\ holds b (a + 1) r end.

(** Frames laid out one after another from [a] to [e]. *)
Fixpoint seg (b : N -> N) (a : N) (fs : list frame) (e : N) : Prop :=
  match fs with
  | [] => a = e
  | f :: r => holds b a (enc f) /\ fst f < 255 /\ flen f < 256 /\ seg b (a + elen f) r e
  end.

Lemma holds_ext b b' bs : forall a, (forall x, a <= x < a + N.of_nat (length bs) -> b' x = b x) ->
  holds b a bs -> holds b' a bs.
Proof.
  induction bs as [|v r IH]; simpl; intros a Hx; [easy|]. intros [H1 H2]. split.
  - rewrite Hx; [easy|lia].
  - apply IH; [|easy]. intros x Hxr. apply Hx. lia.
Qed.

Lemma holds_app b x : forall a y, holds b a (x ++ y) <-> holds b a x /\ holds b (a + N.of_nat (length x)) y.
Proof.
  induction x as [|v r IH]; intros a y; cbn [app holds length].
  - rewrite N.add_0_r. tauto.
  - rewrite IH. replace (a + 1 + N.of_nat (length r)) with (a + N.of_nat (S (length r))) by lia. tauto.
Qed.

Lemma seg_le b fs : forall a e, seg b a fs e -> a <= e.
Proof.
  induction fs as [|f r IH]; simpl; intros a e; [lia|]. intros (_ & _ & _ & H).
  apply IH in H. rewrite elen_eq in H. lia.
Qed.

Lemma seg_ext b b' fs : forall a e, (forall x, a <= x < e -> b' x = b x) -> seg b a fs e -> seg b' a fs e.
Proof.
  induction fs as [|f r IH]; simpl; intros a e Hx; [easy|]. intros (H1 & H2 & H3 & H4).
  pose proof (seg_le _ _ _ _ H4) as L. split; [|split; [easy|split; [easy|]]].
  - eapply holds_ext; [|exact H1]. intros x Hxr. apply Hx. fold (elen f) in Hxr. lia.
  - apply IH; [|easy]. intros x Hxr. apply Hx. rewrite elen_eq in Hxr. lia.
Qed.

Lemma seg_snoc b fs f : forall a e, seg b a fs e -> holds b e (enc f) -> fst f < 255 -> flen f < 256 ->
  seg b a (fs ++ [f]) (e + elen f).
Proof.
  induction fs as [|g r IH]; simpl; intros a e Hs Hh Hf Hl.
  - subst. auto.
  - destruct Hs as (H1 & H2 & H3 & H4). auto.
Qed.

Lemma bput_same b a v : bput b a v a = v.
Proof. unfold bput. now rewrite N.eqb_refl. Qed.
Lemma bput_other b a v x : x <> a -> bput b a v x = b x.
Proof. unfold bput. intros. destruct (N.eqb_spec x a); easy. Qed.

(** The unread part of the buffer holds [pend]; [sk]: the reader is at a wrap mark. *)
Inductive lay (b : N -> N) (size r w : N) (pend : list frame) (sk : bool) : Prop :=
| lay_a : r <= w -> w < size -> seg b r pend w -> sk = false -> lay b size r w pend sk
| lay_b : forall p1 p2 e, w < r -> r < size -> pend = p1 ++ p2 -> seg b r p1 e -> e <= size ->
    (e < size -> b e = 255) -> seg b 0 p2 w -> (sk = true <-> p1 = []) -> lay b size r w pend sk.

(** Room for [n] bytes at the write cursor. *)
Definition room (size r w n : N) : Prop :=
  w + n <= size /\ (r <= w -> w + n = size -> r <> 0) /\ (w < r -> w + n < r).

Definition next_of (size w n : N) : N := if w + n =? size then 0 else w + n.

Definition stale (size r0 r w : N) : Prop :=
  r0 < size /\ (r0 <= w -> r0 <= r /\ r <= w) /\ (w < r0 -> r0 <= r \/ r <= w).

Definition okf (f : frame) : Prop := fst f < stream_count /\ flen f < 256.

Definition wok (s : sst) (f : frame) (p : wpos) : Prop :=
  match p with
  | WIdle => True
  | WReadR => okf f
  | WRes _ => True
  | WReadW r0 => okf f /\ stale (ssize s) r0 (sr s) (sw s)
  | WByte todo a next =>
      okf f /\ room (ssize s) (sr s) (sw s) (elen f) /\ next = next_of (ssize s) (sw s) (elen f) /\
      exists done, enc f = done ++ todo /\ a = sw s + N.of_nat (length done) /\ holds (sbuf s) (sw s) done
  | WCommit next =>
      okf f /\ room (ssize s) (sr s) (sw s) (elen f) /\ next = next_of (ssize s) (sw s) (elen f) /\
      holds (sbuf s) (sw s) (enc f)
  | WMark a => a = sw s /\ sr s <= sw s /\ sr s <> 0
  | WMarkW => sr s <= sw s /\ sr s <> 0 /\ sbuf s (sw s) = 255
  end.

Definition rok (s : sst) (pend : list frame) (sk : bool) (p : rpos) : Prop :=
  match p with
  | RIdle => True
  | RKind => sr s <> sw s
  | RSkip => sr s <> sw s /\ sk = true
  | RLen st => sr s <> sw s /\ sk = false /\ exists d rest, pend = (st, d) :: rest
  | RData st n acc => sr s <> sw s /\ sk = false /\ exists d rest, pend = (st, acc ++ d) :: rest /\
                        n = flen (st, acc ++ d)
  end.

Record sinv (x : ssys) (pend : list frame) : Prop := {
  si_size : ssize (smem x) < 2 ^ 32;
  si_oob : soob (smem x) = false;
  si_lay : exists sk, lay (sbuf (smem x)) (ssize (smem x)) (sr (smem x)) (sw (smem x)) pend sk /\
             rok (smem x) pend sk (srp x);
  si_w : wok (smem x) (sfr x) (swp x)
}.

Lemma lay_bounds b size r w pend sk : lay b size r w pend sk -> r < size /\ w < size.
Proof. intros []; lia. Qed.

(** The reader finds the first frame at its cursor. *)
Lemma lay_front b size r w pend sk : lay b size r w pend sk -> r <> w ->
  if sk then b r = 255 else
  exists f rest, pend = f :: rest /\ holds b r (enc f) /\ fst f < 255 /\
    exists sk', lay b size (next_of size r (elen f)) w rest sk' /\
      (r <= w -> r <= next_of size r (elen f) /\ next_of size r (elen f) <= w) /\
      (w < r -> r <= next_of size r (elen f) \/ next_of size r (elen f) <= w).
Proof.
  intros [Hr Hw Hs ->|p1 p2 e Hw Hr -> Hs He Hm Hs2 Hsk] Hne.
  - destruct pend as [|f rest]; [simpl in Hs; lia|]. simpl in Hs. destruct Hs as (H1 & H2 & H3 & H4).
    exists f, rest. split; [easy|]. split; [easy|]. split; [easy|].
    pose proof (seg_le _ _ _ _ H4) as L. pose proof (elen_eq f) as El.
    unfold next_of. destruct (N.eqb_spec (r + elen f) size) as [E|E]; [lia|].
    exists false. split; [apply lay_a; auto|]. split; lia.
  - destruct sk.
    + assert (p1 = []) by now apply Hsk. subst p1. simpl in Hs. subst e. apply Hm. lia.
    + destruct p1 as [|f rest]; [destruct Hsk as [_ Hsk]; discriminate (Hsk eq_refl)|].
      simpl in Hs. destruct Hs as (H1 & H2 & H3 & H4).
      exists f, (rest ++ p2). split; [easy|]. split; [easy|]. split; [easy|].
      pose proof (seg_le _ _ _ _ H4) as L. pose proof (elen_eq f) as El.
      unfold next_of. destruct (N.eqb_spec (r + elen f) size) as [E|E].
      * assert (e = size) by lia. subst e. destruct rest as [|g rest].
        -- exists false. split; [apply lay_a; simpl; auto; lia|]. lia.
        -- simpl in H4. destruct H4 as (_ & _ & _ & H4). apply seg_le in H4. pose proof (elen_eq g). lia.
      * exists (match rest with [] => true | _ => false end). split.
        -- eapply lay_b with (p1 := rest) (p2 := p2) (e := e); eauto; try lia.
           destruct rest; split; intros; easy.
        -- lia.
Qed.

(** Writing a byte outside the occupied part changes nothing. *)
Lemma lay_write b size r w pend sk a v : lay b size r w pend sk ->
  w <= a -> (w < r -> a < r) -> lay (bput b a v) size r w pend sk.
Proof.
  intros [Hr Hw Hs ->|p1 p2 e Hw Hr -> Hs He Hm Hs2 Hsk] Ha Har.
  - apply lay_a; auto. eapply seg_ext; [|exact Hs]. intros x Hx. apply bput_other. lia.
  - pose proof (seg_le _ _ _ _ Hs) as L.
    eapply lay_b with (p1 := p1) (p2 := p2) (e := e); eauto.
    + eapply seg_ext; [|exact Hs]. intros x Hx. apply bput_other. lia.
    + intros He2. rewrite bput_other by lia. auto.
    + eapply seg_ext; [|exact Hs2]. intros x Hx. apply bput_other. lia.
Qed.

(** Committing a frame. *)
Lemma lay_commit b size r w pend sk f : lay b size r w pend sk ->
  room size r w (elen f) -> holds b w (enc f) -> okf f ->
  exists sk', lay b size r (next_of size w (elen f)) (pend ++ [f]) sk' /\
    (sk = true -> sk' = true) /\ (pend <> [] -> sk = false -> sk' = false).
Proof.
  intros HL (R1 & R2 & R3) Hh [F1 F2]. unfold stream_count in F1. pose proof (elen_eq f) as El.
  unfold next_of. destruct HL as [Hr Hw Hs ->|p1 p2 e Hw Hr -> Hs He Hm Hs2 Hsk].
  - destruct (N.eqb_spec (w + elen f) size) as [E|E].
    + exists false. split; [|easy].
      eapply lay_b with (p1 := pend ++ [f]) (p2 := []) (e := w + elen f); try lia; try easy.
      * now rewrite app_nil_r.
      * apply seg_snoc; auto. lia.
      * split; [easy|]. intros C. apply app_eq_nil in C. easy.
    + exists false. split; [|easy]. apply lay_a; try lia; auto. apply seg_snoc; auto. lia.
  - specialize (R3 Hw). destruct (N.eqb_spec (w + elen f) size) as [E|E]; [lia|].
    exists sk. split; [|auto]. eapply lay_b with (p1 := p1) (p2 := p2 ++ [f]) (e := e); try lia; auto.
    + now rewrite app_assoc.
    + apply seg_snoc; auto. lia.
Qed.

(** Wrapping. *)
Lemma lay_wrap b size r w pend sk : lay b size r w pend sk -> r <= w -> r <> 0 -> b w = 255 ->
  lay b size r 0 pend (match pend with [] => true | _ => false end).
Proof.
  intros [Hr Hw Hs ->|p1 p2 e Hw Hr -> Hs He Hm Hs2 Hsk] H1 H2 H3; [|lia].
  eapply lay_b with (p1 := pend) (p2 := []) (e := w); try lia; auto.
  - now rewrite app_nil_r.
  - easy.
  - destruct pend; split; intros; easy.
Qed.

Lemma sub32_le a b : b <= a -> a < 2 ^ 32 -> sub32 a b = a - b.
Proof.
  intros H1 H2. unfold sub32, u32. replace (a + 2 ^ 32 - b) with (a - b + 1 * 2 ^ 32) by lia.
  rewrite N.mod_add by lia. apply N.mod_small. lia.
Qed.

(** The decision is right even if the reader has moved since its cursor was read. *)
Lemma decide_ok s f r0 : okf f -> ssize s < 2 ^ 32 -> sw s < ssize s ->
  stale (ssize s) r0 (sr s) (sw s) -> wok s f (decide (ssize s) r0 (sw s) f).
Proof.
  intros Hf Hs Hw (S0 & S1 & S2). pose proof (elen_eq f) as El.
  destruct Hf as [F1 F2]. unfold decide. unfold header_length.
  replace (u32 (flen f + 2)) with (elen f) by (rewrite El; unfold u32; rewrite N.mod_small; lia).
  destruct (N.leb_spec r0 (sw s)) as [Hr|Hr].
  - rewrite sub32_le by lia. destruct (S1 Hr) as [S1a S1b].
    destruct (N.leb_spec (elen f) (ssize s - sw s)) as [Ha|Ha].
    + replace (u32 (sw s + elen f)) with (sw s + elen f) by (unfold u32; rewrite N.mod_small; lia).
      fold (next_of (ssize s) (sw s) (elen f)).
      destruct (N.eqb_spec (next_of (ssize s) (sw s) (elen f)) r0) as [E|E]; [exact I|].
      simpl. split; [easy|]. split.
      * unfold room. unfold next_of in E. destruct (N.eqb_spec (sw s + elen f) (ssize s)); lia.
      * split; [easy|]. exists []. simpl. split; [easy|]. split; [lia|easy].
    + simpl. destruct (N.eqb_spec r0 0) as [E|E]; simpl; [easy|]. lia.
  - rewrite sub32_le by lia. specialize (S2 Hr).
    destruct (N.leb_spec (elen f) (r0 - sw s)) as [Ha|Ha]; [|exact I].
    replace (u32 (sw s + elen f)) with (sw s + elen f) by (unfold u32; rewrite N.mod_small; lia).
    fold (next_of (ssize s) (sw s) (elen f)).
    destruct (N.eqb_spec (next_of (ssize s) (sw s) (elen f)) r0) as [E|E]; [exact I|].
    unfold next_of in E.
    simpl. split; [easy|]. split.
    + unfold room. destruct (N.eqb_spec (sw s + elen f) (ssize s)); lia.
    + split; [easy|]. exists []. simpl. split; [easy|]. split; [lia|easy].
Qed.

Definition evs_ok (size : N) (pend : list frame) (tr : list sevent) (pend' : list frame) : Prop :=
  match tr with
  | [] => pend' = pend
  | [SWrote f] => pend' = pend ++ [f] /\ elen f < size
  | [SFailed f] | [SStart f] => pend' = pend
  | [SRead f] => pend = f :: pend'
  | _ => False
  end.

Lemma sinv_wstep x pend : sinv x pend ->
  exists pend', sinv (fst (wstep x)) pend' /\ evs_ok (ssize (smem x)) pend (snd (wstep x)) pend'.
Proof.
  intros [Hsz Ho (sk & HL & HR) HW]. unfold wstep.
  destruct x as [s w f p]. simpl in *. destruct (lay_bounds _ _ _ _ _ _ HL) as [Br Bw].
  destruct w as [| |r0|[|b todo] a next|next|a| |b]; simpl in HW |- *.
  - exists pend. split; [|easy]. constructor; simpl; eauto.
  - exists pend. split; [|easy]. constructor; simpl; eauto. split; [easy|]. unfold stale. lia.
  - exists pend. split; [|easy]. constructor; simpl; eauto. destruct HW. now apply decide_ok.
  - exists pend. split; [|easy]. constructor; simpl; eauto.
    destruct HW as (H1 & H2 & H3 & done & Hd & _ & Hh). rewrite app_nil_r in Hd. subst done. auto.
  - exists pend. split; [|easy]. destruct HW as (H1 & (R1 & R2 & R3) & H3 & done & Hd & Ha & Hh).
    assert (La : a < sw s + elen f).
    { subst a. unfold elen. rewrite Hd, app_length. simpl. lia. }
    constructor; simpl; auto.
    + rewrite Ho. simpl. apply N.leb_gt. lia.
    + exists sk. split; [|exact HR]. apply lay_write; [easy|lia|lia].
    + split; [easy|]. split; [easy|]. split; [easy|]. exists (done ++ [b]). split.
      * now rewrite <- app_assoc.
      * rewrite app_length. simpl length. split; [lia|]. apply holds_app. split.
        -- eapply holds_ext; [|exact Hh]. intros y Hy. apply bput_other. lia.
        -- simpl. rewrite <- Ha. now rewrite bput_same.
  - destruct HW as (H1 & H2 & H3 & Hh). exists (pend ++ [f]). split.
    + destruct (lay_commit _ _ _ _ _ _ f HL H2 Hh H1) as (sk' & HL' & K1 & K2).
      assert (Hne : next <> sr s).
      { subst next. destruct H2 as (Q1 & Q2 & Q3). pose proof (elen_eq f). unfold next_of.
        destruct (N.eqb_spec (sw s + elen f) (ssize s)); [|lia].
        destruct (N.le_gt_cases (sr s) (sw s)); [specialize (Q2 ltac:(easy) ltac:(easy)); lia|lia]. }
      constructor; simpl; auto. exists sk'. subst next. split; [easy|].
      destruct p as [| | |st|st n acc]; simpl in HR |- *; auto.
      * destruct HR as [_ ->]. split; [congruence|auto].
      * destruct HR as (_ & -> & d & rest & ->). split; [congruence|]. split; [now apply K2|].
        exists d, (rest ++ [f]). easy.
      * destruct HR as (_ & -> & d & rest & -> & Hn). split; [congruence|]. split; [now apply K2|].
        exists d, (rest ++ [f]). easy.
    + simpl. split; [easy|]. destruct H2 as (R1 & R2 & R3). pose proof (elen_eq f).
      destruct (N.eq_dec (sw s + elen f) (ssize s)); [|lia].
      destruct (N.eq_dec (sw s) 0); [|lia]. destruct (N.le_gt_cases (sr s) (sw s)); [|lia].
      specialize (R2 ltac:(easy) ltac:(easy)). lia.
  - exists pend. split; [|easy]. destruct HW as (-> & H1 & H2). constructor; simpl; auto.
    + rewrite Ho. simpl. apply N.leb_gt. lia.
    + exists sk. split; [|exact HR]. apply lay_write; [easy|lia|lia].
    + rewrite bput_same. auto.
  - exists pend. split; [|easy]. destruct HW as (H1 & H2 & H3). constructor; simpl; auto.
    exists (match pend with [] => true | _ => false end). split; [eapply lay_wrap; eauto|].
    assert (Hsk : sk = false) by (destruct HL; [easy|lia]).
    destruct p as [| | |st|st n acc]; simpl in HR |- *; auto.
    + destruct HR as [_ C]. congruence.
    + destruct HR as (_ & _ & d & rest & ->). split; [easy|]. split; [easy|]. eauto.
    + destruct HR as (_ & _ & d & rest & -> & Hn). split; [easy|]. split; [easy|]. eauto.
  - exists pend. split; [|destruct b; easy]. constructor; simpl; eauto.
Qed.

(** The writer's knowledge survives progress of the reader. *)
Lemma wok_reader s f p r' : sr s < ssize s -> (sr s <= sw s -> sr s <= r' /\ r' <= sw s) ->
  (sw s < sr s -> sr s <= r' \/ r' <= sw s) -> wok s f p -> wok (set_r s r') f p.
Proof.
  intros M0 M1 M2. destruct p as [| |r0|todo a next|next|a| |b]; simpl; auto.
  - intros (H1 & H2 & H3 & H4). split; [easy|]. unfold stale. split; [easy|]. lia.
  - intros (H1 & (R1 & R2 & R3) & H3 & H4). split; [easy|]. split; [|auto].
    unfold room. split; [easy|]. split; lia.
  - intros (H1 & (R1 & R2 & R3) & H3 & H4). split; [easy|]. split; [|auto].
    unfold room. split; [easy|]. split; lia.
  - lia.
  - intuition lia.
Qed.

Lemma holds_nth b bs : forall a i, (i < length bs)%nat -> holds b a bs ->
  b (a + N.of_nat i) = nth i bs 0.
Proof.
  induction bs as [|v r IH]; simpl; intros a i Hi; [lia|]. intros [H1 H2]. destruct i as [|i].
  - now rewrite N.add_0_r.
  - rewrite <- (IH (a + 1) i) by (easy || lia). f_equal. lia.
Qed.

Lemma sinv_rstep x pend : sinv x pend ->
  exists pend', sinv (fst (rstep x)) pend' /\ evs_ok (ssize (smem x)) pend (snd (rstep x)) pend'.
Proof.
  intros [Hsz Ho (sk & HL & HR) HW]. unfold rstep.
  destruct x as [s w f p]. simpl in *. destruct (lay_bounds _ _ _ _ _ _ HL) as [Br Bw].
  destruct p as [| | |st|st n acc]; simpl in HR |- *.
  - exists pend. split; [|easy]. destruct (N.eqb_spec (sr s) (sw s)) as [E|E]; constructor; simpl; eauto.
  - exists pend. split; [|easy]. constructor; simpl; eauto. exists sk. split; [easy|].
    pose proof (lay_front _ _ _ _ _ _ HL HR) as HF. destruct sk.
    + rewrite HF. simpl. auto.
    + destruct HF as ([st d] & rest & -> & Hh & Hs & _). rewrite enc_eq in Hh. simpl in Hh, Hs.
      destruct Hh as (-> & _). destruct (N.eqb_spec st 255); [lia|]. simpl.
      split; [easy|]. split; [easy|]. eauto.
  - destruct HR as [Hne ->]. exists pend. split; [|easy].
    destruct HL as [Hr Hw Hs C|p1 p2 e Hw Hr -> Hs He Hm Hs2 Hsk]; [discriminate|].
    assert (p1 = []) by now apply Hsk. subst p1.
    constructor; simpl; auto.
    + exists false. split; [|easy]. apply lay_a; auto; lia.
    + apply wok_reader; auto; lia.
  - destruct HR as (Hne & -> & d & rest & ->). exists ((st, d) :: rest). split; [|easy].
    constructor; simpl; eauto. exists false. split; [easy|].
    pose proof (lay_front _ _ _ _ _ _ HL Hne) as HF. simpl in HF.
    destruct HF as (f0 & rest0 & E & Hh & _). injection E as <- <-. rewrite enc_eq in Hh. simpl in Hh.
    destruct Hh as (_ & -> & _). split; [easy|]. split; [easy|]. exists d, rest. easy.
  - destruct HR as (Hne & -> & d & rest & -> & ->).
    pose proof (lay_front _ _ _ _ _ _ HL Hne) as HF. simpl in HF.
    destruct HF as (f0 & rest0 & E & Hh & Hs & sk' & HL' & M1 & M2). injection E as <- <-.
    destruct (N.ltb_spec (N.of_nat (length acc)) (flen (st, acc ++ d))) as [Hi|Hi];
      unfold flen in Hi; cbn [snd] in Hi.
    + simpl. exists ((st, acc ++ d) :: rest). split; [|easy]. constructor; simpl; eauto.
      exists false. split; [easy|]. split; [easy|]. split; [easy|].
      rewrite app_length in Hi. destruct d as [|v d]; [simpl in Hi; lia|].
      exists d, rest. assert (Hv : sbuf s (sr s + 2 + N.of_nat (length acc)) = v).
      { rewrite enc_eq in Hh. simpl in Hh. destruct Hh as (_ & _ & Hh).
        assert (Hlt : (length acc < length (acc ++ v :: d))%nat) by (rewrite app_length; simpl; lia).
        pose proof (holds_nth _ _ _ (length acc) Hlt Hh) as Hn.
        replace (sr s + 2 + N.of_nat (length acc)) with (sr s + 1 + 1 + N.of_nat (length acc)) by lia.
        rewrite Hn, app_nth2 by lia. now rewrite Nat.sub_diag. }
      rewrite Hv. rewrite <- app_assoc. simpl. auto.
    + rewrite app_length in Hi. destruct d as [|v d]; [|simpl in Hi; lia]. rewrite app_nil_r in *.
      simpl. exists rest. split; [|easy].
      assert (En : (if sr s + 2 + flen (st, acc) =? ssize s then 0 else sr s + 2 + flen (st, acc)) =
                   next_of (ssize s) (sr s) (elen (st, acc))).
      { unfold next_of. rewrite elen_eq. replace (sr s + (flen (st, acc) + 2)) with (sr s + 2 + flen (st, acc)) by lia.
        reflexivity. }
      rewrite En. constructor; simpl; auto.
      * exists sk'. auto.
      * apply wok_reader; auto.
Qed.

Lemma sinv_step x pend l : sinv x pend ->
  exists pend', sinv (fst (sstep x l)) pend' /\ evs_ok (ssize (smem x)) pend (snd (sstep x l)) pend'.
Proof.
  intros H. destruct l as [f| |]; cbn [sstep].
  - exists pend. destruct (swp x) eqn:E; try (split; [exact H|reflexivity]).
    destruct (startable f) eqn:Es; [|split; [exact H|reflexivity]]. cbn [fst snd]. split; [|easy].
    destruct H as [Hsz Ho HL HW]. constructor; simpl; auto.
    unfold startable in Es. apply andb_prop in Es. destruct Es as [E1 E2].
    apply N.ltb_lt in E1, E2. split; easy.
  - now apply sinv_wstep.
  - now apply sinv_rstep.
Qed.

Lemma ssize_step x l : ssize (smem (fst (sstep x l))) = ssize (smem x).
Proof.
  destruct l as [f| |]; simpl.
  - destruct (swp x); auto. destruct (startable f); auto.
  - unfold wstep. destruct (swp x) as [| |r0|[|b todo] a next|next|a| |b]; auto.
  - unfold rstep. destruct (srp x) as [| | |st|st n acc]; auto.
    + destruct (sr (smem x) =? sw (smem x)); auto.
    + destruct (N.of_nat (length acc) <? n); auto.
Qed.

Lemma wrote_app a b : wrote (a ++ b) = wrote a ++ wrote b.
Proof. induction a as [|[]]; simpl; auto. now rewrite IHa. Qed.
Lemma got_app a b : got (a ++ b) = got a ++ got b.
Proof. induction a as [|[]]; simpl; auto. now rewrite IHa. Qed.

Lemma sinv_run ls : forall x pend, sinv x pend ->
  exists pend', sinv (fst (srun x ls)) pend' /\
    pend ++ wrote (snd (srun x ls)) = got (snd (srun x ls)) ++ pend' /\
    (forall f, In (SWrote f) (snd (srun x ls)) -> elen f < ssize (smem x)) /\
    ssize (smem (fst (srun x ls))) = ssize (smem x).
Proof.
  induction ls as [|l ls IH]; intros x pend H.
  - exists pend. simpl. rewrite app_nil_r. split; [easy|]. split; [easy|]. split; easy.
  - destruct (sinv_step x pend l H) as (p1 & H1 & E1). pose proof (ssize_step x l) as Z. simpl.
    destruct (sstep x l) as [x1 e1]. simpl in *.
    destruct (IH x1 p1 H1) as (p2 & H2 & E2 & W2 & Z2).
    destruct (srun x1 ls) as [x2 e2]. simpl in *. exists p2. split; [easy|].
    rewrite wrote_app, got_app. rewrite Z in *. split; [|split; [|congruence]].
    + destruct e1 as [|[f|f|f|f] [|]]; simpl in *; try easy.
      * now subst.
      * now subst.
      * destruct E1 as [-> _]. rewrite <- E2, <- app_assoc. easy.
      * now subst.
      * subst pend. simpl. now rewrite E2.
    + intros f Hf. apply in_app_iff in Hf. destruct Hf as [Hf|Hf]; [|auto].
      destruct e1 as [|[g|g|g|g] [|]]; simpl in *; try easy; try (now destruct Hf).
      destruct Hf as [[= ->]|[]]. easy.
Qed.

Lemma sinv_init b size : 0 < size < 2 ^ 32 -> sinv (sinit b size) [].
Proof.
  intros H. constructor; simpl; try easy. exists false. split; [|easy]. apply lay_a; simpl; auto; lia.
Qed.

(** ** Progress *)

Lemma srun_app a : forall b x, srun x (a ++ b) =
  (fst (srun (fst (srun x a)) b), snd (srun x a) ++ snd (srun (fst (srun x a)) b)).
Proof.
  induction a as [|l a IH]; intros b x; simpl.
  - now destruct (srun x b).
  - destruct (sstep x l) as [x1 e1]. rewrite IH. destruct (srun x1 a) as [x2 e2].
    simpl. now rewrite app_assoc.
Qed.

(** The reader alone. *)
Definition rd (n : nat) (x : ssys) : ssys := fst (srun x (repeat LR n)).
Lemma rd_add a b x : rd (a + b) x = rd b (rd a x).
Proof. unfold rd. now rewrite repeat_app, srun_app. Qed.
Lemma rd_S n x : rd (S n) x = rd n (fst (rstep x)).
Proof.
  unfold rd. cbn [repeat srun sstep]. destruct (rstep x) as [x1 e1]. cbn [fst].
  now destruct (srun x1 (repeat LR n)).
Qed.
Lemma rd_swp n : forall x, swp (rd n x) = swp x.
Proof.
  induction n as [|n IH]; intros x; [easy|]. rewrite rd_S, IH. unfold rstep.
  destruct (srp x) as [| | |st|st m acc]; auto.
  - now destruct (sr (smem x) =? sw (smem x)).
  - now destruct (N.of_nat (length acc) <? m).
Qed.

Lemma rd_sinv n x pend : sinv x pend ->
  exists pend', sinv (rd n x) pend' /\ pend = got (snd (srun x (repeat LR n))) ++ pend' /\
    wrote (snd (srun x (repeat LR n))) = [].
Proof.
  intros H. assert (W : forall m y, wrote (snd (srun y (repeat LR m))) = []).
  { induction m as [|m IH]; intros y; [easy|]. cbn [repeat srun sstep].
    assert (Hr : wrote (snd (rstep y)) = []).
    { unfold rstep. destruct (srp y) as [| | |st|st k acc]; auto.
      destruct (N.of_nat (length acc) <? k); auto. }
    destruct (rstep y) as [x1 e1]. specialize (IH x1).
    destruct (srun x1 (repeat LR m)) as [x2 e2]. simpl in *. now rewrite wrote_app, Hr, IH. }
  destruct (sinv_run (repeat LR n) x pend H) as (p & Hp & E & _). exists p. split; [easy|].
  rewrite W in E. rewrite app_nil_r in E. auto.
Qed.

Fixpoint cost (fs : list frame) : nat :=
  match fs with [] => 0 | f :: r => length (snd f) + 4 + cost r end.
Definition progress (p : rpos) : nat :=
  match p with RIdle => 0 | RKind => 1 | RSkip => 2 | RLen _ => 2 | RData _ _ acc => 3 + length acc end.
Definition flag (s : sst) : nat := if sw s <? sr s then 3 else 0.
Definition rmeas (x : ssys) (pend : list frame) : nat :=
  cost pend + flag (smem x) - progress (srp x).

Lemma rstep_measure x pend : sinv x pend ->
  (srp x = RIdle /\ sr (smem x) = sw (smem x)) \/
  exists pend', sinv (fst (rstep x)) pend' /\ (rmeas (fst (rstep x)) pend' < rmeas x pend)%nat.
Proof.
  intros H. pose proof (sinv_rstep x pend H) as (pend' & H' & E').
  destruct H as [Hsz Ho (sk & HL & HR) HW]. unfold rmeas.
  assert (Hne : sr (smem x) <> sw (smem x) -> (3 <= cost pend + flag (smem x))%nat).
  { intros Hne. unfold flag. destruct HL as [Hr Hw Hs ->|]; destruct (N.ltb_spec (sw (smem x)) (sr (smem x))); try lia.
    destruct pend as [|f r]; simpl in *; [lia|lia]. }
  unfold rstep in *.
  destruct x as [s w f p]. simpl in *. destruct p as [| | |st|st n acc]; simpl in *.
  - destruct (N.eqb_spec (sr s) (sw s)) as [E|E]; [auto|]. right. subst pend'. exists pend.
    split; [easy|]. specialize (Hne E). simpl. lia.
  - right. subst pend'. exists pend. split; [easy|]. specialize (Hne HR).
    destruct (sbuf s (sr s) =? 255); simpl; lia.
  - right. subst pend'. exists pend. split; [easy|]. unfold flag. simpl.
    destruct HR as [Hn ->].
    assert (sw s < sr s) by (destruct HL; [congruence|easy]).
    destruct (N.ltb_spec (sw s) (sr s)); [|lia]. destruct (N.ltb_spec (sw s) 0); lia.
  - right. subst pend'. exists pend. split; [easy|]. destruct HR as (_ & _ & d & rest & ->). simpl. lia.
  - right. destruct HR as (Hn & -> & d & rest & -> & ->). unfold flen in *. simpl in *.
    destruct (N.ltb_spec (N.of_nat (length acc)) (N.of_nat (length (acc ++ d)))) as [Hi|Hi]; simpl in *.
    + subst pend'. exists ((st, acc ++ d) :: rest). split; [easy|]. simpl. rewrite !app_length in *. simpl. lia.
    + assert (d = []) by (rewrite app_length in Hi; destruct d; [easy|simpl in Hi; lia]). subst d.
      rewrite app_nil_r in *. injection E' as E'. subst pend'. exists rest. split; [easy|].
      match goal with |- context [flag (set_r s ?r)] => set (r' := r) in * end.
      assert (flag (set_r s r') <= flag s)%nat.
      { pose proof (lay_front _ _ _ _ _ _ HL Hn) as HF. simpl in HF.
        destruct HF as (f0 & rest0 & E & _ & _ & sk' & _ & M1 & M2). injection E as <- <-.
        assert (En : r' = next_of (ssize s) (sr s) (elen (st, acc))).
        { unfold r', next_of. rewrite elen_eq. unfold flen. simpl.
          replace (sr s + (N.of_nat (length acc) + 2)) with (sr s + 2 + N.of_nat (length acc)) by lia.
          reflexivity. }
        rewrite <- En in *. unfold flag. simpl.
        destruct (N.ltb_spec (sw s) r'); destruct (N.ltb_spec (sw s) (sr s)); lia. }
      lia.
Qed.

(** Left alone, the reader reads everything. *)
Lemma rd_drain x pend : sinv x pend ->
  exists n, srp (rd n x) = RIdle /\ sr (smem (rd n x)) = sw (smem (rd n x)) /\ swp (rd n x) = swp x /\
    sinv (rd n x) [] /\ got (snd (srun x (repeat LR n))) = pend.
Proof.
  intros H.
  assert (G : exists n, srp (rd n x) = RIdle /\ sr (smem (rd n x)) = sw (smem (rd n x))).
  { remember (rmeas x pend) as k eqn:Ek. revert x pend H Ek.
    induction k as [k IH] using lt_wf_ind. intros x pend H Ek.
    destruct (rstep_measure x pend H) as [G|(p' & H' & L)]; [now exists 0%nat|].
    destruct (IH (rmeas (fst (rstep x)) p') ltac:(lia) _ _ H' eq_refl) as [n Hn].
    exists (S n). now rewrite rd_S. }
  destruct G as (n & G1 & G2). exists n. split; [easy|]. split; [easy|]. split; [apply rd_swp|].
  destruct (rd_sinv n x pend H) as (p & Hp & E & _).
  assert (p = []).
  { destruct Hp as [_ _ (sk & HL & _) _].
    destruct HL as [Hr Hw Hs ->|]; [|lia]. rewrite G2 in Hs.
    destruct p as [|f r]; [easy|]. simpl in Hs. destruct Hs as (_ & _ & _ & Hs). apply seg_le in Hs.
    pose proof (elen_eq f). lia. }
  subst p. rewrite app_nil_r in E. auto.
Qed.

(** The writer alone. *)
Definition attempt (f : frame) : list slabel := LWrite f :: repeat LW (length (enc f) + 5).

Lemma srun_W ls x y e : wstep x = (y, e) -> srun x (LW :: ls) = (fst (srun y ls), e ++ snd (srun y ls)).
Proof. intros E. cbn [srun sstep]. rewrite E. now destruct (srun y ls). Qed.
Ltac stepw H := erewrite srun_W; [|unfold wstep; rewrite ?H; cbn [swp]; reflexivity]; cbn [fst snd app].

Lemma idle_W n : forall x, swp x = WIdle -> srun x (repeat LW n) = (x, []).
Proof.
  induction n as [|n IH]; intros x Hx; [easy|]. cbn [repeat]. stepw Hx. now rewrite IH.
Qed.

Lemma bytes_W todo : forall x a next n, swp x = WByte todo a next -> (length todo + 3 <= n)%nat ->
  snd (srun x (repeat LW n)) = [SWrote (sfr x)] /\ swp (fst (srun x (repeat LW n))) = WIdle.
Proof.
  induction todo as [|b todo IH]; intros x a next n Hx Hn.
  - simpl in Hn. destruct n as [|[|[|n]]]; try lia. cbn [repeat].
    stepw Hx. stepw Hx. stepw Hx. rewrite idle_W by reflexivity. split; reflexivity.
  - simpl in Hn. destruct n as [|n]; [lia|]. cbn [repeat]. stepw Hx.
    match goal with |- context [srun ?y _] => destruct (IH y (a + 1) next n) as [I1 I2]; [reflexivity|lia|] end.
    cbn [sfr] in I1. split; [|exact I2]. exact I1.
Qed.

Lemma attempt_go x f : swp x = WIdle -> startable f = true ->
  let r := srun (Ssys (smem x) (decide (ssize (smem x)) (sr (smem x)) (sw (smem x)) f) f (srp x))
             (repeat LW (length (enc f) + 3)) in
  srun x (attempt f) = (fst r, SStart f :: snd r).
Proof.
  intros Hx Hs. unfold attempt.
  replace (length (enc f) + 5)%nat with (S (S (length (enc f) + 3))) by lia.
  cbn [srun sstep]. rewrite Hx, Hs. cbn [repeat]. stepw Hx. stepw Hx. cbn [smem sfr srp].
  match goal with |- context [srun ?y ?z] => now destruct (srun y z) end.
Qed.

Lemma attempt_byte x f a next : swp x = WIdle -> startable f = true ->
  decide (ssize (smem x)) (sr (smem x)) (sw (smem x)) f = WByte (enc f) a next ->
  snd (srun x (attempt f)) = [SStart f; SWrote f].
Proof.
  intros Hx Hs Hd. rewrite attempt_go by easy. rewrite Hd.
  match goal with |- context [srun ?y _] =>
    destruct (bytes_W (enc f) y a next (length (enc f) + 3)%nat eq_refl ltac:(lia)) as [H _] end.
  cbn [fst snd]. now rewrite H.
Qed.

Lemma attempt_mark x f a : swp x = WIdle -> startable f = true ->
  decide (ssize (smem x)) (sr (smem x)) (sw (smem x)) f = WMark a ->
  srun x (attempt f) = (Ssys (set_w (put (smem x) a 255) 0) WIdle f (srp x), [SStart f; SFailed f]).
Proof.
  intros Hx Hs Hd. rewrite attempt_go by easy. rewrite Hd.
  replace (length (enc f) + 3)%nat with (S (S (S (length (enc f))))) by lia.
  cbn [repeat]. stepw Hx. stepw Hx. stepw Hx. rewrite idle_W by reflexivity. reflexivity.
Qed.

Lemma decide_empty size f : size < 2 ^ 32 -> elen f < size -> flen f < 256 ->
  decide size 0 0 f = WByte (enc f) 0 (elen f).
Proof.
  intros Hs He Hf. unfold decide, header_length. pose proof (elen_eq f).
  replace (u32 (flen f + 2)) with (elen f) by (unfold u32; rewrite N.mod_small; lia).
  destruct (N.leb_spec 0 0); [|lia]. rewrite sub32_le by lia.
  destruct (N.leb_spec (elen f) (size - 0)); [|lia].
  replace (u32 (0 + elen f)) with (elen f) by (unfold u32; rewrite N.mod_small; lia).
  destruct (N.eqb_spec (elen f) size); [lia|]. destruct (N.eqb_spec (elen f) 0); [lia|]. reflexivity.
Qed.

Lemma decide_same size w f : size < 2 ^ 32 -> w < size -> elen f < size -> flen f < 256 ->
  (exists next, decide size w w f = WByte (enc f) w next) \/ (decide size w w f = WMark w /\ w <> 0).
Proof.
  intros Hs Hw He Hf. unfold decide, header_length. pose proof (elen_eq f).
  replace (u32 (flen f + 2)) with (elen f) by (unfold u32; rewrite N.mod_small; lia).
  rewrite N.leb_refl. rewrite sub32_le by lia.
  destruct (N.leb_spec (elen f) (size - w)).
  - replace (u32 (w + elen f)) with (w + elen f) by (unfold u32; rewrite N.mod_small; lia).
    destruct (N.eqb_spec (w + elen f) size).
    + destruct (N.eqb_spec 0 w); [lia|eauto].
    + destruct (N.eqb_spec (w + elen f) w); [lia|eauto].
  - destruct (N.eqb_spec w 0); [lia|]. simpl. auto.
Qed.

Lemma skip3 m w f : sr m <> sw m -> sbuf m (sr m) = 255 ->
  srun (Ssys m w f RIdle) [LR; LR; LR] = (Ssys (set_r m 0) w f RIdle, []).
Proof.
  intros H1 H2. cbn [srun sstep]. unfold rstep at 1. cbn [srp smem swp sfr].
  destruct (N.eqb_spec (sr m) (sw m)); [easy|]. unfold rstep at 1. cbn [srp smem swp sfr].
  rewrite H2. reflexivity.
Qed.

Lemma two_attempts x pend f : sinv x pend -> swp x = WIdle -> srp x = RIdle ->
  sr (smem x) = sw (smem x) -> startable f = true -> elen f < ssize (smem x) ->
  snd (srun x (attempt f)) = [SStart f; SWrote f] \/
  snd (srun x (attempt f ++ [LR; LR; LR] ++ attempt f)) = [SStart f; SFailed f; SStart f; SWrote f].
Proof.
  intros [Hsz Ho (sk & HL & HR) HW] Hw Hr E Hs He.
  destruct (lay_bounds _ _ _ _ _ _ HL) as [Br Bw].
  assert (Ff : flen f < 256) by (unfold startable in Hs; apply andb_prop in Hs; now apply N.ltb_lt).
  destruct (decide_same (ssize (smem x)) (sw (smem x)) f) as [[next Hd]|[Hd Hn]]; auto.
  - left. eapply attempt_byte; eauto. rewrite E. exact Hd.
  - right. rewrite srun_app. rewrite <- E in Hd at 1. rewrite (attempt_mark x f _ Hw Hs Hd).
    cbn [fst snd]. rewrite srun_app, Hr, skip3; cbn [set_w put sr sw sbuf].
    + cbn [fst snd]. match goal with |- context [srun ?y (attempt f)] =>
        rewrite (attempt_byte y f 0 (elen f)) end; try easy.
      cbn [smem ssize sr sw]. now apply decide_empty.
    + congruence.
    + rewrite E. apply bput_same.
Qed.

(** Every transaction started has exactly one outcome, in order. *)
Definition current (x : ssys) : list frame :=
  match swp x with WIdle | WRes true => [] | _ => [sfr x] end.

Lemma starts_app a b : starts (a ++ b) = starts a ++ starts b.
Proof. induction a as [|[]]; simpl; auto. now rewrite IHa. Qed.
Lemma outcomes_app a b : outcomes (a ++ b) = outcomes a ++ outcomes b.
Proof. induction a as [|[]]; simpl; auto; now rewrite IHa. Qed.

Lemma current_step x l : 
  current x ++ starts (snd (sstep x l)) = outcomes (snd (sstep x l)) ++ current (fst (sstep x l)).
Proof.
  unfold current. destruct l as [f| |]; cbn [sstep].
  - destruct (swp x) as [| | | | | | |[]] eqn:E; try (simpl; rewrite E, ?app_nil_r; reflexivity).
    destruct (startable f); simpl; rewrite ?E; reflexivity.
  - unfold wstep. destruct (swp x) as [| |r0|[|b todo] a next|next|a| |[]] eqn:E; try (simpl; rewrite ?E; reflexivity).
    simpl. unfold decide. destruct (_ <=? sub32 _ _).
    + destruct (_ =? r0); reflexivity.
    + destruct (_ && _); reflexivity.
  - unfold rstep. destruct (srp x) as [| | |st|st n acc]; cbn [fst snd starts outcomes];
      rewrite ?app_nil_r; try reflexivity.
    + destruct (sr (smem x) =? sw (smem x)); reflexivity.
    + destruct (_ <? n); cbn [fst snd starts outcomes swp sfr]; rewrite ?app_nil_r; reflexivity.
Qed.

Lemma current_run ls : forall x,
  current x ++ starts (snd (srun x ls)) = outcomes (snd (srun x ls)) ++ current (fst (srun x ls)).
Proof.
  induction ls as [|l ls IH]; intros x; simpl; [now rewrite app_nil_r|].
  pose proof (current_step x l) as H. destruct (sstep x l) as [x1 e1]. specialize (IH x1).
  destruct (srun x1 ls) as [x2 e2]. simpl in *. rewrite starts_app, outcomes_app, app_assoc, H.
  rewrite <- !app_assoc. now rewrite IH.
Qed.
