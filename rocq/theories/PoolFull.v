(** Proofs about exhausted pools. *)
Require Import NArith List Bool Arith Lia.
From Verif Require Import AtomicSpec LinSpec Treiber TreiberProofs TreiberSoft PoolFullSpec.
Import ListNotations.
Open Scope nat_scope.

(** * The argument, for runs described by a few observations per position.
    [chk n t]: at position [n], context [t] has found the free list empty and is on its way to the
    blocks that have never been issued; [av n] of them are left. *)
Section Abstract.
Variable chk : nat -> nat -> bool.
Variable E : nat -> Prop.
Variable av : nat -> nat.
Hypothesis H1 : forall n t, chk (S n) t = true -> chk n t = false -> E (S n).
Hypothesis H2 : forall n, av (S n) = av n \/
  exists t, av n = S (av (S n)) /\ chk n t = true /\ chk (S n) t = false.

(** The last position before [n] at which [t] was not waiting. *)
Lemma last_off t : forall n p, p <= n -> chk n t = true ->
  (forall k, p <= k <= n -> chk k t = true) \/
  exists c, p <= c < n /\ chk c t = false /\ chk (S c) t = true.
Proof.
  induction n as [|n IH]; intros p Hp Hc.
  - left. intros k Hk. now replace k with 0 by lia.
  - destruct (Nat.eq_dec p (S n)) as [->|Hne].
    { left. intros k Hk. now replace k with (S n) by lia. }
    destruct (chk n t) eqn:E0.
    + destruct (IH p ltac:(lia) eq_refl) as [H|(c & A & B & C)].
      * left. intros k Hk. destruct (Nat.eq_dec k (S n)) as [->|]; [exact Hc|]. apply H. lia.
      * right. exists c. split; [lia|auto].
    + right. exists n. split; [lia|auto].
Qed.

(** Either the blocks issued between [p] and [p + k] went to contexts that were waiting for them all
    along, or some context found the free list empty in between. *)
Lemma takers p : forall k,
  (exists ts, NoDup ts /\ length ts + av (p + k) = av p /\
     forall t, In t ts -> chk p t = true /\ exists j, p <= j <= p + k /\ chk j t = false) \/
  exists c t, p <= c < p + k /\ chk c t = false /\ chk (S c) t = true.
Proof.
  induction k as [|k [(ts & A & B & C)|(c & t & X & Y)]].
  - left. exists []. rewrite Nat.add_0_r. split; [constructor|]. split; [easy|]. intros t [].
  - rewrite Nat.add_succ_r. destruct (H2 (p + k)) as [Eq|(t & Ea & Et & Ef)].
    + left. exists ts. split; [exact A|]. split; [lia|]. intros u Hu. destruct (C u Hu) as (X & j & Y & Z).
      split; [exact X|]. exists j. split; [lia|exact Z].
    + destruct (last_off t (p + k) p ltac:(lia) Et) as [Wt|(c & X & Y & Z)].
      2:{ right. exists c, t. split; [lia|auto]. }
      left. exists (t :: ts). split; [|split].
      * constructor; [|exact A]. intros Hin. destruct (C t Hin) as (_ & j & Y & Z).
        rewrite (Wt j Y) in Z. discriminate.
      * simpl. lia.
      * intros u [<-|Hu].
        -- split; [apply Wt; lia|]. exists (S (p + k)). split; [lia|exact Ef].
        -- destruct (C u Hu) as (X & j & Y & Z). split; [exact X|]. exists j. split; [lia|exact Z].
  - right. exists c, t. split; [lia|exact Y].
Qed.

Lemma found_instant d q : forall m p, q - p <= m -> p <= q -> E p ->
  (forall n, p <= n <= q -> chk n d = true) -> av q = 0 ->
  exists T ts, p <= T <= q /\ E T /\ NoDup ts /\ length ts = av T /\
    forall t, In t ts -> chk T t = true /\ t <> d.
Proof.
  induction m as [|m IH]; intros p Hm Hpq He Hd Ha.
  - exists p, []. replace p with q in * by lia. split; [lia|]. split; [exact He|].
    split; [constructor|]. split; [now rewrite Ha|]. intros t [].
  - destruct (takers p (q - p)) as [(ts & A & B & C)|(c & t & X & Y & Z)];
      replace (p + (q - p)) with q in * by lia.
    + exists p, ts. split; [lia|]. split; [exact He|]. split; [exact A|]. split; [lia|].
      intros t Ht. destruct (C t Ht) as (U & j & V & W). split; [exact U|]. intros ->.
      rewrite (Hd j V) in W. discriminate.
    + destruct (IH (S c)) as (T & ts & U & V); [lia|lia|eapply H1; eauto|intros n Hn; apply Hd; lia|exact Ha|].
      exists T, ts. split; [lia|exact V].
Qed.

(** [none n t]: the call of [t] is about to return nothing. *)
Variable none : nat -> nat -> bool.
Hypothesis Hc0 : forall t, chk 0 t = false.
Hypothesis Hn0 : forall t, none 0 t = false.
Hypothesis H3 : forall n t, none (S n) t = true -> none n t = true \/ (chk n t = true /\ av n = 0).

Lemma chk_since t : forall n, chk n t = true ->
  exists p, p <= n /\ E p /\ forall k, p <= k <= n -> chk k t = true.
Proof.
  intros n Hn. destruct (last_off t n 0 ltac:(lia) Hn) as [H|(c & A & B & C)].
  - specialize (H 0 ltac:(lia)). rewrite Hc0 in H. discriminate.
  - revert c A B C. induction n as [|n IH]; [lia|]. intros c A B C.
    destruct (chk n t) eqn:En.
    + destruct (Nat.eq_dec c n) as [->|]; [congruence|].
      destruct (IH eq_refl c) as (p & X & Y & Z); [lia|exact B|exact C|].
      exists p. split; [lia|]. split; [exact Y|]. intros k Hk.
      destruct (Nat.eq_dec k (S n)) as [->|]; [exact Hn|]. apply Z. lia.
    + exists (S n). split; [lia|]. split; [eapply H1; eauto|]. intros k Hk. now replace k with (S n) by lia.
Qed.

Lemma none_since t : forall n, none n t = true ->
  exists q, q < n /\ chk q t = true /\ av q = 0 /\ forall k, q < k <= n -> none k t = true.
Proof.
  induction n as [|n IH]; intros Hn; [rewrite Hn0 in Hn; discriminate|].
  destruct (H3 n t Hn) as [H|[H Ha]].
  - destruct (IH H) as (q & A & B & C & D). exists q. split; [lia|]. split; [exact B|]. split; [exact C|].
    intros k Hk. destruct (Nat.eq_dec k (S n)) as [->|]; [exact Hn|]. apply D. lia.
  - exists n. split; [lia|]. split; [exact H|]. split; [exact Ha|]. intros k Hk. now replace k with (S n) by lia.
Qed.

Lemma none_instant d n : none n d = true ->
  exists T ts, T <= n /\ E T /\ NoDup ts /\ length ts = av T /\
    (forall t, In t ts -> chk T t = true /\ t <> d) /\
    (forall k, T <= k <= n -> chk k d = true \/ none k d = true).
Proof.
  intros Hn. destruct (none_since d n Hn) as (q & A & B & C & D).
  destruct (chk_since d q B) as (p & F & G & I).
  destruct (found_instant d q (q - p) p) as (T & ts & X & Y & Z & U & V); auto.
  exists T, ts. split; [lia|]. split; [exact Y|]. split; [exact Z|]. split; [exact U|]. split; [exact V|].
  intros k Hk. destruct (Nat.le_gt_cases k q); [left; apply I; lia|right; apply D; lia].
Qed.
End Abstract.

(** * Logs *)
Lemma busy_app t1 : forall b t2, busy b (t1 ++ t2) = busy (busy b t1) t2.
Proof. induction t1 as [|[t o|t r] t1 IH]; intros b t2; simpl; auto. Qed.

Lemma used_app t1 : forall u t2, used u (t1 ++ t2) = used (used u t1) t2.
Proof.
  induction t1 as [|e t1 IH]; intros u t2; [easy|].
  simpl. destruct e as [? [| |]|? [| |]]; apply IH.
Qed.

(** * Counting blocks *)
Lemma NoDup_app_intro_ (l1 l2 : list nat) : NoDup l1 -> NoDup l2 -> (forall t, In t l1 -> ~ In t l2) -> NoDup (l1 ++ l2).
Proof.
  induction l1 as [|x l1 IH]; intros H1 H2 H; [exact H2|]. inversion H1; subst. simpl. constructor.
  - rewrite in_app_iff. intros [A|A]; [easy|]. apply (H x); simpl; auto.
  - apply IH; auto. intros t Ht. apply H. now right.
Qed.

Section Count.
Variables size edge : N.
Hypothesis Hsize : (0 < size)%N.

Definition left_ (u : N) : nat := N.to_nat ((edge - u) / size)%N.

Lemma left_edge : left_ edge = 0.
Proof. unfold left_. rewrite N.sub_diag, N.div_0_l by lia. reflexivity. Qed.

Lemma left_next u : on_grid size edge u -> u <> edge -> left_ u = S (left_ (u + size)%N).
Proof.
  intros [k Ek] Hne. unfold left_.
  assert (k <> 0)%N by (intros ->; lia).
  replace (edge - u)%N with (k * size)%N by lia.
  replace (edge - (u + size))%N with ((k - 1) * size)%N by nia.
  rewrite !N.div_mul by lia. lia.
Qed.

Lemma unissued_blocks u x : on_grid size edge u -> unissued size edge u x -> In x (blocks u size (left_ u)).
Proof.
  intros [k Ek] H. unfold left_. replace (edge - u)%N with (k * size)%N by lia.
  rewrite N.div_mul by lia. apply blocks_unissued; [exact Hsize|].
  rewrite N2Nat.id. rewrite <- Ek. exact H.
Qed.

Lemma blocks_length a s n : length (blocks a s n) = n.
Proof. revert a. induction n as [|n IH]; intros a; simpl; auto. Qed.

Lemma blocks_NoDup a n : NoDup (blocks a size n).
Proof.
  revert a. induction n as [|n IH]; intros a; simpl; [constructor|]. constructor; [|apply IH].
  intros H. apply blocks_unissued in H; [|exact Hsize]. destruct H as (k & H & _). nia.
Qed.

Lemma carriers (cr : nat -> option N) (H : list N) : forall B,
  (forall x, In x B -> In x H \/ exists t, cr t = Some x) ->
  exists ts, NoDup ts /\ (forall t, In t ts -> cr t <> None) /\
    forall x, In x B -> In x H \/ exists t, In t ts /\ cr t = Some x.
Proof.
  induction B as [|x B IH]; intros HB.
  - exists []. split; [constructor|]. split; [intros t []|]. intros x [].
  - destruct IH as (ts & A & C & D); [intros y Hy; apply HB; now right|].
    destruct (HB x (or_introl eq_refl)) as [Hx|[t Ht]].
    + exists ts. split; [exact A|]. split; [exact C|]. intros y [<-|Hy]; auto.
    + destruct (in_dec Nat.eq_dec t ts) as [Hi|Hi].
      * exists ts. split; [exact A|]. split; [exact C|]. intros y [<-|Hy]; [right; eauto|auto].
      * exists (t :: ts). split; [now constructor|]. split.
        -- intros u [<-|Hu]; [congruence|auto].
        -- intros y [<-|Hy]; [right; exists t; simpl; auto|]. destruct (D y Hy) as [?|(u & Hu & ?)]; [auto|].
           right. exists u. simpl. auto.
Qed.

(** With an empty free list, the blocks of the pool are in use, carried, or never issued. *)
Lemma count_blocks a count m cr : edge = (a + size * N.of_nat count)%N ->
  own size edge m [] cr ->
  dead m = [] ->
  (forall x, In x (blocks a size count) -> somewhere size edge m [] cr x) ->
  exists ts, NoDup ts /\ (forall t, In t ts -> cr t <> None) /\
    count <= length (held m) + length ts + left_ (un m).
Proof.
  intros He HO Hd Hs.
  destruct (carriers cr (held m ++ blocks (un m) size (left_ (un m))) (blocks a size count)) as (ts & A & B & C).
  { intros x Hx. rewrite in_app_iff. destruct (Hs x Hx) as [[]|[H|[H|[H|H]]]]; auto.
    - rewrite Hd in H. destruct H.
    - left. right. apply unissued_blocks; [apply (own_grid _ _ _ _ _ HO)|exact H]. }
  exists ts. split; [exact A|]. split; [exact B|].
  rewrite <- (blocks_length a size count) at 1.
  replace (length (held m) + length ts + left_ (un m)) with
    (length ((held m ++ blocks (un m) size (left_ (un m))) ++ map (fun t => match cr t with Some x => x | None => 0%N end) ts)).
  2:{ rewrite !app_length, map_length, blocks_length. lia. }
  apply NoDup_incl_length; [apply blocks_NoDup|].
  intros x Hx. apply in_app_iff. destruct (C x Hx) as [H|(t & Ht & Hc)]; [auto|].
  right. apply in_map_iff. exists t. rewrite Hc. auto.
Qed.
End Count.

(** * Critical-section build *)
Section Soft.
Variables size edge : N.
Hypothesis Hsize : (0 < size)%N.

Definition fchk (f : sfr) : bool :=
  match f with FToBump _ | FBump0 | FBump1 _ | FBump2 _ _ => true | _ => false end.
Definition fnone (f : sfr) : bool :=
  match f with FStored _ RNone | FDone RNone => true | _ => false end.
Definition fidle (f : sfr) : bool := match f with FIdle => true | _ => false end.
Definition fpops (f : sfr) : bool :=
  match f with FBegin OPop | FPaused _ OPop | FLoaded _ OPop _ | FComp _ OPop _ _ => true | _ => false end.

Lemma fchk_carry f : fchk f = true -> fcarry f = None.
Proof. now destruct f. Qed.
Lemma fcarry_idle f : fcarry f <> None -> fidle f = false.
Proof. now destruct f. Qed.
Lemma fchk_idle f : fchk f = true -> fidle f = false.
Proof. now destruct f. Qed.
Lemma fnone_idle f : fnone f = true -> fidle f = false.
Proof. now destruct f. Qed.

Definition sat (s : sstate) (t : nat) : sfr := at_depth (sfs s) t.

Lemma srun_app_log l1 : forall s l2,
  srun size edge s (l1 ++ l2) =
  (fst (srun size edge (fst (srun size edge s l1)) l2),
   snd (srun size edge s l1) ++ snd (srun size edge (fst (srun size edge s l1)) l2)).
Proof.
  induction l1 as [|lb l1 IH]; intros s l2; simpl; [now destruct (srun size edge s l2)|].
  destruct (sstep size edge s lb) as [s1 e1]. rewrite IH.
  destruct (srun size edge s1 l1) as [s2 e2]. simpl. now rewrite app_assoc.
Qed.

Lemma sstep_one s lb : snd (sstep size edge s lb) = [] \/ exists e, snd (sstep size edge s lb) = [e].
Proof.
  unfold sstep. destruct (sfs s) as [|f rest]; [auto|].
  destruct lb; simpl; repeat (match goal with |- context [match ?x with _ => _ end] => destruct x end; simpl); eauto.
Qed.

Lemma sfind_event e : forall ls s tr tr', snd (srun size edge s ls) = tr ++ e :: tr' ->
  exists l1 lb l2, ls = l1 ++ lb :: l2 /\ snd (srun size edge s l1) = tr /\
    snd (sstep size edge (fst (srun size edge s l1)) lb) = [e].
Proof.
  induction ls as [|lb ls IH]; intros s tr tr' H; [destruct tr; discriminate|].
  simpl in H. destruct (sstep_one s lb) as [E0|[e0 E0]]; destruct (sstep size edge s lb) as [s1 e1] eqn:Es;
    simpl in E0; subst e1; destruct (srun size edge s1 ls) as [s2 e2] eqn:Er; simpl in H.
  - destruct (IH s1 tr tr') as (l1 & lb' & l2 & A & B & C); [now rewrite Er|].
    exists (lb :: l1), lb', l2. split; [now rewrite A|]. simpl. rewrite Es.
    destruct (srun size edge s1 l1) as [s3 e3]. simpl in *. auto.
  - destruct tr as [|e' tr].
    + injection H as <- ->. exists [], lb, ls. split; [easy|]. split; [easy|]. simpl. now rewrite Es.
    + injection H as <- H. destruct (IH s1 tr tr') as (l1 & lb' & l2 & A & B & C); [now rewrite Er|].
      exists (lb :: l1), lb', l2. split; [now rewrite A|]. simpl. rewrite Es.
      destruct (srun size edge s1 l1) as [s3 e3]. simpl in *. split; [now rewrite B|auto].
Qed.

(** What one step does to the contexts. *)
Lemma sstep_ctx ie0 s l lb : sinv size edge ie0 s l -> (forall t, fpops (sat s t) = false) -> pool_slabel lb ->
  let s' := fst (sstep size edge s lb) in
  (forall t, fpops (sat s' t) = false) /\
  (forall t, fchk (sat s' t) = true -> fchk (sat s t) = false -> hd (ssh s') = 0%N) /\
  (un (ssh s') = un (ssh s) \/
   exists t, un (ssh s) <> edge /\ un (ssh s') = (un (ssh s) + size)%N /\ fchk (sat s t) = true /\ fchk (sat s' t) = false) /\
  (forall t, fnone (sat s' t) = true -> fnone (sat s t) = true \/ (fchk (sat s t) = true /\ un (ssh s) = edge)) /\
  (forall b t, busy b (snd (sstep size edge s lb)) t =
     match snd (sstep size edge s lb) with [] => b t | _ => if of_ctx t (List.hd (LCall 0 OPop) (snd (sstep size edge s lb))) then negb (fidle (sat s' t)) else b t end) /\
  (forall t, fidle (sat s' t) = fidle (sat s t) \/ exists e, snd (sstep size edge s lb) = [e] /\ of_ctx t e = true) /\
  (forall e t, snd (sstep size edge s lb) = [e] -> of_ctx t e = true -> fidle (sat s t) = true \/ fidle (sat s' t) = true) /\
  (forall t, snd (sstep size edge s lb) = [LReturn t RNone] -> fnone (sat s t) = true).
Proof.
  intros HI Hp Hl. pose proof HI as [HO HF HT]. unfold sat in *. cbv zeta. unfold sstep.
  destruct (sfs s) as [|f rest] eqn:Es; [easy|]. destruct HT as [HT HR].
  pose proof (Hp (length rest)) as Hpf. rewrite (at_depth_top size Hsize) in Hpf.
  assert (Hsame : let '(s', e) := (s, []) : sstate * list (lvis top tres) in
    (forall t, fpops (at_depth (sfs s') t) = false) /\
    (forall t, fchk (at_depth (sfs s') t) = true -> fchk (at_depth (f :: rest) t) = false -> hd (ssh s') = 0%N) /\
    (un (ssh s') = un (ssh s) \/
     exists t, un (ssh s) <> edge /\ un (ssh s') = (un (ssh s) + size)%N /\ fchk (at_depth (f :: rest) t) = true /\ fchk (at_depth (sfs s') t) = false) /\
    (forall t, fnone (at_depth (sfs s') t) = true -> fnone (at_depth (f :: rest) t) = true \/ (fchk (at_depth (f :: rest) t) = true /\ un (ssh s) = edge)) /\
    (forall b t, busy b e t = match e with [] => b t | _ => if of_ctx t (List.hd (LCall 0 OPop) e) then negb (fidle (at_depth (sfs s') t)) else b t end) /\
    (forall t, fidle (at_depth (sfs s') t) = fidle (at_depth (f :: rest) t) \/ exists e0, e = [e0] /\ of_ctx t e0 = true) /\
    (forall e0 t, e = [e0] -> of_ctx t e0 = true -> fidle (at_depth (f :: rest) t) = true \/ fidle (at_depth (sfs s') t) = true) /\
    (forall t, e = [LReturn t RNone] -> fnone (at_depth (f :: rest) t) = true)).
  { rewrite Es. repeat split; auto; try discriminate. intros t A B. congruence. }
  (* a step of the running context *)
  assert (Hstep : forall m ie f' e,
    fpops f' = false ->
    (fchk f' = true -> fchk f = false -> hd m = 0%N) ->
    (un m = un (ssh s) \/ (un (ssh s) <> edge /\ un m = (un (ssh s) + size)%N /\ fchk f = true /\ fchk f' = false)) ->
    (fnone f' = true -> fnone f = true \/ (fchk f = true /\ un (ssh s) = edge)) ->
    (e = [] /\ fidle f' = fidle f \/ (exists o, e = [LCall (length rest) o] /\ fidle f = true /\ fidle f' = false) \/
     (exists r, e = [LReturn (length rest) r] /\ fidle f' = true /\ (r = RNone -> fnone f = true))) ->
    let '(s', e) := (SState m ie (f' :: rest), e) : sstate * list (lvis top tres) in
    (forall t, fpops (at_depth (sfs s') t) = false) /\
    (forall t, fchk (at_depth (sfs s') t) = true -> fchk (at_depth (f :: rest) t) = false -> hd (ssh s') = 0%N) /\
    (un (ssh s') = un (ssh s) \/
     exists t, un (ssh s) <> edge /\ un (ssh s') = (un (ssh s) + size)%N /\ fchk (at_depth (f :: rest) t) = true /\ fchk (at_depth (sfs s') t) = false) /\
    (forall t, fnone (at_depth (sfs s') t) = true -> fnone (at_depth (f :: rest) t) = true \/ (fchk (at_depth (f :: rest) t) = true /\ un (ssh s) = edge)) /\
    (forall b t, busy b e t = match e with [] => b t | _ => if of_ctx t (List.hd (LCall 0 OPop) e) then negb (fidle (at_depth (sfs s') t)) else b t end) /\
    (forall t, fidle (at_depth (sfs s') t) = fidle (at_depth (f :: rest) t) \/ exists e0, e = [e0] /\ of_ctx t e0 = true) /\
    (forall e0 t, e = [e0] -> of_ctx t e0 = true -> fidle (at_depth (f :: rest) t) = true \/ fidle (at_depth (sfs s') t) = true) /\
    (forall t, e = [LReturn t RNone] -> fnone (at_depth (f :: rest) t) = true)).
  { intros m ie f' e A1 A2 A3 A4 A5. cbn [sfs ssh].
    assert (Dt : forall t, (t = length rest /\ at_depth (f' :: rest) t = f' /\ at_depth (f :: rest) t = f) \/
                           (t <> length rest /\ at_depth (f' :: rest) t = at_depth (f :: rest) t)).
    { intros t. rewrite (at_depth_replace size Hsize f f').
      destruct (Nat.eq_dec t (length rest)) as [->|Hne]; [left|right].
      - now rewrite upd_same, (at_depth_top size Hsize).
      - now rewrite upd_other. }
    split; [|split; [|split; [|split; [|split; [|split; [|split]]]]]].
    - intros t. destruct (Dt t) as [(-> & -> & _)|(_ & ->)]; auto.
    - intros t. destruct (Dt t) as [(-> & -> & ->)|(_ & ->)]; [auto|]. intros X Y. congruence.
    - destruct A3 as [A3|(X & Y & Z & W)]; [auto|]. right. exists (length rest).
      rewrite !(at_depth_top size Hsize). auto.
    - intros t. destruct (Dt t) as [(-> & -> & ->)|(_ & ->)]; auto.
    - intros b t. destruct A5 as [(-> & _)|[(o & -> & B & C)|(r & -> & B & _)]]; [easy| |]; simpl.
      + destruct (Nat.eqb_spec (length rest) t) as [<-|Hne].
        * rewrite upd_same, (at_depth_top size Hsize), C. easy.
        * rewrite upd_other; auto.
      + destruct (Nat.eqb_spec (length rest) t) as [<-|Hne].
        * rewrite upd_same, (at_depth_top size Hsize), B. easy.
        * rewrite upd_other; auto.
    - intros t. destruct (Dt t) as [(-> & -> & ->)|(_ & ->)]; [|auto].
      destruct A5 as [(-> & B)|[(o & -> & _)|(r & -> & _)]]; [auto| |]; right; eexists; (split; [reflexivity|]);
        simpl; apply Nat.eqb_refl.
    - intros e0 t He Ho. destruct A5 as [(-> & B)|[(o & -> & B & _)|(r & -> & B & _)]]; [discriminate| |];
        injection He as <-; simpl in Ho; apply Nat.eqb_eq in Ho; subst t; rewrite !(at_depth_top size Hsize); auto.
    - intros t He. destruct A5 as [(-> & B)|[(o & -> & B & _)|(r & -> & B & C)]]; try discriminate.
      injection He as <- ->. rewrite (at_depth_top size Hsize). auto. }
  destruct lb as [o| | | | |x v|x]; simpl in Hl.
  - destruct f; try exact Hsame. destruct (may_call (ssh s) o); [|exact Hsame].
    apply Hstep; simpl; auto; try discriminate.
    + destruct o; easy.
    + left. destruct o; reflexivity.
    + right. left. eauto.
  - destruct f as [|o|sv o|sv o cur|sv o cur new|sv r|sv| |sv|sv u|r]; simpl in HT, Hpf; cbn [saccess].
    + apply Hstep; simpl; auto; try discriminate.
    + apply Hstep; simpl; auto; try discriminate.
    + apply Hstep; simpl; auto; try discriminate.
    + destruct HT as (T1 & T2 & T3). destruct o as [x| |]; [| discriminate |].
      * apply Hstep; simpl; auto; try discriminate.
      * destruct (N.eqb_spec cur 0) as [E0|E0]; apply Hstep; simpl; auto; try discriminate. congruence.
    + destruct o as [x| |]; [| discriminate |]; apply Hstep; simpl; auto; try discriminate.
    + destruct r; apply Hstep; simpl; auto; try discriminate.
    + apply Hstep; simpl; auto; try discriminate.
    + apply Hstep; simpl; auto; try discriminate.
    + apply Hstep; simpl; auto; try discriminate.
    + destruct HT as (T1 & T2 & T3). destruct (N.eqb_spec u edge) as [E0|E0]; apply Hstep; simpl; auto; try discriminate.
      * intros _. right. split; congruence.
      * right. rewrite <- T3. auto.
    + apply Hstep; simpl; auto; try discriminate.
  - destruct f; try exact Hsame. apply Hstep; simpl; auto; try discriminate.
    + destruct r; auto.
    + right. right. exists r. split; [easy|]. split; [easy|]. now intros ->.
  - destruct (sie s); [|exact Hsame]. cbn [fst snd ssh sfs].
    split; [|split; [|split; [|split; [|split; [|split; [|split]]]]]]; auto; try discriminate.
    + intros t. rewrite at_depth_push. apply Hp.
    + intros t. rewrite at_depth_push. congruence.
    + intros t. rewrite at_depth_push. auto.
    + intros t. left. rewrite at_depth_push. auto.
  - destruct f; try exact Hsame. destruct rest as [|g rest]; [exact Hsame|]. cbn [fst snd ssh sfs].
    split; [|split; [|split; [|split; [|split; [|split; [|split]]]]]]; auto; try discriminate.
    + intros t. rewrite <- at_depth_push. apply Hp.
    + intros t. rewrite <- at_depth_push. congruence.
    + intros t. rewrite <- at_depth_push. auto.
    + intros t. left. rewrite <- at_depth_push. auto.
  - destruct (mem_N x (held (ssh s))); [|exact Hsame]. apply Hstep; auto.
    intros A B. congruence.
  - destruct Hl.
Qed.

Lemma sstep_held s lb : pool_slabel lb ->
  held (ssh (fst (sstep size edge s lb))) = used (held (ssh s)) (snd (sstep size edge s lb)) /\
  dead (ssh (fst (sstep size edge s lb))) = dead (ssh s).
Proof.
  unfold sstep. destruct (sfs s) as [|f rest]; [easy|].
  destruct lb as [o| | | | |x v|x]; simpl; intros Hk; [| | | | | |easy].
  - destruct f; try easy. destruct o as [x| |]; simpl; try easy.
    now destruct (mem_N x (held (ssh s))).
  - destruct f as [|o|sv o|sv o cur|sv o cur new|sv r|sv| |sv|sv u|r]; simpl; try easy;
      try destruct o; simpl;
      repeat match goal with |- context [if ?b then _ else _] => destruct b end; easy.
  - destruct f; try easy. now destruct r.
  - now destruct (sie s).
  - destruct f; try easy. now destruct rest.
  - now destruct (mem_N x (held (ssh s))).
Qed.

Section Run.
Variables (ie0 : bool) (s0 : sstate) (ls : list slabel).
Hypothesis HI0 : sinv size edge ie0 s0 [].
Hypothesis Hlab : Forall pool_slabel ls.
Hypothesis Hs0 : sfs s0 = [FIdle].
Hypothesis Hh0 : held (ssh s0) = [].
Hypothesis Hd0 : dead (ssh s0) = [].

Let st (n : nat) : sstate := fst (srun size edge s0 (firstn n ls)).
Let lg (n : nat) : list (lvis top tres) := snd (srun size edge s0 (firstn n ls)).

Lemma st_S n : (st (S n) = st n /\ lg (S n) = lg n) \/
  exists lb, nth_error ls n = Some lb /\ st (S n) = fst (sstep size edge (st n) lb) /\
    lg (S n) = lg n ++ snd (sstep size edge (st n) lb).
Proof.
  unfold st, lg. destruct (nth_error ls n) as [lb|] eqn:En.
  - right. exists lb. split; [easy|].
    assert (Ef : firstn (S n) ls = firstn n ls ++ [lb]).
    { clear - En. revert n En. induction ls as [|x r IH]; intros [|n] En; simpl in *; try discriminate.
      - now injection En as ->.
      - f_equal. now apply IH. }
    rewrite Ef, srun_app_log. simpl.
    destruct (sstep size edge (fst (srun size edge s0 (firstn n ls))) lb) as [s1 e1]. simpl.
    now rewrite app_nil_r.
  - left. apply nth_error_None in En. now rewrite !firstn_all2 by lia.
Qed.

Lemma st_inv n : exists l, sinv size edge ie0 (st n) l /\
  forall x, somewhere size edge (ssh s0) [] (crs (sfs s0)) x <->
            somewhere size edge (ssh (st n)) l (crs (sfs (st n))) x.
Proof.
  destruct (sinv_run size edge Hsize ie0 (firstn n ls) s0 [] HI0) as (l & A & B & _). exists l. auto.
Qed.

Lemma st_pops n t : fpops (sat (st n) t) = false.
Proof.
  revert t. induction n as [|n IH]; intros t.
  - unfold st, sat. simpl. rewrite Hs0. unfold at_depth. destruct t as [|[|t]]; reflexivity.
  - destruct (st_S n) as [(-> & _)|(lb & En & -> & _)]; [apply IH|].
    destruct (st_inv n) as (l & HI & _).
    apply (sstep_ctx ie0 (st n) l lb HI IH). eapply Forall_forall; [exact Hlab|]. eapply nth_error_In; eauto.
Qed.

Lemma st_ctx n lb : nth_error ls n = Some lb ->
  exists l, sinv size edge ie0 (st n) l /\ pool_slabel lb /\ (forall t, fpops (sat (st n) t) = false).
Proof.
  intros En. destruct (st_inv n) as (l & HI & _). exists l. split; [exact HI|]. split; [|apply st_pops].
  eapply Forall_forall; [exact Hlab|]. eapply nth_error_In; eauto.
Qed.

Lemma st_busy n t : busy (fun _ => false) (lg n) t = negb (fidle (sat (st n) t)).
Proof.
  revert t. induction n as [|n IH]; intros t.
  - unfold lg, st, sat. simpl. rewrite Hs0. unfold at_depth. destruct t as [|[|t]]; reflexivity.
  - destruct (st_S n) as [(-> & ->)|(lb & En & -> & ->)]; [apply IH|].
    destruct (st_ctx n lb En) as (l & HI & Hl & Hp).
    destruct (sstep_ctx ie0 (st n) l lb HI Hp Hl) as (_ & _ & _ & _ & B & I & _).
    rewrite busy_app, B. destruct (sstep_one (st n) lb) as [E0|[e E0]]; rewrite E0 in *.
    + rewrite IH. destruct (I t) as [->|(e & He & _)]; [easy|discriminate].
    + simpl. destruct (of_ctx t e) eqn:Eo; [easy|]. rewrite IH.
      destruct (I t) as [->|(e' & He & Ho)]; [easy|]. injection He as <-. congruence.
Qed.

Lemma st_held n : held (ssh (st n)) = used [] (lg n) /\ dead (ssh (st n)) = [].
Proof.
  induction n as [|n [IH1 IH2]].
  - unfold st, lg. simpl. auto.
  - destruct (st_S n) as [(-> & ->)|(lb & En & -> & ->)]; [auto|].
    destruct (st_ctx n lb En) as (l & HI & Hl & Hp). destruct (sstep_held (st n) lb Hl) as [A B].
    rewrite A, B, used_app, IH1. auto.
Qed.

(** No event of a context that stays busy. *)
Lemma st_quiet d p q : p <= q -> (forall k, p <= k <= q -> fidle (sat (st k) d) = false) ->
  exists tr2, lg q = lg p ++ tr2 /\ forall e, In e tr2 -> of_ctx d e = false.
Proof.
  intros Hpq. induction Hpq as [|q Hpq IH]; intros Hb.
  - exists []. split; [now rewrite app_nil_r|]. intros e [].
  - destruct IH as (tr2 & A & B); [intros k Hk; apply Hb; lia|].
    destruct (st_S q) as [(Es & El)|(lb & En & Es & El)].
    + exists tr2. now rewrite El.
    + exists (tr2 ++ snd (sstep size edge (st q) lb)). split; [now rewrite El, A, app_assoc|].
      intros e He. apply in_app_iff in He. destruct He as [He|He]; [auto|].
      destruct (st_ctx q lb En) as (l & HI & Hl & Hp).
      destruct (sstep_ctx ie0 (st q) l lb HI Hp Hl) as (_ & _ & _ & _ & _ & _ & C & _).
      destruct (sstep_one (st q) lb) as [E0|[e0 E0]]; rewrite E0 in He; [destruct He|].
      destruct He as [<-|[]]. destruct (of_ctx d e0) eqn:Eo; [|easy].
      destruct (C e0 d E0 Eo) as [H|H].
      * rewrite Hb in H by lia. discriminate.
      * rewrite <- Es, Hb in H by lia. discriminate.
Qed.

Theorem soft_exhausted a count d tr tr' :
  edge = (a + size * N.of_nat count)%N ->
  (forall x, In x (blocks a size count) -> somewhere size edge (ssh s0) [] (crs (sfs s0)) x) ->
  snd (srun size edge s0 ls) = tr ++ LReturn d RNone :: tr' ->
  exists p q tr2, ls = p ++ q /\
    tr = snd (srun size edge s0 p) ++ tr2 /\
    busy (fun _ => false) (snd (srun size edge s0 p)) d = true /\
    (forall e, In e tr2 -> of_ctx d e = false) /\
    exhausted_for d count (snd (srun size edge s0 p)).
Proof.
  intros He Hall Hev. destruct (sfind_event _ _ _ _ _ Hev) as (l1 & lb & l2 & El & Etr & Ev).
  set (N := length l1).
  assert (EN : firstn N ls = l1) by (unfold N; rewrite El, firstn_app, firstn_all, Nat.sub_diag; apply app_nil_r).
  assert (Elb : nth_error ls N = Some lb).
  { unfold N. rewrite El, nth_error_app2, Nat.sub_diag by lia. reflexivity. }
  assert (EsN : st N = fst (srun size edge s0 l1)) by (unfold st; now rewrite EN).
  assert (ElN : lg N = tr) by (unfold lg; now rewrite EN).
  rewrite <- EsN in Ev.
  assert (Hnone : fnone (sat (st N) d) = true).
  { destruct (st_ctx N lb Elb) as (l & HI & Hl & Hp).
    now apply (sstep_ctx ie0 (st N) l lb HI Hp Hl). }
  destruct (none_instant (fun n t => fchk (sat (st n) t)) (fun n => hd (ssh (st n)) = 0%N)
              (fun n => left_ size edge (un (ssh (st n))))) with (none := fun n t => fnone (sat (st n) t)) (d := d) (n := N)
    as (T & ts & HT & HE & Hnd & Hlen & Hts & Hbz).
  - intros n t A B. destruct (st_S n) as [(Es & _)|(lb' & En & Es & _)]; [rewrite Es in A; congruence|].
    destruct (st_ctx n lb' En) as (l & HI & Hl & Hp). rewrite Es in *.
    eapply (sstep_ctx ie0 (st n) l lb' HI Hp Hl); eauto.
  - intros n. destruct (st_S n) as [(Es & _)|(lb' & En & Es & _)]; [left; now rewrite Es|].
    destruct (st_ctx n lb' En) as (l & HI & Hl & Hp). rewrite Es in *.
    destruct (sstep_ctx ie0 (st n) l lb' HI Hp Hl) as (_ & _ & [U|(t & U & V & W)] & _); [left; now rewrite U|].
    right. exists t. rewrite V. split; [|exact W]. apply left_next; auto.
    apply (own_grid _ _ _ _ _ (si_own _ _ _ _ _ HI)).
  - intros t. unfold st, sat. simpl. rewrite Hs0. unfold at_depth. destruct t as [|[|t]]; reflexivity.
  - intros t. unfold st, sat. simpl. rewrite Hs0. unfold at_depth. destruct t as [|[|t]]; reflexivity.
  - intros n t A. destruct (st_S n) as [(Es & _)|(lb' & En & Es & _)]; [rewrite Es in A; auto|].
    destruct (st_ctx n lb' En) as (l & HI & Hl & Hp). rewrite Es in *.
    destruct (sstep_ctx ie0 (st n) l lb' HI Hp Hl) as (_ & _ & _ & C & _).
    destruct (C t A) as [H|[H U]]; [auto|]. right. split; [exact H|]. rewrite U. apply left_edge; auto.
  - exact Hnone.
  - exists (firstn T ls), (skipn T ls).
    destruct (st_quiet d T N HT) as (tr2 & A & B).
    { intros k Hk. destruct (Hbz k Hk) as [H|H]; [now apply fchk_idle|now apply fnone_idle]. }
    exists tr2. split; [symmetry; apply firstn_skipn|]. split; [now rewrite <- ElN|].
    assert (Hd : fidle (sat (st T) d) = false).
    { destruct (Hbz T ltac:(lia)) as [H|H]; [now apply fchk_idle|now apply fnone_idle]. }
    split; [change (busy (fun _ => false) (lg T) d = true); now rewrite st_busy, Hd|].
    split; [exact B|].
    destruct (st_inv T) as (l & HI & HW). destruct (st_held T) as [Eh Ed].
    assert (l = []) as ->.
    { pose proof (own_chain _ _ _ _ _ (si_own _ _ _ _ _ HI)) as Hch. destruct l; [easy|]. simpl in Hch.
      destruct Hch as (? & ? & _). congruence. }
    destruct (count_blocks size edge Hsize a count (ssh (st T)) (crs (sfs (st T))) He (si_own _ _ _ _ _ HI) Ed)
      as (cs & Ca & Cb & Cc).
    { intros x Hx. apply HW. auto. }
    exists (cs ++ ts). split; [|split].
    + apply NoDup_app_intro_; auto. intros t Ht Ht'. apply (Cb t Ht). unfold crs. apply fchk_carry. now apply Hts.
    + intros t Ht. apply in_app_iff in Ht. change (snd (srun size edge s0 (firstn T ls))) with (lg T).
      rewrite st_busy. destruct Ht as [Ht|Ht].
      * split.
        -- intros ->. apply (Cb d Ht). unfold crs. destruct (Hbz T ltac:(lia)) as [H|H];
             [now apply fchk_carry|]. unfold sat in H. destruct (at_depth (sfs (st T)) d); try discriminate; now destruct r.
        -- specialize (Cb t Ht). unfold crs in Cb. apply fcarry_idle in Cb. unfold sat. now rewrite Cb.
      * destruct (Hts t Ht) as [H Hne]. split; [exact Hne|]. now rewrite (fchk_idle _ H).
    + change (snd (srun size edge s0 (firstn T ls))) with (lg T). rewrite <- Eh.
      rewrite nodup_fixed_point by apply (own_nd_h _ _ _ _ _ (si_own _ _ _ _ _ HI)).
      rewrite app_length. lia.
Qed.
End Run.
End Soft.
