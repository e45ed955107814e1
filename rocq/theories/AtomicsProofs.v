(** Proofs: both atomic implementations refine the atomic word. *)
Require Import NArith List Bool Arith Lia.
From Verif Require Import AtomicSpec Atomics.
Import ListNotations.

Lemma upd_same {A} (f : nat -> A) t a : upd f t a t = a.
Proof. unfold upd. now rewrite Nat.eqb_refl. Qed.

Lemma upd_other {A} (f : nat -> A) t t' a : t' <> t -> upd f t a t' = f t'.
Proof. unfold upd. intros H. destruct (Nat.eqb_spec t' t); easy. Qed.

(** ** Hardware build *)

(** Which operations use a compare-exchange loop. *)
Definition loops (o : op) : Prop :=
  match o with Modify _ | ModifyFrom _ _ | TryModify _ => True | _ => False end.

(** The relation between a concrete and an abstract context.  A conditional
    update which is going to be declined has already taken effect. *)
Definition crel (ct : cthread) (at_ : astat) : Prop :=
  match ct with
  | CIdle => at_ = AIdle
  | CBegin o => at_ = APend o
  | CHave o old =>
      match o with
      | TryModify f =>
          match f old with
          | None => at_ = ADone (RErr old)
          | Some _ => at_ = APend o
          end
      | _ => at_ = APend o
      end
  | CDone r => at_ = ADone r
  end.

Definition cwf (ct : cthread) : Prop :=
  match ct with CHave o _ => loops o | _ => True end.

Definition csim (w0 : N) (s : cstate) (tr : list vis) : Prop :=
  exists a, aexec w0 tr a /\ aw a = cw s /\
            forall t, crel (cth s t) (ath a t) /\ cwf (cth s t).

Ltac thr t0 t1 :=
  destruct (Nat.eq_dec t1 t0) as [->|?];
  [rewrite ?upd_same | rewrite ?upd_other by assumption].

Lemma csim_stutter w0 w th tr a t ct :
  aexec w0 tr a -> aw a = w ->
  (forall t', crel (th t') (ath a t') /\ cwf (th t')) ->
  crel ct (ath a t) -> cwf ct ->
  csim w0 (CState w (upd th t ct)) tr.
Proof.
  intros Ha Hw Hr Hc Hf. exists a. split; [easy|]. split; [easy|].
  intros t'. simpl. thr t t'; auto.
Qed.

Lemma csim_effect w0 w th tr a t ct o :
  aexec w0 tr a -> ath a t = APend o ->
  (forall t', crel (th t') (ath a t') /\ cwf (th t')) ->
  w = fst (apply o (aw a)) ->
  crel ct (ADone (snd (apply o (aw a)))) -> cwf ct ->
  csim w0 (CState w (upd th t ct)) tr.
Proof.
  intros Ha Hp Hr Hw Hc Hf.
  eexists. split; [apply (ax_take_effect w0 tr a t o Ha Hp)|].
  split; [easy|]. intros t'. simpl. thr t t'; auto.
Qed.

Lemma cstep_sim w0 s tr l :
  csim w0 s tr -> csim w0 (fst (cstep s l)) (tr ++ snd (cstep s l)).
Proof.
  intros (a & Ha & Hw & Hr). destruct l as [t o | t spur | t]; simpl.
  - pose proof (Hr t) as [Ht Hwf]. destruct (cth s t) eqn:E; simpl;
      try (rewrite app_nil_r; exists a; easy).
    simpl in Ht.
    exists (AState (aw a) (upd (ath a) t (APend o))). split; [now apply ax_inv|].
    split; [easy|]. intros t'. simpl. thr t t'; [easy|apply Hr].
  - pose proof (Hr t) as [Ht Hwf].
    destruct (cth s t) as [|o|o old|r] eqn:E; simpl in *.
    + rewrite app_nil_r. apply csim_stutter with a; simpl; auto.
    + destruct o; simpl; rewrite app_nil_r.
      * eapply csim_effect; eauto; rewrite ?Hw; simpl; auto.
      * eapply csim_effect; eauto; rewrite ?Hw; simpl; auto.
      * eapply csim_effect; eauto; rewrite ?Hw; simpl; auto.
      * eapply csim_effect; eauto; rewrite ?Hw; simpl; auto.
      * apply csim_stutter with a; simpl; auto.
      * apply csim_stutter with a; simpl; auto.
      * destruct (f (cw s)) eqn:Ef.
        -- apply csim_stutter with a; simpl; auto. now rewrite Ef.
        -- eapply csim_effect; eauto; rewrite ?Hw; simpl; rewrite Ef; auto.
    + destruct o; simpl in *; try easy; unfold cas_weak.
      * destruct (negb spur && N.eqb (cw s) old) eqn:Ec; simpl; rewrite app_nil_r.
        -- apply andb_prop in Ec as [_ Ec]. apply N.eqb_eq in Ec.
           eapply csim_effect; eauto; rewrite ?Hw; simpl; subst; auto.
        -- apply csim_stutter with a; simpl; auto.
      * destruct (negb spur && N.eqb (cw s) old) eqn:Ec; simpl; rewrite app_nil_r.
        -- apply andb_prop in Ec as [_ Ec]. apply N.eqb_eq in Ec.
           eapply csim_effect; eauto; rewrite ?Hw; simpl; subst; auto.
        -- apply csim_stutter with a; simpl; auto.
      * destruct (f old) as [new|] eqn:Ef; simpl.
        -- unfold cas_weak.
           destruct (negb spur && N.eqb (cw s) old) eqn:Ec; simpl; rewrite app_nil_r.
           ++ apply andb_prop in Ec as [_ Ec]. apply N.eqb_eq in Ec. subst old.
              eapply csim_effect; eauto; rewrite ?Hw; simpl; rewrite Ef; auto.
           ++ destruct (f (cw s)) eqn:Ef2.
              ** apply csim_stutter with a; simpl; auto. now rewrite Ef2.
              ** eapply csim_effect; eauto; rewrite ?Hw; simpl; rewrite Ef2; auto.
        -- rewrite app_nil_r. apply csim_stutter with a; simpl; auto.
    + rewrite app_nil_r. apply csim_stutter with a; simpl; auto.
  - pose proof (Hr t) as [Ht Hwf]. destruct (cth s t) eqn:E; simpl;
      try (rewrite app_nil_r; exists a; easy).
    simpl in Ht.
    exists (AState (aw a) (upd (ath a) t AIdle)). split; [now apply ax_ret|].
    split; [easy|]. intros t'. simpl. thr t t'; [easy|apply Hr].
Qed.

Lemma crun_sim w0 ls : forall s tr,
  csim w0 s tr -> csim w0 (fst (crun s ls)) (tr ++ snd (crun s ls)).
Proof.
  induction ls as [|l ls IH]; intros s tr H; simpl.
  - now rewrite app_nil_r.
  - apply (cstep_sim _ _ _ l) in H. destruct (cstep s l) as [s1 e1] eqn:E1. simpl in H.
    specialize (IH s1 _ H). destruct (crun s1 ls) as [s2 e2]. simpl in *.
    now rewrite app_assoc.
Qed.

Lemma cinit_sim w : csim w (cinit w) [].
Proof. eexists. split; [constructor|]. split; [easy|]. intros; simpl; auto. Qed.

Lemma cas_atomic w0 ls :
  let (s, tr) := crun (cinit w0) ls in atomic_trace w0 tr (cw s).
Proof.
  pose proof (crun_sim w0 ls (cinit w0) [] (cinit_sim w0)) as H.
  destruct (crun (cinit w0) ls) as [s tr]. simpl in H.
  destruct H as (a & Ha & Hw & _). now exists a.
Qed.

(** Progress: an undisturbed context finishes (two accesses, the loop body). *)
Lemma cas_undisturbed w o old :
  match caccess w (CHave o old) false with
  | (w', CDone _) => True
  | (w', CHave o' old') =>
      loops o -> o' = o /\ old' = w' /\
      exists r, snd (caccess w' (CHave o' old') false) = CDone r
  | _ => False
  end.
Proof.
  destruct o; simpl; try easy.
  - unfold cas_weak. destruct (negb false && N.eqb w old) eqn:E; simpl; [easy|].
    intros _. repeat split; auto. unfold cas_weak. rewrite N.eqb_refl. simpl. eauto.
  - unfold cas_weak. destruct (negb false && N.eqb w old) eqn:E; simpl; [easy|].
    intros _. repeat split; auto. unfold cas_weak. rewrite N.eqb_refl. simpl. eauto.
  - destruct (f old) eqn:Ef; [|easy].
    unfold cas_weak. destruct (negb false && N.eqb w old) eqn:E; simpl; [easy|].
    intros _. repeat split; auto.
    destruct (f w); [unfold cas_weak; rewrite N.eqb_refl|]; simpl; eauto.
Qed.

(** ** Critical-section build *)

Definition in_cs (f : sframe) : Prop :=
  match f with SPaused _ _ | SLoaded _ _ _ | SStored _ _ => True | _ => False end.

Definition srel (f : sframe) (a : astat) : Prop :=
  match f with
  | SIdle => a = AIdle
  | SBegin o | SPaused _ o | SLoaded _ o _ => a = APend o
  | SStored _ r | SDone r => a = ADone r
  end.

(** Frames of a stack against abstract contexts [0..length-1]; deeper ids idle. *)
Fixpoint stk_rel (st : list sframe) (a : nat -> astat) : Prop :=
  match st with
  | [] => True
  | f :: rest => srel f (a (length rest)) /\ stk_rel rest a
  end.

Definition top_ok (ie0 : bool) (w : N) (ie : bool) (f : sframe) : Prop :=
  match f with
  | SPaused sv _ => ie = false /\ sv = ie0
  | SLoaded sv o old => ie = false /\ sv = ie0 /\ old = w
  | SStored sv _ => ie = false /\ sv = ie0
  | _ => ie = ie0
  end.

Definition ssim (w0 : N) (ie0 : bool) (s : sstate) (tr : list vis) : Prop :=
  exists a, aexec w0 tr a /\ aw a = sw s /\
    stk_rel (stk s) (ath a) /\
    (forall d, length (stk s) <= d -> ath a d = AIdle) /\
    match stk s with
    | [] => False
    | f :: rest => top_ok ie0 (sw s) (sie s) f /\ Forall (fun g => ~ in_cs g) rest
    end.

Lemma stk_rel_upd st a t x :
  length st <= t -> stk_rel st a -> stk_rel st (upd a t x).
Proof.
  induction st as [|f rest IH]; simpl; [easy|]. intros Hl [H1 H2]. split.
  - rewrite upd_other by lia. easy.
  - apply IH; [lia|easy].
Qed.

Lemma sstep_sim w0 ie0 s tr l :
  ssim w0 ie0 s tr -> ssim w0 ie0 (fst (sstep s l)) (tr ++ snd (sstep s l)).
Proof.
  intros (a & Ha & Hw & Hr & Hd & Ht). unfold sstep.
  destruct (stk s) as [|f rest] eqn:Es; [easy|].
  assert (Hsame : ssim w0 ie0 s (tr ++ [])).
  { rewrite app_nil_r. exists a. rewrite Es. auto. }
  destruct Ht as [Ht Hrest]. simpl in Hr. destruct Hr as [Hf Hr].
  destruct l as [o | | | | ].
  - destruct f; simpl; try exact Hsame.
    simpl in Hf, Ht.
    exists (AState (aw a) (upd (ath a) (length rest) (APend o))).
    split; [now apply ax_inv|]. split; [easy|]. simpl. rewrite upd_same.
    split; [split; [easy|now apply stk_rel_upd]|].
    split; [|easy]. intros d Hdd. rewrite upd_other by (simpl in *; lia).
    apply Hd. simpl. lia.
  - assert (Heff : forall o w' ie' f', ath a (length rest) = APend o ->
        w' = fst (apply o (aw a)) -> srel f' (ADone (snd (apply o (aw a)))) ->
        top_ok ie0 w' ie' f' ->
        ssim w0 ie0 (SState w' ie' (f' :: rest)) tr).
    { intros o w' ie' f' Hp Hw' Hf' Htop.
      eexists. split; [apply (ax_take_effect w0 tr a (length rest) o Ha Hp)|].
      simpl. rewrite upd_same. split; [easy|]. split; [split; [easy|now apply stk_rel_upd]|].
      split; [|easy]. intros d Hdd. rewrite upd_other by (simpl in *; lia).
      apply Hd. simpl. lia. }
    assert (Hst : forall ie' f', srel f' (ath a (length rest)) ->
        top_ok ie0 (sw s) ie' f' ->
        ssim w0 ie0 (SState (sw s) ie' (f' :: rest)) tr).
    { intros ie' f' Hf' Htop. exists a. simpl. auto 10. }
    destruct f as [|o|sv o|sv o old|sv r|r]; simpl in Hf, Ht; simpl.
    + rewrite app_nil_r. apply Hst; easy.
    + destruct o; simpl; rewrite app_nil_r.
      1,2: eapply Heff; eauto; rewrite ?Hw; easy.
      all: apply Hst; simpl; auto.
    + rewrite app_nil_r. apply Hst; simpl; intuition.
    + destruct Ht as (Hie & Hsv & Hold). subst old.
      destruct o; simpl; try (rewrite app_nil_r; eapply Heff; eauto; rewrite ?Hw; simpl; auto).
      destruct (f (sw s)) eqn:Ef; simpl; rewrite app_nil_r;
        eapply Heff; eauto; rewrite ?Hw; simpl; rewrite ?Ef; simpl; auto.
    + rewrite app_nil_r. apply Hst; simpl; intuition.
    + rewrite app_nil_r. apply Hst; easy.
  - destruct f; simpl; try exact Hsame. simpl in Hf, Ht.
    exists (AState (aw a) (upd (ath a) (length rest) AIdle)).
    split; [now apply ax_ret|]. split; [easy|]. simpl. rewrite upd_same.
    split; [split; [easy|now apply stk_rel_upd]|].
    split; [|easy]. intros d Hdd. rewrite upd_other by (simpl in *; lia).
    apply Hd. simpl. lia.
  - destruct (sie s) eqn:Eie; simpl; [|exact Hsame].
    rewrite app_nil_r. exists a. simpl. rewrite Hw.
    split; [easy|]. split; [easy|]. split.
    { split; [|easy]. apply Hd. simpl. lia. }
    split; [intros d Hdd; apply Hd; simpl; lia|].
    split.
    + destruct f; simpl in *; intuition congruence.
    + constructor; [|easy]. destruct f; simpl in *; intuition congruence.
  - destruct f; simpl; try exact Hsame. destruct rest as [|g rest]; [exact Hsame|].
    simpl. rewrite app_nil_r. exists a. simpl.
    split; [easy|]. split; [easy|]. split; [easy|]. simpl in Hf, Ht.
    split.
    { intros d Hdd. destruct (Nat.eq_dec d (S (length rest))) as [->|]; [easy|].
      apply Hd. simpl. lia. }
    inversion Hrest as [|? ? Hg Hrest']; subst. split; [|easy].
    destruct g; simpl in *; try easy; exfalso; auto.
Qed.

Lemma srun_sim w0 ie0 ls : forall s tr,
  ssim w0 ie0 s tr -> ssim w0 ie0 (fst (srun s ls)) (tr ++ snd (srun s ls)).
Proof.
  induction ls as [|l ls IH]; intros s tr H; simpl.
  - now rewrite app_nil_r.
  - apply (sstep_sim _ _ _ _ l) in H. destruct (sstep s l) as [s1 e1] eqn:E1. simpl in H.
    specialize (IH s1 _ H). destruct (srun s1 ls) as [s2 e2]. simpl in *.
    now rewrite app_assoc.
Qed.

Lemma sinit_sim w ie : ssim w ie (sinit w ie) [].
Proof.
  eexists. split; [constructor|]. simpl. repeat split; auto.
Qed.

Lemma soft_atomic w0 ie0 ls :
  let (s, tr) := srun (sinit w0 ie0) ls in atomic_trace w0 tr (sw s).
Proof.
  pose proof (srun_sim w0 ie0 ls (sinit w0 ie0) [] (sinit_sim w0 ie0)) as H.
  destruct (srun (sinit w0 ie0) ls) as [s tr]. simpl in H.
  destruct H as (a & Ha & Hw & _). now exists a.
Qed.

(** In the critical-section build the interrupt state is restored whenever the
    running context is not inside an operation. *)
Lemma soft_ie_restored w0 ie0 ls :
  let s := fst (srun (sinit w0 ie0) ls) in
  match stk s with
  | f :: _ => ~ in_cs f -> sie s = ie0
  | [] => False
  end.
Proof.
  pose proof (srun_sim w0 ie0 ls (sinit w0 ie0) [] (sinit_sim w0 ie0)) as H.
  destruct (srun (sinit w0 ie0) ls) as [s tr]. simpl in *.
  destruct H as (a & _ & _ & _ & _ & H). destruct (stk s) as [|f rest]; [easy|].
  destruct H as [H _]. destruct f; simpl in *; intuition.
Qed.

(** ** Per-bit ownership, on the specification *)

Definition ops_of (t : nat) (tr : list vis) : list op :=
  flat_map (fun e => match e with
                     | Inv t' o => if Nat.eqb t' t then [o] else []
                     | _ => [] end) tr.

Lemma ops_of_app t a b : ops_of t (a ++ b) = ops_of t a ++ ops_of t b.
Proof. unfold ops_of. now rewrite flat_map_app. Qed.

Definition run_ops (os : list op) (w : N) : N :=
  fold_left (fun w o => fst (apply o w)) os w.

Lemma run_ops_app a b w : run_ops (a ++ b) w = run_ops b (run_ops a w).
Proof. unfold run_ops. apply fold_left_app. Qed.

Definition fits (n : N) (o : op) : Prop :=
  forall w, (w < 2 ^ n)%N -> (fst (apply o w) < 2 ^ n)%N.

(** The operation leaves bit [i] alone. *)
Definition keeps (n i : N) (o : op) : Prop :=
  forall w, (w < 2 ^ n)%N -> N.testbit (fst (apply o w)) i = N.testbit w i.

(** The new value of bit [i] depends on the old value of bit [i] only. *)
Definition local (n i : N) (o : op) : Prop :=
  forall w w', (w < 2 ^ n)%N -> (w' < 2 ^ n)%N -> N.testbit w i = N.testbit w' i ->
    N.testbit (fst (apply o w)) i = N.testbit (fst (apply o w')) i.

Lemma run_ops_fits n os w :
  Forall (fits n) os -> (w < 2 ^ n)%N -> (run_ops os w < 2 ^ n)%N.
Proof.
  revert w. induction os as [|o os IH]; intros w H Hw; simpl; [easy|].
  inversion H; subst. apply IH; auto.
Qed.

Lemma ops_of_own t o : ops_of t [Inv t o] = [o].
Proof. simpl. now rewrite Nat.eqb_refl. Qed.

Lemma ops_of_other t t' o : t' <> t -> ops_of t [Inv t' o] = [].
Proof. simpl. intros. destruct (Nat.eqb_spec t' t); easy. Qed.

Lemma bit_ownership n w0 tr s t i :
  aexec w0 tr s -> (w0 < 2 ^ n)%N ->
  (forall t' o, In (Inv t' o) tr -> fits n o) ->
  (forall t' o, In (Inv t' o) tr -> t' <> t -> keeps n i o) ->
  (forall o, In (Inv t o) tr -> local n i o) ->
  (aw s < 2 ^ n)%N /\
  (forall t' o, ath s t' = APend o -> In (Inv t' o) tr) /\
  match ath s t with
  | APend o => exists os, ops_of t tr = os ++ [o] /\
                          N.testbit (aw s) i = N.testbit (run_ops os w0) i
  | _ => N.testbit (aw s) i = N.testbit (run_ops (ops_of t tr) w0) i
  end.
Proof.
  intros Ha Hw0. induction Ha as [|tr s t' o Ha IH Hi|tr s t' o Ha IH Hp|tr s t' r Ha IH Hd];
    intros Hfit Hkeep Hloc.
  - simpl. split; [easy|]. split; [easy|]. easy.
  - destruct IH as (H1 & H2 & H3).
    { intros; eapply Hfit; apply in_or_app; eauto. }
    { intros; eapply Hkeep; eauto; apply in_or_app; eauto. }
    { intros; eapply Hloc; apply in_or_app; eauto. }
    simpl. split; [easy|]. split.
    { intros t1 o1. thr t' t1.
      - intros [= ->]. apply in_or_app. right. simpl. auto.
      - intros H. apply in_or_app. left. eauto. }
    destruct (Nat.eq_dec t t') as [<-|Hne].
    + rewrite upd_same. rewrite Hi in H3. exists (ops_of t tr).
      rewrite ops_of_app, ops_of_own. auto.
    + rewrite upd_other by easy. rewrite ops_of_app, ops_of_other, app_nil_r by auto. auto.
  - destruct IH as (H1 & H2 & H3); auto.
    pose proof (H2 _ _ Hp) as HIn.
    simpl. split; [now apply (Hfit t')|]. split.
    { intros t1 o1. thr t' t1; [easy|]. apply H2. }
    destruct (Nat.eq_dec t t') as [<-|Hne].
    + rewrite upd_same. rewrite Hp in H3. destruct H3 as (os & Hos & Hb).
      rewrite Hos, run_ops_app. simpl. apply (Hloc o HIn); auto.
      apply run_ops_fits; [|easy].
      apply Forall_forall. intros o' Ho'.
      assert (In o' (ops_of t tr)) as Hin' by (rewrite Hos; apply in_or_app; auto).
      unfold ops_of in Hin'. apply in_flat_map in Hin' as (e & He & Hoe).
      destruct e as [t1 o1|]; [|easy]. destruct (Nat.eqb_spec t1 t); [|easy].
      destruct Hoe as [->|[]]. subst. eauto.
    + rewrite upd_other by easy.
      assert (N.testbit (fst (apply o (aw s))) i = N.testbit (aw s) i) as E.
      { apply (Hkeep t' o); auto. }
      rewrite E. exact H3.
  - destruct IH as (H1 & H2 & H3).
    { intros; eapply Hfit; apply in_or_app; eauto. }
    { intros; eapply Hkeep; eauto; apply in_or_app; eauto. }
    { intros; eapply Hloc; apply in_or_app; eauto. }
    simpl. split; [easy|]. split.
    { intros t1 o1. thr t' t1; [easy|]. intros H. apply in_or_app. left. eauto. }
    rewrite ops_of_app. replace (ops_of t [Ret t' r]) with (@nil op) by easy.
    rewrite app_nil_r.
    destruct (Nat.eq_dec t t') as [<-|Hne].
    + rewrite upd_same. rewrite Hd in H3. easy.
    + rewrite upd_other by easy. easy.
Qed.

(** ** Critical sections *)

Lemma cs_exec_spec p : forall depth ie,
  let (ie', obs) := cs_exec p depth ie in
  ie' = ie /\
  Forall (fun '(d, e) => depth <= d /\ (d = depth -> e = ie) /\ (depth < d -> e = false)) obs.
Proof.
  induction p as [|p IHp q IHq|b IHb]; intros depth ie; simpl.
  - split; [easy|]. constructor; [|easy]. repeat split; auto; lia.
  - specialize (IHp depth ie). destruct (cs_exec p depth ie) as [ie1 o1].
    destruct IHp as [-> H1]. specialize (IHq depth ie).
    destruct (cs_exec q depth ie) as [ie2 o2]. destruct IHq as [-> H2].
    split; [easy|]. apply Forall_app. auto.
  - specialize (IHb (S depth) false). destruct (cs_exec b (S depth) false) as [ie1 o1].
    destruct IHb as [_ H1]. split; [easy|].
    eapply Forall_impl; [|exact H1]. intros [d e] (A & B & C).
    repeat split; try lia.
    destruct (Nat.eq_dec d (S depth)); [intros; now apply B|intros; apply C; lia].
Qed.

(** Handles dropped in reverse order of creation. *)
Fixpoint lifo (live : nat) (os : list hop) : Prop :=
  match os with
  | [] => True
  | HPause :: os' => lifo (S live) os'
  | HDrop k :: os' => live = S k /\ lifo k os'
  end.

Definition hgood (ie0 : bool) (s : bool * list bool) : Prop :=
  match snd s with
  | [] => fst s = ie0
  | sv :: rest => fst s = false /\ sv = ie0 /\ Forall (eq false) rest
  end.

Lemma remove_nth_last {A} (l : list A) x : remove_nth (length l) (l ++ [x]) = l.
Proof. induction l; simpl; [easy|]. now rewrite IHl. Qed.

Lemma hrun_lifo ie0 os : forall s,
  hgood ie0 s -> lifo (length (snd s)) os -> hgood ie0 (hrun s os).
Proof.
  induction os as [|o os IH]; intros [ie hs] Hg Hl; [easy|].
  destruct o as [|k]; simpl in *.
  - apply IH.
    + unfold hgood in *. simpl in *. destruct hs as [|h hs]; simpl; [auto|].
      destruct Hg as (-> & -> & Hf). repeat split; auto.
      apply Forall_app. auto.
    + simpl. rewrite app_length. simpl. rewrite Nat.add_1_r. easy.
  - destruct Hl as [Hk Hl].
    destruct (exists_last (l := hs)) as (hs' & x & ->).
    { intros ->. simpl in Hk. lia. }
    rewrite app_length in Hk. simpl in Hk. assert (k = length hs') as -> by lia.
    rewrite nth_error_app2, Nat.sub_diag by lia. simpl. rewrite remove_nth_last.
    apply IH; [|easy]. unfold hgood in *. simpl in *.
    destruct hs' as [|h hs']; simpl in *; [easy|].
    destruct Hg as (-> & -> & Hf). apply Forall_app in Hf as [Hf1 Hf2].
    inversion Hf2; subst. auto.
Qed.
