(** Properties of the mutex on a weak memory: C88. *)
Require Import NArith List Bool Arith Lia.
From Verif Require Import Spsc WeakSpec RaceSpec RaceProofs WeakMutex.
Import ListNotations.
Open Scope nat_scope.

Definition on_data (l : mexec) (i : nat) : Prop := exists c w, nth_error l i = Some (c, MCell data w).

Record minv (s : msys) : Prop := {
  mi_h : lhist s <> [];
  mi_all : forall i j, i < j -> on_data (mlog s) i -> on_data (mlog s) j -> mhb (mlog s) i j;
  mi_at : match where_ s with
    | GNone => nth_error (lhist s) 0 = Some false /\
        forall i, on_data (mlog s) i -> exists j c, mhb (mlog s) i j /\
          nth_error (mlog s) j = Some (c, MStore locked Release (length (lhist s) - 1))
    | GAt c => nth_error (lhist s) 0 = Some true /\ forall i, on_data (mlog s) i -> knows (mlog s) c i
    | GSent k => nth_error (lhist s) 0 = Some true /\ forall i, on_data (mlog s) i -> exists j c, mhb (mlog s) i j /\
          nth_error (mlog s) j = Some (c, MStore (chan k) Release 1)
    end
}.

Lemma on_data_snoc l c x i : on_data (l ++ [(c, x)]) i ->
  on_data l i \/ (i = length l /\ exists w, x = MCell data w).
Proof.
  intros (d & w & E). destruct (lt_dec i (length l)).
  - left. rewrite nth_error_app1 in E by easy. now exists d, w.
  - right. rewrite nth_error_app2 in E by lia. destruct (i - length l) as [|n0] eqn:D.
    + injection E as <- ->. split; [lia|eauto].
    + destruct n0; discriminate.
Qed.
Lemma minv_step s a : minv s -> minv (mstep s a).
Proof.
  intros [Hh Ha Hw]. destruct s as [h g k lg]. cbn [lhist where_ sent mlog] in *.
  (* accesses that are not to the data *)
  assert (Hall : forall c x, (forall w, x <> MCell data w) -> forall i j, i < j ->
    on_data (lg ++ [(c, x)]) i -> on_data (lg ++ [(c, x)]) j -> mhb (lg ++ [(c, x)]) i j).
  { intros c x N i j L A B. destruct (on_data_snoc _ _ _ _ A) as [A'|(_ & w & E)]; [|now apply N in E].
    destruct (on_data_snoc _ _ _ _ B) as [B'|(_ & w & E)]; [|now apply N in E]. apply mhb_app. now apply Ha. }
  assert (Hold : forall c x, (forall w, x <> MCell data w) -> forall i, on_data (lg ++ [(c, x)]) i -> on_data lg i).
  { intros c x N i A. destruct (on_data_snoc _ _ _ _ A) as [A'|(_ & w & E)]; [easy|now apply N in E]. }
  destruct a as [c|c w|c|c|c|c x]; cbn [mstep].
  - assert (Nx : forall w, MUpd locked Acquire (length h - 1) <> MCell data w) by easy.
    constructor; cbn [lhist where_ sent mlog]; [easy|now apply Hall|].
    destruct h as [|[] h]; [easy| |].
    + destruct g as [|d|j]; cbn [nth_error] in *; [now destruct Hw| |].
      * split; [easy|]. intros i A. apply knows_app. apply Hw. eapply Hold; eauto.
      * split; [easy|]. intros i A. destruct (proj2 Hw i) as (j' & c' & H1 & H2); [eapply Hold; eauto|].
        exists j', c'. split; [now apply mhb_app|now apply nth_keep].
    + destruct g as [|d|j]; cbn [nth_error] in *; try (now destruct Hw).
      split; [easy|]. intros i A. destruct (proj2 Hw i) as (j' & c' & H1 & H2); [eapply Hold; eauto|].
      exists (length lg), (MUpd locked Acquire (length (false :: h) - 1)). split; [apply nth_snoc|]. right.
      eapply mhb_trans; [apply mhb_app; exact H1|]. eapply acquired; [exact H2|]. right. reflexivity.
  - destruct g as [|d|j]; try (constructor; auto; fail). destruct (Nat.eqb_spec d c) as [->|]; [|constructor; auto].
    constructor; cbn [lhist where_ sent mlog]; [easy| |].
    + intros i j L A B. destruct (on_data_snoc _ _ _ _ A) as [A'|(-> & _)].
      * destruct (on_data_snoc _ _ _ _ B) as [B'|(-> & _)]; [apply mhb_app; now apply Ha|].
        apply knows_next. now apply Hw.
      * destruct B as (? & ? & B). apply some_lt in B. rewrite app_length in B. simpl in B. lia.
    + split; [apply Hw|]. intros i A. destruct (on_data_snoc _ _ _ _ A) as [A'|(-> & _)].
      * apply knows_app. now apply Hw.
      * exists (length lg), (MCell data w). split; [apply nth_snoc|now left].
  - destruct g as [|d|j]; try (constructor; auto; fail). destruct (Nat.eqb_spec d c) as [->|]; [|constructor; auto].
    assert (Nx : forall w, MStore locked Release (length h) <> MCell data w) by easy.
    constructor; cbn [lhist where_ sent mlog]; [easy|now apply Hall|]. split; [easy|].
    intros i A. exists (length lg), c. split; [apply knows_next; apply Hw; eapply Hold; eauto|].
    rewrite nth_snoc. cbn [length]. now rewrite Nat.sub_succ, Nat.sub_0_r.
  - destruct g as [|d|j]; try (constructor; auto; fail). destruct (Nat.eqb_spec d c) as [->|]; [|constructor; auto].
    assert (Nx : forall w, MStore (chan k) Release 1 <> MCell data w) by easy.
    constructor; cbn [lhist where_ sent mlog]; [easy|now apply Hall|]. split; [apply Hw|].
    intros i A. exists (length lg), c. split; [apply knows_next; apply Hw; eapply Hold; eauto|apply nth_snoc].
  - destruct g as [|d|j]; try (constructor; auto; fail).
    assert (Nx : forall w, MRead (chan j) Acquire 1 <> MCell data w) by easy.
    constructor; cbn [lhist where_ sent mlog]; [easy|now apply Hall|]. split; [apply Hw|].
    intros i A. destruct (proj2 Hw i) as (j' & c' & H1 & H2); [eapply Hold; eauto|].
    exists (length lg), (MRead (chan j) Acquire 1). split; [apply nth_snoc|]. right.
    eapply mhb_trans; [apply mhb_app; exact H1|]. eapply acquired; [exact H2|]. now left.
  - destruct (other x) eqn:Ox; [|constructor; auto].
    assert (Nx : forall w, x <> MCell data w) by (intros w ->; discriminate).
    constructor; cbn [lhist where_ sent mlog]; [easy|now apply Hall|].
    destruct g as [|d|j].
    + split; [apply Hw|]. intros i A. destruct (proj2 Hw i) as (j' & c' & H1 & H2); [eapply Hold; eauto|].
      exists j', c'. split; [now apply mhb_app|now apply nth_keep].
    + split; [apply Hw|]. intros i A. apply knows_app. apply Hw. eapply Hold; eauto.
    + split; [apply Hw|]. intros i A. destruct (proj2 Hw i) as (j' & c' & H1 & H2); [eapply Hold; eauto|].
      exists j', c'. split; [now apply mhb_app|now apply nth_keep].
Qed.

Lemma minv_run l : minv (mrun l).
Proof.
  unfold mrun. induction l as [|a l IH] using rev_ind.
  - constructor; cbn; [easy| |split; [easy|]].
    + intros i j _ (c & w & E). now destruct i.
    + intros i (c & w & E). now destruct i.
  - rewrite fold_left_app. now apply minv_step.
Qed.

(** Any two accesses to the data of a mutex are ordered, in the order in which they are made:
    who accesses it sees all that has been done to it before. *)
Theorem C88_data_ordered : forall l i j c d w v,
  nth_error (mlog (mrun l)) i = Some (c, MCell data w) ->
  nth_error (mlog (mrun l)) j = Some (d, MCell data v) ->
  i < j -> mhb (mlog (mrun l)) i j.
Proof. intros l i j c d w v A B L. apply (mi_all _ (minv_run l)); [easy|now exists c, w|now exists d, v]. Qed.
Print Assumptions C88_data_ordered.

(** So there is no data race on it. *)
Theorem C88_no_race : forall l i j c d w y,
  nth_error (mlog (mrun l)) i = Some (c, MCell data w) ->
  nth_error (mlog (mrun l)) j = Some (d, y) -> mclash (MCell data w) y ->
  ~ unordered (mlog (mrun l)) i j.
Proof.
  intros l i j c d w y A B C (N & H1 & H2).
  destruct y as [| | |a v|b]; cbn in C; try easy.
  - destruct C as [<- _]. destruct (lt_dec i j).
    + apply H1. eapply C88_data_ordered; eauto.
    + apply H2. eapply C88_data_ordered; eauto. lia.
  - (* nobody frees the mutex *)
    subst b. clear -B. revert B.
    assert (K : forall s a, (forall d, ~ In (d, MFree 0) (mlog s)) -> forall d, ~ In (d, MFree 0) (mlog (mstep s a))).
    { intros [h g k lg] a H d0. cbn [mlog] in H. destruct a as [c0|c0 w0|c0|c0|c0|c0 x]; cbn [mstep].
      - cbn [mlog]. rewrite in_app_iff. intros [I|[I|[]]]; [now apply H in I|discriminate].
      - destruct g as [|e|]; try apply H. destruct (e =? c0); [|apply H].
        cbn [mlog]. rewrite in_app_iff. intros [I|[I|[]]]; [now apply H in I|discriminate].
      - destruct g as [|e|]; try apply H. destruct (e =? c0); [|apply H].
        cbn [mlog]. rewrite in_app_iff. intros [I|[I|[]]]; [now apply H in I|discriminate].
      - destruct g as [|e|]; try apply H. destruct (e =? c0); [|apply H].
        cbn [mlog]. rewrite in_app_iff. intros [I|[I|[]]]; [now apply H in I|discriminate].
      - destruct g as [|e|]; try apply H.
        cbn [mlog]. rewrite in_app_iff. intros [I|[I|[]]]; [now apply H in I|discriminate].
      - destruct (other x) eqn:Ox; [|apply H]. cbn [mlog]. rewrite in_app_iff.
        intros [I|[I|[]]]; [now apply H in I|]. injection I as _ ->. discriminate. }
    assert (R : forall d, ~ In (d, MFree 0) (mlog (mrun l))).
    { unfold mrun. induction l as [|a l IH] using rev_ind; [easy|]. rewrite fold_left_app. cbn [fold_left].
      now apply K. }
    intros B. apply nth_error_In in B. now apply R in B.
Qed.
Print Assumptions C88_no_race.

(** What try_lock returns in an execution, from the accesses alone: it succeeds when the value
    it reads is the initial one or one stored by [unlock]. *)
Definition succeeds (l : mexec) (i : nat) : Prop :=
  exists c n, nth_error l i = Some (c, MUpd locked Acquire n) /\
    (n = 0 \/ exists j d, nth_error l j = Some (d, MStore locked Release n)).

(** The number of the value of the lock word that is written. *)
Definition wn (x : maccess) : option nat :=
  match x with
  | MUpd (0, 0) _ n => Some (S n)
  | MStore (0, 0) _ n => Some n
  | _ => None
  end.
Definition numbered (s : msys) : Prop := lhist s <> [] /\
  (forall i c x n, nth_error (mlog s) i = Some (c, x) -> wn x = Some n -> n < length (lhist s)) /\
  (forall i j c d x y n m, i < j -> nth_error (mlog s) i = Some (c, x) -> wn x = Some n ->
     nth_error (mlog s) j = Some (d, y) -> wn y = Some m -> n < m).
Lemma numbered_add s h' g' k' c x : numbered s -> length (lhist s) <= length h' ->
  (forall n, wn x = Some n -> n = length (lhist s) /\ n < length h') ->
  numbered (Msys h' g' k' (mlog s ++ [(c, x)])).
Proof.
  intros (A & B & C) L X. unfold numbered. cbn [lhist mlog]. split; [|split].
  - intros ->. destruct (lhist s); [easy|simpl in L; lia].
  - intros i d y n E W. destruct (lt_dec i (length (mlog s))).
    + rewrite nth_error_app1 in E by easy. specialize (B _ _ _ _ E W). lia.
    + assert (i = length (mlog s)).
      { apply some_lt in E. rewrite app_length in E. simpl in E. lia. }
      subst i. rewrite nth_snoc in E. injection E as <- <-. now apply X.
  - intros i j d e y z n m H Ei Wi Ej Wj. assert (Lj := some_lt _ _ _ Ej). rewrite app_length in Lj. simpl in Lj.
    rewrite nth_error_app1 in Ei by lia. destruct (lt_dec j (length (mlog s))).
    + rewrite nth_error_app1 in Ej by easy. eapply (C i j); eauto.
    + assert (j = length (mlog s)) by lia. subst j. rewrite nth_snoc in Ej. injection Ej as <- <-.
      specialize (B _ _ _ _ Ei Wi). destruct (X _ Wj). lia.
Qed.
Lemma numbered_run l : numbered (mrun l).
Proof.
  unfold mrun. induction l as [|a l IH] using rev_ind.
  - split; [easy|]. cbn [msys0 mlog lhist]. split; [intros [|i]; discriminate|intros [|i]; discriminate].
  - rewrite fold_left_app. cbn [fold_left]. destruct (fold_left mstep l msys0) as [h g k lg] eqn:Es.
    rewrite <- Es in IH. assert (Hh : h <> []) by (rewrite Es in IH; apply IH). rewrite Es in IH.
    destruct a as [c|c w|c|c|c|c x]; cbn [mstep].
    + apply (numbered_add _ _ _ _ _ _ IH); cbn; [lia|]. intros n [= <-]. destruct h; [easy|]. simpl. lia.
    + destruct g as [|d|]; auto. destruct (d =? c); [|easy]. now apply (numbered_add _ _ _ _ _ _ IH).
    + destruct g as [|d|]; auto. destruct (d =? c); [|easy]. apply (numbered_add _ _ _ _ _ _ IH); cbn; [lia|].
      intros n [= <-]. lia.
    + destruct g as [|d|]; auto. destruct (d =? c); [|easy]. now apply (numbered_add _ _ _ _ _ _ IH).
    + destruct g as [|d|]; auto. now apply (numbered_add _ _ _ _ _ _ IH).
    + destruct (other x) eqn:Ox; [|easy]. apply (numbered_add _ _ _ _ _ _ IH); [easy|].
      destruct x as [| [[|b] [|f]] o n|[[|b] [|f]] o n| |]; cbn in Ox |- *; easy.
Qed.

(** Mutual exclusion: between two attempts that succeed there is an unlock. *)
Theorem C88_exclusive : forall l i j, i < j ->
  succeeds (mlog (mrun l)) i -> succeeds (mlog (mrun l)) j ->
  exists k c n, i < k < j /\ nth_error (mlog (mrun l)) k = Some (c, MStore locked Release n).
Proof.
  intros l i j L (c & n & Ei & _) (d & m & Ej & Hj). destruct (numbered_run l) as (_ & _ & N).
  assert (H1 := N i j c d _ _ (S n) (S m) L Ei eq_refl Ej eq_refl).
  destruct Hj as [-> |(k & e & Ek)]; [lia|]. exists k, e, m. split; [|exact Ek].
  destruct (Nat.lt_trichotomy k i) as [H|[->|H]].
  - assert (H2 := N k i e c _ _ m (S n) H Ek eq_refl Ei eq_refl). lia.
  - rewrite Ek in Ei. discriminate.
  - split; [easy|]. destruct (Nat.lt_trichotomy k j) as [H3|[->|H3]]; [easy| |].
    + rewrite Ek in Ej. discriminate.
    + assert (H2 := N j k d e _ _ (S m) m H3 Ej eq_refl Ek eq_refl). lia.
Qed.
Print Assumptions C88_exclusive.

(** Three contexts; the guard is sent from one to another. *)
Definition ex_acts : list mact :=
  [MTry 1; MData 1 true; MTry 2; MOther 2 (MCell (2, 0) true); MGive 1; MTake 3; MData 3 true; MTry 1;
   MUnlock 3; MTry 2; MData 2 false; MUnlock 2].
Example ex_log : mlog (mrun ex_acts) =
  [(1, MUpd locked Acquire 0); (1, MCell data true); (2, MUpd locked Acquire 1); (2, MCell (2, 0) true);
   (1, MStore (chan 0) Release 1); (3, MRead (chan 0) Acquire 1); (3, MCell data true);
   (1, MUpd locked Acquire 2); (3, MStore locked Release 4); (2, MUpd locked Acquire 4);
   (2, MCell data false); (2, MStore locked Release 6)].
Proof. reflexivity. Qed.
(** The third access to the data comes after the others. *)
Example ex_ordered : mhb (mlog (mrun ex_acts)) 1 10.
Proof. apply (C88_data_ordered ex_acts 1 10 1 2 true false); try reflexivity. lia. Qed.
Example ex_succeeds : succeeds (mlog (mrun ex_acts)) 0 /\ succeeds (mlog (mrun ex_acts)) 9 /\
  ~ succeeds (mlog (mrun ex_acts)) 2.
Proof.
  split; [|split].
  - exists 1, 0. auto.
  - exists 2, 4. split; [reflexivity|]. right. exists 8, 3. reflexivity.
  - intros (c & n & E & H). injection E as <- <-. destruct H as [H|(j & d & H)]; [discriminate|].
    rewrite ex_log in H. do 12 (destruct j; [discriminate|]). now destruct j.
Qed.
(** With a relaxed swap it would not. *)
Example relaxed_races : unordered
  [(1, MUpd locked Relaxed 0); (1, MCell data true); (1, MStore locked Release 2); (2, MUpd locked Relaxed 2);
   (2, MCell data true)] 1 4.
Proof. apply unorderedb_unordered. vm_compute. reflexivity. Qed.
(** Nor with a relaxed store. *)
Example relaxed_store_races : unordered
  [(1, MUpd locked Acquire 0); (1, MCell data true); (1, MStore locked Relaxed 2); (2, MUpd locked Acquire 2);
   (2, MCell data true)] 1 4.
Proof. apply unorderedb_unordered. vm_compute. reflexivity. Qed.
