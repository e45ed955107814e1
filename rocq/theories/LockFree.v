(** Proofs that the pools and lists of the hardware build are lock-free. *)
Require Import NArith List Bool Arith Lia.
From Verif Require Import AtomicSpec LinSpec Treiber LockFreeSpec.
Import ListNotations.
Open Scope N_scope.

Section LockFree.
Variables size edge : N.
Notation tstep := (tstep size edge).
Notation trun := (trun size edge).

(** What is left to do while nobody changes the head [h] and the boundary [u]. *)
Definition todo (h u : N) (c : thr) : nat :=
  match c with
  | TIdle | TDone _ => 0
  | TPush0 _ => 3
  | TPush1 _ c => if (c =? h)%N then 2 else 4
  | TPush2 _ c => if (c =? h)%N then 1 else 3
  | TPop0 _ => 4
  | TPop1 _ c => if (c =? h)%N then (if (c =? 0)%N then 3 else 2) else 5
  | TPop2 _ c _ => if (c =? h)%N then 1 else 4
  | TBump0 => 2
  | TBump1 c => if (c =? u)%N then 1 else 2
  end%nat.

Lemma todo_le h u c : (todo h u c <= 5)%nat.
Proof. destruct c; cbn; repeat match goal with |- context[if ?b then _ else _] => destruct b end; lia. Qed.

Lemma access_todo s c : busy c = true ->
  let (m, c') := taccess size edge s c false in
  (exists r, c' = TDone r) \/ (hd m = hd s /\ un m = un s /\ busy c' = true /\ (todo (hd s) (un s) c' < todo (hd s) (un s) c)%nat).
Proof.
  destruct c as [|x|x cur|x cur|al|al cur|al cur n| |u|r]; try discriminate; intros _; cbn.
  - right. rewrite N.eqb_refl. repeat split; lia.
  - right. destruct (cur =? hd s); repeat split; cbn; lia.
  - rewrite (N.eqb_sym (hd s) cur). destruct (cur =? hd s); cbn; [left; eauto|]. right. rewrite N.eqb_refl. repeat split; lia.
  - right. rewrite N.eqb_refl. destruct (hd s =? 0); repeat split; cbn; lia.
  - destruct (N.eqb_spec cur 0) as [->|E]; cbn -[N.eqb].
    + destruct al; [|left; eauto]. right. repeat split; cbn -[N.eqb]. change (0 =? 0) with true; destruct (0 =? hd s); lia.
    + right. repeat split; cbn. destruct (cur =? hd s); lia.
  - rewrite (N.eqb_sym (hd s) cur). destruct (cur =? hd s); cbn; [left; eauto|]. right. rewrite N.eqb_refl. destruct (hd s =? 0); repeat split; lia.
  - right. rewrite N.eqb_refl. repeat split; lia.
  - destruct (u =? edge); [left; eauto|]. rewrite (N.eqb_sym (un s) u). destruct (u =? un s); cbn; [left; eauto|]. right. rewrite N.eqb_refl. repeat split; lia.
Qed.
Lemma access_spur s c : (exists r, snd (taccess size edge s c true) = TDone r) /\ busy c = true \/
  hd (fst (taccess size edge s c true)) = hd s /\ un (fst (taccess size edge s c true)) = un s.
Proof.
  destruct c as [|x|x cur|x cur|al|al cur|al cur n| |u|r]; cbn; auto.
  - destruct (cur =? 0); cbn; auto.
  - destruct (u =? edge); cbn; auto.
Qed.

Lemma lock_free : forall ls s t, busy (th s t) = true -> no_spurious t ls -> (todo (hd (sh s)) (un (sh s)) (th s t) <= steps_of t ls)%nat ->
  exists l1 l l2, ls = l1 ++ l :: l2 /\ finishes size edge (fst (trun s l1)) l.
Proof.
  induction ls as [|l ls IH]; intros s t B N T.
  - exfalso. cbn in T. destruct (th s t); try discriminate; cbn in T; repeat match goal with H : context[if ?b then _ else _] |- _ => destruct b end; lia.
  - assert (Now : finishes size edge s l -> exists l1 x l2, l :: ls = l1 ++ x :: l2 /\ finishes size edge (fst (trun s l1)) x)
      by (intros H; exists [], l, ls; auto).
    assert (N' : no_spurious t ls) by (intros G; apply N; now right).
    assert (Later : hd (sh (fst (tstep s l))) = hd (sh s) -> un (sh (fst (tstep s l))) = un (sh s) ->
      busy (th (fst (tstep s l)) t) = true -> (todo (hd (sh s)) (un (sh s)) (th (fst (tstep s l)) t) <= steps_of t ls)%nat ->
      exists l1 x l2, l :: ls = l1 ++ x :: l2 /\ finishes size edge (fst (trun s l1)) x).
    { intros H1 H2 H3 H4. destruct (IH (fst (tstep s l)) t H3 N' ltac:(now rewrite H1, H2)) as (l1 & x & l2 & -> & F).
      exists (l :: l1), x, l2. split; [reflexivity|]. cbn [Treiber.trun]. destruct (tstep s l) as [s1 e1]. cbn [fst] in F.
      destruct (trun s1 l1) as [s2 e2]. exact F. }
    destruct l as [t' o|t' [|]|t'|x v|x].
    + cbn [steps_of] in T. cbn in Later. destruct (Nat.eq_dec t t') as [<-|Ht].
      * destruct (th s t) eqn:E; try discriminate; apply Later; cbn; auto; rewrite E; auto.
      * assert (U : forall (g : nat -> thr) c, upd g t' c t = g t) by (intros g c; unfold upd; destruct (Nat.eqb_spec t t'); [easy|reflexivity]).
        destruct (th s t'); try (apply Later; auto; fail). destruct (may_call (sh s) o); [|now apply Later].
        cbn in Later. rewrite U in Later. apply Later; auto; destruct o; reflexivity.
    + assert (Ht : t <> t') by (intros <-; apply N; now left). cbn [steps_of] in T. cbn in Later.
      pose proof (access_spur (sh s) (th s t')) as Q. unfold finishes in Now. cbn in Now.
      destruct (taccess size edge (sh s) (th s t') true) as [m c]. cbn in *. destruct Q as [((r & ->) & Bz)|[Q1 Q2]].
      * apply Now. exists t', r. split; [exact Bz|]. unfold upd. now rewrite Nat.eqb_refl.
      * unfold upd in Later at 1 2. destruct (Nat.eqb_spec t t'); [easy|]. now apply Later.
    + cbn in Later. unfold finishes in Now. cbn in Now. destruct (busy (th s t')) eqn:Bz.
      * pose proof (access_todo (sh s) (th s t') Bz) as Q. destruct (taccess size edge (sh s) (th s t') false) as [m c]. cbn in *.
        destruct Q as [(r & ->)|(Q1 & Q2 & Q3 & Q4)].
        -- apply Now. exists t', r. split; [exact Bz|]. unfold upd. now rewrite Nat.eqb_refl.
        -- unfold upd in Later at 1 2. destruct (Nat.eqb_spec t t') as [<-|Ht].
           ++ rewrite Nat.eqb_refl in T. apply Later; auto. lia.
           ++ destruct (Nat.eqb_spec t' t); [congruence|]. now apply Later.
      * assert (Ht : t <> t') by congruence. assert (E : taccess size edge (sh s) (th s t') false = (sh s, th s t')) by (destruct (th s t'); try discriminate; reflexivity).
        rewrite E in Later. cbn in Later, T. unfold upd in Later at 1 2. destruct (Nat.eqb_spec t t'); [easy|]. destruct (Nat.eqb_spec t' t); [congruence|]. now apply Later.
    + cbn [steps_of] in T. cbn in Later. destruct (Nat.eq_dec t t') as [<-|Ht].
      * destruct (th s t) eqn:E; try discriminate; apply Later; cbn; auto; rewrite E; auto.
      * assert (U : forall (g : nat -> thr) c, upd g t' c t = g t) by (intros g c; unfold upd; destruct (Nat.eqb_spec t t'); [easy|reflexivity]).
        destruct (th s t'); try (apply Later; auto; fail). cbn in Later. rewrite U in Later. apply Later; auto; destruct r; reflexivity.
    + cbn [steps_of] in T. cbn in Later. destruct (mem_N x (held (sh s))); now apply Later.
    + cbn [steps_of] in T. cbn in Later. destruct (mem_N x (held (sh s))); now apply Later.
Qed.

Lemma done_stays : forall k s t r, th s t = TDone r -> th (fst (trun s (repeat (LStep t false) k))) t = TDone r.
Proof.
  induction k as [|k IH]; intros s t r E; [exact E|]. cbn [repeat Treiber.trun Treiber.tstep]. rewrite E. cbn [taccess].
  specialize (IH (TState (sh s) (upd (th s) t (TDone r))) t r). destruct (trun _ _) as [s2 e2]. apply IH. cbn. unfold upd. now rewrite Nat.eqb_refl.
Qed.
Lemma alone : forall k s t, busy (th s t) = true -> (todo (hd (sh s)) (un (sh s)) (th s t) <= k)%nat ->
  exists r, th (fst (trun s (repeat (LStep t false) k))) t = TDone r.
Proof.
  induction k as [|k IH]; intros s t B T.
  - exfalso. destruct (th s t); try discriminate; cbn in T; repeat match goal with H : context[if ?b then _ else _] |- _ => destruct b end; lia.
  - cbn [repeat Treiber.trun Treiber.tstep]. pose proof (access_todo (sh s) (th s t) B) as Q. destruct (taccess size edge (sh s) (th s t) false) as [m c].
    assert (U : upd (th s) t c t = c) by (unfold upd; now rewrite Nat.eqb_refl).
    destruct Q as [(r & ->)|(Q1 & Q2 & Q3 & Q4)].
    + pose proof (done_stays k (TState m (upd (th s) t (TDone r))) t r U) as D. destruct (trun _ _) as [s2 e2]. eauto.
    + specialize (IH (TState m (upd (th s) t c)) t). cbn [th sh] in IH. rewrite U in IH. destruct (trun _ _) as [s2 e2]. apply IH; [exact Q3|]. rewrite Q1, Q2. lia.
Qed.
End LockFree.
