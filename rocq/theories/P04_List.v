(** Properties of the linked list and of the fiber chain: LIFO order, draining,
    draining under concurrent insertion (C19, C22, C23, C24). *)
Require Import NArith List Bool Arith Lia.
From Verif Require Import AtomicSpec Treiber TreiberProofs LinkedList LinkedListSpec LinkedListProofs
  DrainSpec Drain DrainProofs.
Import ListNotations.
Open Scope N_scope.

(** * Sequential use *)

(** Any sequence of operations on a fresh list succeeds (no access to a freed or
    unallocated node) and gives what a plain LIFO list gives.  Then, converting it
    into an iterator and taking [n] elements yields the first [n] elements of the
    list, and dropping what remains drops every remaining element exactly once and
    frees all nodes.  [al] is any allocator. *)
Theorem C19_lifo : forall (A : Type) (al : list N -> N),
  (forall used, al used <> 0 /\ ~ In (al used) used) ->
  forall (os : list (lop A)) (n : nat), exists bound, forall fuel, (bound <= fuel)%nat ->
  exists s s1 s2,
    lops_run al fuel lnew os = Some (s, snd (lspecs [] os)) /\
    into_loop n s = Some (s1, firstn n (fst (lspecs [] os))) /\
    ldrop fuel s1 = Some (s2, skipn n (fst (lspecs [] os))) /\
    lused s2 = [] /\ forall a, lcell s2 a = None.
Proof.
  intros A al Hal os n. exists (S (Nat.max (peak [] os) (length (fst (lspecs [] os))))). intros fuel Hf.
  destruct (lops_spec al Hal os fuel lnew []) as (s & xs & E & H & M);
    [simpl map; lia|apply rep_new|].
  simpl map in E, M.
  destruct (into_loop_spec n s xs H) as (s1 & E1 & H1).
  destruct (ldrop_spec fuel s1 (skipn n xs) H1) as (s2 & E2 & H2 & H3).
  { rewrite skipn_length. rewrite <- (map_length snd xs). rewrite M. lia. }
  exists s, s1, s2. rewrite <- M. split; [now rewrite E|]. split; [easy|].
  split; [|auto]. rewrite E2. f_equal. f_equal. clear. revert xs.
  induction n as [|n IH]; intros xs; [easy|]. destruct xs; [easy|]. simpl. apply IH.
Qed.
Print Assumptions C19_lifo.

(** Collecting then iterating reverses. *)
Theorem C19_reverse : forall (A : Type) (al : list N -> N),
  (forall used, al used <> 0 /\ ~ In (al used) used) ->
  forall (vs : list A) (n : nat), (length vs <= n)%nat ->
  exists s s', extend al lnew vs = Some s /\ into_loop n s = Some (s', rev vs) /\ lused s' = [].
Proof.
  intros A al Hal vs n Hn.
  destruct (extend_spec al Hal vs lnew [] rep_new) as (s & ys & E & H & M).
  rewrite app_nil_r in H. destruct (into_loop_spec n s ys H) as (s' & E' & H').
  exists s, s'. split; [easy|].
  assert (L : (length ys <= n)%nat) by (rewrite <- (map_length snd ys), M, rev_length; easy).
  split.
  - rewrite E', firstn_all2; [now rewrite M|]. now rewrite map_length.
  - rewrite skipn_all2 in H' by easy. pose proof (r_used _ _ _ H') as Hu. simpl in Hu.
    destruct (lused s') as [|a u]; [easy|]. exfalso. apply (Hu a). now left.
Qed.
Print Assumptions C19_reverse.

Definition bump (u : list N) : N := 1 + fold_right N.max 0 u.
Lemma bump_fresh u : bump u <> 0 /\ ~ In (bump u) u.
Proof.
  unfold bump. split; [lia|]. intros H.
  assert (forall x, In x u -> x <= fold_right N.max 0 u) as Hm.
  { induction u as [|a u IH]; simpl; [easy|]. intros x [->|Hx]; [lia|].
    assert (In (1 + fold_right N.max 0 u) u -> False) by
      (intros C; clear - C; assert (forall l y, In y l -> y <= fold_right N.max 0 l) as G
         by (induction l as [|b l IHl]; simpl; [easy|]; intros y [->|Hy]; [lia|specialize (IHl y Hy); lia]);
       specialize (G _ _ C); lia).
    assert (forall l y, In y l -> y <= fold_right N.max 0 l) as G
      by (induction l as [|b l IHl]; simpl; [easy|]; intros y [->|Hy]; [lia|specialize (IHl y Hy); lia]).
    specialize (G u x Hx). lia. }
  specialize (Hm _ H). lia.
Qed.

Example C19_case :
  match lops_run bump 10 (@lnew nat)
    [LPush 1%nat; LPush 2%nat; LPop; LExtend [3; 4]%nat; LIsEmpty; LIterMut S] with
  | Some (s, rs) => rs = [LUnit; LUnit; LOpt (Some 2%nat); LUnit; LBool false; LList [4; 3; 1]%nat] /\
      match into_loop 1 s with
      | Some (s1, l) => l = [5]%nat /\
          match ldrop 10 s1 with Some (s2, d) => d = [4; 2]%nat /\ lused s2 = [] | None => False end
      | None => False
      end
  | None => False
  end.
Proof. vm_compute. auto. Qed.

(** Draining, after any history: what [drain_filter] hands out in its first [n]
    calls, what dropping the iterator then drops, and what is left.  [f] is any
    stateful filter: its answer and the new value of the element depend on the values
    it saw before; so any missing, extra or reordered call would show for some [f]. *)
Theorem C22_drain_splits : forall (A : Type) (al : list N -> N),
  (forall used, al used <> 0 /\ ~ In (al used) used) ->
  forall (os : list (lop A)) (n : nat) (f : dfilter), exists bound, forall fuel, (bound <= fuel)%nat ->
  exists s s1 s2,
    lops_run al fuel lnew os = Some (s, snd (lspecs [] os)) /\
    drain_filter fuel n f s =
      Some (s1, firstn n (fst (split_by f [] (fst (lspecs [] os)))),
                skipn n (fst (split_by f [] (fst (lspecs [] os))))) /\
    ldrop fuel s1 = Some (s2, snd (split_by f [] (fst (lspecs [] os)))) /\ lused s2 = [].
Proof.
  intros A al Hal os n f. set (l := fst (lspecs [] os)).
  exists (S (Nat.max (peak [] os) (Nat.max (length l) (length (snd (split_by f [] l)))))).
  intros fuel Hf.
  destruct (lops_spec al Hal os fuel lnew []) as (s & xs & E & H & M);
    [simpl map; lia|apply rep_new|]. simpl map in E, M. fold l in M.
  destruct (drain_filter_spec f fuel n s xs) as (s1 & x1 & E1 & H1 & M1);
    [rewrite <- (map_length snd xs), M; lia|easy|].
  rewrite M in E1, M1.
  destruct (ldrop_spec fuel s1 x1 H1) as (s2 & E2 & _ & H3);
    [rewrite <- (map_length snd x1), M1; lia|].
  exists s, s1, s2. split; [easy|]. split; [easy|]. split; [|easy]. now rewrite E2, M1.
Qed.
Print Assumptions C22_drain_splits.

(** For a filter that just tests the element: the usual two filters. *)
Theorem C22_pure_filter : forall (A : Type) (p : A -> bool) (l : list A),
  split_by (fun _ v => (p v, v)) [] l = (filter p l, filter (fun v => negb (p v)) l).
Proof.
  intros A p l. generalize (@nil A). induction l as [|v r IH]; intros seen; simpl; [easy|].
  rewrite IH. now destruct (p v).
Qed.
Print Assumptions C22_pure_filter.

(** A stateful filter: accepts every second element, doubling what it sees. *)
Example C22_case :
  let f seen v := (Nat.odd (length seen), (2 * v)%nat) in
  match lops_run bump 10 (@lnew nat) [LExtend [1; 2; 3; 4; 5]%nat] with
  | Some (s, _) =>
      match drain_filter 10 1 f s with
      | Some (s1, got, dropped) => got = [8]%nat /\ dropped = [4]%nat /\
          match ldrop 10 s1 with Some (_, d) => d = [10; 6; 2]%nat | None => False end
      | None => False
      end
  | None => False
  end.
Proof. vm_compute. auto. Qed.

(** * Draining while others add *)

(** Observations on an event sequence. *)
Fixpoint visits (tr : list devent) : list (N * bool) :=
  match tr with [] => [] | EVisit x b :: r => (x, b) :: visits r | _ :: r => visits r end.
Fixpoint adds (tr : list devent) : list N :=
  match tr with [] => [] | EAdd x :: r => x :: adds r | _ :: r => adds r end.
Fixpoint outs (tr : list devent) : list N :=
  match tr with [] => [] | EOut x :: r => x :: outs r | _ :: r => outs r end.
(** What the list must hold: additions go to the front. *)
Definition content1 (l : list N) (e : devent) : list N :=
  match e with EAdd x => x :: l | EOut x => filter (fun y => negb (y =? x)) l | _ => l end.
Definition content (tr : list devent) : list N := fold_left content1 tr [].
(** No drain starts or ends. *)
Definition inner (tr : list devent) : Prop := ~ In EStart tr /\ ~ In EEnd tr.
Definition accepted (v : list (N * bool)) : list N := map fst (filter snd v).
Definition rejected (v : list (N * bool)) : list N := map fst (filter (fun p => negb (snd p)) v).

(** The links starting at [h] visit exactly [l]. *)
Fixpoint linked (f : N -> N) (h : N) (l : list N) : Prop :=
  match l with
  | [] => h = 0
  | x :: r => h = x /\ x <> 0 /\ linked f (f x) r
  end.
Lemma linked_chain f : forall l h, chain f h l -> linked f h l.
Proof. induction l as [|x l IH]; simpl; intros h; [easy|]. intros (E & H0 & H). auto. Qed.

Definition full (q : dspec) : list N :=
  match q with QOut f k x t => f ++ k ++ x :: t | _ => dcontents q end.

Lemma one_event fib s lb : snd (drstep fib s lb) = [] \/ exists e, snd (drstep fib s lb) = [e].
Proof.
  destruct lb as [t x|t sp|t|x|x v|x|x| |sp| |b]; simpl.
  - destruct (dth s t); auto. destruct (mem_N x (held (dsh s))); auto.
  - destruct (dth s t); auto; destruct (taccess _ _ _ _ _); auto. simpl.
    destruct (negb sp && _); eauto.
  - destruct (dth s t); auto.
  - destruct (mem_N x (held (dsh s))); simpl; eauto.
  - destruct (mem_N x (held (dsh s))); auto.
  - destruct (mem_N x (held (dsh s))); auto.
  - destruct (mem_N x (dead (dsh s)) && negb (x =? 0)); auto.
  - destruct (dpo s); simpl; eauto.
  - destruct (dpo s); simpl; eauto.
    + destruct (c =? 0); simpl; eauto.
    + destruct (p =? 0); simpl; eauto.
    + destruct (negb sp && _); simpl; eauto.
  - destruct (dpo s); auto. destruct (p =? 0); auto. destruct (hd (dsh s) =? c); auto.
  - destruct (dpo s); simpl; eauto.
Qed.

Lemma drrun_app fib a : forall b s, drrun fib s (a ++ b) =
  (fst (drrun fib (fst (drrun fib s a)) b),
   snd (drrun fib s a) ++ snd (drrun fib (fst (drrun fib s a)) b)).
Proof.
  induction a as [|l a IH]; intros b s; simpl.
  - now destruct (drrun fib s b).
  - destruct (drstep fib s l) as [s1 e1]. rewrite IH. destruct (drrun fib s1 a) as [s2 e2].
    simpl. now rewrite app_assoc.
Qed.

Lemma full_nd s l q : dinv s l q -> NoDup (full q).
Proof.
  intros HI. pose proof HI as [HO _ _ HQ]. pose proof (own_nd_l _ _ _ _ _ HO) as Hnd.
  destruct (dpo s) eqn:Ed, q as [l0|f k t|f k y t]; simpl in HQ; try easy; simpl.
  - now subst.
  - destruct HQ as (-> & _). easy.
  - destruct t as [|y t]; [easy|]. destruct HQ as (-> & -> & _). easy.
  - destruct HQ as (-> & -> & _). easy.
  - destruct HQ as (-> & -> & -> & _). easy.
  - destruct HQ as (-> & -> & -> & _). easy.
  - destruct HQ as (-> & -> & -> & _). easy.
  - destruct HQ as (-> & -> & _). rewrite app_assoc in Hnd |- *.
    assert (C : crd (dth s) (dpo s) 0%nat = Some x) by (simpl; rewrite Ed; reflexivity).
    rewrite Ed in C.
    destruct (own_cr _ _ _ _ _ HO 0%nat x C) as (_ & Hx & _).
    apply NoDup_Add with (a := x) (l := (f ++ k) ++ t); [apply Add_app|].
    split; [easy|]. now rewrite <- app_assoc.
Qed.

Lemma filter_out x (A B : list N) : NoDup (A ++ x :: B) ->
  filter (fun y => negb (y =? x)) (A ++ x :: B) = A ++ B.
Proof.
  intros H. assert (K : forall l, ~ In x l -> filter (fun y => negb (y =? x)) l = l).
  { induction l as [|a l IH]; simpl; [easy|]. intros Hn. destruct (N.eqb_spec a x); simpl.
    - subst. tauto.
    - rewrite IH; tauto. }
  pose proof (NoDup_remove_2 _ _ _ H) as H2. rewrite in_app_iff in H2.
  rewrite filter_app. simpl. rewrite N.eqb_refl. simpl. rewrite !K; tauto.
Qed.

Lemma full_event q e q' : NoDup (full q) -> daccept q e = Some q' -> content1 (full q) e = full q'.
Proof.
  destruct e as [x| |x b|x|]; simpl.
  - intros _ [= <-]. destruct q; reflexivity.
  - intros _. destruct q; try discriminate. now intros [= <-].
  - intros _. destruct q as [l|f k [|y t]|]; try discriminate. destruct (N.eqb_spec x y); [|discriminate].
    subst. intros [= <-]. destruct b; simpl; [easy|]. now rewrite <- app_assoc.
  - destruct q as [| |f k y t]; try discriminate. destruct (N.eqb_spec x y); [|discriminate]. subst.
    intros Hn [= <-]. cbn [full dcontents] in *. rewrite app_assoc in Hn |- *.
    rewrite filter_out by easy. now rewrite app_assoc.
  - intros _. destruct q as [|f k [|y t]|]; try discriminate. intros [= <-]. simpl. now rewrite app_nil_r.
Qed.

(** Every prefix of the event sequence is accepted and has the right contents. *)
Definition wf_trace (tr : list devent) : Prop := forall t1 t2, tr = t1 ++ t2 ->
  exists q, daccepts (QIdle []) t1 = Some q /\ content t1 = full q.

Lemma run_wf fib nodes link ls : NoDup nodes -> ~ In 0 nodes ->
  wf_trace (snd (drrun fib (drinit nodes link) ls)) /\
  exists l q, dinv (fst (drrun fib (drinit nodes link) ls)) l q /\
    daccepts (QIdle []) (snd (drrun fib (drinit nodes link) ls)) = Some q.
Proof.
  intros Hnd H0. induction ls as [|lb ls IH] using rev_ind.
  - simpl. split.
    + intros t1 t2 E. symmetry in E. apply app_eq_nil in E. destruct E as [-> ->].
      exists (QIdle []). auto.
    + exists [], (QIdle []). split; [|easy]. now apply dinv_init.
  - rewrite drrun_app. simpl. set (r := drrun fib (drinit nodes link) ls) in *.
    destruct IH as [Hw (l & q & HI & Ha)].
    destruct (dinv_step fib (fst r) l q lb HI) as (l1 & q1 & Ha1 & HI1).
    pose proof (one_event fib (fst r) lb) as H1.
    destruct (drstep fib (fst r) lb) as [s1 e1]. simpl in *. rewrite app_nil_r.
    assert (Ha2 : daccepts (QIdle []) (snd r ++ e1) = Some q1) by now rewrite daccepts_app, Ha.
    split; [|eauto].
    destruct H1 as [-> |[e ->]]; [now rewrite app_nil_r|].
    intros t1 t2 E. destruct (Hw (snd r) []) as (q0 & Hq0 & Hc0); [now rewrite app_nil_r|].
    rewrite Ha in Hq0. injection Hq0 as <-.
    destruct t2 as [|e2 t2] using rev_ind.
    + rewrite app_nil_r in E. subst t1. exists q1. split; [easy|].
      unfold content. rewrite fold_left_app. simpl. fold (content (snd r)). rewrite Hc0.
      apply full_event; [now apply (full_nd (fst r) l q)|]. simpl in Ha1.
      destruct (daccept q e); [easy|discriminate].
    + clear IHt2. rewrite app_assoc in E. apply app_inj_tail in E. destruct E as [E _].
      apply (Hw t1 t2 E).
Qed.

(** What a drain in progress has done. *)
Lemma inner_accept tr : forall f k t q, inner tr -> daccepts (QRun f k t) tr = Some q ->
  (exists t', q = QRun (rev (adds tr) ++ f) (k ++ rejected (visits tr)) t' /\
     t = map fst (visits tr) ++ t' /\ outs tr = accepted (visits tr)) \/
  (exists x t', q = QOut (rev (adds tr) ++ f) (k ++ rejected (visits tr)) x t' /\
     t = map fst (visits tr) ++ t' /\ outs tr ++ [x] = accepted (visits tr)).
Proof.
  induction tr as [|e tr IH] using rev_ind; intros f k t q [I1 I2] Hd.
  - simpl in *. injection Hd as <-. left. exists t. rewrite app_nil_r. auto.
  - assert (Hin : inner tr) by (split; intros C; [apply I1|apply I2]; apply in_app_iff; auto).
    assert (X1 : adds (tr ++ [e]) = adds tr ++ adds [e]).
    { clear. induction tr as [|[]]; simpl; auto. now rewrite IHtr. }
    assert (X2 : visits (tr ++ [e]) = visits tr ++ visits [e]).
    { clear. induction tr as [|[]]; simpl; auto. now rewrite IHtr. }
    assert (X3 : outs (tr ++ [e]) = outs tr ++ outs [e]).
    { clear. induction tr as [|[]]; simpl; auto. now rewrite IHtr. }
    rewrite X1, X2, X3. unfold accepted, rejected. rewrite !filter_app, !map_app, rev_app_distr.
    fold (accepted (visits tr)) (rejected (visits tr)).
    rewrite daccepts_app in Hd. destruct (daccepts (QRun f k t) tr) as [q1|] eqn:E1; [|discriminate].
    simpl in Hd. destruct (daccept q1 e) as [q2|] eqn:E2; [|discriminate]. injection Hd as <-.
    destruct (IH f k t q1 Hin E1) as [(t' & -> & -> & Ho)|(x & t' & -> & -> & Ho)].
    + destruct e as [x| |x b|x|]; simpl in E2; try discriminate.
      * injection E2 as <-. left. exists t'. simpl. rewrite !app_nil_r. auto.
      * destruct t' as [|y t']; [discriminate|].
        destruct (N.eqb_spec x y); [|discriminate]. subst y. injection E2 as <-.
        destruct b; simpl.
        -- right. exists x, t'. rewrite !app_nil_r, <- app_assoc, Ho. auto.
        -- left. exists t'. rewrite !app_nil_r, <- !app_assoc. auto.
      * exfalso. apply I2. apply in_app_iff. right. now left.
    + destruct e as [y| |y b|y|]; simpl in E2; try discriminate.
      * injection E2 as <-. right. exists x, t'. simpl. rewrite !app_nil_r. auto.
      * destruct (N.eqb_spec y x); [|discriminate]. subst y. injection E2 as <-.
        left. exists t'. simpl. rewrite !app_nil_r. auto.
Qed.

(** What the observable events and the memory must look like, for every schedule. *)
Definition drain_ok (s : drstate) (tr : list devent) : Prop :=
  fault (dsh s) = false /\
  (* a finished drain *)
  (forall t1 t2 t3, tr = t1 ++ EStart :: t2 ++ EEnd :: t3 -> inner t2 ->
     map fst (visits t2) = content t1 /\ outs t2 = accepted (visits t2) /\
     content (t1 ++ EStart :: t2 ++ [EEnd]) = rev (adds t2) ++ rejected (visits t2)) /\
  (* a drain in progress *)
  (forall t1 t2, tr = t1 ++ EStart :: t2 -> inner t2 ->
     exists rest, content t1 = map fst (visits t2) ++ rest /\
       exists o, (length o <= 1)%nat /\ outs t2 ++ o = accepted (visits t2)) /\
  (* the list in memory *)
  exists l, linked (nx (dsh s)) (hd (dsh s)) l /\ NoDup l /\
    (l = content tr \/
     exists v x, visits tr = v ++ [(x, true)] /\ l = filter (fun y => negb (y =? x)) (content tr)) /\
    (dpo s = DIdle -> l = content tr).

Lemma visits_app a b : visits (a ++ b) = visits a ++ visits b.
Proof. induction a as [|[]]; simpl; auto. now rewrite IHa. Qed.

Lemma out_visit tr : forall f k x t, daccepts (QIdle []) tr = Some (QOut f k x t) ->
  exists v, visits tr = v ++ [(x, true)].
Proof.
  induction tr as [|e tr IH] using rev_ind; intros f k x t H; [easy|].
  rewrite daccepts_app in H. destruct (daccepts (QIdle []) tr) as [q|]; [|easy]. simpl in H.
  destruct (daccept q e) as [q'|] eqn:E; [|easy]. injection H as ->. rewrite visits_app.
  destruct e as [y| |y b|y|]; simpl in E.
  - destruct q; try easy. injection E as <- <- -> <-. simpl. rewrite app_nil_r. eapply IH. reflexivity.
  - destruct q; easy.
  - destruct q as [|f0 k0 [|z t0]|]; try easy. destruct (y =? z); [|easy]. destruct b; [|easy].
    injection E as _ _ -> _. simpl. eauto.
  - destruct q; try easy. destruct (y =? x0); easy.
  - destruct q as [|f0 k0 [|z t0]|]; easy.
Qed.

Lemma drain_all fib nodes link ls : NoDup nodes -> ~ In 0 nodes ->
  drain_ok (fst (drrun fib (drinit nodes link) ls)) (snd (drrun fib (drinit nodes link) ls)).
Proof.
  intros Hnd H0. destruct (run_wf fib nodes link ls Hnd H0) as [Hw (l & q & HI & Ha)].
  set (s := fst (drrun fib (drinit nodes link) ls)) in *.
  set (tr := snd (drrun fib (drinit nodes link) ls)) in *.
  assert (Hstart : forall t1 t2, tr = t1 ++ EStart :: t2 ->
    daccepts (QIdle []) t1 = Some (QIdle (content t1))).
  { intros t1 t2 E. destruct (Hw t1 (EStart :: t2) E) as (q1 & E1 & C1).
    destruct (Hw (t1 ++ [EStart]) t2) as (q2 & E2 & _); [now rewrite <- app_assoc|].
    rewrite daccepts_app, E1 in E2. simpl in E2. destruct q1; try discriminate. now rewrite C1. }
  split; [apply (di_fault _ _ _ HI)|]. split; [|split].
  - intros t1 t2 t3 E Hi. pose proof (Hstart _ _ E) as E1.
    destruct (Hw (t1 ++ EStart :: t2 ++ [EEnd]) t3) as (q2 & E2 & C2).
    { rewrite E, <- app_assoc. simpl. now rewrite <- app_assoc. }
    rewrite C2. rewrite daccepts_app, E1 in E2. simpl in E2. rewrite daccepts_app in E2.
    destruct (daccepts (QRun [] [] (content t1)) t2) as [q3|] eqn:E3; [|discriminate].
    destruct (inner_accept t2 _ _ _ _ Hi E3) as [(t' & -> & -> & Ho)|(x & t' & -> & -> & Ho)]; simpl in E2.
    + destruct t'; [|discriminate]. injection E2 as <-. rewrite !app_nil_r. simpl. auto.
    + discriminate.
  - intros t1 t2 E Hi. pose proof (Hstart _ _ E) as E1.
    rewrite E, daccepts_app, E1 in Ha. simpl in Ha.
    destruct (inner_accept t2 _ _ _ _ Hi Ha) as [(t' & _ & -> & Ho)|(x & t' & _ & -> & Ho)].
    + exists t'. split; [easy|]. exists []. rewrite app_nil_r. split; [simpl; lia|easy].
    + exists t'. split; [easy|]. exists [x]. split; [simpl; lia|easy].
  - destruct (Hw tr []) as (q0 & Hq0 & Hc0); [now rewrite app_nil_r|].
    rewrite Ha in Hq0. injection Hq0 as <-.
    exists l. split; [apply linked_chain, (own_chain _ _ _ _ _ (di_own _ _ _ HI))|].
    split; [apply (own_nd_l _ _ _ _ _ (di_own _ _ _ HI))|].
    destruct (dinv_contents _ _ _ HI) as (_ & _ & Hl).
    destruct q as [l0|f k t|f k x t].
    + rewrite Hc0. auto.
    + rewrite Hc0. auto.
    + split.
      * pose proof (full_nd _ _ _ HI) as Hf. pose proof (di_pos _ _ _ HI) as HQ. rewrite Hc0.
        destruct (dpo s); try easy; cbn [pos_ok] in HQ.
        -- left. destruct HQ as (-> & -> & _). easy.
        -- left. destruct HQ as (-> & -> & -> & _). easy.
        -- left. destruct HQ as (-> & -> & -> & _). easy.
        -- left. destruct HQ as (-> & -> & -> & _). easy.
        -- right. destruct HQ as (-> & -> & _). destruct (out_visit _ _ _ _ _ Ha) as [v Hv].
           exists v, x0. split; [easy|]. cbn [full] in *. rewrite app_assoc in Hf. rewrite (app_assoc f k (x0 :: t)).
           rewrite filter_out by easy. now rewrite app_assoc.
      * intros Ed. pose proof (di_pos _ _ _ HI) as HQ. rewrite Ed in HQ. easy.
Qed.

(** For every schedule of one context draining again and again with arbitrary filter
    answers and any number of contexts adding nodes at any access, in either build:
    each finished drain visits exactly the elements present at its start, in order,
    once each; hands out exactly those the filter accepted; and leaves the elements
    added meanwhile in front of the rejected ones.  Memory always agrees, and no freed
    node is ever touched. *)
Theorem C23_drain_with_pushes : forall nodes link ls, NoDup nodes -> ~ In 0 nodes ->
  let (s, tr) := drrun false (drinit nodes link) ls in drain_ok s tr.
Proof.
  intros nodes link ls Hnd H0. pose proof (drain_all false nodes link ls Hnd H0) as H.
  destruct (drrun false (drinit nodes link) ls). exact H.
Qed.
Print Assumptions C23_drain_with_pushes.

(** What [fault] records: the draining context touches no node (address 0) or a freed one. *)
Example C23_case_fault : let s := Shm 1 (fun _ => 0) 0 [] [2] false in
  fault (dtouch s 0) = true /\ fault (dtouch s 2) = true /\ fault (dtouch s 1) = false /\ fault (dtouch (dtouch s 2) 1) = true.
Proof. vm_compute. auto. Qed.

(** A drain left alone at any point finishes, whatever the filter answers. *)
Theorem C23_drain_terminates : forall nodes link ls ans, NoDup nodes -> ~ In 0 nodes ->
  exists n, dpo (alone false ans n (fst (drrun false (drinit nodes link) ls))) = DIdle.
Proof.
  intros nodes link ls ans Hnd H0. destruct (run_wf false nodes link ls Hnd H0) as [_ (l & q & HI & _)].
  eapply drain_terminates. exact HI.
Qed.
Print Assumptions C23_drain_terminates.

(** Nodes 8 and 16 are in the list; the drain accepts both; 24 is pushed between the
    filter's answer for 16 and its removal, 32 while 8 is visited. *)
Definition push_by (t : nat) (x : N) : list dlabel :=
  [ACall t x; AStep t false; AStep t false; AStep t false; ARet t].
Example C23_case :
  let ls := push_by 0 8 ++ push_by 1 16 ++
    [DStart; DStep false; DAnswer true; DStep false] ++ push_by 1 24 ++
    [DStep false; DStep false; DStep false; DStep false; DStep false] ++ push_by 0 32 ++
    [DAnswer true; DStep false; DStep false; DStep false; DStep false; DStep false] in
  let (s, tr) := drrun false (drinit [8; 16; 24; 32] (fun _ => 0)) ls in
  tr = [EAdd 8; EAdd 16; EStart; EVisit 16 true; EAdd 24; EOut 16; EAdd 32; EVisit 8 true; EOut 8; EEnd] /\
  content tr = [32; 24] /\ linked (nx (dsh s)) (hd (dsh s)) [32; 24] /\
  NoDup [8; 16; 24; 32] /\ ~ In 0 [8; 16; 24; 32].
Proof.
  vm_compute. repeat split; try discriminate.
  - repeat constructor; simpl; intuition discriminate.
  - intuition discriminate.
Qed.

(** * Fiber chains *)

(** Fibers instead of elements: a thread run is a drain whose filter resumes the
    fiber; a finished fiber is destroyed ([EOut]). *)
Theorem C24_thread_run : forall nodes link ls, NoDup nodes -> ~ In 0 nodes ->
  let (s, tr) := drrun true (drinit nodes link) ls in drain_ok s tr.
Proof.
  intros nodes link ls Hnd H0. pose proof (drain_all true nodes link ls Hnd H0) as H.
  destruct (drrun true (drinit nodes link) ls). exact H.
Qed.
Print Assumptions C24_thread_run.

(** A destroyed fiber is not resumed or destroyed again (unless a new fiber is later
    added in the same memory). *)
Theorem C24_never_again : forall nodes link ls, NoDup nodes -> ~ In 0 nodes ->
  forall t1 x t2, snd (drrun true (drinit nodes link) ls) = t1 ++ EOut x :: t2 -> ~ In x (adds t2) ->
  ~ In x (map fst (visits t2)) /\ ~ In x (outs t2).
Proof.
  intros nodes link ls Hnd H0 t1 x t2 E. destruct (run_wf true nodes link ls Hnd H0) as [Hw _].
  rewrite E in Hw. clear E. induction t2 as [|e t2 IH] using rev_ind; [easy|].
  intros Ha.
  assert (Hw' : wf_trace (t1 ++ EOut x :: t2)).
  { intros u1 u2 E. apply (Hw u1 (u2 ++ [e])). rewrite app_assoc, <- E, <- app_assoc. easy. }
  assert (X1 : adds (t2 ++ [e]) = adds t2 ++ adds [e]).
  { clear. induction t2 as [|[]]; simpl; auto. now rewrite IHt2. }
  assert (X3 : outs (t2 ++ [e]) = outs t2 ++ outs [e]).
  { clear. induction t2 as [|[]]; simpl; auto. now rewrite IHt2. }
  rewrite X1, in_app_iff in Ha. destruct (IH Hw') as [V O]; [tauto|].
  rewrite X3, visits_app, map_app, !in_app_iff.
  assert (Hc : ~ In x (content (t1 ++ EOut x :: t2))).
  { unfold content. rewrite fold_left_app. simpl.
    set (l0 := filter _ _). assert (Hl0 : ~ In x l0).
    { unfold l0. rewrite filter_In. rewrite N.eqb_refl. easy. }
    clearbody l0. assert (Ha2 : ~ In x (adds t2)) by tauto. clear -Hl0 Ha2. revert l0 Hl0.
    induction t2 as [|e t2 IH]; intros l0 Hl0; simpl; [easy|]. destruct e; simpl in *; try (apply IH; auto; fail).
    - apply IH; [tauto|]. simpl. tauto.
    - apply IH; [easy|]. rewrite filter_In. tauto. }
  destruct (Hw' (t1 ++ EOut x :: t2) []) as (q & Eq & Cq); [now rewrite app_nil_r|]. rewrite Cq in Hc.
  destruct (Hw (t1 ++ EOut x :: t2 ++ [e]) []) as (q2 & Eq2 & _); [now rewrite app_nil_r|].
  replace (t1 ++ EOut x :: t2 ++ [e]) with ((t1 ++ EOut x :: t2) ++ [e]) in Eq2 by (rewrite <- app_assoc; easy).
  rewrite daccepts_app, Eq in Eq2. simpl in Eq2.
  destruct e as [y| |y b|y|]; simpl in *; try tauto.
  - destruct q as [|f k [|z t]|]; try discriminate. destruct (N.eqb_spec y z); [|discriminate]. subst z.
    simpl in Hc. rewrite !in_app_iff in Hc. simpl in Hc. tauto.
  - destruct q as [|f k t|f k z t]; try discriminate. destruct (N.eqb_spec y z); [|discriminate]. subst z.
    simpl in Hc. rewrite !in_app_iff in Hc. simpl in Hc. tauto.
Qed.
Print Assumptions C24_never_again.

(** Dropping a chain ([Drop for Chain]: a drain accepting everything, nobody adding)
    destroys every fiber in it. *)
Theorem C24_drop_destroys_all : forall nodes link ls, NoDup nodes -> ~ In 0 nodes ->
  forall t1 t2 t3, snd (drrun true (drinit nodes link) ls) = t1 ++ EStart :: t2 ++ EEnd :: t3 ->
  inner t2 -> (forall x b, In (x, b) (visits t2) -> b = true) -> adds t2 = [] ->
  outs t2 = content t1 /\ content (t1 ++ EStart :: t2 ++ [EEnd]) = [].
Proof.
  intros nodes link ls Hnd H0 t1 t2 t3 E Hi Hall Hno.
  destruct (drain_all true nodes link ls Hnd H0) as (_ & H & _).
  destruct (H t1 t2 t3 E Hi) as (A1 & A2 & A3). rewrite A2, A3, Hno, <- A1. clear -Hall.
  unfold accepted, rejected. induction (visits t2) as [|[x b] v IH]; [easy|].
  assert (b = true) by (apply (Hall x); now left). subst b. simpl.
  destruct IH as [I1 I2]; [intros y c Hy; apply (Hall y); now right|].
  simpl in I2. now rewrite I1, I2.
Qed.
Print Assumptions C24_drop_destroys_all.

Theorem C24_run_terminates : forall nodes link ls ans, NoDup nodes -> ~ In 0 nodes ->
  exists n, dpo (alone true ans n (fst (drrun true (drinit nodes link) ls))) = DIdle.
Proof.
  intros nodes link ls ans Hnd H0. destruct (run_wf true nodes link ls Hnd H0) as [_ (l & q & HI & _)].
  eapply drain_terminates. exact HI.
Qed.
Print Assumptions C24_run_terminates.

(** Two runs: fiber 8 finishes in the first, adding fiber 24 on the way; 24 is first
    resumed in the second run. *)
Example C24_case :
  let ls := [APush 8; APush 16; DStart; DStep false; DAnswer false; DStep false; APush 24; DAnswer true;
             DStep false; DStep false; DStep false; DStart; DStep false; DAnswer false; DStep false;
             DAnswer true; DStep false; DStep false; DStep false] in
  let (s, tr) := drrun true (drinit [8; 16; 24] (fun _ => 0)) ls in
  tr = [EAdd 8; EAdd 16; EStart; EVisit 16 false; EAdd 24; EVisit 8 true; EOut 8; EEnd;
        EStart; EVisit 24 false; EVisit 16 true; EOut 16; EEnd] /\
  linked (nx (dsh s)) (hd (dsh s)) [24] /\ dead (dsh s) = [8; 16].
Proof. vm_compute. repeat split; discriminate. Qed.
