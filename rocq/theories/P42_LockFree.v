(** Progress of the operations of pools and lists in the hardware build: C121. *)
Require Import NArith List Bool Arith Lia.
From Verif Require Import AtomicSpec LinSpec Treiber LockFreeSpec LockFree.
Import ListNotations.
Open Scope N_scope.

(** Lock-freedom: from any state, whatever all contexts do, five steps of a context that is inside an operation do not
    pass without some operation taking effect.  A context that stands still stops nobody.
    Missing: the operation that takes effect need not be that context's own ([C121_bounded_refuted]). *)
Theorem C121_lock_free_partial : forall size edge s t ls, busy (th s t) = true -> no_spurious t ls ->
  (5 <= steps_of t ls)%nat ->
  exists l1 l l2, ls = l1 ++ l :: l2 /\ finishes size edge (fst (trun size edge s l1)) l.
Proof.
  intros size edge s t ls B N L. apply (lock_free size edge ls s t B N).
  pose proof (todo_le (hd (sh s)) (un (sh s)) (th s t)). lia.
Qed.
Print Assumptions C121_lock_free_partial.

(** Without interference, an operation itself takes effect within five steps. *)
Theorem C121_alone : forall size edge s t k, busy (th s t) = true -> (5 <= k)%nat ->
  exists r, th (fst (trun size edge s (repeat (LStep t false) k))) t = TDone r.
Proof.
  intros size edge s t k B L.
  exact (alone size edge k s t B (Nat.le_trans _ _ _ (todo_le _ _ _) L)).
Qed.
Print Assumptions C121_alone.

(** A pool of the two blocks 4 and 8.  Context 1 takes both and gives them back. *)
Definition pool2 : tstate := TState (Shm 0 (fun _ => 0) 4 [] [] false) (fun _ => TIdle).
Definition alloc1 : list tlabel := [LInv 1 OAlloc; LStep 1 false; LStep 1 false; LStep 1 false; LStep 1 false; LRet 1].
Definition opening : list tlabel :=
  alloc1 ++ alloc1 ++ interrupt (OPush 8) ++ interrupt (OPush 4).
(** Context 1 takes block 4 before context 0 can, and puts it back before context 0 takes block 8. *)
Definition around : list (option top) := [Some OAlloc; None; None; Some (OPush 4); None; None].

(** Context 0 has not returned. *)
Definition not_back (e : lvis top tres) : Prop := match e with LReturn 0%nat _ => False | _ => True end.

(** States in which the round can begin. *)
Definition at_start (s : tstate) : Prop :=
  hd (sh s) = 4 /\ nx (sh s) 4 = 8 /\ held (sh s) = [] /\ dead (sh s) = [] /\ (exists n, th s 0%nat = TPop2 true 4 n) /\ th s 1%nat = TIdle.
Lemma round s : at_start s -> at_start (fst (trun 4 12 s (as_interrupts around))) /\
  Forall not_back (snd (trun 4 12 s (as_interrupts around))).
Proof.
  destruct s as [[h n u hl dd fl] g]. unfold at_start. cbn [sh th hd nx held dead]. intros (-> & Hn & -> & -> & (x & H0) & H1).
  assert (G : forall e, trun 4 12 (TState (Shm 4 n u [] [] fl) g) (as_interrupts around) = e -> at_start (fst e) /\
    Forall not_back (snd e)); [|exact (G _ eq_refl)].
  intros e. unfold around, as_interrupts, interrupt. cbn [map concat app trun].
  do 6 (cbn; rewrite ?H0, ?H1, ?Hn; unfold upd, nset).
  intros <-. unfold at_start. cbn. rewrite ?Hn. repeat split; eauto; repeat constructor.
Qed.

Lemma trun_app : forall l1 l2 s, trun 4 12 s (l1 ++ l2) =
  let (s1, e1) := trun 4 12 s l1 in let (s2, e2) := trun 4 12 s1 l2 in (s2, e1 ++ e2).
Proof.
  induction l1 as [|l l1 IH]; intros l2 s; cbn [app trun]; [now destruct (trun _ _ s l2)|].
  destruct (tstep _ _ s l) as [s1 e1]. rewrite IH. destruct (trun _ _ s1 l1) as [s2 e2]. destruct (trun _ _ s2 l2) as [s3 e3]. now rewrite app_assoc.
Qed.
Lemma as_interrupts_app k1 k2 : as_interrupts (k1 ++ k2) = as_interrupts k1 ++ as_interrupts k2.
Proof. unfold as_interrupts. now rewrite map_app, concat_app. Qed.
Lemma steps_of_app t : forall l1 l2, steps_of t (l1 ++ l2) = (steps_of t l1 + steps_of t l2)%nat.
Proof. induction l1 as [|[| ? [|]| | |] l1 IH]; intros l2; cbn; rewrite ?IH; lia. Qed.
Lemma rounds : forall n s, at_start s -> exists ks, (n <= steps_of 0 (as_interrupts ks))%nat /\
  at_start (fst (trun 4 12 s (as_interrupts ks))) /\ Forall not_back (snd (trun 4 12 s (as_interrupts ks))).
Proof.
  induction n as [|n IH]; intros s A.
  - exists []. cbn. auto.
  - destruct (round s A) as [A1 F1]. destruct (IH _ A1) as (ks & Hn & A2 & F2). exists (around ++ ks).
    rewrite as_interrupts_app, steps_of_app, trun_app. destruct (trun 4 12 s (as_interrupts around)) as [s1 e1]. cbn [fst snd] in *.
    destruct (trun 4 12 s1 (as_interrupts ks)) as [s2 e2]. cbn [fst snd] in *. repeat split; [|now apply A2..|now apply Forall_app].
    change (steps_of 0 (as_interrupts around)) with 4%nat. lia.
Qed.

(** "O(1)" is false with hardware atomics: one call of [allocate] takes any number of steps without returning, although no
    compare-exchange fails spuriously and context 1 only interrupts it with whole operations. *)
Theorem C121_bounded_refuted : exists size edge m calls,
  let s0 := fst (trun size edge (TState m (fun _ => TIdle)) calls) in
  let s1 := fst (tstep size edge s0 (LInv 0 OAlloc)) in
  snd (tstep size edge s0 (LInv 0 OAlloc)) = [LCall 0%nat OAlloc] /\
  forall n, exists ks, (n <= steps_of 0 (as_interrupts ks))%nat /\
    busy (th (fst (trun size edge s1 (as_interrupts ks))) 0) = true /\
    Forall not_back (snd (trun size edge s1 (as_interrupts ks))).
Proof.
  exists 4, 12, (sh pool2), opening. cbv zeta. split; [vm_compute; reflexivity|]. intros n.
  set (s1 := fst (tstep 4 12 _ (LInv 0 OAlloc))).
  assert (A : at_start (fst (trun 4 12 s1 (as_interrupts [None; None]))) /\ snd (trun 4 12 s1 (as_interrupts [None; None])) = [])
    by (vm_compute; repeat split; eauto).
  destruct A as [A E]. destruct (rounds n _ A) as (ks & Hn & A2 & F2). exists ([None; None] ++ ks).
  rewrite as_interrupts_app, steps_of_app, trun_app. destruct (trun 4 12 s1 (as_interrupts [None; None])) as [s2 e2]. cbn [fst snd] in *. subst e2.
  destruct (trun 4 12 s2 (as_interrupts ks)) as [s3 e3]. cbn [fst snd] in *. repeat split; [lia| |exact F2].
  destruct A2 as (_ & _ & _ & _ & (x & ->) & _). reflexivity.
Qed.
Print Assumptions C121_bounded_refuted.

(** The first two rounds of that schedule, and what [C121_lock_free_partial] says about it: context 0 does eight steps, an operation
    of context 1 takes effect before the fifth. *)
Definition mid : tstate := fst (trun 4 12 pool2 (opening ++ [LInv 0 OAlloc; LStep 0 false; LStep 0 false])).
Example C121_case :
  let ls := as_interrupts (around ++ around) in
  busy (th mid 0) = true /\ no_spurious 0 ls /\ steps_of 0 ls = 8%nat /\
  finishes 4 12 (fst (trun 4 12 mid (firstn 3 ls))) (LStep 1 false) /\
  th (fst (trun 4 12 mid ls)) 0 = TPop2 true 4 8 /\
  th (fst (trun 4 12 mid (repeat (LStep 0 false) 5))) 0 = TDone (RNode 4).
Proof.
  cbv zeta. repeat split; try (vm_compute; reflexivity).
  - vm_compute. intros H. repeat (destruct H as [H|H]; [discriminate H|]). exact H.
  - exists 1%nat, (RNode 4). vm_compute. auto.
Qed.
