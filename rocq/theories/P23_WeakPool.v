(** Properties of the memory pool on a weak memory: C89. *)
Require Import NArith List Bool Arith Lia.
From Verif Require Import Spsc WeakSpec RaceSpec RaceProofs WeakPool WeakPoolProofs WeakPoolSolo.
Import ListNotations.
Open Scope nat_scope.

(** No two accesses to the same block of a pool that clash are unordered: those by the
    successive owners of the block and those of [allocate] and [deallocate].  This is false:
    [allocate] reads the link of a block that another context has meanwhile allocated and is
    writing to. *)
Definition race_acts : list pact :=
  (* context 1 allocates a block and frees it *)
  [PAlloc 1; PStep 1 false 0; PStep 1 false 0; PStep 1 false 0; PStep 1 false 0;
   PFree 1 0; PStep 1 false 0; PStep 1 false 0; PStep 1 false 0;
   (* context 2 finds it *)
   PAlloc 2; PStep 2 false 0;
   (* context 1 allocates it again and writes to it *)
   PAlloc 1; PStep 1 false 0; PStep 1 false 0; PStep 1 false 0; PUse 1 0 0 true None;
   (* context 2 reads it *)
   PStep 2 false 0].
Theorem C89_link_race_refuted : exists count l i j c d x y,
  dup (prun count l) = false /\
  nth_error (map fst (plog (prun count l))) i = Some (c, x) /\
  nth_error (map fst (plog (prun count l))) j = Some (d, y) /\
  c <> d /\ mclash x y /\ unordered (map fst (plog (prun count l))) i j.
Proof.
  exists 1, race_acts, 10, 11, 1, 2, (MCell (mem 0 0) true), (MCell (mem 0 0) false).
  split; [vm_compute; reflexivity|]. split; [vm_compute; reflexivity|]. split; [vm_compute; reflexivity|].
  split; [easy|]. split; [split; [reflexivity|now left]|]. apply unorderedb_unordered. vm_compute. reflexivity.
Qed.
Print Assumptions C89_link_race_refuted.

(** Apart from these reads, any two accesses to a block are ordered, in the order in which they
    are made: who gets a block sees all that its previous owners have done.  As long as no block
    is allocated that somebody has (C18).
    Missing: the reads of links by [allocate]. *)
Theorem C89_owners_ordered_partial : forall count l, dup (prun count l) = false ->
  forall i j c d x f g w v,
  nth_error (plog (prun count l)) i = Some (c, MCell (mem x f) w, false) ->
  nth_error (plog (prun count l)) j = Some (d, MCell (mem x g) v, false) ->
  i < j -> mhb (map fst (plog (prun count l))) i j.
Proof.
  intros count l D i j c d x f g w v A B L. apply (p_all _ (pinv_run count l D) x); [easy|now exists c, f, w|now exists d, g, v].
Qed.
Print Assumptions C89_owners_ordered_partial.

(** What is excluded are reads of the first word of a block. *)
Theorem C89_only_link_reads_partial : forall count l i c x,
  nth_error (plog (prun count l)) i = Some (c, x, true) -> exists y, x = MCell (mem y 0) false.
Proof.
  intros count l i c x H. apply nth_error_In in H. revert H. unfold prun.
  induction l as [|a l IH] using rev_ind; [easy|]. rewrite fold_left_app. cbn [fold_left].
  destruct (fold_left (pstep count) l psys0) as [h u lk q fs us ho k dp lg]. cbn [plog] in IH.
  assert (K : forall e, In (c, x, true) (lg ++ [e]) -> In (c, x, true) lg \/ e = (c, x, true)).
  { intros e. rewrite in_app_iff. simpl. tauto. }
  assert (N : forall e, snd e = false -> In (c, x, true) (lg ++ [e]) -> In (c, x, true) lg).
  { intros e He. rewrite in_app_iff. simpl. intros [H|[H|[]]]; [easy|]. rewrite H in He. discriminate. }
  destruct a as [e|e y|e spur back|e y f w g|e y|e y]; cbn [pstep].
  - destruct (q e); auto.
  - destruct (q e); auto. destruct (ho y); auto. destruct (_ =? _); auto.
  - destruct (q e) as [| |[y|]|y next| |b|y|y z|y z]; auto; cbn [plog].
    + intros H. apply IH. (apply N in H; [exact H|reflexivity]).
    + intros H. destruct (K _ H) as [H'|H']; [auto|]. injection H' as _ <-. exists y. reflexivity.
    + destruct (_ || _ || _); cbn [plog]; intros H; apply IH; (apply N in H; [exact H|reflexivity]).
    + intros H. apply IH. (apply N in H; [exact H|reflexivity]).
    + destruct (b =? count); [auto|]. destruct (_ || _ || _); cbn [plog]; intros H; apply IH; (apply N in H; [exact H|reflexivity]).
    + intros H. apply IH. (apply N in H; [exact H|reflexivity]).
    + intros H. apply IH. (apply N in H; [exact H|reflexivity]).
    + destruct (_ || _ || _); cbn [plog]; intros H; apply IH; (apply N in H; [exact H|reflexivity]).
  - destruct (q e); auto. destruct (ho y); auto. destruct (_ =? _); auto. cbn [plog]. intros H. apply IH. (apply N in H; [exact H|reflexivity]).
  - destruct (q e); auto. destruct (ho y); auto. destruct (_ =? _); auto. cbn [plog]. intros H. apply IH. (apply N in H; [exact H|reflexivity]).
  - destruct (q e); auto. destruct (ho y); auto. cbn [plog]. intros H. apply IH. (apply N in H; [exact H|reflexivity]).
Qed.
Print Assumptions C89_only_link_reads_partial.

(** If only one context allocates, there is no data race at all, and no block is given out
    twice.  The others may use blocks, free them and send them on.
    Missing: several allocating contexts; there is a race then ([C89_link_race_refuted]). *)
Definition only_allocator (c0 : nat) (l : list pact) : Prop := forall c, In (PAlloc c) l -> c = c0.
Theorem C89_one_allocator_partial : forall count c0 l, only_allocator c0 l ->
  dup (prun count l) = false /\
  forall i j c d x f g w v, i < j ->
  nth_error (map fst (plog (prun count l))) i = Some (c, MCell (mem x f) w) ->
  nth_error (map fst (plog (prun count l))) j = Some (d, MCell (mem x g) v) ->
  mhb (map fst (plog (prun count l))) i j.
Proof.
  intros count c0 l O. destruct (solo_run count c0 l) as (D & L & _ & F).
  { apply Forall_forall. intros [c|? ?|? ? ?|? ? ? ? ?|? ?|? ?] H; simpl; auto. }
  split; [exact D|]. intros i j c d x f g w v Lt A B.
  assert (K : forall i c f w, nth_error (map fst (plog (prun count l))) i = Some (c, MCell (mem x f) w) -> on_any (plog (prun count l)) x i).
  { intros i' c' f' w' H. rewrite nth_error_map in H. destruct (nth_error (plog (prun count l)) i') as [[y b]|] eqn:E; [|discriminate].
    injection H as ->. now exists c', f', w', b. }
  apply (f_all _ _ _ F x); [exact Lt|eapply K; eauto..].
Qed.
Print Assumptions C89_one_allocator_partial.
(** Context 1 allocates two blocks, context 2 frees one of them while context 1 allocates. *)
Definition ex_one : list pact :=
  [PAlloc 1; PStep 1 false 0; PStep 1 false 0; PStep 1 false 0; PStep 1 false 0; PUse 1 0 0 true (Some 7); PGive 1 0;
   PTake 2 0; PUse 2 0 0 true (Some 9); PFree 2 0; PStep 2 false 0; PStep 2 false 0; PAlloc 1; PStep 1 false 0; PStep 2 false 0;
   PStep 1 false 0; PStep 1 false 0; PStep 1 false 0;
   PAlloc 1; PStep 1 false 0; PStep 1 false 0; PStep 1 false 0; PUse 1 0 0 true None].
Example ex_one_runs : only_allocator 1 ex_one /\
  map fst (filter (fun e => match snd (fst e) with MCell _ _ => true | _ => false end) (plog (prun 3 ex_one))) =
  [(1, MCell (mem 0 0) true); (2, MCell (mem 0 0) true); (2, MCell (mem 0 0) true); (1, MCell (mem 0 0) false); (1, MCell (mem 0 0) true)].
Proof.
  split; [|vm_compute; reflexivity].
  intros c H. cbn in H. repeat (destruct H as [H|H]; [try discriminate H; injection H; congruence|]). destruct H.
Qed.

(** A block goes from context 1 through the pool to context 2, which sends it to context 3. *)
Definition ex_acts : list pact :=
  [PAlloc 1; PStep 1 false 0; PStep 1 false 0; PStep 1 false 0; PStep 1 false 0; PUse 1 0 3 true None;
   PFree 1 0; PStep 1 false 0; PStep 1 false 0; PStep 1 false 0;
   PAlloc 2; PStep 2 false 5; PStep 2 false 0; PStep 2 false 0; PStep 2 false 0;
   PAlloc 2; PStep 2 false 0; PStep 2 false 0; PStep 2 true 0; PStep 2 false 0; PStep 2 false 0;
   PGive 2 0; PTake 3 0; PUse 3 0 3 true None].
Example ex_log : plog (prun 2 ex_acts) =
  [(1, MRead free_ Acquire 0, false); (1, MRead uninit Relaxed 0, false); (1, MUpd uninit Relaxed 0, false);
   (1, MCell (mem 0 3) true, false); (1, MRead free_ Acquire 0, false); (1, MCell (mem 0 0) true, false);
   (1, MUpd free_ AcqRel 0, false);
   (* context 2 first reads the old value and takes a fresh block *)
   (2, MRead free_ Acquire 0, false); (2, MRead uninit Relaxed 1, false); (2, MUpd uninit Relaxed 1, false);
   (2, MRead free_ Acquire 1, false); (2, MCell (mem 0 0) false, true); (2, MRead free_ Acquire 1, false);
   (2, MCell (mem 0 0) false, true); (2, MUpd free_ AcqRel 1, false);
   (2, MStore (chan 0) Release 1, false); (3, MRead (chan 0) Acquire 1, false); (3, MCell (mem 0 3) true, false)].
Proof. vm_compute. reflexivity. Qed.
Example ex_ordered : dup (prun 2 ex_acts) = false /\ mhb (map fst (plog (prun 2 ex_acts))) 3 17.
Proof.
  split; [vm_compute; reflexivity|].
  apply (C89_owners_ordered_partial 2 ex_acts eq_refl 3 17 1 3 0 3 3 true true); [vm_compute; reflexivity..|lia].
Qed.
(** With a relaxed compare-exchange in [deallocate] they would not be. *)
Example relaxed_put_races : unordered
  [(1, MCell (mem 0 3) true); (1, MUpd free_ Relaxed 0); (2, MRead free_ Acquire 1); (2, MUpd free_ AcqRel 1);
   (2, MCell (mem 0 3) true)] 0 4.
Proof. apply unorderedb_unordered. vm_compute. reflexivity. Qed.
