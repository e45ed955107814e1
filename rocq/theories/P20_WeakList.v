(** A list shared between cores: data races of pushing and draining (C85), memory safety and
    conservation of the nodes (C86). *)
Require Import NArith List Bool Arith Lia.
From Verif Require Import Spsc WeakSpec RaceSpec Weak RaceProofs WeakList WeakListProofs WeakListSafe.
Import ListNotations.
Open Scope nat_scope.

(** The accesses of an execution. *)
Definition lacc (l : list lact) : mexec := map fst (llog (lrun l)).

(** Context 1 pushes a node; context 0 drains it; before it is cut out, context 1 pushes
    another one in front of it. *)
Definition l_push (c : nat) : list lact := LPush c :: repeat (LStep c false 0) 4.
Definition l_front : list lact :=
  l_push 1 ++ [LDrain 0; LGo true false 0; LGo true false 0] ++ l_push 1 ++ repeat (LGo true false 0) 4.

(** C85, refuted: context 0 reads the pointer of the new node, that context 1 has written,
    without being ordered after it. *)
Theorem C85_drain_race_refuted : exists l i j,
  nth_error (lacc l) i = Some (1, MCell (next_of 1) true) /\ nth_error (lacc l) j = Some (0, MCell (next_of 1) false) /\
  unordered (lacc l) i j.
Proof.
  exists l_front, 9, 12. split; [vm_compute; reflexivity|]. split; [vm_compute; reflexivity|].
  apply unorderedb_unordered. vm_compute. reflexivity.
Qed.

Lemma lacc_nth l i c x : nth_error (lacc l) i = Some (c, x) <-> exists t, nth_error (llog (lrun l)) i = Some (c, x, t).
Proof.
  unfold lacc. rewrite nth_error_map. destruct (nth_error (llog (lrun l)) i) as [[[d y] t]|]; cbn; split; intros H.
  - injection H as -> ->. eauto.
  - destruct H as (t' & [= -> -> ->]). reflexivity.
  - discriminate.
  - destruct H as (t' & H). discriminate.
Qed.

(** What an execution may not do.  [walked i]: access [i] is one of [cut_out] to a node that
    it has found by walking from the head. *)
Definition walked (l : list lact) (i : nat) : Prop := exists e, nth_error (llog (lrun l)) i = Some (e, true).
Definition push_next (x : nat) (e : nat * maccess) : Prop := fst e <> 0 /\ snd e = MCell (next_of x) true.
Definition walk_next (x : nat) (e : nat * maccess) : Prop := fst e = 0 /\ exists w, snd e = MCell (next_of x) w.

(** C85, the rest: any race is between another context's push, setting the pointer of the
    pushed node, and [cut_out] accessing that pointer while it looks for the predecessor of
    the removed node, or setting the pointer of such a predecessor. *)
Theorem C85_only_walk_partial l i j e f :
  nth_error (lacc l) i = Some e -> nth_error (lacc l) j = Some f -> mclash (snd e) (snd f) -> unordered (lacc l) i j ->
  exists x, push_next x e /\ walk_next x f /\ walked l j \/ push_next x f /\ walk_next x e /\ walked l i.
Proof.
  destruct e as [c x], f as [d y]. cbn [snd]. intros Ei Ej C (N & H1 & H2).
  destruct (inv_run l) as (up & own & I).
  apply lacc_nth in Ei as Gi. destruct Gi as (t & Gi). apply lacc_nth in Ej as Gj. destruct Gj as (t' & Gj).
  pose proof (i_entry _ _ _ I _ _ Gi) as Hi. pose proof (i_entry _ _ _ I _ _ Gj) as Hj.
  assert (Ncd : c <> d).
  { intros ->. destruct (Nat.lt_gt_cases i j) as (K & _). destruct (K N) as [L|L]; [apply H1|apply H2]; eapply mhb_po; eauto. }
  (* a push happens before what is done to the node after it has been acquired *)
  assert (O : forall i j c x t y z, c = own z -> match up z with Some (q, _) => i < q | None => True end ->
    nth_error (llog (lrun l)) i = Some (c, x, t) -> nth_error (lacc l) j = Some (0, y) -> acquired up (llog (lrun l)) z j -> mhb (lacc l) i j).
  { clear - I. intros i j c x t y z -> Q Gi Ej (r & m & q & u & L & R & U & M & W). rewrite U in Q.
    destruct (i_up _ _ _ I _ _ _ U) as (_ & B & P).
    apply (mhb_trans _ i q); [apply (mhb_po _ i q (own z) x (MUpd head Release u)); [auto|apply lacc_nth; eauto|apply lacc_nth; eauto]|].
    apply (mhb_trans _ q r); [|apply (mhb_po _ r j 0 (MRead head Acquire m) y); [auto|apply lacc_nth; eauto|auto]].
    apply mhb_sw. exists (own z), (MUpd head Release u), 0, (MRead head Acquire m), head, Release, (S u), Acquire, m.
    repeat (split; [first [apply lacc_nth; eauto|left; eauto|lia|reflexivity]|]).
    intros k K. destruct (W (k - 1)) as (q' & e & o & E); [lia|]. exists q', e, o. apply lacc_nth. eauto. }
  assert (F : forall l x, l = next_of x \/ l = value_of x -> fst l = S x) by (intros l' x' [-> | ->]; reflexivity).
  (* freeing *)
  assert (R : forall i j b c x t, nth_error (llog (lrun l)) i = Some (c, x, t) -> entry up own (llog (lrun l)) (nodes (lrun l)) i (c, x, t) ->
    nth_error (lacc l) j = Some (0, MFree b) -> entry up own (llog (lrun l)) (nodes (lrun l)) j (0, MFree b, false) -> b = block x -> c <> 0 -> mhb (lacc l) i j).
  { clear - O F. intros i j b c x t Gi Hi Ej (z & -> & _ & _ & _ & A) B N. destruct x as [a o n|a o n|a o n|a w|b]; cbn in Hi, B; try congruence; try contradiction.
    - destruct Hi as (z' & _ & E & H). apply F in E. assert (z' = z) as -> by congruence.
      destruct H as [(-> & -> & _ & Q)|[(-> & _)|(-> & _)]]; try congruence. eapply O; eauto.
    - destruct Hi as (z' & _ & _ & -> & _). congruence. }
  destruct x as [a o n|a o n|a o n|a w|b].
  5: { destruct Hi as (z & -> & K & -> & -> & A). exfalso. apply H2. apply (R j i (S z) d y t'); auto.
       exists z. auto. }
  all: destruct y as [a' o' n'|a' o' n'|a' o' n'|a' w'|b']; cbn [mclash] in C; try contradiction.
  3: destruct C as (<- & C).
  all: try (exfalso; pose proof Hj as (z & _ & _ & -> & -> & _); apply H1; eapply R; eauto; fail).
  destruct Hi as (z & _ & Ez & Hi), Hj as (z' & _ & Ez' & Hj). assert (z' = z) as -> by (apply F in Ez, Ez'; congruence). exists z.
  destruct Hi as [(Oi & -> & -> & Qi)|[(-> & -> & ->)|(-> & -> & Ai)]], Hj as [(Oj & -> & -> & Qj)|[(-> & -> & Lj)|(-> & -> & Aj)]]; try congruence.
  - left. subst a. repeat split; auto; [cbn; eauto|]. eexists. eauto.
  - exfalso. apply H1. eapply O; eauto.
  - right. repeat split; auto; [cbn; eauto|]. eexists. eauto.
  - exfalso. apply H2. eapply O; eauto.
Qed.
Print Assumptions C85_drain_race_refuted.
Print Assumptions C85_only_walk_partial.

(** An execution in which [cut_out] does not walk: of two nodes pushed by context 1 the older one
    is removed through the node in front of it, which the filter keeps. *)
Definition l_clean : list lact :=
  l_push 1 ++ l_push 1 ++ [LDrain 0; LGo true false 0; LGo false false 0] ++ repeat (LGo true false 0) 4 ++ l_push 2.
Example C85_clean : forall i, ~ walked l_clean i.
Proof.
  assert (H : forallb (fun e => negb (snd e)) (llog (lrun l_clean)) = true) by (vm_compute; reflexivity).
  intros i (e & N). apply nth_error_In in N. rewrite forallb_forall in H. apply H in N. discriminate.
Qed.
Example C85_clean_trace : skipn 8 (lacc l_clean) =
  [(0, MRead head Acquire 2); (0, MCell (next_of 1) false); (0, MCell (value_of 1) true);
   (0, MCell (next_of 0) false); (0, MCell (value_of 0) true); (0, MCell (next_of 1) true); (0, MFree 1);
   (2, MCell (value_of 2) true); (2, MRead head Relaxed 2); (2, MCell (next_of 2) true); (2, MUpd head Release 2)].
Proof. vm_compute. reflexivity. Qed.

(** C86, memory safety: nothing in a freed node is accessed or freed again, and the drain
    never follows a null pointer. *)
Theorem C86_safe l :
  (forall i j c d b y, i < j -> nth_error (lacc l) i = Some (c, MFree b) -> nth_error (lacc l) j = Some (d, y) -> block y <> b) /\
  (forall curr next, drain (lrun l) <> DWalk None curr next).
Proof.
  destruct (safe_run l) as (L & S). split.
  - intros i j c d b y L' Ei Ej B. apply lacc_nth in Ei as (t & Ei). apply lacc_nth in Ej as (t' & Ej).
    apply (s_log _ _ S i j). exists (c, MFree b, t), (d, y, t'), b. auto.
  - intros curr next E. pose proof (s_pos _ _ S) as P. rewrite E in P. destruct P as (A1 & q & A2 & B & F & _). discriminate.
Qed.

(** The nodes in the list. *)
Inductive reach (nx : nat -> option nat) : option nat -> nat -> Prop :=
| reach_here x : reach nx (Some x) x
| reach_next y x : reach nx (nx y) x -> reach nx (Some y) x.
Definition in_list (s : lsys) (x : nat) : Prop := reach (nexts s) (lvalue s (length (hist s) - 1)) x.
(** How often a node is freed. *)
Definition frees (x : nat) (l : mexec) : nat := length (filter (fun e => match snd e with MFree b => b =? S x | _ => false end) l).
(** Its push has returned. *)
Definition pushed (s : lsys) (x : nat) : Prop := x < nodes s /\ forall c, pnode (push s c) <> Some x.

Lemma reach_linked nx L : linked nx L -> forall x, reach nx (hd_error L) x <-> In x L.
Proof.
  intros K x. split.
  - intros R. remember (hd_error L) as v eqn:E. revert L K E. induction R as [x|y x R IH]; intros [|z L] K E; try discriminate; injection E as ->.
    + now left.
    + right. destruct K as (N & K). apply IH; auto.
  - induction L as [|y L IH]; [contradiction|]. destruct K as (N & K). intros [->|I]; [constructor|]. cbn. apply reach_next. rewrite N. auto.
Qed.
Lemma frees_count x l : frees x (lacc l) = count_occ Nat.eq_dec (freed (llog (lrun l))) x.
Proof.
  unfold lacc. induction (llog (lrun l)) as [|[[c y] t] lg IH]; auto. unfold frees in *. cbn [map filter fst snd freed flat_map].
  destruct y as [| | | |[|b]]; cbn [app Nat.eqb]; auto.
  destruct (Nat.eqb_spec b x) as [->|N]; cbn [length count_occ app]; destruct (Nat.eq_dec _ _); try congruence; now rewrite IH.
Qed.

(** C86, nothing is lost or duplicated: while no drain is under way, a node whose push has
    returned either is in the list and was not freed, or is not and was freed, once. *)
Theorem C86_conserved l x : drain (lrun l) = DIdle -> pushed (lrun l) x ->
  in_list (lrun l) x /\ frees x (lacc l) = 0 \/ ~ in_list (lrun l) x /\ frees x (lacc l) = 1.
Proof.
  destruct (safe_run l) as (L & S), (inv_run l) as (up & own & V). intros D (K & P).
  pose proof (s_nodup _ _ S) as N. destruct (s_all _ _ S x K) as [I|(c & I)]; [|now apply P in I].
  rewrite D in I, N. cbn [held app] in I, N. rewrite frees_count.
  assert (R : in_list (lrun l) x <-> In x L).
  { unfold in_list, lvalue. rewrite Nat.sub_diag, (s_hist _ _ S 0) by lia. apply (reach_linked (nexts (lrun l)) L). apply linked_spec, S. }
  rewrite R. apply in_app_or in I as [I|I].
  - right. split; [intros J; exact (nodup_disj _ _ N x I J)|]. pose proof (proj1 (NoDup_count_occ Nat.eq_dec _) N x) as C.
    rewrite count_occ_app in C. apply (count_occ_In Nat.eq_dec) in I. lia.
  - left. split; auto. apply (count_occ_not_In Nat.eq_dec). intros J. exact (nodup_disj _ _ N x J I).
Qed.
Print Assumptions C86_safe.
Print Assumptions C86_conserved.

Example C86_ex : drain (lrun l_clean) = DIdle /\ pushed (lrun l_clean) 0 /\ pushed (lrun l_clean) 1 /\ pushed (lrun l_clean) 2 /\
  frees 0 (lacc l_clean) = 1 /\ frees 1 (lacc l_clean) = 0 /\ in_list (lrun l_clean) 1 /\ in_list (lrun l_clean) 2.
Proof.
  assert (P : forall x, x < 3 -> pushed (lrun l_clean) x).
  { intros x L. split; [exact L|]. intros c. vm_compute. destruct c as [|[|[|c]]]; discriminate. }
  repeat split; try (apply P; lia); try (vm_compute; reflexivity).
  - apply reach_next. vm_compute. constructor.
  - vm_compute. constructor.
Qed.
(** In the refuted execution of C85 the walk takes place. *)
Example C86_walk : walked l_front 12 /\ frees 0 (lacc (l_front ++ repeat (LGo true false 0) 2)) = 1.
Proof. split; [eexists|]; vm_compute; reflexivity. Qed.
