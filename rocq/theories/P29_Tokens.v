(** Properties of tokens: simple tokens, statics, threads (C98, C99, C100). *)
Require Import NArith Arith List Bool Lia.
From Verif Require Import TokSpec Tok TokProofs.
Import ListNotations.
Open Scope N_scope.

(** Types are declared before the types of which they are fields. *)
Definition declared (D : N -> tdef) : Prop := forall t f, In f (fields (D t)) -> f < t.
(** The program begins: context [c] takes tokens. *)
Definition taken (D : N -> tdef) (c : N) (roots : list N) : state :=
  map (fun t => (c, take (S (N.to_nat t)) D t)) roots.

Lemma take_kind n D t : kind (take n D t) = Some t.
Proof. now destruct n. Qed.
Lemma take_wf D : declared D -> forall n t, (N.to_nat t < n)%nat -> wf D (take n D t).
Proof.
  intros Dc. induction n as [|n IH]; intros t L; [lia|]. cbn. constructor.
  - rewrite map_map. apply map_ext. intros f. apply take_kind.
  - apply Forall_forall. intros v Hv. apply in_map_iff in Hv. destruct Hv as (f & <- & Hf).
    apply IH. specialize (Dc _ _ Hf). lia.
Qed.
Lemma taken_wf D c roots : declared D -> Forall (fun x => wf D (snd x)) (taken D c roots).
Proof.
  intros Dc. apply Forall_forall. intros x Hx. apply in_map_iff in Hx. destruct Hx as (t & <- & _).
  apply take_wf; auto. 
Qed.

(** ** C98 A token exists at most once *)

(** Of simple tokens, static tokens and their groups, if the program has taken at most one. *)
Theorem C98_at_most_once_partial : forall D send c roots l t,
  (forall t, made (D t)) -> declared D ->
  (exist t (taken D c roots) <= 1)%nat ->
  D t <> thr_token -> (forall fs, D t <> thr_index fs) ->
  (exist t (fst (trun D send (taken D c roots) l)) <= 1)%nat.
Proof.
  intros D send c roots l t M Dc H N1 N2.
  assert (G : guarded D t).
  { unfold guarded. destruct (M t) as [| | | | |fs]; cbn; auto; exfalso; [now apply N1|now apply (N2 fs)]. }
  pose proof (exist_run D send M t l _ G (taken_wf D c roots Dc)). lia.
Qed.
Print Assumptions C98_at_most_once_partial.

(** A pool of one thread: type 0 the token of the thread, type 1 the index. *)
Definition pool1 (t : N) : tdef := if t =? 0 then thr_token else if t =? 1 then thr_index [0] else simple_token.
Lemma pool1_ok : (forall t, made (pool1 t)) /\ declared pool1.
Proof.
  split.
  - intros t. unfold pool1. destruct (t =? 0); [constructor|]. destruct (t =? 1); constructor.
  - intros t f. unfold pool1. destruct (N.eqb_spec t 0); [intros []|]. destruct (N.eqb_spec t 1); [|intros []].
    intros [<-|[]]. lia.
Qed.

(** Thread tokens can be copied, and an index made from them. *)
Theorem C98_at_most_once_refuted : exists D send c roots l t,
  (forall t, made (D t)) /\ declared D /\ (exist t (taken D c roots) <= 1)%nat /\
  exist t (fst (trun D send (taken D c roots) l)) = 2%nat /\ copy (D t) = false.
Proof.
  exists pool1, (fun _ => true), 0, [1], [ASplit; ACopy; ABuild 0 1; AFront 1; ABuild 0 1], 1.
  split; [apply pool1_ok|]. split; [apply pool1_ok|]. vm_compute. auto.
Qed.
Print Assumptions C98_at_most_once_refuted.

(** In the module of thr::pool! they can be made without taking any. *)
Theorem C98_untaken_refuted : exists D send c l t,
  (forall t, made (D t)) /\ declared D /\
  exist t (fst (trun D send (taken D c []) l)) = 1%nat /\ copy (D t) = false.
Proof.
  exists pool1, (fun _ => true), 0, [ABuild 0 0; ABuild 0 1], 1.
  split; [apply pool1_ok|]. split; [apply pool1_ok|]. vm_compute. auto.
Qed.
Print Assumptions C98_untaken_refuted.

(** ** C99 A static is accessed by one context at a time *)

(** If every static can be reached once among the tokens taken. *)
Theorem C99_exclusive : forall D send c roots l,
  (forall t, made (D t)) -> declared D ->
  NoDup (flat_map (fun t => reach D (take (S (N.to_nat t)) D t)) roots) ->
  exclusive (fun _ => c) (snd (trun D send (taken D c roots) l)).
Proof.
  intros D send c roots l M Dc U.
  assert (V : sinv D (fun _ => c) (taken D c roots) []).
  { constructor.
    - now apply taken_wf.
    - unfold reaches, taken. rewrite flat_map_concat_map, map_map, <- flat_map_concat_map. exact U.
    - intros d v i Hv _. apply in_map_iff in Hv. destruct Hv as (t & E & _). now injection E.
    - intros l1 e l2 E. now destruct l1. }
  exact (si_excl _ _ _ _ (sinv_run D send M _ l _ _ V)).
Qed.
Print Assumptions C99_exclusive.

(** ** C100 A static that is not Send stays in its context *)

(** If its token is not handed over; a reference cannot be. *)
Theorem C100_stays_partial : forall D send c roots l,
  (forall t, made (D t)) -> declared D ->
  NoDup (flat_map (fun t => reach D (take (S (N.to_nat t)) D t)) roots) ->
  (forall a b is i, In (EvSend a b is) (snd (trun D send (taken D c roots) l)) -> In i is -> send i = true) ->
  stays send (snd (trun D send (taken D c roots) l)).
Proof.
  intros D send c roots l M Dc U H.
  pose proof (C99_exclusive D send c roots l M Dc U) as X.
  assert (K : forall i d, send i = false -> In (EvGet d i) (snd (trun D send (taken D c roots) l)) -> d = c).
  { intros i d Hi Hd. apply in_split in Hd. destruct Hd as (l1 & l2 & E). pose proof (X _ _ _ E) as Y. cbn in Y.
    rewrite E in H. assert (H1 : forall a b is, In (EvSend a b is) l1 -> In i is -> send i = true).
    { intros a b is Ha. apply (H a b is i). apply in_or_app. now left. }
    rewrite <- Y. clear -H1 Hi. revert H1. induction l1 as [|[x j|a b is] l1 IH]; intros H1; cbn; auto.
    - apply IH. intros a b is Ha. apply (H1 a b is). now right.
    - destruct (existsb (N.eqb i) is) eqn:E.
      + apply existsb_in in E. rewrite (H1 a b is) in Hi; [discriminate|now left|exact E].
      + apply IH. intros a' b' is' Ha. apply (H1 a' b' is'). now right. }
  intros i a b Hi Ha Hb. rewrite (K i a Hi Ha), (K i b Hi Hb). reflexivity.
Qed.
Print Assumptions C100_stays_partial.

(** Two statics with their tokens (types 0 and 1) and the group of both (type 2). *)
Definition two (t : N) : tdef :=
  if t =? 0 then static_token 10 else if t =? 1 then static_token 11 else if t =? 2 then static_tokens [0; 1] else simple_token.
Lemma two_ok : (forall t, made (two t)) /\ declared two.
Proof.
  split.
  - intros t. unfold two. destruct (t =? 0); [constructor|]. destruct (t =? 1); [constructor|]. destruct (t =? 2); constructor.
  - intros t f. unfold two. destruct (N.eqb_spec t 0); [intros []|]. destruct (N.eqb_spec t 1); [intros []|].
    destruct (N.eqb_spec t 2); [|intros []]. intros [<-|[<-|[]]]; lia.
Qed.

(** Tokens are [Send] whatever the type of their static: an Rc in a static is used from two contexts. *)
Theorem C100_stays_refuted : exists D send c roots l,
  (forall t, made (D t)) /\ declared D /\
  NoDup (flat_map (fun t => reach D (take (S (N.to_nat t)) D t)) roots) /\
  ~ stays send (snd (trun D send (taken D c roots) l)).
Proof.
  exists two, (fun _ => false), 0, [2], [ASplit; AGet; ASend 1; AGet].
  split; [apply two_ok|]. split; [apply two_ok|]. split.
  - vm_compute. repeat constructor; cbn; intuition discriminate.
  - intros S. assert (0 = 1); [|discriminate]. apply (S 10 0 1); vm_compute; auto.
Qed.
Print Assumptions C100_stays_refuted.

(** * Cases *)

Example C98_case :
  exist 1 (taken two 0 [2]) = 1%nat /\
  let s := fst (trun two (fun _ => true) (taken two 0 [2]) [ASplit; AFront 1; ACopy; ABuild 0 2; ABuild 0 1]) in
  exist 1 s = 1%nat /\ exist 2 s = 0%nat.
Proof. vm_compute. auto. Qed.

Example C99_case :
  NoDup (flat_map (fun t => reach two (take (S (N.to_nat t)) two t)) [2]) /\
  snd (trun two (fun _ => true) (taken two 0 [2]) [AGet; ASend 3; ASplit; AGet; AFront 1; AInto; AUse; ASend 4; AUse])
    = [EvSend 0 3 [10; 11]; EvGet 3 10; EvGet 3 11; EvSend 3 4 [11]; EvGet 4 11].
Proof. split; [vm_compute; repeat constructor; cbn; intuition discriminate|reflexivity]. Qed.

(** The reference of a static that is not [Send] is not handed over. *)
Example C100_case :
  snd (trun two (fun i => i =? 11) (taken two 0 [2]) [ASplit; AInto; AUse; ASend 1; AUse; AFront 1; ASend 1; AGet])
    = [EvGet 0 10; EvGet 0 10; EvSend 0 1 [11]; EvGet 1 11].
Proof. reflexivity. Qed.
