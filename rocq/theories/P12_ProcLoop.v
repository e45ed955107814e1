(** Properties of the command loop (C56, C73). *)
Require Import List Bool Lia NArith.
From Verif Require Import ProcLoopSpec ProcLoop.
Import ListNotations.

Section Proofs.
Context {Cmd CmdRes Req ReqRes Err : Type}.
Notation pev := (pev Cmd CmdRes Req ReqRes Err).
Notation pact := (pact Cmd CmdRes Req ReqRes Err).
Notation pst := (pst Cmd CmdRes Req ReqRes Err).
Notation sess := (sess Cmd CmdRes Req ReqRes Err).

Lemma sessions_app (l e : list pev) : sessions (l ++ e) =
  fold_left (fun acc e =>
    match e, acc with
    | ECmd c, _ => fresh (Some c) :: acc
    | _, b :: r => add b e :: r
    | _, [] => []
    end) e (sessions l).
Proof. unfold sessions. now rewrite fold_left_app. Qed.
Lemma wants_app (l e : list pev) : wants_res (l ++ e) =
  fold_left (fun b e => match e with EOut (OReq _) => true | EOut (ORes _) => false | _ => b end) e (wants_res l).
Proof. unfold wants_res. now rewrite fold_left_app. Qed.

(** The latest command, as the position of the future tells. *)
Definition cur (p : ppos (Cmd:=Cmd) (ReqRes:=ReqRes)) (b : sess) : Prop :=
  match p with
  | PNone => good b
  | PStart i => exists c, i = ICmd c /\ b = fresh (Some c)
  | PFib => exists c rs, s_cmd b = Some c /\ s_ret b = None /\ s_drop b = false /\
      s_in b = ICmd c :: map IRes rs /\ s_out b = map OReq (s_ask b) /\
      s_ans b = map inl rs /\ length (s_ask b) = length rs
  | PReq | PWait => exists c rs, s_cmd b = Some c /\ s_ret b = None /\ s_drop b = false /\
      s_in b = ICmd c :: map IRes rs /\ s_out b = map OReq (s_ask b) /\
      s_ans b = map inl rs /\ length (s_ask b) = S (length rs)
  end.

Lemma cur_good p b : cur p b -> good b.
Proof.
  destruct p; cbn; auto; unfold good.
  - intros (c & -> & ->). cbn. left. auto.
  - intros (c & rs & -> & -> & _ & ?). unfold unfinished. right. exists rs. tauto.
  - intros (c & rs & -> & -> & _ & ?). unfold unfinished. right. exists rs. tauto.
  - intros (c & rs & -> & -> & _ & ?). unfold unfinished. right. exists rs. tauto.
Qed.

Definition Inv (s : pst) : Prop :=
  exists b r, sessions (plog s) = b :: r /\ cur (pp s) b /\ Forall good r.

Lemma inv_step s a : Inv s -> Inv (ploopstep s a).
Proof.
  intros (b & r & E & C & F). unfold Inv, ploopstep.
  destruct (pp s) eqn:P; destruct a as [c| |o|[[x|e]|]|]; try (exists b, r; rewrite P; now auto);
    try destruct o as [q|x]; cbn [pgo pp plog]; rewrite sessions_app, E; cbn [fold_left app];
    eexists; eexists; (split; [reflexivity|]); split; auto.
  all: try (now constructor).
  - cbn. eexists; split; reflexivity.
  - destruct C as (c & -> & ->). exists c, []. cbn. repeat split.
  - destruct C as (c & -> & ->). cbn. left. auto.
  - destruct C as (c & rs & C1 & C2 & C3 & C4 & C5 & C6 & C7). destruct b. cbn in *. subst.
    exists c, rs. cbn. rewrite map_app, app_length. cbn. repeat split; auto. lia.
  - destruct C as (c & rs & C1 & C2 & C3 & C4 & C5 & C6 & C7). destruct b. cbn in *. subst.
    unfold good. cbn. exists rs. auto.
  - destruct C as (c & rs & C1 & C2 & C3 & C4 & C5 & C6 & C7). destruct b. cbn in *. subst.
    exists c, (rs ++ [x]). cbn. rewrite !map_app, app_length. cbn. repeat split; auto. lia.
  - destruct C as (c & rs & C1 & C2 & C3 & C4 & C5 & C6 & C7). destruct b. cbn in *. subst.
    unfold good. cbn. exists rs. auto.
  - destruct C as (c & rs & C1 & C2 & C3 & C4 & C5 & C6 & C7). destruct b. cbn in *. subst.
    unfold good. cbn. right. exists rs. auto.
Qed.

Lemma snoc_ind_run (P : pst -> Prop) : P (Pst PNone []) -> (forall s a, P s -> P (ploopstep s a)) ->
  forall l, P (plooprun l).
Proof.
  intros H0 HS l. unfold plooprun. revert H0. generalize (Pst (PNone (Cmd:=Cmd) (ReqRes:=ReqRes)) ([] : list pev)).
  induction l; cbn; auto.
Qed.
Lemma inv_run l : Inv (plooprun l).
Proof.
  apply snoc_ind_run; [|auto using inv_step].
  exists (fresh None), []. cbn. repeat split; auto.
Qed.

(** For all fibers, request handlers and users, at any moment: each command that
    returned a result resumed the fiber with the command and then with the result of
    each request the fiber had yielded, handled once each in order, and returned what
    the fiber yielded next; each command that returned an error did the same up to the
    request that failed, and did not resume the fiber after that; and a command in
    progress, or dropped by its user, has done a part of that. *)
Theorem C56_protocol : forall l : list pact, Forall good (sessions (plog (plooprun l))).
Proof.
  intros l. destruct (inv_run l) as (b & r & -> & C & F). constructor; eauto using cur_good.
Qed.

(** The fiber is in the state the next input fits. *)
Definition fits (s : pst) : Prop :=
  match pp s with
  | PReq | PWait => wants_res (plog s) = true
  | PStart _ => wants_res (plog s) = false
  | PNone => match sessions (plog s) with
             | b :: _ => match s_ret b with Some (inl _) => wants_res (plog s) = false
                         | _ => s_in b = [] -> wants_res (plog s) = false end
             | [] => True end
  | PFib => True
  end.
Lemma match_app (l e : list pev) : inputs_match l ->
  (forall a i b, e = a ++ EIn i :: b -> is_res i = wants_res (l ++ a)) -> inputs_match (l ++ e).
Proof.
  intros H1 H2 a i b E.
  assert (D : (exists b', l = a ++ EIn i :: b') \/ exists a', a = l ++ a' /\ e = a' ++ EIn i :: b).
  { revert a E. clear H1 H2. induction l as [|x l IH]; intros a E; cbn in *.
    - right. exists a. auto.
    - destruct a as [|y a]; cbn in E; injection E as -> E.
      + left. exists l. reflexivity.
      + destruct (IH _ E) as [[b' ->]|(a' & -> & ->)]; [left; exists b'; reflexivity|right; exists a'; auto]. }
  destruct D as [[b' ->]|(a' & -> & ->)]; [eapply H1; reflexivity|eapply H2; reflexivity].
Qed.

Definition Inv2 (s : pst) : Prop := all_succeeded (plog s) -> inputs_match (plog s) /\ fits s.
Lemma inv2_step s a : Inv s -> Inv2 s -> Inv2 (ploopstep s a).
Proof.
  intros (b & r & E & C & F) H. unfold Inv2, ploopstep.
  destruct (pp s) eqn:P; destruct a as [c| |o|[[x|e]|]|]; try exact H;
    try destruct o as [q|x]; cbn [pgo pp plog]; unfold all_succeeded; rewrite sessions_app, E; cbn [fold_left app tl];
    intros A; unfold Inv2, all_succeeded in H; rewrite E in H; cbn [tl] in H; 
    (destruct H as [H1 H2]; [auto; try (inversion A; subst; assumption)|]); unfold fits in H2; rewrite P in H2; try rewrite E in H2;
    (split; [apply match_app; [assumption|]|unfold fits; cbn [pp plog pgo]; rewrite ?sessions_app, ?E, ?wants_app; cbn]); auto.
  all: try (intros a' i' b' E'; repeat (destruct a' as [|? a']; cbn in E'; try discriminate; injection E' as ? E'; subst; try discriminate); fail).
  - inversion A; subst. destruct (s_ret b) as [[]|]; auto.
  - intros a' i' b' E'. destruct a' as [|? [|]]; cbn in E'; try discriminate. injection E' as <- <-. rewrite app_nil_r.
    destruct C as (c & -> & ->). rewrite H2. reflexivity.
  - destruct C as (c & -> & ->). cbn. auto.
  - destruct b. reflexivity.
  - intros a' i' b' E'. destruct a' as [|? [|? [|]]]; cbn in E'; try discriminate. injection E' as <- <- <-.
    rewrite wants_app. cbn. rewrite H2. reflexivity.
  - destruct C as (c & rs & C1 & C2 & C3 & C4 & ?). destruct b. cbn in *. subst. discriminate.
  - destruct C as (c & rs & C1 & C2 & C3 & C4 & ?). destruct b. cbn in *. subst. discriminate.
Qed.

(** The full statement has no hypothesis.  It is proved for the executions in which every command but the
    latest returned a result (or was dropped before its first poll): the fiber is resumed with a command
    exactly when it reads a command, and with a request result exactly when it reads
    one. *)
Theorem C73_union_partial : forall l : list pact,
  all_succeeded (plog (plooprun l)) -> inputs_match (plog (plooprun l)).
Proof.
  intros l. assert (H : Inv (plooprun l) /\ Inv2 (plooprun l)); [|apply H].
  apply snoc_ind_run.
  - split; [exists (fresh None), []; cbn; repeat split; auto|].
    intros _. split; [intros [|] ? ? E; discriminate|]. cbn. auto.
  - intros s a [? ?]. split; auto using inv_step, inv2_step.
Qed.
End Proofs.
Print Assumptions C56_protocol.
Print Assumptions C73_union_partial.

Notation pactN := (pact N N N N N).
(** Two requests and a result; then a command that is polled while its request is pending
    and then fails. *)
Definition ok_run : list pactN :=
  [ACmd 7; APoll; AFib (OReq 1); AReq (Some (inl 11)); AFib (OReq 2); AReq None; APoll;
   AReq (Some (inl 12)); AFib (ORes 70)]%N.
Definition err_run : list pactN :=
  (ok_run ++ [ACmd 8; APoll; AFib (OReq 3); AReq None; APoll; AReq (Some (inr 99))])%N.
Example C56_case :
  sessions (plog (plooprun err_run)) =
    [Sess (Some 8) [ICmd 8] [OReq 3] [3] [inr 99] (Some (inr 99)) false;
     Sess (Some 7) [ICmd 7; IRes 11; IRes 12] [OReq 1; OReq 2; ORes 70] [1; 2] [inl 11; inl 12] (Some (inl 70)) false;
     fresh None]%N.
Proof. vm_compute. reflexivity. Qed.

(** After a command that failed, the fiber still waits for the result of its request;
    the next command resumes it with a command, which it reads as a request result.  The
    same happens when the future of a command is dropped while a request is pending. *)
Theorem C73_union_refuted : exists l : list pactN, ~ inputs_match (plog (plooprun l)).
Proof.
  exists (err_run ++ [ACmd 9; APoll])%N. intros H.
  specialize (H (plog (plooprun (err_run ++ [ACmd 9%N]))) (ICmd 9%N) [] eq_refl). vm_compute in H. discriminate.
Qed.
Print Assumptions C73_union_refuted.
Theorem C73_union_drop_refuted : exists l : list pactN,
  Forall (fun b => s_ret b <> None -> exists x, s_ret b = Some (inl x)) (sessions (plog (plooprun l))) /\
  ~ inputs_match (plog (plooprun l)).
Proof.
  exists ([ACmd 7; APoll; AFib (OReq 1); AReq None; ADrop; ACmd 9; APoll])%N. split.
  - vm_compute. repeat constructor; intros H; now destruct H.
  - intros H. specialize (H [ECmd 7; EIn (ICmd 7); EOut (OReq 1); EAsk 1; EDrop; ECmd 9]%N (ICmd 9%N) [] eq_refl).
    vm_compute in H. discriminate.
Qed.
Print Assumptions C73_union_drop_refuted.
Example C73_case : all_succeeded (plog (plooprun err_run)) /\
  existsb (fun e => match e with EIn (IRes _) => true | _ => false end) (plog (plooprun err_run)) = true.
Proof. split; [|reflexivity]. vm_compute. repeat constructor. Qed.

(** A command whose future is dropped before it is polled leaves no trace in the fiber. *)
Example C56_case_drop :
  plog (plooprun ([ACmd 7; ADrop; ACmd 8; APoll; AFib (ORes 1)] : list pactN))%N =
    [ECmd 7; EDrop; ECmd 8; EIn (ICmd 8); EOut (ORes 1); ERet (inl 1)]%N.
Proof. vm_compute. reflexivity. Qed.
