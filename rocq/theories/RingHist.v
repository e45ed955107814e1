(** Consequences of the atomic queue ([qstep]) for whole histories. *)
Require Import NArith List Bool Lia.
Require Import Verif.Spsc Verif.SpscWp Verif.Ring Verif.RingSpec.
Import ListNotations.
Open Scope N_scope.

#[local] Arguments N.eqb : simpl never.
#[local] Arguments N.ltb : simpl never.
#[local] Arguments N.leb : simpl never.
#[local] Arguments N.add : simpl never.
#[local] Arguments len : simpl never.
#[local] Arguments look : simpl never.

(** ** Well-formed histories. *)
Inductive hs := HIdle | HRun (o : rop) | HGone.
Definition ev_side (e : rev_) : option side :=
  match e with EInv _ | ERet _ _ => None | EWake s _ | EDropW s _ | EDropV s _ | ESync s | EAcc s => Some s end.
Definition hend (o : rop) : hs := if rconsuming o then HGone else HIdle.
Inductive hist : list rev_ -> hs -> hs -> Prop :=
| h_nil : hist [] HIdle HIdle
| h_calt l o b : hist l HIdle b -> rside o = TX -> hist (l ++ [EInv o]) (HRun o) b
| h_calr l o a : hist l a HIdle -> rside o = RX -> hist (l ++ [EInv o]) a (HRun o)
| h_evt l o b e : hist l (HRun o) b -> ev_side e = Some TX -> hist (l ++ [e]) (HRun o) b
| h_evr l o a e : hist l a (HRun o) -> ev_side e = Some RX -> hist (l ++ [e]) a (HRun o)
| h_rett l o r b : hist l (HRun o) b -> rside o = TX -> hist (l ++ [ERet o r]) (hend o) b
| h_retr l o r a : hist l a (HRun o) -> rside o = RX -> hist (l ++ [ERet o r]) a (hend o).

Definition hs_of (t : thr rop rres) : hs := match t with Idle => HIdle | Run o _ => HRun o | Gone => HGone end.

Lemma hist_side l a b : hist l a b ->
  match a with HRun o => rside o = TX | _ => True end /\ match b with HRun o => rside o = RX | _ => True end.
Proof.
  induction 1; cbn; auto; try (destruct IHhist; split; auto; fail);
    destruct IHhist; split; auto; unfold hend; destruct (rconsuming o); exact I.
Qed.

Lemma run_hist bits cap at_ sched : let x := rrun bits cap at_ sched in hist (slog x) (hs_of (stx x)) (hs_of (srx x)).
Proof.
  unfold rrun. assert (forall l x, hist (slog x) (hs_of (stx x)) (hs_of (srx x)) ->
    let y := run rside rconsuming (rcode bits cap) at_ x l in hist (slog y) (hs_of (stx y)) (hs_of (srx y))) as K.
  { induction l as [|a l IH]; intros x Hx; cbn [run]; [exact Hx|]. apply IH. clear IH.
    destruct a as [o|s spur]; cbn [step].
    - destruct (rside o) eqn:S; cbn [thr_of].
      + destruct (stx x) eqn:E; try (rewrite ?E; exact Hx). cbn. constructor; auto.
      + destruct (srx x) eqn:E; try (rewrite ?E; exact Hx). cbn. constructor; auto.
    - pose proof (hist_side _ _ _ Hx) as [S1 S2].
      destruct s; cbn [thr_of]; [destruct (stx x) as [|o p|] eqn:E|destruct (srx x) as [|o p|] eqn:E];
      rewrite ?E; try (cbn [hs_of] in *; exact Hx); cbn [hs_of] in *;
      destruct p; cbn [pstep];
      try (match goal with |- context [if at_ then _ else _] =>
             destruct at_; [destruct old as [old|]; [destruct (spur || negb (st (smem x) =? old))|]|] end);
      try (destruct (take (smem x) c)); try (destruct (peek (smem x) c)); cbn;
      try (constructor; auto; reflexivity);
      try (rewrite app_nil_r, E in *; exact Hx);
      try (rewrite app_nil_r; exact Hx);
      [replace (hs_of (if rconsuming o then Gone else Idle)) with (hend o) by (unfold hend; now destruct (rconsuming o)); now constructor..]. }
  apply K. constructor.
Qed.

(** ** Sticky failures. *)
Ltac deq := repeat match goal with
  | |- context [match ?x with _ => _ end] => destruct x; cbn in *; auto
  end.
Lemma bad_sticky cap q e : q_bad q = true -> q_bad (qstep cap q e) = true.
Proof.
  intros H. destruct q as [pe er cl te re tx rx bd ra]. cbn in H. subst.
  destruct e as [o|o r|s w|s w|s v|s|s]; try destruct s; cbn; auto;
    unfold tacc, tsync, racc, rsync, recv, poll_at, look, fail, with_tx, with_rx, set_pend; cbn; deq.
Qed.
Lemma bad_pre cap l l' : q_bad (queue cap (l ++ l')) = false -> q_bad (queue cap l) = false.
Proof.
  unfold queue. rewrite fold_left_app. generalize (fold_left (qstep cap) l ring0). revert l'.
  induction l' as [|e l' IH]; cbn; intros q H; [exact H|]. apply IH in H.
  destruct (q_bad q) eqn:E; [|reflexivity]. now rewrite (bad_sticky cap q e E) in H.
Qed.
Lemma queue_snoc cap l e : queue cap (l ++ [e]) = qstep cap (queue cap l) e.
Proof. unfold queue. now rewrite fold_left_app. Qed.
Lemma calls_snoc l e : calls (l ++ [e]) = ustep (calls l) e.
Proof. unfold calls. now rewrite fold_left_app. Qed.

Lemma rres_eqb_ok a b : rres_eqb a b = true -> a = b.
Proof.
  assert (forall x y, onb x y = true -> x = y) as K.
  { intros [] []; cbn; try discriminate; auto. intros E. apply N.eqb_eq in E. now subst. }
  destruct a, b; cbn; try discriminate; auto; intros E;
    repeat match goal with
    | H : (_ && _)%bool = true |- _ => apply andb_true_iff in H as [? ?]
    | H : (_ =? _) = true |- _ => apply N.eqb_eq in H; subst
    | H : onb _ _ = true |- _ => apply K in H; subst
    | H : eqb _ _ = true |- _ => apply eqb_prop in H; subst end; auto.
Qed.
Lemma onb_refl o : onb o o = true.
Proof. destruct o; cbn; auto. apply N.eqb_refl. Qed.
Lemma rres_eqb_refl a : rres_eqb a a = true.
Proof. destruct a; cbn; rewrite ?N.eqb_refl, ?onb_refl; auto. destruct b; reflexivity. Qed.

(** Case analysis on what a match depends on, innermost first. *)
Ltac inner := repeat (match goal with
  | |- context [match ?x with _ => _ end] => is_var x; destruct x
  | H : context [match ?x with _ => _ end] |- _ => is_var x; destruct x
  | |- context [if ?x then _ else _] => lazymatch x with context [if _ then _ else _] => fail | _ => destruct x eqn:? end
  | H : context [if ?x then _ else _] |- _ => lazymatch x with context [if _ then _ else _] => fail | _ => destruct x eqn:? end
  end; cbn in *; try discriminate; auto).

(** ** Phases belong to calls. *)
Definition send_of (sink : bool) (v : N) : rop := if sink then StartSend v else TrySend v.
Definition poll_of (k : kind) (o : rop) : Prop :=
  match k, o with KReady, PollReady _ | KFlush, PollFlush _ | KClose, PollClose _ => True | _, _ => False end.
Definition inn (o : rop) (r : rres) : list N :=
  match o, r with
  | TrySend v, ROk | StartSend v, ROk | SendErr v, ROk | SendOver v, ROver _ => [v]
  | _, _ => [] end.
Definition ovr (o : rop) (r : rres) : list N :=
  match o, r with SendOver _, ROver (Some x) | SendOver _, RNot _ (Some x) => [x] | _, _ => [] end.
Definition out (o : rop) (r : rres) : list N :=
  match o, r with
  | TryNext, RVal v | PollNext _, RVal v | TryNext, RError v | PollNext _, RError v => [v]
  | _, _ => [] end.
Definition o2l (o : option N) : list N := match o with Some v => [v] | None => [] end.

Definition tmatch (a : hs) (t : tph) : Prop :=
  match a with
  | HIdle | HGone => t = TNo
  | HRun o =>
      match t with
      | TNo => False
      | TSend s v | TLook s v => o = send_of s v
      | TOver v | TOverFull v | TOverLook v _ => o = SendOver v
      | TErr v => o = SendErr v
      | TPoll k | TWait k => poll_of k o
      | TIs => o = IsCanceled
      | TEnd => o = DropTx
      | TRet _ _ => True
      end
  end.
Definition recv_of (poll : bool) (o : rop) : Prop :=
  match o with TryNext => poll = false | PollNext _ => poll = true | _ => False end.
Definition rmatch (b : hs) (t : rph) : Prop :=
  match b with
  | HIdle | HGone => t = RNo
  | HRun o =>
      match t with
      | RNo => False
      | RClosing => o = Close
      | RRecv p => recv_of p o
      | RWaiting => recv_of true o
      | RTerm => o = IsTerminated
      | RDropping | RDrop _ _ => o = DropRx
      | RRet (RVal _) | RRet (RError _) | RRet REnd | RRet RPending | RRet REmpty => exists p, recv_of p o
      | RRet _ => match o with TryNext | PollNext _ => False | _ => True end
      end
  end.
Lemma q_match cap l a b : hist l a b -> q_bad (queue cap l) = false ->
  tmatch a (q_tx (queue cap l)) /\ rmatch b (q_rx (queue cap l)) /\
  u_tx (calls l) = match a with HRun _ => true | _ => false end /\
  u_rx (calls l) = match b with HRun _ => true | _ => false end.
Proof.
  induction 1 as [|l o b H IH S|l o a H IH S|l o b e H IH S|l o a e H IH S|l o r b H IH S|l o r a H IH S];
    intros B; [now repeat split|..]; specialize (IH (bad_pre _ _ _ B)); destruct IH as (T & R & U1 & U2);
    rewrite queue_snoc in *; rewrite calls_snoc; destruct (queue cap l) as [pe er cl te re tx rx bd ra];
    destruct (calls l) as [ut ur ub up]; cbn [q_tx q_rx u_tx u_rx] in *; subst ut ur.
  - cbn in T. subst tx. split; [|split; [|split]].
    + destruct o; try discriminate; cbn; auto.
    + destruct o; try discriminate; cbn; auto.
    + cbn. now rewrite S.
    + cbn. now rewrite S.
  - cbn in R. subst rx. split; [|split; [|split]].
    + destruct o; try discriminate; cbn; auto.
    + destruct o; try discriminate; cbn; auto.
    + cbn. now rewrite S.
    + cbn. now rewrite S.
  - assert (K : u_tx (ustep (Busy true match b with HRun _ => true | _ => false end ub up) e) = true /\
                u_rx (ustep (Busy true match b with HRun _ => true | _ => false end ub up) e) = match b with HRun _ => true | _ => false end).
    { destruct e as [| | | | |[]|[]]; cbn in *; try discriminate; auto. }
    destruct K as [-> ->]. enough (tmatch (HRun o) (q_tx (qstep cap (Ring pe er cl te re tx rx bd ra) e)) /\
      rmatch b (q_rx (qstep cap (Ring pe er cl te re tx rx bd ra) e))) by tauto.
    destruct e as [|?|[] ?|[] ?|[] ?|[]|[]]; cbn in S; try discriminate; cbn in B |- *; auto.
    + destruct tx as [| | | | | | | | | | |? [|]]; cbn in *; try discriminate. destruct (_ =? _); cbn in *; try discriminate; auto.
    + destruct tx; cbn in *; auto; unfold poll_at, look, with_tx, set_pend, fail in *; cbn in *;
        inner.
    + destruct tx; cbn in *; auto; unfold poll_at, look, with_tx, set_pend, fail in *; cbn in *;
        inner.
  - assert (K : u_rx (ustep (Busy match a with HRun _ => true | _ => false end true ub up) e) = true /\
                u_tx (ustep (Busy match a with HRun _ => true | _ => false end true ub up) e) = match a with HRun _ => true | _ => false end).
    { destruct e as [|?|[] ?|[] ?|[] ?|[]|[]]; cbn in *; try discriminate; auto. }
    destruct K as [-> ->]. enough (tmatch a (q_tx (qstep cap (Ring pe er cl te re tx rx bd ra) e)) /\
      rmatch (HRun o) (q_rx (qstep cap (Ring pe er cl te re tx rx bd ra) e))) by tauto.
    destruct e as [|?|[] ?|[] ?|[] ?|[]|[]]; cbn in S; try discriminate; cbn in B |- *; auto.
    + destruct rx as [| | | | | |[|] [|]|]; cbn in *; try discriminate; destruct (_ =? _); cbn in *; try discriminate; auto.
    + destruct rx as [| |[]| | | | |]; cbn in *; auto; unfold recv, with_rx, set_pend, fail in *; cbn in *; destruct pe, er; cbn; eauto;
        try (destruct o; try contradiction; eauto; fail); destruct (te || cl); cbn; eauto; subst; auto; split; auto; destruct o; try contradiction; eauto.
    + destruct rx; cbn in *; auto. subst. auto.
  - assert (K : ustep (Busy true match b with HRun _ => true | _ => false end ub up) (ERet o r) =
                Busy false match b with HRun _ => true | _ => false end ub up) by (cbn; now rewrite S).
    rewrite K. cbn in B |- *. rewrite S in *.
    assert (forall t, t = TNo -> tmatch (hend o) t) as Z by (intros t ->; unfold hend; now destruct (rconsuming o)).
    assert (false = match hend o with HRun _ => true | _ => false end) as Z2 by (unfold hend; now destruct (rconsuming o)).
    destruct tx as [| | | | | | | | | | |? [|]]; cbn in *; try discriminate; destruct (rres_eqb _ _); cbn in *; try discriminate; auto.
  - assert (K : ustep (Busy match a with HRun _ => true | _ => false end true ub up) (ERet o r) =
                Busy match a with HRun _ => true | _ => false end false ub up) by (cbn; now rewrite S).
    rewrite K. cbn in B |- *. rewrite S in *.
    assert (forall t, t = RNo -> rmatch (hend o) t) as Z by (intros t ->; unfold hend; now destruct (rconsuming o)).
    assert (false = match hend o with HRun _ => true | _ => false end) as Z2 by (unfold hend; now destruct (rconsuming o)).
    destruct rx as [| | | | | |[|] [|]|]; cbn in *; try discriminate; destruct (rres_eqb _ _); cbn in *; try discriminate; auto.
Qed.

(** ** No race if the sender does not interrupt the receiver. *)
Lemma u_pre_sticky b e : u_pre b = true -> u_pre (ustep b e) = true.
Proof. destruct b as [t r bo p]. cbn. intros ->. destruct e as [o|o ?|[] ?|[] ?|[] ?|[]|[]]; cbn; try destruct (rside o); auto. Qed.
Lemma u_both_sticky b e : u_both b = true -> u_both (ustep b e) = true.
Proof. destruct b as [t r bo p]. cbn. intros ->. destruct e as [o|o ?|[] ?|[] ?|[] ?|[]|[]]; cbn; try destruct (rside o); auto. Qed.

Lemma racy_step cap l a b e : hist l a b -> q_bad (queue cap l) = false -> q_racy (queue cap l) = false ->
  u_pre (calls (l ++ [e])) = false -> q_racy (queue cap (l ++ [e])) = false.
Proof.
  intros H B R U. rewrite queue_snoc, calls_snoc in *. destruct (q_match _ _ _ _ H B) as (_ & M & _ & Ur).
  assert (forall t, look cap (queue cap l) t = with_tx (queue cap l) t \/ u_rx (calls l) = true) as K.
  { intros t. destruct b as [|o|]; [|now right|]; left; cbn in M; unfold look, with_tx, racy; rewrite M, orb_false_r; reflexivity. }
  destruct (queue cap l) as [pe er cl te re tx rx bd ra]. cbn in B, R. subst.
  destruct (calls l) as [ut ur ub up]. cbn [u_rx] in *.
  destruct e as [o|o r|[]|[]|[] v|[]|[]]; cbn -[look] in U |- *; try destruct (rside o); cbn; auto;
    try (apply orb_false_iff in U as [_ U]; rewrite U in K).
  - destruct tx; auto.
  - destruct rx; auto.
  - destruct tx as [| | | | | | | | | | |? [|]]; cbn; auto; destruct (rres_eqb _ _); auto.
  - destruct rx as [| | | | | |[|] [|]|]; cbn; auto; destruct (rres_eqb _ _); auto.
  - destruct tx as [| | | | | | | | | | |? [|]]; cbn; auto; destruct (_ =? _); auto.
  - destruct rx as [| | | | | |[|] [|]|]; cbn; auto; destruct (_ =? _); auto.
  - unfold tsync, poll_at. destruct tx as [| | | | | | | | | | |? [|]]; cbn -[look]; auto; inner.
    all: destruct (K (TOverLook v None)) as [-> |]; [reflexivity|discriminate].
  - unfold rsync, recv. destruct rx; cbn; auto; inner.
  - unfold tacc, poll_at. destruct tx as [| | | | | | | | | | |? [|]]; cbn -[look]; auto; inner.
    all: match goal with |- context [look _ _ ?t] => destruct (K t) as [-> |]; [reflexivity|discriminate] end.
  - unfold racc. destruct rx; cbn; auto.
Qed.

(** Calls that do not overlap at all. *)
Lemma both_pre l a b : hist l a b -> u_both (calls l) = false -> 
  u_pre (calls l) = false /\ u_tx (calls l) = match a with HRun _ => true | _ => false end /\
  u_rx (calls l) = match b with HRun _ => true | _ => false end /\ (u_tx (calls l) && u_rx (calls l) = false).
Proof.
  induction 1 as [|l o b H IH S|l o a H IH S|l o b e H IH S|l o a e H IH S|l o r b H IH S|l o r a H IH S]; [now repeat split|..];
    rewrite calls_snoc; destruct (calls l) as [ut ur ub up]; cbn [u_both u_pre u_tx u_rx] in *;
    intros B; (assert (ub = false) as -> by (destruct ub; [rewrite u_both_sticky in B by reflexivity; discriminate|reflexivity]));
    destruct (IH eq_refl) as (-> & -> & -> & E); clear IH.
  - cbn in *. rewrite S in *. cbn in *. now rewrite B.
  - cbn in *. rewrite S in *. cbn in *. rewrite B. auto.
  - destruct e as [|?|[] ?|[] ?|[] ?|[]|[]]; cbn in *; try discriminate; repeat split; auto.
  - destruct e as [|?|[] ?|[] ?|[] ?|[]|[]]; cbn in *; try discriminate; repeat split; auto.
  - cbn in *. rewrite S in *. cbn. unfold hend. repeat split; auto. now destruct (rconsuming o).
  - cbn in *. rewrite S in *. cbn. unfold hend. repeat split; auto; [now destruct (rconsuming o)|apply andb_false_r].
Qed.

(** ** Simulation of the sequential queue. *)
Definition absq (q : ring) : qs := Qs (q_pend q) (q_err q) (q_closed q) (q_txend q) (q_rxend q).
Definition ready_of (cap : N) (s : qs) (k : kind) : bool :=
  match k with KReady => len (z_pend s) <? cap | KFlush => is_nil (z_pend s) | KClose => false end.

Definition tsim (cap : N) (o : rop) (s : qs) (d : list N) (t : tph) (a : qs) : Prop :=
  match t with
  | TSend _ _ | TOver _ | TErr _ | TPoll _ | TIs | TEnd => a = s /\ d = []
  | TLook _ _ => a = s /\ d = [] /\ len (z_pend s) =? cap = false
  | TOverFull _ => a = s /\ d = [] /\ len (z_pend s) =? cap = true
  | TOverLook _ None => a = s /\ d = [] /\ len (z_pend s) =? cap = false /\ z_closed s = false
  | TOverLook _ (Some x) => d = [] /\ len (z_pend s) =? cap = true /\ z_closed s = false /\
      exists l, z_pend s = x :: l /\ a = Qs l (z_err s) false (z_txend s) (z_rxend s)
  | TWait k => a = s /\ d = [] /\ z_closed s = false /\ ready_of cap s k = false
  | TRet r d' => seq_call cap s o = (r, d ++ d', a)
  | TNo => False
  end.
Definition rsim (cap : N) (o : rop) (s : qs) (d : list N) (t : rph) (a : qs) : Prop :=
  match t with
  | RClosing | RRecv _ | RTerm | RDropping => a = s /\ d = []
  | RWaiting => a = s /\ d = [] /\ z_pend s = [] /\ z_err s = None /\ z_txend s || z_closed s = false
  | RDrop l e => seq_call cap s o = (RUnit, d ++ l ++ o2l e, a)
  | RRet r => seq_call cap s o = (r, d, a)
  | RNo => False
  end.

Lemma list_eqb_refl l : list_eqb l l = true.
Proof. induction l; cbn; auto. now rewrite N.eqb_refl. Qed.
Lemma seq_snoc cap l e : sequential_queue cap (l ++ [e]) = fstep cap (sequential_queue cap l) e.
Proof. unfold sequential_queue. now rewrite fold_left_app. Qed.


Definition running (a : hs) : bool := match a with HRun _ => true | _ => false end.
Lemma seq_sim cap l a b : 0 < cap -> hist l a b -> u_both (calls l) = false -> q_bad (queue cap l) = false ->
  let f := sequential_queue cap l in let q := queue cap l in
  f_bad f = false /\
  (forall o, a = HRun o -> tsim cap o (f_st f) (f_drop f) (q_tx q) (absq q)) /\
  (forall o, b = HRun o -> rsim cap o (f_st f) (f_drop f) (q_rx q) (absq q)) /\
  (running a = false -> running b = false -> f_st f = absq q).
Proof.
  intros Hc. cbn zeta.
  induction 1 as [|l o b H IH S|l o a H IH S|l o b e H IH S|l o a e H IH S|l o r b H IH S|l o r a H IH S]; intros U B;
    [repeat split; discriminate|..];
    specialize (fun U => IH U (bad_pre _ _ _ B));
    pose proof (fun U => both_pre _ _ _ H U) as BP;
    destruct (q_match _ _ _ _ H (bad_pre _ _ _ B)) as (Mt & Mr & _ & _);
    rewrite calls_snoc in U;
    (assert (u_both (calls l) = false) as U' by (destruct (u_both (calls l)) eqn:E; [rewrite u_both_sticky in U by assumption; discriminate|reflexivity]));
    specialize (IH U'); specialize (BP U'); destruct BP as (_ & Ut & Ur & E); rewrite Ut, Ur in E;
    rewrite queue_snoc in *; rewrite seq_snoc;
    destruct (queue cap l) as [pe er cl te re tx rx bd ra]; destruct (sequential_queue cap l) as [s d fb];
    destruct IH as (F & IHt & IHr & IHi); cbn [f_bad f_st f_drop q_tx q_rx] in *; subst fb; unfold absq in *; cbn [q_pend q_err q_closed q_txend q_rxend] in *.
  - (* a call of the sender *)
    assert (running b = false) as Hb by (destruct b; auto; cbn in U; rewrite S in U; cbn in U; rewrite Ur, orb_true_r in U; discriminate).
    specialize (IHi eq_refl Hb). cbn in Mt. subst tx s. split; [reflexivity|]. split; [|split; [intros o' ->; discriminate|discriminate]].
    intros o' Eo. injection Eo as <-. destruct o; try discriminate; cbn; auto.
  - assert (running a = false) as Ha by (destruct a; auto; cbn in U; rewrite S in U; cbn in U; rewrite Ut, orb_true_r in U; discriminate).
    specialize (IHi Ha eq_refl). cbn in Mr. subst rx s. split; [reflexivity|]. split; [intros o' ->; discriminate|]. split; [|discriminate].
    intros o' Eo. injection Eo as <-. destruct o; try discriminate; cbn; auto.
  - assert (running b = false) as Hb by (destruct b; auto; discriminate). clear E IHi IHr.
    specialize (IHt _ eq_refl). split; [now destruct e|].
    split; [|split; [intros o' ->; discriminate|discriminate]]. intros o' Eo. injection Eo as <-.
    destruct e as [|?|[] ?|[] ?|[] v|[]|[]]; cbn in S; try discriminate; cbn [fstep f_bad f_st f_drop]; auto.
    + cbn in B |- *. destruct tx as [| | | | | | | | | | |r' [|x d']]; cbn in *; try discriminate.
      destruct (N.eqb_spec x v); cbn in *; [|discriminate]. subst. now rewrite <- app_assoc.
    + cbn in B |- *. destruct tx; cbn in *; auto; unfold poll_at, look, with_tx, set_pend, fail in *; cbn in *.
      * destruct IHt as (<- & -> & L). cbn in *. destruct sink; cbn in Mt; subst o; destruct cl; cbn; rewrite L; reflexivity.
      * destruct IHt as (<- & -> & L). cbn in *. subst o. destruct cl; cbn; auto. rewrite L in *. destruct pe; cbn in *; try discriminate.
        repeat split; auto. eauto.
      * destruct o0 as [x|].
        -- destruct IHt as (-> & L & C & l' & E1 & E2). destruct s; cbn in *; injection E2; intros; subst; cbn.
           cbn. now rewrite L.
        -- destruct IHt as (<- & -> & L & C). cbn in *. subst cl o. cbn. rewrite L. now destruct pe.
      * destruct IHt as (<- & ->). subst o. cbn. destruct cl; reflexivity.
      * destruct IHt as (<- & -> & C & R). cbn in *. subst cl. cbn. destruct k, o; try contradiction; cbn in *; unfold seq_poll; cbn; rewrite ?R; cbn; auto; unfold seq_poll; cbn; rewrite ?R; auto.
      * destruct IHt as (<- & ->). subst o. reflexivity.
    + cbn in B |- *. destruct tx; cbn in *; auto; unfold poll_at, look, with_tx, set_pend, fail in *; cbn in *.
      * destruct IHt as (<- & ->). cbn in *. destruct (len pe =? cap) eqn:L; cbn; auto. destruct sink; cbn in Mt; subst o; cbn; rewrite L; reflexivity.
      * destruct IHt as (<- & ->). subst o. cbn in *. destruct (len pe =? cap) eqn:L; cbn; auto. destruct cl; cbn; auto.
      * destruct IHt as (<- & ->). destruct k, o; try contradiction; destruct cl; cbn; unfold is_ready; cbn; inner; unfold seq_poll; cbn; try match goal with E : ?b = _ |- context [?b] => rewrite E end; auto.
      * destruct IHt as (<- & ->). subst o. reflexivity.
  - assert (running a = false) as Ha by (destruct a; auto; discriminate). clear E IHi IHt.
    specialize (IHr _ eq_refl). split; [now destruct e|].
    split; [intros o' ->; discriminate|]. split; [|discriminate]. intros o' Eo. injection Eo as <-.
    destruct e as [|?|[] ?|[] ?|[] v|[]|[]]; cbn in S; try discriminate; cbn [fstep f_bad f_st f_drop]; auto.
    + cbn in B |- *. destruct rx as [| | | | | |[|x l'] [x'|]|]; cbn in *; try discriminate.
      * destruct (N.eqb_spec x' v); cbn in *; [|discriminate]. subst. now rewrite <- app_assoc.
      * destruct (N.eqb_spec x v); cbn in *; [|discriminate]. subst. now rewrite <- app_assoc.
      * destruct (N.eqb_spec x v); cbn in *; [|discriminate]. subst. now rewrite <- app_assoc.
    + cbn in B |- *. destruct rx; cbn in *; auto; unfold recv, with_rx, set_pend, fail in *; cbn in *.
      * destruct IHr as (<- & ->). now subst o.
      * destruct IHr as (<- & ->). destruct o; try contradiction; cbn in Mr; subst poll; cbn; unfold seq_recv; cbn; destruct pe, er; cbn; auto; destruct (te || cl) eqn:?; cbn; auto. all: now rewrite Heqb.
      * destruct IHr as (<- & -> & E1 & E2 & E3). cbn in *. subst pe er. rewrite E3. destruct o; try contradiction; cbn; unfold seq_recv; cbn; rewrite ?E3; auto. discriminate.
      * destruct IHr as (<- & ->). now subst o.
    + cbn in B |- *. destruct rx; cbn in *; auto. destruct IHr as (<- & ->). now subst o.
  - assert (running b = false) as Hb by (destruct b; auto; discriminate). clear E IHi IHr.
    specialize (IHt _ eq_refl). cbn in B |- *. rewrite S in *.
    assert (forall o', hend o <> HRun o') as Z by (intros o'; unfold hend; destruct (rconsuming o); discriminate).
    destruct tx as [| | | | | | | |k| | |r' [|]]; cbn in *; try discriminate;
      (destruct (rres_eqb r _) eqn:Er; [|discriminate]); apply rres_eqb_ok in Er; subst; cbn.
    + destruct IHt as (<- & -> & C & R). cbn in *. subst cl.
      assert (seq_call cap (Qs pe er false te re) o = (RPending, [], Qs pe er false te re)) as ->.
      { destruct k, o; try contradiction; cbn in *; unfold seq_poll; cbn; rewrite ?R; auto. }
      cbn. repeat split; auto; intros o' Eo; first [now apply Z in Eo|subst; discriminate].
    + rewrite app_nil_r in IHt. rewrite IHt. cbn. rewrite rres_eqb_refl, list_eqb_refl. cbn.
      repeat split; auto; intros o' Eo; first [now apply Z in Eo|subst; discriminate].
  - assert (running a = false) as Ha by (destruct a; auto; discriminate). clear E IHi IHt.
    specialize (IHr _ eq_refl). cbn in B |- *. rewrite S in *.
    assert (forall o', hend o <> HRun o') as Z by (intros o'; unfold hend; destruct (rconsuming o); discriminate).
    destruct rx as [| | | | | |[|] [|]|]; cbn in *; try discriminate;
      (destruct (rres_eqb r _) eqn:Er; [|discriminate]); apply rres_eqb_ok in Er; subst; cbn.
    + destruct IHr as (<- & -> & E1 & E2 & E3). cbn in *. subst.
      assert (seq_call cap (Qs [] None cl te re) o = (RPending, [], Qs [] None cl te re)) as ->.
      { destruct o; try contradiction; cbn in *; try discriminate. unfold seq_recv; cbn; rewrite ?E3; auto. }
      cbn. repeat split; auto; intros o' Eo; first [now apply Z in Eo|subst; discriminate].
    + rewrite app_nil_r in IHr. destruct s; cbn in *. injection IHr. intros. subst. unfold o2l. rewrite list_eqb_refl. cbn.
      repeat split; auto; intros o' Eo; first [now apply Z in Eo|subst; discriminate].
    + rewrite IHr. cbn. rewrite rres_eqb_refl, list_eqb_refl. cbn.
      repeat split; auto; intros o' Eo; first [now apply Z in Eo|subst; discriminate].
Qed.

(** ** What goes in comes out. *)
Definition fl_in (a : hs) (t : tph) : list N :=
  match a, t with HRun o, TRet r _ => inn o r | _, _ => [] end.
Definition fl_ovr (a : hs) (t : tph) : list N :=
  match a, t with
  | HRun o, TRet r _ => ovr o r
  | HRun _, TOverLook _ o => o2l o
  | _, _ => [] end.
Definition fl_out (b : hs) (t : rph) : list N :=
  match b, t with
  | HRun o, RRet r => out o r
  | HRun _, RDrop l e => l ++ o2l e
  | _, _ => [] end.

Lemma incoming_snoc l e : incoming (l ++ [e]) = incoming l ++ incoming [e].
Proof. unfold incoming. apply flat_map_app. Qed.
Lemma outgoing_snoc l e : outgoing (l ++ [e]) = outgoing l ++ outgoing [e].
Proof. unfold outgoing. apply flat_map_app. Qed.
Lemma overwritten_snoc l e : overwritten (l ++ [e]) = overwritten l ++ overwritten [e].
Proof. unfold overwritten. apply flat_map_app. Qed.
Lemma incoming_ret o r : rside o = TX -> incoming [ERet o r] = inn o r.
Proof. destruct o, r; cbn; auto; discriminate. Qed.
Lemma incoming_rx e : match e with ERet o _ => rside o = RX | _ => True end -> incoming [e] = [].
Proof. destruct e as [o|o r| | | | |]; cbn; auto. destruct o, r; cbn; auto; discriminate. Qed.
Lemma outgoing_ret o r : rside o = RX -> outgoing [ERet o r] = out o r.
Proof. destruct o, r; cbn; auto; discriminate. Qed.
Lemma outgoing_tx e : match e with ERet o _ => rside o = TX | EDropV s _ => s = TX | _ => True end -> outgoing [e] = [].
Proof. destruct e as [o|o r|[]|[]|[]|[]|[]]; cbn; auto; try discriminate. destruct o, r; cbn; auto; discriminate. Qed.
Lemma overwritten_ret o r : rside o = TX -> overwritten [ERet o r] = ovr o r.
Proof. destruct o, r as [| | | | |[]|? []| | | | | | | | |]; cbn; auto; discriminate. Qed.
Lemma overwritten_rx e : match e with ERet o _ => rside o = RX | _ => True end -> overwritten [e] = [].
Proof. destruct e as [o|o r| | | | |]; cbn; auto. destruct o, r; cbn; auto; discriminate. Qed.

Lemma sh_l_app x : forall a b c, shuffle a b c -> shuffle (a ++ x) b (c ++ x).
Proof.
  induction x as [|y x IH]; intros a b c S; [now rewrite !app_nil_r|].
  change (y :: x) with ([y] ++ x). rewrite !app_assoc. apply IH. now constructor.
Qed.

Definition tx_gone (a : hs) (t : tph) : Prop :=
  match a with HGone => True | HRun o => rconsuming o = true /\ match t with TRet _ _ => True | _ => False end | HIdle => False end.
Definition rx_gone (b : hs) (t : rph) : Prop :=
  match b with HGone => True | HRun o => o = DropRx /\ match t with RDrop _ _ => True | _ => False end | HIdle => False end.

Record flow (l : list rev_) (q : ring) (a b : hs) : Prop := mkFlow {
  w_sh : exists rem, shuffle (outgoing l ++ fl_out b (q_rx q)) (overwritten l ++ fl_ovr a (q_tx q)) rem /\
         rem ++ q_pend q ++ o2l (q_err q) = incoming l ++ fl_in a (q_tx q);
  w_gone : q_txend q = true -> tx_gone a (q_tx q);
  w_err : q_err q <> None -> q_txend q = true;
  w_rg : q_rxend q = true -> rx_gone b (q_rx q) }.

Lemma flow_hist cap l a b : hist l a b -> q_bad (queue cap l) = false -> flow l (queue cap l) a b.
Proof.
  induction 1 as [|l o b H IH S|l o a H IH S|l o b e H IH S|l o a e H IH S|l o r b H IH S|l o r a H IH S]; intros B.
  { constructor; cbn; try discriminate; try congruence. exists []. split; constructor. }
  all: specialize (IH (bad_pre _ _ _ B)); destruct (q_match _ _ _ _ H (bad_pre _ _ _ B)) as (Mt & Mr & _ & _);
    rewrite queue_snoc in *; destruct (queue cap l) as [pe er cl te re tx rx bd ra]; destruct IH as [(rem & W1 & W2) G1 G2 G3];
    cbn [q_pend q_err q_txend q_rxend q_tx q_rx] in *.
  - cbn in Mt. subst tx. cbn. rewrite S. cbn in W1, W2, G1. constructor; cbn; auto.
    + exists rem. rewrite incoming_snoc, outgoing_snoc, overwritten_snoc. cbn. rewrite !app_nil_r in *.
      split; [|rewrite W2]; destruct o; try discriminate; cbn; rewrite ?app_nil_r; auto.
    + intros E. now specialize (G1 E).
  - cbn in Mr. subst rx. cbn. rewrite S. cbn in W1, W2, G3. constructor; cbn; auto.
    + exists rem. rewrite incoming_snoc, outgoing_snoc, overwritten_snoc. cbn. rewrite !app_nil_r in *.
      split; [|rewrite W2]; destruct o; try discriminate; cbn; rewrite ?app_nil_r; auto.
    + intros E. now specialize (G3 E).
  - assert (te = false \/ exists r d, tx = TRet r d) as T.
    { destruct te; [right|now left]. specialize (G1 eq_refl). cbn in G1. destruct tx; try (destruct G1; contradiction). eauto. }
    assert ((forall r d, tx <> TRet r d) -> er = None) as Er.
    { intros K. destruct T as [-> |(r & d & ->)]; [|now destruct (K r d)]. destruct er; [|reflexivity]. now discriminate G2. }
    assert (incoming (l ++ [e]) = incoming l) as E1 by (rewrite incoming_snoc, incoming_rx, app_nil_r; [reflexivity|now destruct e]).
    assert (outgoing (l ++ [e]) = outgoing l) as E2.
    { rewrite outgoing_snoc, outgoing_tx, app_nil_r; [reflexivity|]. destruct e; try discriminate; auto. cbn in S. congruence. }
    assert (overwritten (l ++ [e]) = overwritten l) as E3 by (rewrite overwritten_snoc, overwritten_rx, app_nil_r; [reflexivity|now destruct e]).
    assert (forall q', q_pend q' = pe -> q_err q' = er -> q_txend q' = te -> q_rxend q' = re -> q_rx q' = rx ->
      fl_in (HRun o) (q_tx q') = fl_in (HRun o) tx -> fl_ovr (HRun o) (q_tx q') = fl_ovr (HRun o) tx ->
      (tx_gone (HRun o) tx -> tx_gone (HRun o) (q_tx q')) -> flow (l ++ [e]) q' (HRun o) b) as Same.
    { intros q' P1 P2 P3 P4 P5 P6 P7 P8. constructor; rewrite ?P1, ?P2, ?P3, ?P4, ?P5, ?P6, ?P7, ?E1, ?E2, ?E3; eauto. }
    destruct e as [|?|[] ?|[] ?|[] v|[]|[]]; cbn in S; try discriminate; try (apply Same; reflexivity || auto; fail).
    + cbn in B |- *. destruct tx as [| | | | | | | | | | |r' [|x d']]; cbn in B |- *; try discriminate.
      destruct (N.eqb_spec x v); cbn in *; [|discriminate]. apply Same; auto.
    + cbn in B |- *. destruct tx; cbn in *; try (apply Same; cbn; auto; fail).
      * rewrite Er in * by congruence. rewrite !app_nil_r in *. destruct cl.
        -- apply Same; auto; destruct sink; cbn in *; subst; auto; now intros [? ?].
        -- constructor; cbn; rewrite ?E1, ?E2, ?E3; cbn; auto; try (intros K; now destruct (G1 K)).
           exists rem. rewrite app_nil_r. split; [destruct sink; subst o; cbn; now rewrite app_nil_r|].
           rewrite app_assoc, W2. now destruct sink; subst o; cbn.
      * subst o. destruct cl; [apply Same; auto; now intros [? ?]|]. destruct (len pe =? cap); cbn in *; [|apply Same; auto].
        destruct pe as [|x pe]; [discriminate|]. constructor; cbn; rewrite ?E1, ?E2, ?E3; cbn; auto; try (intros K; now destruct (G1 K)).
        exists (rem ++ [x]). split; [rewrite app_nil_r in W1; now constructor|]. now rewrite <- W2, <- app_assoc.
      * subst o. rewrite Er in * by congruence. rewrite !app_nil_r in *. destruct cl.
        -- apply Same; auto; try (cbn; now destruct o0); try (now intros [? ?]).
        -- constructor; cbn; rewrite ?E1, ?E2, ?E3; cbn; auto; try (intros K; now destruct (G1 K)).
           exists rem. split; [now destruct o0|]. now rewrite app_nil_r, app_assoc, W2.
      * subst o. rewrite Er in * by congruence. rewrite !app_nil_r in *. destruct cl.
        -- constructor; cbn; rewrite ?E1, ?E2, ?E3; cbn; auto; try congruence.
           exists rem. split; [now rewrite app_nil_r|]. now rewrite !app_nil_r.
        -- constructor; cbn; rewrite ?E1, ?E2, ?E3; cbn; auto.
           exists rem. split; [now rewrite app_nil_r|]. now rewrite app_assoc, W2.
      * unfold poll_at. apply Same; auto; cbn; destruct cl; cbn; try (now intros [? ?]);
          try (destruct k, o; try contradiction; reflexivity); destruct (is_ready _ _ _); cbn; try (now intros [? ?]);
          destruct k, o; try contradiction; reflexivity.
      * subst o. constructor; cbn; rewrite ?E1, ?E2, ?E3; cbn; auto. exists rem. now rewrite !app_nil_r in *.
    + cbn in B |- *. destruct tx; cbn in *; try (apply Same; cbn; auto; fail).
      * destruct (len pe =? cap); [|apply Same; auto]. destruct sink; cbn in Mt; subst o; apply Same; auto; now intros [? ?].
      * subst o. destruct (len pe =? cap); [apply Same; auto|]. destruct cl; apply Same; auto; now intros [? ?].
      * unfold poll_at. apply Same; auto; cbn; destruct cl; cbn; try (now intros [? ?]);
          try (destruct k, o; try contradiction; reflexivity); destruct (is_ready _ _ _); cbn; try (now intros [? ?]);
          destruct k, o; try contradiction; reflexivity.
      * subst o. apply Same; auto. now intros [? ?].
  - assert (re = false \/ exists l e, rx = RDrop l e) as T.
    { destruct re; [right|now left]. specialize (G3 eq_refl). cbn in G3. destruct rx; try (destruct G3; contradiction). eauto. }
    assert (incoming (l ++ [e]) = incoming l) as E1 by (rewrite incoming_snoc, incoming_rx, app_nil_r; [reflexivity|now destruct e]).
    assert (overwritten (l ++ [e]) = overwritten l) as E3 by (rewrite overwritten_snoc, overwritten_rx, app_nil_r; [reflexivity|now destruct e]).
    assert (forall q', (match e with EDropV _ _ => False | _ => True end) -> q_pend q' = pe -> q_err q' = er -> q_txend q' = te -> q_rxend q' = re -> q_tx q' = tx ->
      fl_out (HRun o) (q_rx q') = fl_out (HRun o) rx ->
      (rx_gone (HRun o) rx -> rx_gone (HRun o) (q_rx q')) -> flow (l ++ [e]) q' a (HRun o)) as Same.
    { intros q' P0 P1 P2 P3 P4 P5 P6 P8. assert (outgoing (l ++ [e]) = outgoing l) as E2.
      { rewrite outgoing_snoc, outgoing_tx, app_nil_r; [reflexivity|]. now destruct e. }
      constructor; rewrite ?P1, ?P2, ?P3, ?P4, ?P5, ?P6, ?E1, ?E2, ?E3; eauto. }
    destruct e as [|?|[] ?|[] ?|[] v|[]|[]]; cbn in S; try discriminate; try (apply Same; reflexivity || auto; fail).
    + assert (outgoing (l ++ [EDropV RX v]) = outgoing l ++ [v]) as E2 by now rewrite outgoing_snoc.
      cbn in B |- *. destruct rx as [| | | | | |[|x l'] [x'|]|]; cbn in *; try discriminate;
        (match type of B with context [?x =? v] => destruct (N.eqb_spec x v); cbn in *; [subst|discriminate] end);
        (constructor; cbn; rewrite ?E1, ?E2, ?E3; cbn; auto; exists rem; split; [rewrite <- app_assoc; exact W1|exact W2]).
    + assert (outgoing (l ++ [ESync RX]) = outgoing l) as E2 by (rewrite outgoing_snoc; apply app_nil_r).
      assert (forall p w, recv_of p o -> (rx = RRecv p \/ rx = RWaiting) -> (match w with RWaiting | RRet REmpty | RRet RPending => True | _ => False end) ->
        flow (l ++ [ESync RX]) (recv (Ring pe er cl te re tx rx bd ra) w) a (HRun o)) as R.
      { intros p w Ho Hx Hw. assert (fl_out (HRun o) rx = []) as F0 by (now destruct Hx as [-> | ->]).
        rewrite F0, app_nil_r in W1. assert (re = false) as -> by (destruct T as [T|(? & ? & ->)]; [exact T|destruct Hx; discriminate]).
        assert (forall v, out o (RVal v) = [v] /\ out o (RError v) = [v]) as Ov by (intros v; destruct o; try contradiction; auto).
        unfold recv; cbn. destruct pe as [|x pe].
        - destruct er as [x|].
          + constructor; cbn; rewrite ?E1, ?E2, ?E3; cbn; auto; try discriminate; try congruence.
            exists (rem ++ [x]). rewrite (proj2 (Ov x)). cbn in W2. split; [now constructor|]. now rewrite app_nil_r.
          + apply Same; auto; cbn; [|intros [-> ?]; contradiction].
            etransitivity; [|symmetry; exact F0]. destruct (te || cl); cbn; [destruct o; reflexivity|]. destruct w as [| | | | | | |[]]; try contradiction; destruct o; reflexivity.
        - constructor; cbn; rewrite ?E1, ?E2, ?E3; cbn; auto; try discriminate.
          exists (rem ++ [x]). rewrite (proj1 (Ov x)). split; [now constructor|]. now rewrite <- W2, <- app_assoc. }
      cbn in B |- *. destruct rx; cbn [q_rx rsync] in *; try (apply Same; cbn; auto; fail).
      * cbn in Mr. subst o. apply Same; cbn; auto.
      * cbn in Mr. apply (R poll); auto. now destruct poll.
      * apply (R true); auto.
      * cbn in Mr. subst o. constructor; cbn; rewrite ?E1, ?E2, ?E3; cbn; auto; try congruence.
        exists (rem ++ pe ++ o2l er). split; [|now rewrite app_nil_r]. cbn in W1. rewrite app_nil_r in W1. now apply sh_l_app.
    + cbn in B |- *. destruct rx; cbn in *; try (apply Same; cbn; auto; fail). subst o. apply Same; auto.
  - cbn in B |- *. rewrite S in *. constructor.
    + exists rem. rewrite incoming_snoc, outgoing_snoc, overwritten_snoc, (incoming_ret o r S), (overwritten_ret o r S), (outgoing_tx (ERet o r) S), app_nil_r.
      assert (forall t, fl_in (hend o) t = [] /\ fl_ovr (hend o) t = []) as Z by (intros t; unfold hend; now destruct (rconsuming o)).
      rewrite !(proj1 (Z _)), !(proj2 (Z _)), !app_nil_r.
      destruct tx as [| | | | | | | |k| | |r' [|]]; cbn in *; try discriminate;
      (destruct (rres_eqb r _) eqn:Er; [|discriminate]); apply rres_eqb_ok in Er; subst; cbn; auto.
      destruct k, o; try contradiction; cbn; rewrite ?app_nil_r in *; auto.
    + assert (forall q', q_txend q' = true -> tx_gone (HRun o) tx -> tx_gone (hend o) (q_tx q')) as Z.
      { intros q' _ [C _]. unfold hend. now rewrite C. }
      destruct tx as [| | | | | | | |k| | |r' [|]]; cbn in *; try discriminate;
      (destruct (rres_eqb r _) eqn:Er; [|discriminate]); cbn; intros K; specialize (G1 K); [destruct G1; contradiction|].
      unfold hend. now rewrite (proj1 G1).
    + destruct tx as [| | | | | | | |k| | |r' [|]]; cbn in *; try discriminate;
      (destruct (rres_eqb r _) eqn:Er; [|discriminate]); cbn; auto.
    + destruct tx as [| | | | | | | |k| | |r' [|]]; cbn in *; try discriminate;
      (destruct (rres_eqb r _) eqn:Er; [|discriminate]); cbn; auto.
  - cbn in B |- *. rewrite S in *. constructor.
    + exists rem. rewrite incoming_snoc, outgoing_snoc, overwritten_snoc, (incoming_rx (ERet o r) S), (overwritten_rx (ERet o r) S), (outgoing_ret o r S), app_nil_r.
      assert (forall t, fl_out (hend o) t = []) as Z by (intros t; unfold hend; now destruct (rconsuming o)).
      rewrite !Z, !app_nil_r.
      destruct rx as [| | | | | |[|] [|]|r']; cbn in *; try discriminate;
      (destruct (rres_eqb r _) eqn:Er; [|discriminate]); apply rres_eqb_ok in Er; subst; cbn; rewrite ?app_nil_r; auto;
      try match goal with o : rop |- _ => destruct o; try contradiction; cbn; rewrite ?app_nil_r in *; auto end. rewrite app_nil_r in W1. auto.
    + destruct rx as [| | | | | |[|] [|]|r']; cbn in *; try discriminate;
      (destruct (rres_eqb r _) eqn:Er; [|discriminate]); cbn; auto.
    + destruct rx as [| | | | | |[|] [|]|r']; cbn in *; try discriminate;
      (destruct (rres_eqb r _) eqn:Er; [|discriminate]); cbn; auto.
    + destruct rx as [| | | | | |[|] [|]|r']; cbn in *; try discriminate;
      (destruct (rres_eqb r _) eqn:Er; [|discriminate]); cbn; intros K; specialize (G3 K); destruct G3 as [-> G3]; try contradiction; exact I.
Qed.

(** ** The error. *)
Lemma error_snoc l e : ring_error (l ++ [e]) = rstep (ring_error l) e.
Proof. unfold ring_error. now rewrite fold_left_app. Qed.

Record errok (b : errst) (q : ring) (a h : hs) : Prop := mkErrok {
  x_ok : r_bad b = false;
  x_pend : forall e, q_err q = Some e -> r_sent b = Some e /\ r_got b = false /\ q_txend q = true;
  x_fly : forall e, q_rx q = RRet (RError e) ->
    r_sent b = Some e /\ r_got b = false /\ q_txend q = true /\ q_err q = None /\ q_pend q = [] /\ q_rxend q = false;
  x_got : r_got b = true -> q_txend q = true /\ q_pend q = [] /\ q_err q = None /\
    match q_rx q with RWaiting | RRet (RVal _) | RRet (RError _) | RRet REmpty | RRet RPending => False | _ => True end;
  x_acc : r_acc b = true -> q_txend q = true /\ a = HGone /\ r_sent b <> None /\
    (r_got b = true \/ q_err q = r_sent b \/ (exists e, q_rx q = RRet (RError e)) \/ q_rxend q = true);
  x_end : q_rx q = RRet REnd -> (q_closed q = true \/ q_txend q = true) /\ q_err q = None;
  x_run : match a with
          | HRun (SendErr v) =>
              r_acc b = false /\ r_sent b = Some v /\
              match q_tx q with
              | TErr w => w = v /\ r_got b = false /\ q_err q = None /\ q_txend q = false
              | TRet (RBack w) [] => w = v /\ r_got b = false /\ q_err q = None /\ q_txend q = true /\ q_closed q = true /\ (forall e, q_rx q <> RRet (RError e))
              | TRet ROk [] => q_txend q = true /\
                  (r_got b = true \/ q_err q = r_sent b \/ (exists e, q_rx q = RRet (RError e)) \/ q_rxend q = true)
              | _ => False
              end
          | HGone => True
          | HRun DropTx => r_sent b = None /\ r_got b = false /\ r_acc b = false
          | _ => r_sent b = None /\ q_txend q = false /\ r_got b = false
          end;
  x_cl : q_rxend q = true -> q_closed q = true /\ q_err q = None /\ q_pend q = [] }.

Lemma error_hist cap l a b : hist l a b -> q_bad (queue cap l) = false -> errok (ring_error l) (queue cap l) a b.
Proof.
  induction 1 as [|l o b H IH S|l o a H IH S|l o b e H IH S|l o a e H IH S|l o r b H IH S|l o r a H IH S]; intros B.
  { constructor; cbn; try discriminate; auto. }
  all: specialize (IH (bad_pre _ _ _ B)); destruct (q_match _ _ _ _ H (bad_pre _ _ _ B)) as (Mt & Mr & _ & _);
    pose proof (flow_hist _ _ _ _ H (bad_pre _ _ _ B)) as [_ G1 G2 G3];
    rewrite queue_snoc in *; rewrite error_snoc; destruct (queue cap l) as [pe er cl te re tx rx bd ra]; destruct (ring_error l) as [sn ac gt bad];
    destruct IH as [X1 X2 X3 X4 X5 X6 X7 X8];
    cbn [q_pend q_err q_txend q_rxend q_tx q_rx q_closed r_sent r_acc r_got r_bad] in *; subst bad.
  - (* a call of the sender *)
    cbn in Mt. subst tx. cbn [qstep]. rewrite S. destruct X7 as (-> & -> & ->).
    assert (er = None) as -> by (destruct er as [e|]; [destruct (X2 e eq_refl) as (? & _); discriminate|reflexivity]).
    assert (ac = false) as -> by (destruct ac; [destruct (X5 eq_refl) as (? & _); discriminate|reflexivity]).
    assert (forall e, rx <> RRet (RError e)) as Rx by (intros e Ee; destruct (X3 e Ee) as (? & _); discriminate).
    destruct o; try discriminate; constructor; cbn; auto; try discriminate; try (intros e' E'; now apply Rx in E'); repeat split; auto.
  - cbn in Mr. subst rx. cbn [qstep]. rewrite S.
    assert (re = false) as -> by (destruct re; [destruct (G3 eq_refl)|reflexivity]).
    assert (rstep (Errst sn ac gt false) (EInv o) = Errst sn ac gt false) as -> by (destruct o; try discriminate; reflexivity).
    constructor; cbn; auto; try discriminate.
    + intros e E. destruct o; discriminate.
    + intros E. destruct (X4 E) as (? & ? & ? & _). repeat split; auto. destruct o; try discriminate; cbn; auto.
    + intros E. destruct (X5 E) as (? & ? & ? & [?|[?|[(e & ?)|?]]]); repeat split; auto; discriminate.
    + intros E. destruct o; discriminate.
    + destruct a as [|[]|]; auto. destruct X7 as (-> & -> & X7). repeat split; auto. cbn in *.
      destruct tx as [| | | | | | | | | | |[] []]; try contradiction; cbn in *; auto.
      * destruct X7 as (? & [?|[?|[(e & ?)|?]]]); split; auto; discriminate.
      * repeat split; try tauto. intros e. destruct o; discriminate.
  - assert (rstep (Errst sn ac gt false) e = Errst sn ac gt false) as -> by (destruct e; try discriminate; reflexivity).
    assert (forall t' pe' , (re = true -> pe' = pe) -> (te = true -> pe' = pe) ->
      match o with
      | SendErr v => ac = false /\ sn = Some v /\ match t' with
          | TErr w => w = v /\ gt = false /\ er = None /\ te = false
          | TRet (RBack w) [] => w = v /\ gt = false /\ er = None /\ te = true /\ cl = true /\ (forall e, rx <> RRet (RError e))
          | TRet ROk [] => te = true /\ (gt = true \/ er = sn \/ (exists e, rx = RRet (RError e)) \/ re = true)
          | _ => False end
      | DropTx => sn = None /\ gt = false /\ ac = false
      | _ => sn = None /\ te = false /\ gt = false end ->
      forall r, errok (Errst sn ac gt false) (Ring pe' er cl te re t' rx bd r) (HRun o) b) as Same.
    { intros t' pe' P1 P2 P3 r. constructor; cbn; auto.
      - intros e' E'. destruct (X3 e' E') as (? & ? & T & ? & ? & ?). rewrite P2 by assumption. auto.
      - intros E'. destruct (X4 E') as (T & ? & ? & ?). rewrite P2 by assumption. auto.
      - intros E'. rewrite P1 by assumption. auto. }
    destruct (match o with SendErr _ | DropTx => true | _ => false end) eqn:Eo.
    + destruct o; try discriminate.
      * destruct X7 as (-> & -> & X7).
        destruct tx as [| | | | | |w| | | | |r' [|]]; try contradiction.
        -- destruct X7 as (-> & -> & -> & ->).
           destruct e as [|?|[] ?|[] ?|[] x|[]|[]]; cbn in S; try discriminate; cbn in B |- *; try discriminate; try (apply Same; repeat split; auto; fail).
           assert (forall e, rx <> RRet (RError e)) as Rx by (intros e Ee; destruct (X3 e Ee) as (_ & _ & ? & _); discriminate).
           destruct cl; constructor; cbn; auto; try discriminate.
           all: try (intros e Ee; now apply Rx in Ee).
           all: try (intros E; destruct (X6 E) as ([?|?] & _); discriminate).
           all: try (intros E; destruct (X8 E) as (? & _); discriminate).
           all: try (intros e Ee; injection Ee as <-; auto).
           all: repeat split; auto.
           all: try (intros E; destruct (X6 E) as (_ & ?); auto).
        -- destruct e as [|?|[] ?|[] ?|[] x|[]|[]]; cbn in S; try discriminate; cbn in B |- *; try discriminate; apply Same; repeat split; auto.
        -- now destruct r'.
      * destruct X7 as (-> & -> & ->).
        destruct e as [|?|[] ?|[] ?|[] x|[]|[]]; cbn in S; try discriminate; cbn in B |- *; try (apply Same; repeat split; auto; fail).
        -- destruct tx as [| | | | | |w| | | | |r' [|]]; cbn in *; try discriminate. destruct (_ =? _); [|discriminate]. apply Same; repeat split; auto.
        -- destruct tx; cbn in *; try discriminate; try (apply Same; repeat split; auto; fail);
             try (destruct sink; discriminate); try (repeat match goal with x : kind |- _ => destruct x end; contradiction).
           assert (er = None) as -> by (destruct er as [e|]; [destruct (X2 e eq_refl) as (? & _); discriminate|reflexivity]).
           assert (forall e, rx <> RRet (RError e)) as Rx by (intros e Ee; destruct (X3 e Ee) as (? & _); discriminate).
           constructor; cbn; auto; try discriminate.
           intros e Ee. now apply Rx in Ee.
        -- destruct tx; cbn in *; try discriminate; try (apply Same; repeat split; auto; fail);
             try (destruct sink; discriminate); try (repeat match goal with x : kind |- _ => destruct x end; contradiction).
    + assert (sn = None /\ te = false /\ gt = false) as (-> & -> & ->) by (destruct o; try discriminate; exact X7).
      assert (match o with SendErr _ | DropTx => False | _ => True end) as Eo' by (destruct o; try discriminate; exact I).
      assert (forall t' pe', (re = true -> pe' = pe) -> forall r, errok (Errst None ac false false) (Ring pe' er cl false re t' rx bd r) (HRun o) b) as Same'.
      { intros t' pe' P r. apply Same; auto; [discriminate|]. destruct o; try contradiction; auto. }
      clear Same.
      destruct e as [|?|[] ?|[] ?|[] x|[]|[]]; cbn in S; try discriminate; cbn in B |- *; try (apply Same'; auto; fail).
      * destruct tx as [| | | | | |w| | | | |r' [|]]; cbn in *; try discriminate. destruct (_ =? _); [|discriminate]. now apply Same'.
      * destruct tx as [| | | | | | | | | | |]; cbn in *; unfold poll_at, look, with_tx, set_pend, fail in *; cbn in *; try (apply Same'; auto; fail); try (subst o; contradiction).
        -- destruct cl; apply Same'; auto. intros E. now destruct (X8 E).
        -- destruct cl; [apply Same'; auto|]. destruct (len pe =? cap); [|apply Same'; auto]. destruct pe; [discriminate|].
           apply Same'. intros E. now destruct (X8 E).
        -- destruct cl; apply Same'; auto. intros E. now destruct (X8 E).
      * destruct tx as [| | | | | | | | | | |]; cbn in *; unfold poll_at, look, with_tx, set_pend, fail in *; cbn in *; try (apply Same'; auto; fail); try (subst o; contradiction).
        -- destruct (len pe =? cap); apply Same'; auto.
        -- destruct (len pe =? cap); [apply Same'; auto|]. destruct cl; apply Same'; auto.
  - assert (rstep (Errst sn ac gt false) e = Errst sn ac gt false) as -> by (destruct e; try discriminate; reflexivity).
    assert (errok (Errst sn ac gt false) (Ring pe er cl te re tx rx bd ra) a (HRun o)) as Same by (constructor; cbn; assumption || reflexivity).
    assert (re = false \/ exists p d, rx = RDrop p d) as Re.
    { destruct re; [right|now left]. specialize (G3 eq_refl). cbn in G3. destruct G3 as (? & ?). destruct rx; try contradiction; eauto. }
    assert (forall rx', match rx with RRet _ => False | _ => True end ->
      match rx' with RWaiting | RRet (RVal _) | RRet (RError _) | RRet REmpty | RRet RPending => False | _ => True end ->
      (rx' = RRet REnd -> (cl = true \/ te = true) /\ er = None) ->
      errok (Errst sn ac gt false) (Ring pe er cl te re tx rx' bd ra) a (HRun o)) as Neu.
    { intros rx' P1 P2 P3. constructor; cbn; auto.
      - intros e' ->. contradiction.
      - intros E. destruct (X4 E) as (? & ? & ? & _). auto.
      - intros E. destruct (X5 E) as (? & ? & ? & [?|[?|[(e' & ->)|?]]]); repeat split; auto; contradiction.
      - destruct a as [|[]|]; auto. destruct X7 as (? & ? & X7). repeat split; auto.
        destruct tx as [| | | | | | | | | | |[] []]; auto.
        + destruct X7 as (? & [?|[?|[(e' & ->)|?]]]); split; auto; contradiction.
        + repeat split; try tauto. intros e' ->. contradiction. }
    assert (forall w, match rx with RRet _ | RDrop _ _ => False | _ => True end ->
      match w with RWaiting | RRet REmpty | RRet RPending => True | _ => False end ->
      errok (Errst sn ac gt false) (recv (Ring pe er cl te re tx rx bd ra) w) a (HRun o)) as Rcv.
    { intros w P1 P2. unfold recv. cbn [q_pend q_err q_txend q_closed].
      assert (re = false) as -> by (destruct Re as [?|(? & ? & ->)]; [assumption|contradiction]).
      assert (forall e, rx <> RRet (RError e)) as Rx by (intros e' ->; contradiction).
      destruct pe as [|v p].
      - destruct er as [e'|].
        + destruct (X2 e' eq_refl) as (-> & -> & ->). constructor; cbn; auto; try discriminate.
          * intros e'' E. injection E as ->. repeat split.
          * intros E. destruct (X5 E) as (? & ? & ? & _). repeat split; eauto.
          * destruct a as [|[]|]; auto. destruct X7 as (? & ? & X7). repeat split; auto.
            destruct tx as [| | | | | | | | | | |[] []]; auto; try (exfalso; decompose [and] X7; discriminate). split; eauto.
        + destruct (te || cl) eqn:Et; cbn.
          * apply Neu; auto; [destruct rx; auto|]. intros _. split; auto. apply orb_true_iff in Et. tauto.
          * apply orb_false_iff in Et as (-> & ->). constructor; cbn; auto.
            -- intros e' ->. contradiction.
            -- intros E. destruct (X4 E) as (? & _). discriminate.
            -- intros E. destruct (X5 E) as (? & _). discriminate.
            -- intros ->. contradiction.
            -- destruct a as [|[]|]; auto. destruct X7 as (? & ? & X7). repeat split; auto.
               destruct tx as [| | | | | | | | | | |[] []]; auto; try (exfalso; decompose [and] X7; discriminate).
      - assert (gt = false) as -> by (destruct gt; [destruct (X4 eq_refl) as (_ & ? & _); discriminate|reflexivity]).
        constructor; cbn; auto; try discriminate.
        + intros E. destruct (X5 E) as (? & ? & ? & [?|[?|[(e' & Z)|?]]]); repeat split; auto; try discriminate. now apply Rx in Z.
        + destruct a as [|[]|]; auto. destruct X7 as (? & ? & X7). repeat split; auto.
          destruct tx as [| | | | | | | | | | |[] []]; auto.
          * destruct X7 as (? & [?|[?|[(e' & ->)|?]]]); split; auto; try discriminate; contradiction.
          * repeat split; try tauto. intros e' ?. discriminate. }
    destruct e as [|?|[] ?|[] ?|[] x|[]|[]]; cbn in S; try discriminate; cbn in B |- *; try exact Same.
    + destruct rx as [| | | | | |[|v p] [d|]|]; cbn in *; try discriminate; destruct (_ =? _); try discriminate; apply Neu; auto; discriminate.
    + destruct rx as [| | | | | |[|v p] [d|]|]; cbn -[recv] in *; try exact Same.
      * (* close *) constructor; cbn; auto; try discriminate.
        all: try (intros E; destruct (X4 E) as (? & ? & ? & _); auto; fail).
        all: try (intros E; destruct (X8 E) as (? & ? & ?); auto; fail).
        all: try (intros E; destruct (X5 E) as (? & ? & ? & [?|[?|[(e' & ?)|?]]]); repeat split; auto; discriminate).
        all: destruct a as [|[]|]; auto; destruct X7 as (? & ? & X7); repeat split; auto.
        all: destruct tx as [| | | | | | | | | | |[] []]; auto.
        all: try (destruct X7 as (? & [?|[?|[(e' & ?)|?]]]); split; auto; discriminate).
        all: try tauto; repeat split; try tauto; intros e' ?; discriminate.
      * apply Rcv; auto. destruct poll; auto.
      * apply Rcv; auto.
      * (* drop *) constructor; cbn; auto; try discriminate.
        all: try (intros E; destruct (X4 E) as (? & ? & ? & _); auto; fail).
        all: try (intros E; destruct (X8 E) as (? & ? & ?); auto; fail).
        all: try (intros E; destruct (X5 E) as (? & ? & ? & [?|[?|[(e' & ?)|?]]]); repeat split; auto; discriminate).
        all: destruct a as [|[]|]; auto; destruct X7 as (? & ? & X7); repeat split; auto.
        all: destruct tx as [| | | | | | | | | | |[] []]; auto.
        all: try (destruct X7 as (? & [?|[?|[(e' & ?)|?]]]); split; auto; discriminate).
        all: try tauto; repeat split; try tauto; intros e' ?; discriminate.
    + destruct rx as [| | | | | |[|v p] [d|]|]; cbn in *; try exact Same. apply Neu; auto; discriminate.
  - cbn in B |- *. rewrite S in *.
    assert (errok (rstep (Errst sn ac gt false) (ERet o r)) (Ring pe er cl te re TNo rx bd ra) (hend o) b) as K.
    { destruct (match o with SendErr _ => true | _ => false end) eqn:Eo.
      - destruct o; try discriminate. destruct X7 as (-> & -> & X7).
        destruct tx as [| | | | | | | | | | |r' []]; cbn in *; try discriminate; try contradiction.
        destruct (rres_eqb r r') eqn:Er; [|discriminate]. apply rres_eqb_ok in Er as ->.
        destruct r'; try contradiction; cbn.
        + constructor; cbn; auto; try (now rewrite N.eqb_refl).
          intros _. destruct X7 as (? & X7). repeat split; auto. discriminate.
        + destruct X7 as (-> & -> & -> & -> & -> & ?). constructor; cbn; auto; try discriminate.
          * now rewrite N.eqb_refl.
          * intros e E. now apply H0 in E.
      - assert (rstep (Errst sn ac gt false) (ERet o r) = Errst sn ac gt false) as -> by (destruct o; try discriminate; reflexivity).
        constructor; cbn; auto.
        + intros E. destruct (X5 E) as (? & ? & ? & ?). discriminate.
        + destruct o; try discriminate; cbn; auto. }
    destruct tx as [| | | | | | | | | | |r' []]; cbn in *; try discriminate; (destruct (rres_eqb _ _); [|discriminate]); exact K.
  - cbn in B |- *. rewrite S in *.
    assert (rx = RRet r \/ (rx = RWaiting /\ r = RPending) \/ (rx = RDrop [] None /\ r = RUnit)) as Er.
    { destruct rx as [| | | | | |[] []|]; cbn in *; try discriminate; (destruct (rres_eqb _ _) eqn:E; [|discriminate]); apply rres_eqb_ok in E; subst; auto. }
    assert (errok (rstep (Errst sn ac gt false) (ERet o r)) (Ring pe er cl te re tx RNo bd ra) a (hend o)) as K.
    { destruct (match o with TryNext | PollNext _ => true | _ => false end) eqn:Eo.
      - assert (re = false) as -> by (destruct re; [destruct (G3 eq_refl) as (-> & _); discriminate|reflexivity]).
        assert (rx <> RDrop [] None) as Rd by (intros ->; cbn in Mr; subst o; discriminate).
        assert (match r with RError e => sn = Some e /\ gt = false /\ te = true /\ er = None /\ pe = []
                | REnd => er = None /\ (ac = true -> gt = true) | _ => gt = false end) as Z.
        { destruct Er as [->|[(-> & ->)|(-> & _)]]; [| |now contradiction Rd].
          - destruct r; try (destruct gt; [destruct (X4 eq_refl) as (_ & _ & _ & X4'); cbn in X4'; try contradiction; cbn in Mr; destruct o; try discriminate; contradiction|reflexivity]).
            + destruct (X6 eq_refl) as (_ & ->). split; auto. intros E. destruct (X5 E) as (_ & _ & ? & [?|[?|[(? & ?)|?]]]); congruence.
            + destruct (X3 _ eq_refl) as (? & ? & ? & ? & ? & _). auto.
          - destruct gt; auto. destruct (X4 eq_refl) as (_ & _ & _ & []). }
        assert (match r with RError e => False | _ => True end -> rstep (Errst sn ac gt false) (ERet o r) = Errst sn ac gt false) as R1.
        { intros Ne. destruct r; try contradiction; try (subst gt; destruct o; try discriminate; reflexivity).
          destruct Z as (_ & Z). destruct o; try discriminate; cbn; destruct ac, gt; auto; now specialize (Z eq_refl). }
        assert (forall g', (g' = false -> forall e, rx <> RRet (RError e)) -> (gt = true -> g' = true) ->
          (g' = true -> te = true /\ pe = [] /\ er = None) -> (g' = true -> gt = true \/ exists e, rx = RRet (RError e)) ->
          errok (Errst sn ac g' false) (Ring pe er cl te false tx RNo bd ra) a (hend o)) as U.
        { intros g' P1 P2 P3 P4. constructor; cbn; auto; try discriminate.
          - intros e E. destruct (X2 e E) as (? & ? & ?). repeat split; auto. destruct g'; auto. destruct (P3 eq_refl) as (_ & _ & ?). congruence.
          - intros E. destruct (P3 E) as (? & ? & ?). auto.
          - intros E. destruct (X5 E) as (? & ? & ? & [?|[?|[(e' & ?)|?]]]); repeat split; auto; try discriminate.
            destruct g'; auto. now contradiction (P1 eq_refl e').
          - assert (forall e, gt = false -> rx <> RRet (RError e) -> g' = true -> sn = Some e -> False) as P5.
            { intros e E1 E2 E3 E4. destruct (P4 E3) as [?|(e' & E5)]; [congruence|]. destruct (X3 e' E5) as (? & _). congruence. }
            destruct a as [|[]|]; auto.
            all: try (destruct X7 as (-> & -> & ->); repeat split; auto; destruct g'; auto; now destruct (P3 eq_refl)).
            + destruct X7 as (? & ? & X7). repeat split; auto.
              destruct tx as [| | | | | | | | | | |[] []]; auto.
              * destruct X7 as (? & ? & ? & ->). repeat split; auto. destruct g'; auto. now destruct (P3 eq_refl).
              * destruct X7 as (? & [?|[?|[(e' & ?)|?]]]); split; auto; try discriminate.
                destruct g'; auto. now contradiction (P1 eq_refl e').
              * destruct X7 as (? & ? & ? & ? & ? & ?). repeat split; auto; try discriminate.
                destruct g'; auto. exfalso. eapply P5; eauto.
            + destruct X7 as (-> & -> & ->). repeat split; auto. destruct g'; auto. destruct (P4 eq_refl) as [?|(e' & E)]; auto.
              destruct (X3 e' E) as (? & _). discriminate. }
        destruct (match r with RError _ => true | _ => false end) eqn:Ee.
        + destruct r as [| | | | | | | | | | | | | | |e]; try discriminate. destruct Z as (-> & -> & -> & -> & ->).
          assert (rstep (Errst (Some e) ac false false) (ERet o (RError e)) = Errst (Some e) ac true false) as ->
            by (destruct o; try discriminate; cbn; rewrite N.eqb_refl; reflexivity).
          apply U; auto; try discriminate. intros _. right. destruct Er as [->|[(-> & ?)|(-> & ?)]]; try discriminate. eauto.
        + rewrite R1 by (destruct r; try discriminate; exact I). apply U; auto.
          * intros _ e ->. destruct Er as [E|[(E & _)|(E & _)]]; try discriminate. injection E as <-. discriminate.
          * intros E. destruct (X4 E) as (? & ? & ? & _). auto.
      - assert (rstep (Errst sn ac gt false) (ERet o r) = Errst sn ac gt false) as ->
          by (destruct o; try discriminate; reflexivity).
        assert (forall e, rx <> RRet (RError e)) as Rx.
        { intros e ->. cbn in Mr. destruct Mr as (p & Mr). destruct o; cbn in Mr; try discriminate; contradiction. }
        constructor; cbn; auto; try discriminate.
        + intros E. destruct (X4 E) as (? & ? & ? & _). auto.
        + intros E. destruct (X5 E) as (? & ? & ? & [?|[?|[(e' & Z)|?]]]); repeat split; auto. now apply Rx in Z.
        + destruct a as [|[]|]; auto. destruct X7 as (? & ? & X7). repeat split; auto.
          destruct tx as [| | | | | | | | | | |[] []]; auto.
          * destruct X7 as (? & [?|[?|[(e' & Z)|?]]]); split; auto. now apply Rx in Z.
          * repeat split; try tauto. intros e' ?. discriminate. }
    destruct rx as [| | | | | |[] []|]; cbn in *; try discriminate; (destruct (rres_eqb _ _); [|discriminate]); exact K.
Qed.
