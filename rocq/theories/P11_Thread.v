(** Properties of thread-local storage (C47). *)
Require Import NArith List Bool Lia.
From Verif Require Import ThreadSpec Thread.
Import ListNotations.
Open Scope N_scope.
Local Arguments N.add : simpl never.
Local Arguments N.sub : simpl never.
Local Arguments N.modulo : simpl never.
Local Arguments N.pow : simpl never.

Definition idx (o : option N) : N := match o with Some i => i + 1 | None => 0 end.
(** [c]: what [current] is while the frames [l] are on top of the stack. *)
Fixpoint good (count : N) (l : list tframe) (c : N) (o : list (option N)) : Prop :=
  match l with
  | [] => c = 0 /\ o = []
  | TIrq :: r => exists o', o = None :: o' /\ good count r c o'
  | TLoad i :: r => i < count /\ good count r c o
  | TStore i p :: r => i < count /\ p = c /\ good count r c o
  | TBody i p :: r => i < count /\ c = i + 1 /\ exists o', o = Some i :: o' /\ good count r p o'
  | TRestore p :: r => exists i o', c = i + 1 /\ o = Some i :: o' /\ good count r p o'
  end.

Lemma inside_app l e : inside (l ++ e) = fold_left (fun r e => match e with
    | EIn i => Some i :: r | EIrq => None :: r | EOut | EIret => tl r | ELocal _ => r end) e (inside l).
Proof. unfold inside. apply fold_left_app. Qed.

Lemma good_nearest count l c o : good count l c o -> c = idx (nearest o).
Proof.
  revert c o. induction l as [|f l IH]; simpl; intros c o H.
  - now destruct H as (-> & ->).
  - destruct f; simpl in H.
    + destruct H as (o' & -> & H). simpl. now apply IH.
    + apply IH, H.
    + apply IH, H.
    + now destruct H as (_ & -> & o' & -> & _).
    + now destruct H as (i & o' & -> & -> & _).
Qed.

Definition holds (P : list tev -> tev -> Prop) (l : list tev) : Prop := forall a e b, l = a ++ e :: b -> P a e.
Definition fine (a : list tev) (e : tev) : Prop := match e with ELocal r => r = nearest (inside a) | _ => True end.

Lemma holds_snoc P l e : holds P l -> P l e -> holds P (l ++ [e]).
Proof.
  intros A H a f b E. destruct b as [|g b].
  - apply app_inj_tail in E as (<- & <-). exact H.
  - destruct (exists_last (l := g :: b) ltac:(discriminate)) as (b' & z & Z). rewrite Z in E.
    change (a ++ f :: b' ++ [z]) with (a ++ (f :: b') ++ [z]) in E. rewrite app_assoc in E. apply app_inj_tail in E as (-> & _).
    now apply (A a f b').
Qed.

Lemma tstep_inv count s a : count <= 65535 ->
  good count (tstk s) (current s) (inside (tlog s)) -> holds fine (tlog s) ->
  good count (tstk (tstep count s a)) (current (tstep count s a)) (inside (tlog (tstep count s a))) /\
  holds fine (tlog (tstep count s a)).
Proof.
  intros C G A.
  assert (Loc : good count (tstk s) (current s) (inside (tlog s ++ [ELocal (local_checked s)])) /\
    holds fine (tlog s ++ [ELocal (local_checked s)])).
  { rewrite inside_app. simpl. split; auto. apply holds_snoc; auto. simpl. apply good_nearest in G. unfold local_checked.
    rewrite G. destruct (nearest _) as [i|]; simpl; auto. destruct (N.eqb_spec (i + 1) 0); [lia|]. f_equal. lia. }
  destruct a as [|i| | |]; unfold tstep; destruct (tstk s) as [|f r] eqn:E; unfold tset; cbn [tstk current tlog]; rewrite ?E; auto.
  - rewrite inside_app. simpl. split; [eauto|]. now apply holds_snoc.
  - rewrite inside_app. cbn [fold_left good]. split; [eauto|]. now apply holds_snoc.
  - destruct f; rewrite ?E; auto; destruct (N.ltb_spec i count); cbn [tstk current tlog]; rewrite ?app_nil_r, ?E; auto; split; auto; split; auto.
  - destruct f; cbn [tstk current tlog]; rewrite ?E; auto.
  - destruct f; cbn [tstk current tlog]; rewrite ?E; auto.
    + simpl in G. destruct G as (o & G & G'). rewrite inside_app, G. simpl. split; auto. now apply holds_snoc.
    + rewrite app_nil_r. simpl in *. destruct G as (G1 & G2 & o & G3 & G4). split; auto. exists i, o. auto.
  - destruct f; cbn [tstk current tlog]; rewrite ?E; auto.
    + rewrite app_nil_r. simpl in *. destruct G. auto.
    + rewrite inside_app. simpl in *. destruct G as (G1 & -> & G2). split; [|now apply holds_snoc].
      split; auto. split; [apply N.mod_small; change (2 ^ 16) with 65536; lia|]. eauto.
    + simpl in G. destruct G as (i & o & _ & G & G'). rewrite inside_app, G. simpl. split; auto. now apply holds_snoc.
Qed.

Lemma trun_inv count l : count <= 65535 -> holds fine (tlog (trun count tinit l)).
Proof.
  intros C. assert (H : good count (tstk tinit) (current tinit) (inside (tlog tinit)) /\ holds fine (tlog tinit)).
  { split; [easy|]. intros [|] e b E; discriminate. }
  unfold trun. revert H. generalize tinit as s. induction l as [|a l IH]; simpl; intros s (G & A); auto.
  apply IH. now apply tstep_inv.
Qed.

(** An execution of a pool of [count] threads. *)
Definition locals (count : N) (l : list tact) : list tev := tlog (trun count tinit l).

(** ** C47: thread-local storage *)

(** A handler outside of the pool gets the storage of the thread it has interrupted. *)
Definition intruder : list tact := [TInt; TCall 0; TGo; TGo; TInt; TLocal].
Theorem C47_outside_refuted : exists l a r, locals 1 l = a ++ [ELocal r] /\ hd_error (inside a) = Some None /\ r <> None.
Proof. exists intruder, [EIrq; EIn 0; EIrq], (Some 0). vm_compute. repeat split; auto. discriminate. Qed.
Print Assumptions C47_outside_refuted.

(** The code of a thread gets the storage of that thread; [count] is a [u16]. *)
Theorem C47_own_storage count l a r e i o : count <= 65535 ->
  locals count l = a ++ ELocal r :: e -> inside a = Some i :: o -> r = Some i.
Proof. intros C E I. pose proof (trun_inv count l C _ _ _ E) as H. simpl in H. now rewrite I in H. Qed.
Print Assumptions C47_own_storage.

(** Code outside of the pool gets none.  Missing: code that has interrupted a thread. *)
Theorem C47_outside_partial count l a r e : count <= 65535 ->
  locals count l = a ++ ELocal r :: e -> (forall i, ~ In (Some i) (inside a)) -> r = None.
Proof.
  intros C E I. pose proof (trun_inv count l C _ _ _ E) as H. simpl in H. rewrite H. clear H E.
  induction (inside a) as [|[i|] o IH]; simpl in *; auto.
  - destruct (I i). auto.
  - apply IH. intros i X. apply (I i). auto.
Qed.
Print Assumptions C47_outside_partial.

(** Thread 3 is interrupted in the middle of starting; a handler runs thread 5, which runs
    thread 4; each asks for its storage. *)
Example C47_case :
  locals 6 [TInt; TLocal; TCall 3; TGo; TInt; TCall 5; TGo; TGo; TLocal; TCall 4; TGo; TGo; TLocal; TRet; TGo; TLocal; TRet; TGo; TRet;
            TGo; TLocal; TRet; TGo; TLocal] =
  [EIrq; ELocal None; EIrq; EIn 5; ELocal (Some 5); EIn 4; ELocal (Some 4); EOut; ELocal (Some 5); EOut; EIret; EIn 3;
   ELocal (Some 3); EOut; ELocal None].
Proof. vm_compute. reflexivity. Qed.

(** ** C78: storage referred to by fibers *)

Definition fibered (count : N) (l : list fact) : list fev := flog (ffrun count l).

(** Thread 0 adds a fiber to thread 1: the fiber runs in thread 1 with the storage of
    thread 0, even while thread 0 is in the middle of using it. *)
Definition smuggle : list fact :=
  map FThr [TInt; TCall 0; TGo; TGo] ++ [FAdd 1] ++ map FThr [TInt; TCall 1; TGo; TGo] ++ [FResume 0].
Theorem C78_stays_in_thread_refuted : exists l a r i o,
  fibered 2 l = a ++ [FUse (Some r)] /\ inside (plain a) = Some i :: o /\ r <> i /\ In (Some r) o.
Proof.
  exists smuggle, [FEv EIrq; FEv (EIn 0); FMake 1 (Some 0); FEv EIrq; FEv (EIn 1)], 0, 1, [None; Some 0; None].
  vm_compute. repeat split; auto. discriminate.
Qed.
Print Assumptions C78_stays_in_thread_refuted.

Lemma plain_app a b : plain (a ++ b) = plain a ++ plain b.
Proof. apply flat_map_app. Qed.
Lemma plain_map l : plain (map FEv l) = l.
Proof. induction l as [|e l IH]; simpl; f_equal; auto. Qed.
Lemma tstep_log count s a : exists e, tlog (tstep count s a) = tlog s ++ e.
Proof.
  destruct a; unfold tstep, tset; destruct (tstk s) as [|[] r]; cbn [tlog]; eauto; try (exists []; now rewrite app_nil_r).
  all: destruct (i <? count); cbn [tlog]; eauto; exists []; now rewrite app_nil_r.
Qed.
Lemma skipn_app_len {A} (l e : list A) : skipn (length l) (l ++ e) = e.
Proof. rewrite skipn_app, skipn_all, PeanoNat.Nat.sub_diag. reflexivity. Qed.

Definition fholds (P : list fev -> fev -> Prop) (l : list fev) : Prop := forall a e b, l = a ++ e :: b -> P a e.
Lemma fholds_app P l m : fholds P l -> (forall a e b, m = a ++ e :: b -> P (l ++ a) e) -> fholds P (l ++ m).
Proof.
  intros A H a e b E. revert a m E H. induction l as [|x l IH] using rev_ind; intros a m E H; [now apply (H a e b)|].
  rewrite <- app_assoc in E. apply (IH (fun a e b E => A a e (b ++ [x]) ltac:(now rewrite E, <- app_assoc)) a (x :: m) E).
  intros [|y c] f d D; simpl in D; inversion D; subst.
  - rewrite app_nil_r. now apply (A l f []).
  - replace (l ++ y :: c) with ((l ++ [y]) ++ c) by now rewrite <- app_assoc. now apply (H c f d).
Qed.
(** A fiber refers to what its factory found: the storage of the code that called the factory. *)
Definition ffine (a : list fev) (e : fev) : Prop :=
  match e with
  | FEv _ => True
  | FMake i r => r = nearest (inside (plain a))
  | FUse r => exists i o, inside (plain a) = Some i :: o /\ In (FMake i r) a
  end.
Definition finv (count : N) (s : fst_) : Prop :=
  plain (flog s) = tlog (fthr s) /\ (forall i r, In (i, r) (fibs s) -> In (FMake i r) (flog s)) /\ fholds ffine (flog s) /\
  good count (tstk (fthr s)) (current (fthr s)) (inside (tlog (fthr s))) /\ holds fine (tlog (fthr s)).
Lemma ffstep_inv count s a : count <= 65535 -> finv count s -> finv count (ffstep count s a).
Proof.
  intros C (P & F & H & G & A). assert (Q : finv count s) by (split; [|split; [|split; [|split]]]; auto).
  destruct a as [a|i|k]; unfold ffstep.
  - destruct (tstep_inv count (fthr s) a C G A) as (G' & A'). destruct (tstep_log count (fthr s) a) as (e & E).
    split; [|split; [|split; [|split]]]; cbn [fthr fibs flog]; auto.
    + rewrite plain_app, plain_map, P, E, skipn_app_len. reflexivity.
    + intros j r X. apply in_or_app. auto.
    + apply fholds_app; auto. intros b f d D.
      assert (X : In f (map FEv (skipn (length (tlog (fthr s))) (tlog (tstep count (fthr s) a))))) by (rewrite D; apply in_elt).
      apply in_map_iff in X as (x & <- & _). exact I.
  - assert (R : i < count -> finv count (Fst (fthr s) (fibs s ++ [(i, local_checked (fthr s))])
      (flog s ++ [FMake i (local_checked (fthr s))]))).
    { intros L. split; [|split; [|split; [|split]]]; cbn [fthr fibs flog]; auto.
      - rewrite plain_app, P. apply app_nil_r.
      - intros j r X. apply in_app_or in X as [X|[X|[]]]; apply in_or_app; [left; auto|right; left; now inversion X].
      - apply fholds_app; auto. intros [|x b] f d D; simpl in D; inversion D; subst; [|now destruct b]. rewrite app_nil_r. simpl.
        rewrite P. apply good_nearest in G. unfold local_checked. rewrite G. destruct (nearest _) as [j|]; simpl; auto.
        destruct (N.eqb_spec (j + 1) 0); [lia|]. f_equal. lia. }
    destruct (tstk (fthr s)) as [|[] r] eqn:E; auto; destruct (N.ltb_spec i count); auto.
  - destruct (tstk (fthr s)) as [|[|?|? ?|i p|?] r] eqn:E; auto. destruct (nth_error (fibs s) k) as [(j & x)|] eqn:N; auto.
    destruct (N.eqb_spec j i) as [->|]; auto. apply nth_error_In in N.
    split; [|split; [|split; [|split]]]; cbn [fthr fibs flog]; rewrite ?E; auto.
    + rewrite plain_app, P. apply app_nil_r.
    + intros m y X. apply in_or_app. auto.
    + apply fholds_app; auto. intros [|y b] f d D; simpl in D; inversion D; subst; [|now destruct b]. rewrite app_nil_r. simpl.
      rewrite P. destruct G as (_ & _ & o & G & _). exists i, o. auto.
Qed.
Lemma ffrun_inv count l : count <= 65535 -> finv count (ffrun count l).
Proof.
  intros C. assert (H : finv count (Fst tinit [] [])).
  { split; [|split; [|split; [|split]]]; simpl; auto; try easy; intros [|] e b E; discriminate. }
  unfold ffrun. revert H. generalize (Fst tinit [] []) as s. induction l as [|a l IH]; cbn [fold_left]; intros s H; auto.
  apply IH. now apply ffstep_inv.
Qed.

(** A fiber that runs in a thread refers to the storage of that thread, if every factory
    for that thread was called by code of that thread (or by a handler that had interrupted
    it).  Missing: factories called by anything else. *)
Theorem C78_stays_in_thread_partial count l a r i o e : count <= 65535 ->
  fibered count l = a ++ FUse r :: e -> inside (plain a) = Some i :: o ->
  (forall b x c, a = b ++ FMake i x :: c -> nearest (inside (plain b)) = Some i) -> r = Some i.
Proof.
  intros C E I M. destruct (ffrun_inv count l C) as (_ & _ & H & _). pose proof (H _ _ _ E) as (j & o' & J & X).
  rewrite I in J. inversion J; subst j o'. apply in_split in X as (b & c & X).
  rewrite <- (M b r c X). unfold fibered in E. rewrite E, X, <- app_assoc in H. exact (H b (FMake i r) _ eq_refl).
Qed.
Print Assumptions C78_stays_in_thread_partial.

(** A fiber refers to the storage of whoever called its factory. *)
Theorem C78_factory_runs_in_caller count l a r e : count <= 65535 ->
  fibered count l = a ++ FUse r :: e ->
  exists b i c, a = b ++ FMake i r :: c /\ r = nearest (inside (plain b)) /\ hd_error (inside (plain a)) = Some (Some i).
Proof.
  intros C E. destruct (ffrun_inv count l C) as (_ & _ & H & _). pose proof (H _ _ _ E) as (i & o & I & X).
  apply in_split in X as (b & c & X). exists b, i, c. rewrite I. split; auto. split; auto.
  unfold fibered in E. rewrite E, X, <- app_assoc in H. exact (H b (FMake i r) _ eq_refl).
Qed.
Print Assumptions C78_factory_runs_in_caller.

(** Thread 1 gives itself a fiber, is left and entered again. *)
Example C78_case :
  fibered 2 (map FThr [TInt; TCall 1; TGo; TGo] ++ [FAdd 1] ++ map FThr [TRet; TGo; TCall 1; TGo; TGo] ++ [FResume 0]) =
  [FEv EIrq; FEv (EIn 1); FMake 1 (Some 1); FEv EOut; FEv (EIn 1); FUse (Some 1)].
Proof. vm_compute. reflexivity. Qed.
