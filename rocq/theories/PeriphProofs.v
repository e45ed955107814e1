(** Proofs about peripherals. *)
Require Import List Bool String Permutation Arith Lia.
From Verif Require Import CfgSpec Cfg Names PeriphSpec Periph.
Import ListNotations.
Open Scope string_scope.

(** ** Types and struct expressions. *)
Lemma fty_eqb_eq a b : fty_eqb a b = true <-> a = b.
Proof. destruct a, b; cbn; try (split; congruence). rewrite String.eqb_eq. split; congruence. Qed.
Lemma ty_eqb_eq a b : ty_eqb a b = true <-> a = b.
Proof.
  destruct a, b; cbn; try (split; congruence); rewrite ?andb_true_iff, ?fty_eqb_eq, ?String.eqb_eq.
  - split; [intros (-> & ->)|intros [= -> ->]]; auto.
  - split; [intros ((-> & ->) & ->)|intros [= -> -> ->]]; auto.
Qed.
Lemma fill_ok ms : forall vs p, fill ms vs = Some p ->
  Forall2 (fun m e => fst e = fst m /\ type_of (snd e) = snd m /\ lookup (fst m) vs = Some (snd e)) ms p.
Proof.
  induction ms as [|[n t] ms IH]; intros vs p; cbn; [intros [= <-]; constructor|].
  destruct (lookup n vs) as [v|] eqn:L; [|discriminate]. destruct (ty_eqb (type_of v) t) eqn:T; [|discriminate].
  destruct (fill ms vs) as [q|] eqn:F; [|discriminate]. intros [= <-]. constructor; [|auto].
  cbn. rewrite ty_eqb_eq in T. auto.
Qed.
Definition ty_of (w : path) : ty := match w with PathReg b r => TyReg b r | PathFld b r f => TyFld b r (FTy f) end.
Lemma ty_token v w : type_of v = ty_of w -> token_of v = Some w.
Proof.
  destruct v, w; cbn; try discriminate; [intros [= -> ->]; auto|].
  unfold field_ty. destruct (f =? "val"); intros [= -> -> ->]; auto.
Qed.

(** ** What is moved is no longer where it was. *)
Definition left_in (s : slot) : list path :=
  match s_state s with
  | Whole => PathReg (s_block s) (s_reg s) :: map (PathFld (s_block s) (s_reg s)) (s_fields s)
  | Part l => map (PathFld (s_block s) (s_reg s)) l
  | Gone => []
  end.
Definition lefts (ix : index) : list path := flat_map left_in ix.

Lemma pick_perm f l : forall x r, pick f l = Some (x, r) -> Permutation l (x :: r) /\ unkeywordize x = f.
Proof.
  induction l as [|y l IH]; intros x r; cbn; [discriminate|].
  destruct (unkeywordize y =? f) eqn:E; [intros [= <- <-]; apply String.eqb_eq in E; auto|].
  destruct (pick f l) as [[x' r']|]; [|discriminate]. intros [= <- <-]. cbn.
  destruct (IH _ _ eq_refl) as [P U]. split; [|exact U]. rewrite P. apply perm_swap.
Qed.
Lemma update_get n g : (forall s v s', g s = Some (v, s') -> s_name s' = s_name s) -> forall ix v ix', update n g ix = Some (v, ix') ->
  exists l s s' r, ix = (l ++ s :: r)%list /\ ix' = (l ++ s' :: r)%list /\ s_name s = n /\ g s = Some (v, s') /\ ~ In n (map s_name l).
Proof.
  intros G. induction ix as [|s ix IH]; intros v ix'; cbn; [discriminate|].
  destruct (s_name s =? n) eqn:E.
  - apply String.eqb_eq in E. destruct (g s) as [[v' s']|] eqn:K; [|discriminate]. intros [= <- <-].
    exists [], s, s', ix. cbn. repeat split; auto.
  - destruct (update n g ix) as [[v' ix1]|] eqn:U; [|discriminate]. intros [= <- <-]. cbn.
    destruct (IH _ _ eq_refl) as (l & s0 & s1 & r & -> & -> & N & K & I). exists (s :: l), s0, s1, r. repeat split; auto.
    cbn. intros [J|J]; [|auto]. rewrite J, String.eqb_refl in E. discriminate.
Qed.
Lemma move_reg_name s v s' : move_reg s = Some (v, s') -> s_name s' = s_name s.
Proof. unfold move_reg. destruct (s_state s); [|discriminate..]. intros [= <- <-]. reflexivity. Qed.
Lemma move_fld_name f s v s' : move_fld f s = Some (v, s') -> s_name s' = s_name s.
Proof.
  unfold move_fld. destruct (s_state s); [| |discriminate];
  match goal with |- context [pick ?f ?l] => destruct (pick f l) as [[? ?]|]; [|discriminate] end; intros [= <- <-]; reflexivity.
Qed.
Lemma move_reg_keeps s v s' : move_reg s = Some (v, s') -> exists lost, Permutation (lost ++ owns v ++ left_in s') (left_in s).
Proof.
  unfold move_reg, left_in. destruct (s_state s); [|discriminate..]. intros [= <- <-]. exists []. cbn. rewrite app_nil_r. reflexivity.
Qed.
Lemma move_fld_keeps f s v s' : move_fld f s = Some (v, s') -> exists lost, Permutation (lost ++ owns v ++ left_in s') (left_in s).
Proof.
  unfold move_fld, left_in. destruct (s_state s); [| |discriminate];
  match goal with |- context [pick ?f ?l] => destruct (pick f l) as [[x r]|] eqn:P; [|discriminate] end;
  intros [= <- <-]; apply pick_perm in P; destruct P as [P _]; cbn.
  - exists [PathReg (s_block s) (s_reg s)]. cbn. constructor. symmetry. now apply (Permutation_map (PathFld (s_block s) (s_reg s))) in P.
  - exists []. cbn. symmetry. now apply (Permutation_map (PathFld (s_block s) (s_reg s))) in P.
Qed.
Lemma eval_keeps p ix v ix' : eval p ix = Some (v, ix') -> exists lost, Permutation (lost ++ owns v ++ lefts ix') (lefts ix).
Proof.
  assert (K : forall n g, (forall s v s', g s = Some (v, s') -> s_name s' = s_name s) ->
    (forall s v s', g s = Some (v, s') -> exists lost, Permutation (lost ++ owns v ++ left_in s') (left_in s)) ->
    update n g ix = Some (v, ix') -> exists lost, Permutation (lost ++ owns v ++ lefts ix') (lefts ix)).
  { intros n g N G U. apply update_get in U; [|exact N]. destruct U as (l & s & s' & r & -> & -> & _ & Q & _).
    destruct (G _ _ _ Q) as [lost P]. exists lost. unfold lefts. rewrite !flat_map_app. cbn.
    set (A := flat_map left_in l). set (B := flat_map left_in r).
    transitivity (A ++ (lost ++ owns v ++ left_in s') ++ B)%list.
    - replace (lost ++ owns v ++ A ++ left_in s' ++ B)%list with ((lost ++ owns v) ++ A ++ (left_in s' ++ B))%list by now rewrite <- !app_assoc.
      rewrite (Permutation_app_swap_app (lost ++ owns v) A). rewrite <- !app_assoc. reflexivity.
    - apply Permutation_app_head, Permutation_app_tail, P. }
  destruct p as [m|m f|]; cbn.
  - apply K; [apply move_reg_name|apply move_reg_keeps].
  - apply K; [apply move_fld_name|apply move_fld_keeps].
  - intros [= <- <-]. exists []. reflexivity.
Qed.
Lemma eval_all_keeps es : forall ix vs ix', eval_all es ix = Some (vs, ix') ->
  exists lost, Permutation (lost ++ flat_map owns (map snd vs) ++ lefts ix') (lefts ix).
Proof.
  induction es as [|[n p] es IH]; intros ix vs ix'; cbn; [intros [= <- <-]; exists []; reflexivity|].
  destruct (eval p ix) as [[v ix1]|] eqn:E; [|discriminate]. destruct (eval_all es ix1) as [[q ix2]|] eqn:F; [|discriminate].
  intros [= <- <-]. cbn. destruct (eval_keeps _ _ _ _ E) as [l1 P1]. destruct (IH _ _ _ F) as [l2 P2].
  exists (l1 ++ l2)%list. rewrite <- P1. rewrite <- !app_assoc. apply Permutation_app_head.
  rewrite <- P2. rewrite !app_assoc. apply Permutation_app_tail. apply Permutation_app_tail. apply Permutation_app_comm.
Qed.
Lemma eval_all_names es : forall ix vs ix', eval_all es ix = Some (vs, ix') -> map fst vs = map fst es.
Proof.
  induction es as [|[n p] es IH]; intros ix vs ix'; cbn; [intros [= <- <-]; reflexivity|].
  destruct (eval p ix) as [[v ix1]|]; [|discriminate]. destruct (eval_all es ix1) as [[q ix2]|] eqn:F; [|discriminate].
  intros [= <- <-]. cbn. now rewrite (IH _ _ _ F).
Qed.
Lemma nodup_NoDup l : nodup l = true <-> NoDup l.
Proof.
  induction l as [|x l IH]; cbn; [split; auto; constructor|]. rewrite andb_true_iff, IH, negb_true_iff. split.
  - intros [H1 H2]. constructor; auto. intros I. rewrite <- not_true_iff_false in H1. apply H1. apply existsb_exists. exists x. rewrite String.eqb_refl. auto.
  - intros H. inversion H; subst. split; auto. apply not_true_iff_false. rewrite existsb_exists. intros (y & Y & E). apply String.eqb_eq in E. subst. auto.
Qed.
Lemma lookup_in {A} n (l : list (string * A)) a : lookup n l = Some a -> In (n, a) l.
Proof.
  induction l as [|[m b] l IH]; cbn; [discriminate|]. destruct (m =? n) eqn:E; [|auto].
  intros [= <-]. apply String.eqb_eq in E. subst. auto.
Qed.
Lemma in_lookup {A} n (l : list (string * A)) a : NoDup (map fst l) -> In (n, a) l -> lookup n l = Some a.
Proof.
  induction l as [|[m b] l IH]; cbn; [tauto|]. intros N [E|E].
  - inversion E; subst. now rewrite String.eqb_refl.
  - inversion N; subst. destruct (m =? n) eqn:K; [|auto]. apply String.eqb_eq in K. subst.
    exfalso. apply H1. apply in_map_iff. exists (n, a). auto.
Qed.
(** A struct has the values that were evaluated, no more and no less. *)
Lemma fill_perm ms vs p : NoDup (map fst ms) -> NoDup (map fst vs) -> List.length ms = List.length vs -> fill ms vs = Some p -> Permutation p vs.
Proof.
  intros N1 N2 L F. apply fill_ok in F.
  assert (E : map fst p = map fst ms) by (clear -F; induction F as [|? ? ? ? [A _] _ IH]; cbn; congruence).
  assert (Lp : List.length p = List.length ms) by (rewrite <- (map_length fst p), E; apply map_length).
  apply NoDup_Permutation_bis.
  - apply (NoDup_map_inv fst). now rewrite E.
  - rewrite Lp, L. auto.
  - intros [n v] I. assert (J : exists m, In m ms /\ fst m = n /\ lookup (fst m) vs = Some v).
    { clear -F I. induction F as [|m e ms p (A & _ & C) _ IH]; [destruct I|]. destruct I as [->|I].
      - cbn in *. exists m. auto.
      - destruct (IH I) as (m' & ? & ?). exists m'. cbn. auto. }
    destruct J as (m & _ & <- & J). now apply lookup_in.
Qed.
Lemma construct_keeps ms es ix p ix' : construct ms es ix = Some (p, ix') ->
  exists lost, Permutation (lost ++ flat_map owns (map snd p) ++ lefts ix') (lefts ix).
Proof.
  unfold construct. destruct (nodup (map fst ms) && nodup (map fst es) && Nat.eqb (List.length ms) (List.length es)) eqn:C; [|discriminate].
  apply andb_true_iff in C. destruct C as [C C3]. apply andb_true_iff in C. destruct C as [C1 C2].
  rewrite nodup_NoDup in C1, C2. apply Nat.eqb_eq in C3.
  destruct (eval_all es ix) as [[vs ix1]|] eqn:E; [|discriminate]. destruct (fill ms vs) as [q|] eqn:F; [|discriminate]. intros [= <- <-].
  destruct (eval_all_keeps _ _ _ _ E) as [lost P]. exists lost. rewrite <- P. pose proof (eval_all_names _ _ _ _ E) as N.
  apply Permutation_app_head, Permutation_app_tail. apply Permutation_flat_map, Permutation_map.
  apply (fill_perm ms); auto; [now rewrite N|]. rewrite C3, <- (map_length fst es), <- N. apply map_length.
Qed.

(** ** What is there can be moved. *)
Definition getslot (n : string) (ix : index) : option slot := find (fun s => s_name s =? n) ix.
Lemma update_find n g ix s v s' : getslot n ix = Some s -> g s = Some (v, s') -> s_name s' = s_name s ->
  exists ix', update n g ix = Some (v, ix') /\ forall m, getslot m ix' = if m =? n then Some s' else getslot m ix.
Proof.
  induction ix as [|x ix IH]; cbn; [discriminate|]. intros F G N. destruct (s_name x =? n) eqn:E.
  - inversion F; subst x. rewrite G. cbn. eexists. split; [reflexivity|]. intros m. cbn. rewrite N.
    apply String.eqb_eq in E. rewrite E. rewrite (String.eqb_sym n m). destruct (m =? n); reflexivity.
  - destruct (IH F G N) as (ix' & -> & H). cbn. eexists. split; [reflexivity|]. intros m. cbn. unfold getslot in *. cbn.
    destruct (s_name x =? m) eqn:K; [|apply H]. apply String.eqb_eq in K. subst m. now rewrite E.
Qed.

(** Fields whose members have distinct names. *)
Definition distinct (l : list string) : Prop := NoDup (map unkeywordize l).
Lemma pick_in f l : distinct l -> In f l -> exists r, pick (unkeywordize f) l = Some (f, r) /\ (forall g, In g r <-> In g l /\ g <> f) /\ distinct r.
Proof.
  unfold distinct. induction l as [|x l IH]; cbn; [tauto|]. intros N I. inversion N; subst.
  destruct (unkeywordize x =? unkeywordize f) eqn:E.
  - apply String.eqb_eq in E. assert (x = f) as ->.
    { destruct I as [->|I]; [reflexivity|]. exfalso. apply H1. rewrite E. now apply in_map. }
    exists l. split; [reflexivity|]. split; [|assumption]. intros g. split; [|intuition congruence].
    intros J. split; [auto|]. intros ->. apply H1. now apply in_map.
  - destruct I as [->|I]; [rewrite String.eqb_refl in E; discriminate|].
    destruct (IH H2 I) as (r & -> & R & D). exists (x :: r). split; [reflexivity|]. split.
    + intros g. cbn. rewrite R. split; [intros [->|[? ?]]; [|tauto]|intuition].
      split; [auto|]. intros ->. rewrite String.eqb_refl in E. discriminate.
    + cbn. constructor; [|assumption]. intros J. apply H1. apply in_map_iff in J. destruct J as (g & <- & J). apply in_map. now apply R.
Qed.

(** A register or field that has not been moved out. *)
Definition avail (ix : index) (w : path) : Prop :=
  match w with
  | PathReg b r => exists s, getslot (long b r) ix = Some s /\ s_block s = b /\ s_reg s = r /\ s_state s = Whole
  | PathFld b r f => exists s, getslot (long b r) ix = Some s /\ s_block s = b /\ s_reg s = r /\
      match s_state s with
      | Whole => distinct (s_fields s) /\ In f (s_fields s)
      | Part l => distinct l /\ In f l
      | Gone => False
      end
  end.
(** The part of a struct expression for it. *)
Definition entry_of (w : path) : string * place :=
  match w with
  | PathReg b r => (long b r, At (long b r))
  | PathFld b r f => (long (long b r) f, AtField (long b r) (unkeywordize f))
  end.
Definition apart (w u : path) : Prop :=
  match w, u with
  | PathReg b r, PathReg c q => (b, r) <> (c, q)
  | PathReg b r, PathFld c q _ | PathFld c q _, PathReg b r => (b, r) <> (c, q)
  | PathFld b r f, PathFld c q g => (b, r, f) <> (c, q, g)
  end.
Lemma eval_avail ix w : avail ix w -> exists v ix', eval (snd (entry_of w)) ix = Some (v, ix') /\ token_of v = Some w /\
  forall u, apart w u -> avail ix u -> avail ix' u.
Proof.
  destruct w as [b r|b r f]; cbn [avail entry_of snd eval].
  - intros (s & G & B & R & W).
    assert (M : move_reg s = Some (VReg b r (s_fields s), set_state s Gone)) by (unfold move_reg; now rewrite W, B, R).
    destruct (update_find _ _ _ _ _ _ G M eq_refl) as (ix' & -> & H). eexists _, ix'. split; [reflexivity|]. split; [reflexivity|].
    intros u A. destruct u as [c q|c q g]; cbn in A |- *; intros (s0 & G0 & B0 & R0 & W0); exists s0; rewrite H;
      (destruct (long c q =? long b r) eqn:E; [|auto]); apply String.eqb_eq in E; rewrite E, G in G0; congruence.
  - intros (s & G & B & R & W).
    assert (M : exists l, distinct l /\ In f l /\ move_fld (unkeywordize f) s =
      option_map (fun p => (VFld (s_block s) (s_reg s) (fst p), set_state s (Part (snd p)))) (pick (unkeywordize f) l) /\
      match s_state s with Whole => l = s_fields s | Part l' => l = l' | Gone => False end).
    { unfold move_fld. destruct (s_state s) as [|l|]; [| |destruct W]; destruct W as [W1 W2]; eauto. }
    destruct M as (l & D & I & M & St). destruct (pick_in _ _ D I) as (rest & P & Q & D'). rewrite P in M. cbn in M. rewrite B, R in M.
    destruct (update_find _ _ _ _ _ _ G M eq_refl) as (ix' & -> & H). eexists _, ix'. split; [reflexivity|]. split; [reflexivity|].
    intros u A. destruct u as [c q|c q g]; cbn in A |- *; intros (s0 & G0 & B0 & R0 & W0).
    + exists s0. rewrite H. destruct (long c q =? long b r) eqn:E; [|auto]. apply String.eqb_eq in E. rewrite E, G in G0. congruence.
    + rewrite H. destruct (long c q =? long b r) eqn:E; [|exists s0; auto]. apply String.eqb_eq in E. rewrite E, G in G0. inversion G0; subst s0.
      eexists. split; [reflexivity|]. cbn. split; [auto|]. split; [auto|]. split; [assumption|]. apply Q. split; [|congruence].
      destruct (s_state s); [destruct W0; congruence|destruct W0; congruence|destruct W0].
Qed.
Lemma eval_all_avail ws : forall ix, NoDup ws -> separate ws -> (forall w, In w ws -> avail ix w) ->
  exists vs ix', eval_all (map entry_of ws) ix = Some (vs, ix') /\
    Forall2 (fun w e => fst e = fst (entry_of w) /\ token_of (snd e) = Some w) ws vs.
Proof.
  induction ws as [|w ws IH]; intros ix N S A; [cbn; eexists _, _; split; [reflexivity|constructor]|].
  inversion N; subst. destruct (eval_avail ix w (A w (or_introl eq_refl))) as (v & ix1 & E & T & K).
  assert (A1 : forall u, In u ws -> avail ix1 u).
  { intros u I. apply K; [|apply A; now right]. destruct w as [b r|b r f], u as [c q|c q g]; cbn.
    - intros [= -> ->]. auto.
    - intros [= -> ->]. apply (S c q g); [left; reflexivity|right; exact I].
    - intros [= -> ->]. apply (S b r f); [right; exact I|left; reflexivity].
    - intros [= -> -> ->]. auto. }
  assert (S1 : separate ws) by (intros b r f I J; apply (S b r f); right; assumption).
  destruct (IH ix1 H2 S1 A1) as (vs & ix' & F & V). cbn [map eval_all].
  destruct (entry_of w) as [n p] eqn:En. cbn in E. rewrite E, F. eexists _, _. split; [reflexivity|]. constructor; [|exact V]. now rewrite En.
Qed.

Definition member_of (w : path) : string * ty := (fst (entry_of w), ty_of w).
Lemma token_ty v w : token_of v = Some w -> (forall b r f, w = PathFld b r f -> f <> "val") -> type_of v = ty_of w.
Proof.
  destruct v; cbn; intros [= <-] H; cbn; auto. unfold field_ty. destruct (f =? "val") eqn:E; auto.
  apply String.eqb_eq in E. destruct (H _ _ _ eq_refl E).
Qed.
Lemma construct_avail ws es ix : NoDup (map (fun w => fst (entry_of w)) ws) -> NoDup ws -> separate ws -> (forall w, In w ws -> avail ix w) ->
  (forall b r f, In (PathFld b r f) ws -> f <> "val") -> Permutation es (map entry_of ws) ->
  exists p ix', construct (map member_of ws) es ix = Some (p, ix').
Proof.
  intros N1 N2 S A V P. apply Permutation_map_inv in P. destruct P as (us & -> & P).
  destruct (eval_all_avail us ix) as (vs & ix' & E & F).
  - eapply Permutation_NoDup; eauto.
  - intros b r f I J. apply (S b r f); eapply Permutation_in; try apply Permutation_sym; eauto.
  - intros w I. apply A. eapply Permutation_in; [apply Permutation_sym|]; eauto.
  - unfold construct. rewrite !map_map. cbn [fst member_of].
    assert (N3 : NoDup (map (fun w => fst (entry_of w)) us)) by (eapply Permutation_NoDup; [apply Permutation_map; exact P|exact N1]).
    rewrite (proj2 (nodup_NoDup (map (fun w => fst (entry_of w)) ws))), (proj2 (nodup_NoDup (map (fun w => fst (entry_of w)) us))) by assumption.
    rewrite !map_length, (Permutation_length P), Nat.eqb_refl, E. cbn [andb].
    assert (Fi : forall w, In w ws -> exists v, lookup (fst (entry_of w)) vs = Some v /\ type_of v = ty_of w).
    { intros w I. apply (Permutation_in _ P) in I.
      assert (J : exists v, In (fst (entry_of w), v) vs /\ token_of v = Some w).
      { clear -F I. induction F as [|u e us vs [B C] _ IH]; [destruct I|]. destruct I as [->|I].
        - exists (snd e). rewrite <- B. destruct e; cbn in *. auto.
        - destruct (IH I) as (v & ? & ?). exists v. cbn. auto. }
      destruct J as (v & J & T). exists v. split.
      - apply in_lookup; [|exact J]. rewrite (eval_all_names _ _ _ _ E), map_map. exact N3.
      - apply token_ty; [exact T|]. intros b r f ->. apply (V b r). now apply (Permutation_in _ (Permutation_sym P)). }
    assert (Q : exists p, fill (map member_of ws) vs = Some p).
    { clear -Fi. induction ws as [|w ws IH]; [exists []; reflexivity|]. cbn.
      destruct (Fi w (or_introl eq_refl)) as (v & -> & T). rewrite (proj2 (ty_eqb_eq _ _) T).
      destruct IH as (p & ->); [intros u I; apply Fi; now right|]. eexists. reflexivity. }
    destruct Q as (p & ->). eexists _, _. reflexivity.
Qed.
Lemma getslot_in regs b r fs : NoDup (map (fun x => s_name (slot_of x)) regs) -> In (b, r, fs) regs ->
  getslot (long b r) (map slot_of regs) = Some (slot_of (b, r, fs)).
Proof.
  unfold getslot. induction regs as [|[[c q] gs] regs IH]; [intros _ []|]. cbn [map find]. intros N I. inversion N; subst.
  destruct I as [[= -> -> ->]|I]; [cbn; now rewrite String.eqb_refl|].
  destruct (s_name (slot_of (c, q, gs)) =? long b r) eqn:E; [|now apply IH].
  apply String.eqb_eq in E. exfalso. apply H1. apply in_map_iff. exists (b, r, fs). split; [cbn in *; congruence|exact I].
Qed.
