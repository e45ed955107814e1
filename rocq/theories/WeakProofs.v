(** Proof method for data races: per cell and half, whether the half may rely on all
    accesses of the other half having happened before ([kK]), and whether all accesses
    of a half happen before any acquiring read of the latest value of the word ([kP]). *)
Require Import NArith List Bool Arith Lia.
From Verif Require Import Spsc WeakSpec Weak.
Import ListNotations.
Open Scope nat_scope.

Definition other (s : side) : side := match s with TX => RX | RX => TX end.
Definition seqb (s t : side) : bool := match s, t with TX, TX | RX, RX => true | _, _ => false end.
Lemma seqb_spec s t : reflect (s = t) (seqb s t).
Proof. destruct s, t; constructor; congruence. Qed.
Lemma other_neq s : other s <> s.
Proof. now destruct s. Qed.
Lemma other_other s : other (other s) = s.
Proof. now destruct s. Qed.
Lemma other_case s t : t = s \/ t = other s.
Proof. destruct s, t; auto. Qed.
Lemma cell_eqb_spec c d : reflect (c = d) (cell_eqb c d).
Proof. destruct c, d; simpl; try constructor; try congruence. destruct (N.eqb_spec i i0); constructor; congruence. Qed.

Definition knows (l : exec) (s : side) (i : nat) : Prop := exists j a, nth_error l j = Some (s, a) /\ hb l i j.
Definition carried (l : exec) (n i : nat) : Prop :=
  exists p s o m, nth_error l p = Some (s, AUpd o m) /\ releases o = true /\ m < n /\ (i = p \/ hb l i p).
Definition Kn (l : exec) (s : side) (c : cell) : Prop :=
  forall i w, nth_error l i = Some (other s, ACell c w) -> knows l s i.
Definition Pb (l : exec) (n : nat) (s : side) (c : cell) : Prop :=
  forall i w, nth_error l i = Some (s, ACell c w) -> carried l n i.

Lemma nth_snoc {A} (l : list A) x i y : nth_error (l ++ [x]) i = Some y -> nth_error l i = Some y \/ i = length l /\ y = x.
Proof.
  intros E. destruct (Nat.lt_ge_cases i (length l)).
  - left. now rewrite nth_error_app1 in E.
  - rewrite nth_error_app2 in E by lia. destruct (i - length l) as [|k] eqn:K; simpl in E.
    + right. injection E as <-. split; [lia|reflexivity].
    + now destruct k.
Qed.
Lemma nth_old {A} (l : list A) x i y : nth_error l i = Some y -> nth_error (l ++ [x]) i = Some y.
Proof. intros E. rewrite nth_error_app1; auto. apply nth_error_Some. congruence. Qed.
Lemma nth_new {A} (l : list A) x : nth_error (l ++ [x]) (length l) = Some x.
Proof. rewrite nth_error_app2, Nat.sub_diag; auto. Qed.
Lemma nth_lt {A} (l : list A) i y : nth_error l i = Some y -> i < length l.
Proof. intros E. apply nth_error_Some. congruence. Qed.

Lemma hb_old l x i j : hb l i j -> hb (l ++ [x]) i j.
Proof.
  intros H. induction H as [i j s a b L Ei Ej|i j (s & o & n & s' & o' & m & Ei & Ro & Ej & Ao & L)|i j k H1 IH1 H2 IH2].
  - apply hb_po with s a b; auto using nth_old.
  - apply hb_sw. exists s, o, n, s', o', m. repeat (split; auto using nth_old). destruct Ej; auto using nth_old.
  - now apply hb_trans with j.
Qed.
Lemma knows_old l x s i : knows l s i -> knows (l ++ [x]) s i.
Proof. intros (j & a & E & H). exists j, a. auto using nth_old, hb_old. Qed.
Lemma carried_old l x n n' i : n <= n' -> carried l n i -> carried (l ++ [x]) n' i.
Proof.
  intros L (p & s & o & m & E & Ro & M & H). exists p, s, o, m. repeat (split; auto using nth_old); [lia|].
  destruct H; auto using hb_old.
Qed.
Lemma knows_new l s a i : knows l s i -> hb (l ++ [(s, a)]) i (length l).
Proof.
  intros (j & b & E & H). apply hb_trans with j; [now apply hb_old|].
  apply hb_po with s b a; [eapply nth_lt; eauto|now apply nth_old|apply nth_new].
Qed.

Record KP := mkKP { kK : side -> cell -> bool; kP : side -> cell -> bool }.
Definition kp0 : KP := mkKP (fun _ _ => true) (fun _ _ => true).
Definition kacc (s : side) (c : cell) (k : KP) : KP :=
  mkKP (fun t d => kK k t d && negb (seqb t (other s) && cell_eqb d c))
       (fun t d => kP k t d && negb (seqb t s && cell_eqb d c)).
Definition krmw (s : side) (o : ord) (k : KP) : KP :=
  mkKP (fun t d => kK k t d || (seqb t s && acquires o && kP k (other s) d))
       (fun t d => kP k t d || (seqb t s && releases o)).

Section Care.
Variable care : cell -> bool.
Definition sound (k : KP) (l : exec) (n : nat) : Prop :=
  (forall s c, care c = true -> kK k s c = true -> Kn l s c) /\ (forall s c, care c = true -> kP k s c = true -> Pb l n s c).
Definition ordered (l : exec) : Prop :=
  forall i j s c w v, i < j -> care c = true -> nth_error l i = Some (s, ACell c w) -> nth_error l j = Some (other s, ACell c v) -> hb l i j.

Lemma sound0 n : sound kp0 [] n.
Proof. split; intros s c _ _ [|i] w E; discriminate. Qed.
(** An access that is none to a cell. *)
Lemma sound_skip k l n s a : (forall c w, a <> ACell c w) -> sound k l n -> sound k (l ++ [(s, a)]) n.
Proof.
  intros N (A & B). split; intros t c C H i w E; apply nth_snoc in E as [E|(-> & E)]; try congruence.
  - apply knows_old. exact (A t c C H i w E).
  - apply carried_old with n; auto. exact (B t c C H i w E).
Qed.
Lemma sound_cell k l n s d w : sound k l n -> sound (kacc s d k) (l ++ [(s, ACell d w)]) n.
Proof.
  intros (A & B). split; intros t c C H i v E; cbn in H; apply andb_true_iff in H as (H1 & H2); apply nth_snoc in E as [E|(-> & E)].
  - apply knows_old. exact (A t c C H1 i v E).
  - injection E as E1 E2 E3. subst. rewrite other_other in H2. destruct (seqb_spec t t), (cell_eqb_spec d d); discriminate || congruence.
  - apply carried_old with n; auto. exact (B t c C H1 i v E).
  - injection E as E1 E2 E3. subst. destruct (seqb_spec s s), (cell_eqb_spec d d); discriminate || congruence.
Qed.
Lemma sound_rmw k l n s o : sound k l n -> sound (krmw s o k) (l ++ [(s, AUpd o n)]) (S n).
Proof.
  intros (A & B). split; intros t c C H i v E; cbn in H; apply orb_true_iff in H as [H|H]; apply nth_snoc in E as [E|(-> & E)]; try discriminate.
  - apply knows_old. exact (A t c C H i v E).
  - apply andb_true_iff in H as (H & Hp). apply andb_true_iff in H as (Ht & Ha). destruct (seqb_spec t s) as [->|]; [|discriminate].
    destruct (B _ c C Hp i v E) as (p & s' & o' & m & Ep & Ro & M & X). exists (length l), (AUpd o n). split; [apply nth_new|].
    assert (S : hb (l ++ [(s, AUpd o n)]) p (length l)).
    { apply hb_sw. exists s', o', m, s, o, n. repeat (split; auto using nth_old). right. apply nth_new. }
    destruct X as [->|X]; auto. apply hb_trans with p; auto using hb_old.
  - apply carried_old with n; auto. exact (B t c C H i v E).
  - apply andb_true_iff in H as (Ht & Hr). destruct (seqb_spec t s) as [->|]; [|discriminate].
    exists (length l), s, o, n. split; [apply nth_new|]. repeat (split; auto). right.
    apply hb_po with s (ACell c v) (AUpd o n); [eapply nth_lt; eauto|now apply nth_old|apply nth_new].
Qed.

Lemma ordered0 : ordered [].
Proof. intros [|i] j s c w v _ _ E; discriminate. Qed.
Lemma ordered_skip l s a : (forall c w, a <> ACell c w) -> ordered l -> ordered (l ++ [(s, a)]).
Proof.
  intros N A i j t c w v L C Ei Ej. apply nth_snoc in Ei as [Ei|(-> & Ei)]; [|congruence].
  apply nth_snoc in Ej as [Ej|(-> & Ej)]; [|congruence]. apply hb_old. eapply A; eauto.
Qed.
Lemma ordered_cell k l n s d w : sound k l n -> (care d = true -> kK k s d = true) -> ordered l -> ordered (l ++ [(s, ACell d w)]).
Proof.
  intros (A & _) H O i j t c u v L C Ei Ej.
  apply nth_snoc in Ej as [Ej|(-> & Ej)].
  - apply nth_lt in Ej as Lj. apply nth_snoc in Ei as [Ei|(-> & Ei)]; [|lia]. apply hb_old. eapply O; eauto.
  - injection Ej as E1 E2 E3. subst. apply nth_snoc in Ei as [Ei|(-> & Ei)]; [|lia]. apply knows_new.
    apply (A (other t) d C (H C) i u). now rewrite other_other.
Qed.
Lemma ordered_races l : ordered l -> ~ racing (fun a b => clash a b /\ exists c w, a = ACell c w /\ care c = true) l.
Proof.
  intros O (i & j & s & t & a & b & N & Ei & Ej & (C & c & w & -> & Cc) & H1 & H2). destruct b as [| |d v|]; try contradiction.
  destruct C as (<- & _). destruct (other_case s t) as [->| ->].
  - destruct (Nat.lt_total i j) as [L|[L|L]]; auto; [apply H1|apply H2]; eapply hb_po; eauto.
  - destruct (Nat.lt_total i j) as [L|[L|L]]; auto; [apply H1; eapply O; eauto|].
    apply H2. apply O with (other s) c v w; auto. now rewrite other_other.
Qed.
End Care.

Section WP.
  Context {O R G H : Type}.
  Variable care : cell -> bool.
  Variable sd : side.
  Variable consuming : O -> bool.
  (** Over the latest value, what is known, the state of this half and of the other. *)
  Variable J : N -> KP -> G -> H -> Prop.
  Variable idle : bool -> G -> Prop.
  (** What every value satisfies that a load of this half may return. *)
  Variable Q : G -> N -> Prop.

  Definition keepQ (g g' : G) : Prop := forall v, Q g v -> Q g' v.

  Fixpoint wwp (o : O) (p : prog R) (g : G) : Prop :=
    match p with
    | Done r => forall v k h, J v k g h -> exists g', J v k g' h /\ keepQ g g' /\ idle (consuming o) g'
    | Load _ k => forall u, Q g u -> wwp o (k u) g
    | Rmw _ c _ f k => forall v kp h, J v kp g h -> exists g', J (f v) (krmw sd c kp) g' h /\ wwp o (k v) g'
    | Write c _ k => forall v kp h, J v kp g h ->
        (care c = true -> kK kp sd c = true) /\ exists g', J v (kacc sd c kp) g' h /\ keepQ g g' /\ wwp o k g'
    | Take c k | Peek c k => forall v kp h, J v kp g h ->
        (care c = true -> kK kp sd c = true) /\ exists g', J v (kacc sd c kp) g' h /\ keepQ g g' /\ forall w, wwp o (k w) g'
    | Wake _ k | DropW _ k | DropV _ k | Free k => wwp o k g
    end.
  Definition wthr_ok (t : thr O R) (g : G) : Prop :=
    match t with
    | Idle => idle false g
    | Gone => idle true g
    | Run o p => wwp o p g
    end.
End WP.

(** The halves may be proved about with different invariants, if that of the sender follows
    again after a step of the receiver. *)
Section Steps.
  Context {O R TG RG : Type}.
  Variable care : cell -> bool.
  Variable side_of : O -> side.
  Variable consuming : O -> bool.
  Variable code : O -> prog R.
  Variable J : N -> KP -> TG -> RG -> Prop.
  Variable J' : N -> KP -> RG -> TG -> Prop.
  Hypothesis JJ' : forall v k g h, J v k g h -> J' v k h g.
  Hypothesis J'J : forall v k v' k' g h h', J v k g h -> J' v' k' h' g -> J v' k' g h'.
  Variable tidle : bool -> TG -> Prop.
  Variable ridle : bool -> RG -> Prop.
  Variable Qt : TG -> N -> Prop.
  Variable Qr : RG -> N -> Prop.
  Let wpt := @wwp O R TG RG care TX consuming J tidle Qt.
  Let wpr := @wwp O R RG TG care RX consuming J' ridle Qr.
  Hypothesis JQ : forall v k g h, J v k g h -> Qt g v /\ Qr h v.

  Definition latest (h : list N) : N := hd 0%N h.
  Definition views {X} (Q : X -> N -> Prop) (g : X) (h : list N) (seen : nat) : Prop :=
    seen < length h /\ forall n, seen <= n < length h -> Q g (value h n).

  Record wok (x : wsys O R) : Prop := mkwok {
    wo : exists k g h, J (latest (whist x)) k g h /\ sound care k (accesses (wlog x)) (length (whist x) - 1) /\
         wthr_ok care TX consuming J tidle Qt (wt (wtx x)) g /\ wthr_ok care RX consuming J' ridle Qr (wt (wrx x)) h /\
         views Qt g (whist x) (wseen (wtx x)) /\ views Qr h (whist x) (wseen (wrx x));
    wo_ord : ordered care (accesses (wlog x))
  }.

  Lemma acc_app (a b : list (wev O R)) : accesses (a ++ b) = accesses a ++ accesses b.
  Proof. apply flat_map_app. Qed.
  Lemma acc_ev (a : list (wev O R)) e : accesses (a ++ [WEv e]) = accesses a.
  Proof. rewrite acc_app. apply app_nil_r. Qed.
  Lemma acc_acc (a : list (wev O R)) s e : accesses (a ++ [WAcc s e]) = accesses a ++ [(s, e)].
  Proof. now rewrite acc_app. Qed.

  Lemma value_latest h : value h (length h - 1) = latest h.
  Proof. unfold value, latest. rewrite Nat.sub_diag. now destruct h. Qed.
  Lemma value_cons v h n : n < length h -> value (v :: h) n = value h n.
  Proof.
    intros L. unfold value. cbn [length]. replace (S (length h) - 1 - n) with (S (length h - 1 - n)) by lia. reflexivity.
  Qed.
  Lemma value_new v h : value (v :: h) (length h) = v.
  Proof. unfold value. cbn [length]. replace (S (length h) - 1 - length h) with 0 by lia. reflexivity. Qed.

  Lemma views_keep {X} (Q : X -> N -> Prop) g g' h seen : keepQ Q g g' -> views Q g h seen -> views Q g' h seen.
  Proof. intros K (L & V). split; auto. Qed.
  Lemma views_load {X} (Q : X -> N -> Prop) g h seen n : seen <= n < length h -> views Q g h seen -> views Q g h n.
  Proof. intros L (L' & V). split; [lia|]. intros m M. apply V. lia. Qed.
  Lemma views_own {X} (Q : X -> N -> Prop) g h v : Q g v -> views Q g (v :: h) (length h).
  Proof.
    intros A. split; [simpl; lia|]. cbn [length]. intros n L. assert (n = length h) as -> by lia. now rewrite value_new.
  Qed.
  Lemma views_other {X} (Q : X -> N -> Prop) g h v seen : Q g v -> views Q g h seen -> views Q g (v :: h) seen.
  Proof.
    intros A (L & V). split; [simpl; lia|]. cbn [length]. intros n Ln. destruct (Nat.eq_dec n (length h)) as [->|].
    - now rewrite value_new.
    - rewrite value_cons by lia. apply V. lia.
  Qed.
  Lemma pick_range h seen back : seen < length h -> seen <= pick h seen back < length h.
  Proof. unfold pick. lia. Qed.

  Lemma keepQ_refl {X} (Q : X -> N -> Prop) g : keepQ Q g g.
  Proof. intros v. auto. Qed.

  Lemma tx_step x o p spur back : wok x -> wt (wtx x) = Run o p -> wok (wpstep consuming x TX o p (wseen (wtx x)) spur back).
  Proof.
    intros [(k & g & h & HJ & Hs & Ht & Hr & Vt & Vr) Ho] E. rewrite E in Ht. cbn [wthr_ok] in Ht.
    pose proof (proj1 Vt) as Lt. pose proof (pick_range (whist x) _ back Lt) as Pk.
    destruct p as [r|r kk|r c old f kk|c w kk|c kk|c kk|w kk|w kk|w kk|kk]; cbn [wpstep wput]; cbn [wwp] in Ht.
    - destruct (Ht _ _ _ HJ) as (g' & HJ' & Kq & Hi). constructor; cbn [whist wcells wtx wrx wlog wt wseen length latest hd]; rewrite acc_ev; auto.
      exists k, g', h. split; auto. split; auto. split; [destruct (consuming o); exact Hi|]. split; auto. split; auto.
      eapply views_keep; eauto.
    - constructor; cbn [whist wcells wtx wrx wlog wt wseen length latest hd]; rewrite acc_acc; [|now apply ordered_skip].
      exists k, g, h. split; auto. split; [now apply sound_skip|]. split; [|split; auto; split; auto; eapply views_load; eauto].
      apply Ht. now apply (proj2 Vt).
    - assert (F : wok (Wsys (whist x) (wcells x) (Wthr (Run o (Rmw r c (Some (value (whist x) (pick (whist x) (wseen (wtx x)) back))) f kk))
          (pick (whist x) (wseen (wtx x)) back)) (wrx x) (wlog x ++ [WAcc TX (ARead r (pick (whist x) (wseen (wtx x)) back))]))).
      { constructor; cbn [whist wcells wtx wrx wlog wt wseen length latest hd]; rewrite acc_acc; [|now apply ordered_skip].
        exists k, g, h. split; auto. split; [now apply sound_skip|]. split; [exact Ht|split; auto; split; auto; eapply views_load; eauto]. }
      destruct old as [old|]; [|exact F].
      destruct (spur || negb (value (whist x) (pick (whist x) (wseen (wtx x)) back) =? old)%N
        || negb (pick (whist x) (wseen (wtx x)) back =? length (whist x) - 1)) eqn:B; [exact F|].
      apply orb_false_iff in B as (B & B2). apply orb_false_iff in B as (_ & B1).
      apply negb_false_iff, N.eqb_eq in B1. apply negb_false_iff, Nat.eqb_eq in B2. rewrite B2 in *.
      rewrite value_latest in B1. subst old. destruct (Ht _ _ _ HJ) as (g' & HJ' & Hk). destruct (JQ _ _ _ _ HJ') as (Q1 & Q2).
      constructor; cbn [whist wcells wtx wrx wlog wt wseen length latest hd]; rewrite acc_acc; [|now apply ordered_skip].
      exists (krmw TX c k), g', h. split; auto. replace (S (length (whist x)) - 1) with (S (length (whist x) - 1)) by lia.
      split; [now apply sound_rmw|]. split; [exact Hk|]. split; auto.
      replace (S (length (whist x) - 1)) with (length (whist x)) by lia. split; [now apply views_own|now apply views_other].
    - destruct (Ht _ _ _ HJ) as (Hc & g' & HJ' & Kq & Hk). constructor; cbn [whist wcells wtx wrx wlog wt wseen length latest hd]; rewrite acc_acc; [|eapply ordered_cell; eauto].
      exists (kacc TX c k), g', h. split; auto. split; [now apply sound_cell|]. split; [exact Hk|]. split; auto. split; auto. eapply views_keep; eauto.
    - destruct (Ht _ _ _ HJ) as (Hc & g' & HJ' & Kq & Hk). constructor; cbn [whist wcells wtx wrx wlog wt wseen length latest hd]; rewrite acc_acc; [|eapply ordered_cell; eauto].
      exists (kacc TX c k), g', h. split; auto. split; [now apply sound_cell|]. split; [apply Hk|]. split; auto. split; auto. eapply views_keep; eauto.
    - destruct (Ht _ _ _ HJ) as (Hc & g' & HJ' & Kq & Hk). constructor; cbn [whist wcells wtx wrx wlog wt wseen length latest hd]; rewrite acc_acc; [|eapply ordered_cell; eauto].
      exists (kacc TX c k), g', h. split; auto. split; [now apply sound_cell|]. split; [apply Hk|]. split; auto. split; auto. eapply views_keep; eauto.
    - constructor; cbn [whist wcells wtx wrx wlog wt wseen length latest hd]; rewrite acc_ev; auto. exists k, g, h. auto 8.
    - constructor; cbn [whist wcells wtx wrx wlog wt wseen length latest hd]; rewrite acc_ev; auto. exists k, g, h. auto 8.
    - constructor; cbn [whist wcells wtx wrx wlog wt wseen length latest hd]; rewrite acc_ev; auto. exists k, g, h. auto 8.
    - constructor; cbn [whist wcells wtx wrx wlog wt wseen length latest hd]; rewrite acc_acc; [|now apply ordered_skip]. exists k, g, h. split; auto. split; [now apply sound_skip|]. auto 8.
  Qed.
  Lemma rx_step x o p spur back : wok x -> wt (wrx x) = Run o p -> wok (wpstep consuming x RX o p (wseen (wrx x)) spur back).
  Proof.
    intros [(k & g & h & HJ & Hs & Ht & Hr & Vt & Vr) Ho] E. rewrite E in Hr. cbn [wthr_ok] in Hr.
    pose proof (proj1 Vr) as Lt. pose proof (pick_range (whist x) _ back Lt) as Pk.
    destruct p as [r|r kk|r c old f kk|c w kk|c kk|c kk|w kk|w kk|w kk|kk]; cbn [wpstep wput]; cbn [wwp] in Hr.
    - destruct (Hr _ _ _ (JJ' _ _ _ _ HJ)) as (h' & HJ' & Kq & Hi). apply (J'J _ _ _ _ _ _ _ HJ) in HJ'. constructor; cbn [whist wcells wtx wrx wlog wt wseen length latest hd]; rewrite acc_ev; auto.
      exists k, g, h'. split; auto. split; auto. split; auto. split; [destruct (consuming o); exact Hi|]. split; auto.
      eapply views_keep; eauto.
    - constructor; cbn [whist wcells wtx wrx wlog wt wseen length latest hd]; rewrite acc_acc; [|now apply ordered_skip].
      exists k, g, h. split; auto. split; [now apply sound_skip|]. split; auto. split; [|split; auto; eapply views_load; eauto].
      apply Hr. now apply (proj2 Vr).
    - assert (F : wok (Wsys (whist x) (wcells x) (wtx x) (Wthr (Run o (Rmw r c (Some (value (whist x) (pick (whist x) (wseen (wrx x)) back))) f kk))
          (pick (whist x) (wseen (wrx x)) back)) (wlog x ++ [WAcc RX (ARead r (pick (whist x) (wseen (wrx x)) back))]))).
      { constructor; cbn [whist wcells wtx wrx wlog wt wseen length latest hd]; rewrite acc_acc; [|now apply ordered_skip].
        exists k, g, h. split; auto. split; [now apply sound_skip|]. split; auto. split; [exact Hr|split; auto; eapply views_load; eauto]. }
      destruct old as [old|]; [|exact F].
      destruct (spur || negb (value (whist x) (pick (whist x) (wseen (wrx x)) back) =? old)%N
        || negb (pick (whist x) (wseen (wrx x)) back =? length (whist x) - 1)) eqn:B; [exact F|].
      apply orb_false_iff in B as (B & B2). apply orb_false_iff in B as (_ & B1).
      apply negb_false_iff, N.eqb_eq in B1. apply negb_false_iff, Nat.eqb_eq in B2. rewrite B2 in *.
      rewrite value_latest in B1. subst old. destruct (Hr _ _ _ (JJ' _ _ _ _ HJ)) as (h' & HJ' & Hk). apply (J'J _ _ _ _ _ _ _ HJ) in HJ'. destruct (JQ _ _ _ _ HJ') as (Q1 & Q2).
      constructor; cbn [whist wcells wtx wrx wlog wt wseen length latest hd]; rewrite acc_acc; [|now apply ordered_skip].
      exists (krmw RX c k), g, h'. split; auto. replace (S (length (whist x)) - 1) with (S (length (whist x) - 1)) by lia.
      split; [now apply sound_rmw|]. split; auto. split; [exact Hk|].
      replace (S (length (whist x) - 1)) with (length (whist x)) by lia. split; [now apply views_other|now apply views_own].
    - destruct (Hr _ _ _ (JJ' _ _ _ _ HJ)) as (Hc & h' & HJ' & Kq & Hk). apply (J'J _ _ _ _ _ _ _ HJ) in HJ'. constructor; cbn [whist wcells wtx wrx wlog wt wseen length latest hd]; rewrite acc_acc; [|eapply ordered_cell; eauto].
      exists (kacc RX c k), g, h'. split; auto. split; [now apply sound_cell|]. split; auto. split; [exact Hk|]. split; auto. eapply views_keep; eauto.
    - destruct (Hr _ _ _ (JJ' _ _ _ _ HJ)) as (Hc & h' & HJ' & Kq & Hk). apply (J'J _ _ _ _ _ _ _ HJ) in HJ'. constructor; cbn [whist wcells wtx wrx wlog wt wseen length latest hd]; rewrite acc_acc; [|eapply ordered_cell; eauto].
      exists (kacc RX c k), g, h'. split; auto. split; [now apply sound_cell|]. split; auto. split; [apply Hk|]. split; auto. eapply views_keep; eauto.
    - destruct (Hr _ _ _ (JJ' _ _ _ _ HJ)) as (Hc & h' & HJ' & Kq & Hk). apply (J'J _ _ _ _ _ _ _ HJ) in HJ'. constructor; cbn [whist wcells wtx wrx wlog wt wseen length latest hd]; rewrite acc_acc; [|eapply ordered_cell; eauto].
      exists (kacc RX c k), g, h'. split; auto. split; [now apply sound_cell|]. split; auto. split; [apply Hk|]. split; auto. eapply views_keep; eauto.
    - constructor; cbn [whist wcells wtx wrx wlog wt wseen length latest hd]; rewrite acc_ev; auto. exists k, g, h. auto 8.
    - constructor; cbn [whist wcells wtx wrx wlog wt wseen length latest hd]; rewrite acc_ev; auto. exists k, g, h. auto 8.
    - constructor; cbn [whist wcells wtx wrx wlog wt wseen length latest hd]; rewrite acc_ev; auto. exists k, g, h. auto 8.
    - constructor; cbn [whist wcells wtx wrx wlog wt wseen length latest hd]; rewrite acc_acc; [|now apply ordered_skip]. exists k, g, h. split; auto. split; [now apply sound_skip|]. auto 8.
  Qed.
  Lemma step_step x s spur back : wok x -> wok (wstep side_of consuming code x (WStep s spur back)).
  Proof.
    intros W. destruct s; cbn [wstep wthr_of wput].
    - destruct (wt (wtx x)) eqn:E; auto. now apply tx_step.
    - destruct (wt (wrx x)) eqn:E; auto. now apply rx_step.
  Qed.
  Lemma call_rx x o : side_of o = RX -> (forall v k g h, J' v k h g -> ridle false h ->
    exists h', J' v k h' g /\ keepQ Qr h h' /\ wpr o (code o) h') -> wok x -> wok (wstep side_of consuming code x (WCall o)).
  Proof.
    intros S callr W. cbn [wstep wthr_of wput]. rewrite S. cbn [wthr_of wput]. destruct (wt (wrx x)) eqn:E; auto.
    destruct W as [(k & g & h & HJ & Hs & Ht & Hr & Vt & Vr) Ho].
    rewrite E in Hr. destruct (callr _ _ _ _ (JJ' _ _ _ _ HJ) Hr) as (h' & HJ' & Kq & Hk). apply (J'J _ _ _ _ _ _ _ HJ) in HJ'.
    constructor; cbn [whist wcells wtx wrx wlog wt wseen length latest hd]; rewrite acc_ev; auto.
    exists k, g, h'. split; auto. split; auto. split; auto. split; [exact Hk|]. split; auto. eapply views_keep; eauto.
  Qed.
  Lemma wok_init g0 h0 : J 0%N kp0 g0 h0 -> tidle false g0 -> ridle false h0 -> wok wsys0.
  Proof.
    intros J0 t0 r0. constructor; cbn; [|apply ordered0]. exists kp0, g0, h0. destruct (JQ _ _ _ _ J0) as (Q1 & Q2).
    repeat (split; auto using sound0); intros n N; assert (n = 0) as -> by lia; auto.
  Qed.
End Steps.

(** A call of the sender, possibly changing the invariant. *)
Lemma call_tx {O R TG RG} care (side_of : O -> side) consuming (code : O -> prog R) (J1 J2 : N -> KP -> TG -> RG -> Prop)
  (J' : N -> KP -> RG -> TG -> Prop) (tidle : bool -> TG -> Prop) (ridle : bool -> RG -> Prop) (Qt : TG -> N -> Prop) (Qr : RG -> N -> Prop) x o :
  side_of o = TX -> (forall v k g h, J1 v k g h -> tidle false g ->
    exists g', J2 v k g' h /\ keepQ Qt g g' /\ wwp care TX consuming J2 tidle Qt o (code o) g') ->
  wok care consuming J1 J' tidle ridle Qt Qr x -> wt (wtx x) = Idle ->
  wok care consuming J2 J' tidle ridle Qt Qr (wstep side_of consuming code x (WCall o)).
Proof.
  intros S callt W E. cbn [wstep wthr_of wput]. rewrite S. cbn [wthr_of wput]. rewrite E.
  destruct W as [(k & g & h & HJ & Hs & Ht & Hr & Vt & Vr) Ho].
  rewrite E in Ht. destruct (callt _ _ _ _ HJ Ht) as (g' & HJ' & Kq & Hk).
  constructor; cbn [whist wcells wtx wrx wlog wt wseen length latest hd]; rewrite acc_ev; auto.
  exists k, g', h. split; auto. split; auto. split; [exact Hk|]. split; auto. split; auto. eapply views_keep; eauto.
Qed.
Lemma call_busy {O R} side_of consuming (code : O -> prog R) x o : side_of o = TX -> wt (wtx x) <> Idle ->
  wstep side_of consuming code x (WCall o) = x.
Proof. intros S E. cbn [wstep]. rewrite S. cbn [wthr_of]. destruct (wt (wtx x)); congruence. Qed.

Definition allowed {O} (may : O -> Prop) (a : wact O) : Prop := match a with WCall o => may o | WStep _ _ _ => True end.

Section Sound.
  Context {O R TG RG : Type}.
  Variable care : cell -> bool.
  Variable side_of : O -> side.
  Variable consuming : O -> bool.
  Variable code : O -> prog R.
  Variable J : N -> KP -> TG -> RG -> Prop.
  Variable tidle : bool -> TG -> Prop.
  Variable ridle : bool -> RG -> Prop.
  Variable Qt : TG -> N -> Prop.
  Variable Qr : RG -> N -> Prop.
  Let J' := fun v k h g => J v k g h.
  Let wpt := @wwp O R TG RG care TX consuming J tidle Qt.
  Let wpr := @wwp O R RG TG care RX consuming J' ridle Qr.

  Variable g0 : TG.
  Variable h0 : RG.
  Hypothesis J0 : J 0%N kp0 g0 h0.
  Hypothesis t0 : tidle false g0.
  Hypothesis r0 : ridle false h0.
  Hypothesis JQ : forall v k g h, J v k g h -> Qt g v /\ Qr h v.
  (** The methods that the schedule may call. *)
  Variable may : O -> Prop.
  Hypothesis callt : forall o, may o -> side_of o = TX -> forall v k g h, J v k g h -> tidle false g ->
    exists g', J v k g' h /\ keepQ Qt g g' /\ wpt o (code o) g'.
  Hypothesis callr : forall o, may o -> side_of o = RX -> forall v k g h, J v k g h -> ridle false h ->
    exists h', J v k g h' /\ keepQ Qr h h' /\ wpr o (code o) h'.

  Let ok := wok care consuming J J' tidle ridle Qt Qr (O := O) (R := R).
  Lemma wok_step x a : allowed may a -> ok x -> ok (wstep side_of consuming code x a).
  Proof.
    intros M W. destruct a as [o|s spur back]; [|apply step_step; auto].
    destruct (side_of o) eqn:S; [|apply call_rx; auto; intros; now apply callr].
    destruct (wt (wtx x)) eqn:E; [apply call_tx with J; auto| |]; rewrite call_busy; auto; congruence.
  Qed.
  Theorem wok_run l : Forall (allowed may) l -> ok (wrun side_of consuming code l).
  Proof.
    intros A. assert (W : ok wsys0) by (apply wok_init with g0 h0; auto).
    unfold wrun. revert W. generalize (@wsys0 O R) as x. induction A as [|a l Ha A IH]; intros x W; cbn [fold_left]; auto.
    apply IH. now apply wok_step.
  Qed.
  Corollary wok_races l : Forall (allowed may) l -> ~ racing (fun a b => clash a b /\ exists c w, a = ACell c w /\ care c = true)
    (accesses (wlog (wrun side_of consuming code l))).
  Proof. intros A. eapply ordered_races, wo_ord, wok_run, A. Qed.
End Sound.

(** The same when some of the sender's calls may be made [lim] times at most in all. *)
Section Budget.
  Context {O R TG RG : Type}.
  Variable care : cell -> bool.
  Variable side_of : O -> side.
  Variable consuming : O -> bool.
  Variable code : O -> prog R.
  (** The number of such calls made. *)
  Variable J : nat -> N -> KP -> TG -> RG -> Prop.
  Variable J' : N -> KP -> RG -> TG -> Prop.
  Hypothesis JJ' : forall n v k g h, J n v k g h -> J' v k h g.
  Hypothesis J'J : forall n v k v' k' g h h', J n v k g h -> J' v' k' h' g -> J n v' k' g h'.
  Variable tidle : bool -> TG -> Prop.
  Variable ridle : bool -> RG -> Prop.
  Variable Qt : TG -> N -> Prop.
  Variable Qr : RG -> N -> Prop.
  Variable g0 : TG.
  Variable h0 : RG.
  Hypothesis J0 : J 0 0%N kp0 g0 h0.
  Hypothesis t0 : tidle false g0.
  Hypothesis r0 : ridle false h0.
  Hypothesis JQ : forall n v k g h, J n v k g h -> Qt g v /\ Qr h v.
  Variable may : O -> Prop.
  Variable spend : O -> bool.
  Variable lim : nat.
  Hypothesis callt : forall n o, may o -> side_of o = TX -> (spend o = true -> n < lim) ->
    let m := if spend o then S n else n in
    forall v k g h, J n v k g h -> tidle false g ->
    exists g', J m v k g' h /\ keepQ Qt g g' /\ wwp care TX consuming (J m) tidle Qt o (code o) g'.
  Hypothesis callr : forall o, may o -> side_of o = RX -> forall v k g h, J' v k h g -> ridle false h ->
    exists h', J' v k h' g /\ keepQ Qr h h' /\ wwp care RX consuming J' ridle Qr o (code o) h'.

  Definition spends (a : wact O) : bool := match a with WCall o => spend o | WStep _ _ _ => false end.
  Let ok n := wok care consuming (J n) J' tidle ridle Qt Qr (O := O) (R := R).
  Theorem wok_budget l : Forall (allowed may) l -> length (filter spends l) <= lim ->
    exists n, n <= length (filter spends l) /\ ok n (wrun side_of consuming code l).
  Proof.
    induction l as [|a l IH] using rev_ind; intros A L.
    { exists 0. split; auto. apply wok_init with g0 h0; eauto. }
    apply Forall_app in A as (A & Aa). inversion_clear Aa as [|? ? M _]. rewrite filter_app, app_length in L.
    destruct IH as (n & Ln & W); [auto|lia|]. unfold wrun in *. rewrite fold_left_app. cbn [fold_left].
    set (x := fold_left _ l _) in *. rewrite filter_app, app_length. cbn [filter length] in *.
    destruct a as [o|s spur back]; [|exists n; split; [lia|apply step_step; eauto]]. cbn [spends] in *.
    destruct (side_of o) eqn:S.
    2: { exists n. split; [lia|apply call_rx; eauto]. }
    destruct (wt (wtx x)) eqn:E.
    - exists (if spend o then Datatypes.S n else n). split; [destruct (spend o); cbn [length] in *; lia|].
      apply call_tx with (J n); auto. apply callt; auto. intros B. rewrite B in L. cbn [length] in L. lia.
    - exists n. split; [lia|]. rewrite call_busy; auto. congruence.
    - exists n. split; [lia|]. rewrite call_busy; auto. congruence.
  Qed.
  Corollary budget_races l : Forall (allowed may) l -> length (filter spends l) <= lim ->
    ~ racing (fun a b => clash a b /\ exists c w, a = ACell c w /\ care c = true) (accesses (wlog (wrun side_of consuming code l))).
  Proof. intros A L. destruct (wok_budget l A L) as (n & _ & W). eapply ordered_races, wo_ord, W. Qed.
End Budget.

Lemma allowed_any {O} (l : list (wact O)) : Forall (allowed (fun _ => True)) l.
Proof. apply Forall_forall. now intros [] _. Qed.
