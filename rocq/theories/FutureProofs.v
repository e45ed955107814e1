(** Every execution of a fiber future. *)
Require Import PeanoNat NArith List Bool Lia.
Require Import Verif.Spsc Verif.Oneshot Verif.OneshotSpec Verif.Fiber Verif.FiberSpec Verif.FiberProofs.
Require Verif.P06_Oneshot.
Import ListNotations.
Open Scope N_scope.

Lemma ch_snoc {O R Y C} (l : list (fev O R Y C)) e : channel (l ++ [FCh e]) = channel l ++ [e].
Proof. now rewrite channel_app. Qed.
Lemma ch_other {O R Y C} (l : list (fev O R Y C)) e :
  match e with FCh _ => False | _ => True end -> channel (l ++ [e]) = channel l.
Proof. intros H. rewrite channel_app. destruct e; try contradiction; cbn; now rewrite app_nil_r. Qed.
Lemma fold_snoc {A B} (f : A -> B -> A) l x a : fold_left f (l ++ [x]) a = f (fold_left f l a) x.
Proof. now rewrite fold_left_app. Qed.

Definition oshape (o : oop) (r : ores) : Prop :=
  match o with
  | IsCanceled => exists b, r = RBool b
  | Send _ => r = ROk \/ exists v, r = RErr v
  | Poll _ => r = RPending \/ r = RCanceled \/ exists v, r = RVal v
  | Close | DropRx | DropTx => r = RUnit
  | PollCanceled _ => r = RPending \/ r = RReady
  | _ => True
  end.
Lemma ocode_shape o : leaves (oshape o) (ocode o).
Proof.
  destruct o; cbn; intros; auto;
    repeat (match goal with |- context [if ?b then _ else _] => destruct b end; cbn; intros); eauto 6.
Qed.

Ltac shp Hs := try subst;
  try first [destruct Hs as [->|[->|[? ->]]]|destruct Hs as [->|[? ->]]|destruct Hs as [->| ->]|destruct Hs as [[|] ->]].
Section Future.
  Variable at_ : bool.
  Notation log := (list ofev).
  Definition Ko (l : list (ev oop ores)) : Prop :=
    exists sc, l = slog (orun at_ sc) /\ uaf (smem (orun at_ sc)) = false.
  Lemma Ko_shape l : Ko l -> Forall (shaped oshape) l.
  Proof. intros (sc & -> & _). apply shaped_run, ocode_shape. Qed.
  Lemma Ko_sender l : Ko l -> c_bad (sender_wakeups l) = false /\ c_spur (sender_wakeups l) = false.
  Proof. intros (sc & -> & U). destruct (P06_Oneshot.C31_cancellation at_ sc U) as (_ & A & B). auto. Qed.

  Lemma last_shape (l : log) o r : Ko (channel (l ++ [FCh (ERet o r)])) -> oshape o r.
  Proof. intros H. apply Ko_shape in H. rewrite ch_snoc in H. apply Forall_app in H. destruct H as [_ H]. now inversion_clear H. Qed.

  Notation sent l := (v_sent (values (channel l))).
  Notation late l := (c_late (sender_wakeups (channel l))).
  Notation drv := (driving (R := ores) (Y := unit) (C := N) oclose).
  Notation sta := (stable (R := ores) (Y := unit) (C := N) oside future_api).

  Definition legal (e : ofev) : Prop :=
    match e with FCh (EInv o) | FCh (ERet o _) => oside o = TX \/ future_api o = true | _ => True end.
  Record ok (l : log) : Prop := {
    k_bad : d_bad (drv l) = false;
    k_leg : Forall legal l;
    k_none : d_done (drv l) = false -> completed l = [];
    k_one : (length (completed l) <= 1)%nat;
    k_sent : sent l = [] \/ sent l = completed l;
    k_fin : d_done (drv l) = true -> d_ended (drv l) = true -> d_begun (drv l) = false -> v_ok (values (channel l)) = true;
    k_dn : d_ended (drv l) = true -> k_done (receiver_wakeups (channel l)) = true;
    k_ex : k_begun (receiver_wakeups (channel l)) = true -> d_begun (drv l) = true \/ u_got (resolving l) = true;
    k_unr : u_unr (resolving l) = false;
    k_rdy : ready (polled l) = v_got (values (channel l));
    k_got : u_got (resolving l) = false -> v_got (values (channel l)) = [];
    k_due : u_due (resolving l) = true -> v_due (values (channel l)) = true;
    k_miss : u_miss (resolving l) = true -> v_miss (values (channel l)) = true
  }.
  Definition psus (l : log) := (exists r n, dr oclose false r false false false false n n l) /\ sent l = [].
  Definition pend (l : log) := d_ended (drv l) = true.

  (** Relations between observers. *)
  Lemma c_rel (l : log) : c_closed (sender_wakeups (channel l)) = d_closed (drv l) /\ c_begun (sender_wakeups (channel l)) = d_begun (drv l).
  Proof.
    induction l as [|e l IH] using rev_ind; [split; reflexivity|].
    rewrite driving_snoc. destruct (drv l) as [i r lt dn er en ru ys bg cl bad]. cbn in IH.
    destruct e as [| | [] | | [] | | |e]; try (rewrite ch_other by exact I; exact IH).
    rewrite ch_snoc. unfold sender_wakeups in *. rewrite fold_snoc.
    destruct (fold_left cstep (channel l) cwake0) as [? ? ? ? ? ? ? ? ?]. cbn in IH. destruct IH as [-> ->].
    destruct e as [[]|[] [| | |[]| | | | |]|[]| | | |]; cbn; rewrite ?orb_false_r, ?orb_true_r; auto.
  Qed.

  Lemma sent_stable v : sta (fun l => sent l = v).
  Proof.
    intros l e Q H. destruct e; try contradiction Q. rewrite ch_snoc. unfold values in *. rewrite fold_snoc.
    destruct (fold_left vstep (channel l) vals0). cbn in H. subst. destruct e as [[]|[] [| | |[]| | | | |]| | | | |]; destruct Q; try discriminate; reflexivity.
  Qed.
  Lemma ok_stable : sta (fun l => v_ok (values (channel l)) = true).
  Proof.
    intros l e Q H. destruct e; try contradiction Q. rewrite ch_snoc. unfold values in *. rewrite fold_snoc.
    destruct (fold_left vstep (channel l) vals0). cbn in H. subst. destruct e as [[]|[] [| | |[]| | | | |]| | | | |]; destruct Q; try discriminate; reflexivity.
  Qed.
  Lemma done_stable : sta (fun l => k_done (receiver_wakeups (channel l)) = true).
  Proof.
    intros l e Q H. destruct e; try contradiction Q. rewrite ch_snoc. unfold receiver_wakeups in *. rewrite fold_snoc.
    destruct (fold_left kstep (channel l) rwake0). cbn in H. subst. destruct e as [[]|[] []|[]| | | |]; reflexivity.
  Qed.
  Lemma late_stable b : sta (fun l => late l = b).
  Proof.
    intros l e Q H. destruct e; try contradiction Q. rewrite ch_snoc. unfold sender_wakeups in *. rewrite fold_snoc.
    destruct (fold_left cstep (channel l) cwake0). cbn in H. subst. destruct e as [[]|[] [| | |[]| | | | |]|[]| | | |]; destruct Q; try discriminate; reflexivity.
  Qed.
  Lemma closed_stable : sta (fun l => d_closed (drv l) = true).
  Proof.
    intros l e Q H. rewrite driving_snoc. destruct (drv l). cbn in H. subst.
    destruct e as [| | [] | | [] | | |[]]; cbn; auto.
  Qed.
  Lemma comp_ch l e : completed (l ++ [FCh e]) = completed l.
  Proof. unfold completed. rewrite flat_map_app. cbn. now rewrite app_nil_r. Qed.
  Lemma comp_stable v : sta (fun l => completed l = v).
  Proof. intros l e Q H. destruct e; try contradiction Q. now rewrite comp_ch. Qed.

  Lemma stable_and P Q : sta P -> sta Q -> sta (fun l => P l /\ Q l).
  Proof. intros A B l e q []. split; auto. Qed.
  Lemma stable_or P Q : sta P -> sta Q -> sta (fun l => P l \/ Q l).
  Proof. intros A B l e q []; [left|right]; auto. Qed.
  Lemma stable_ex {A} (P : A -> log -> Prop) : (forall a, sta (P a)) -> sta (fun l => exists a, P a l).
  Proof. intros H l e q [a Ha]. exists a. now apply H. Qed.
  Lemma stable_imp (A : Prop) P : sta P -> sta (fun l => A -> P l).
  Proof. intros H l e q Ha a. apply H; auto. Qed.
  Hint Resolve done_stable sent_stable ok_stable late_stable closed_stable comp_stable stable_and stable_or stable_ex stable_imp dr_stable begun_stable : sta.
  Ltac sta_ := cbv beta; auto 20 with sta.

  Lemma u_rel (l : log) : u_comp (resolving l) = d_done (drv l) /\ u_end (resolving l) = d_ended (drv l) /\
    u_begun (resolving l) = d_begun (drv l).
  Proof.
    induction l as [|e l IH] using rev_ind; [repeat split; reflexivity|].
    rewrite driving_snoc. unfold resolving in *. rewrite fold_snoc. destruct (fold_left ustep l fut0) as [co en bg got due miss unr].
    destruct (drv l) as [i r lt dn er en' ru ys bg' cl bad]. cbn in IH. destruct IH as (-> & -> & ->).
    destruct e as [| |[]| |[]| | |[[]|[] []|[]| | | |]]; cbn; rewrite ?orb_false_r, ?orb_true_r; auto.
  Qed.
  Lemma Ko_spur l : Ko l -> k_badp (receiver_wakeups l) = false /\ k_spur (receiver_wakeups l) = false.
  Proof. intros (sc & -> & U). destruct (P06_Oneshot.C30_receiver_woken at_ sc U) as (_ & A & B). auto. Qed.

  Lemma ok_ch l e : legal (FCh e) ->
    (sent (l ++ [FCh e]) = sent l \/ sent (l ++ [FCh e]) = completed l) ->
    (e = EInv DropTx -> d_begun (drv l) = true) ->
    (match e with ERet _ _ => Ko (channel (l ++ [FCh e])) | _ => True end) ->
    ok l -> ok (l ++ [FCh e]).
  Proof.
    intros Q E Hd Hk [H1 H2 H3 H4 H5 H6 H7 H8 H9 H10 H11 H12 H13].
    assert (match e with ERet o r => oshape o r | _ => True end) as Hs by (destruct e; auto; eapply last_shape; eauto).
    assert (d_bad (drv (l ++ [FCh e])) = d_bad (drv l) /\ d_done (drv (l ++ [FCh e])) = d_done (drv l) /\
      d_ended (drv (l ++ [FCh e])) = d_ended (drv l) /\ (d_begun (drv l) = true -> d_begun (drv (l ++ [FCh e])) = true)) as (E1 & E2 & E3 & E4).
    { rewrite driving_snoc. destruct (drv l). destruct e; cbn; repeat split; auto. now intros ->. }
    constructor; rewrite ?E1, ?E2, ?E3, ?comp_ch; auto.
    - apply Forall_app. split; auto.
    - destruct E as [->| ->]; auto.
    - intros A B D. assert (d_begun (drv l) = false) as D' by (destruct (d_begun (drv l)); auto; rewrite E4 in D; auto).
      specialize (H6 A B D'). rewrite ch_snoc. unfold values in *. rewrite fold_snoc.
      destruct (fold_left vstep (channel l) vals0). cbn in H6. subst. destruct e as [[]|[] [| | |[]| | | | |]| | | | |]; reflexivity.
    - intros A. specialize (H7 A). rewrite ch_snoc. unfold receiver_wakeups in *. rewrite fold_snoc.
      destruct (fold_left kstep (channel l) rwake0). cbn in H7. subst. destruct e as [[]|[] []|[]| | | |]; reflexivity.
    - assert (u_got (resolving l) = true -> u_got (resolving (l ++ [FCh e])) = true) as G.
      { unfold resolving. rewrite fold_snoc. destruct (fold_left ustep l fut0). cbn. intros ->. destruct e as [[]|[] []|[]| | | |]; reflexivity. }
      assert (k_begun (receiver_wakeups (channel l)) = true -> d_begun (drv (l ++ [FCh e])) = true \/ u_got (resolving (l ++ [FCh e])) = true) as G'
        by (intros A; destruct (H8 A); auto).
      rewrite ch_snoc. unfold receiver_wakeups in *. rewrite fold_snoc.
      destruct (fold_left kstep (channel l) rwake0). cbn in G'.
      destruct e as [[]|[] []|[]| | | |]; try exact G'; intros _.
      + left. apply E4, Hd. reflexivity.
      + left. rewrite driving_snoc. destruct (drv l). cbn. apply orb_true_r.
      + cbn in Q. destruct Q; discriminate.
      + right. unfold resolving. rewrite fold_snoc. now destruct (fold_left ustep l fut0).
    - pose proof (proj2 (proj2 (u_rel l))) as Eb.
      assert (forall w r, e = ERet (Poll w) r -> r = RPending \/ (exists v, r = RVal v) \/ r = RCanceled /\ (d_begun (drv l) = true \/ u_got (resolving l) = true)) as G.
      { intros w r ->. destruct (last_shape _ _ _ Hk) as [->|[->|[v ->]]]; eauto.
        right. right. split; [reflexivity|]. apply H8. destruct (Ko_spur _ Hk) as [_ A]. rewrite ch_snoc in A. unfold receiver_wakeups in *. rewrite fold_snoc in A.
        destruct (fold_left kstep (channel l) rwake0). cbn in A. apply orb_false_elim in A. destruct A as [_ A]. cbn. now destruct k_begun. }
      unfold resolving in *. rewrite fold_snoc. destruct (fold_left ustep l fut0). cbn in H9, Eb, G. subst.
      destruct e as [[]|[] r|[]| | | |]; try reflexivity.
      destruct (G _ _ eq_refl) as [->|[[v ->]|[-> [A|A]]]]; cbn; rewrite ?A, ?orb_true_r; reflexivity.
    - unfold polled, ready in *. rewrite ch_snoc, !flat_map_app. unfold values in *. rewrite fold_snoc. rewrite H10. cbn. clear - Q Hs.
      destruct (fold_left vstep (channel l) vals0).
      destruct e as [[]|[] r|[]| | | |]; cbn in *; rewrite ?app_nil_r; try reflexivity; try (destruct Q; discriminate);
        shp Hs; cbn; rewrite ?app_nil_r; reflexivity.
    - rewrite ch_snoc. unfold values, resolving in *. rewrite !fold_snoc. clear - Q Hs H11.
      destruct (fold_left ustep l fut0), (fold_left vstep (channel l) vals0). cbn in H11.
      destruct e as [[]|[] r|[]| | | |]; cbn in *; auto; try (destruct Q; discriminate);
        shp Hs; cbn; auto; try discriminate.
    - rewrite ch_snoc. destruct (u_rel l) as (R1 & R2 & R3). unfold values, resolving in *. rewrite !fold_snoc. clear - Q Hs H11 H12 H6 R1 R2 R3.
      destruct (fold_left ustep l fut0), (fold_left vstep (channel l) vals0). cbn in H11, H12, H6, R1, R2, R3.
      destruct e as [[]|[] r|[]| | | |]; cbn in *; auto; try (destruct Q; discriminate);
        try (shp Hs; cbn; auto; discriminate).
      subst. intros A. apply andb_prop in A. destruct A as [A A4]. apply andb_prop in A. destruct A as [A A3]. apply andb_prop in A. destruct A as [A1 A2].
      rewrite H6 by (auto; now destruct (d_begun (drv l))). rewrite H11 by now destruct u_got. reflexivity.
    - rewrite ch_snoc. unfold values, resolving in *. rewrite !fold_snoc. clear - Q Hs H12 H13.
      destruct (fold_left ustep l fut0), (fold_left vstep (channel l) vals0). cbn in H12, H13.
      destruct e as [[]|[] r|[]| | | |]; cbn in *; auto; try (destruct Q; discriminate);
        shp Hs; cbn; auto; try discriminate;
        (intros A; apply orb_prop in A; destruct A as [A|A]; [rewrite (H13 A)|rewrite (H12 A)]); rewrite ?orb_true_r; auto.
  Qed.
  Lemma ok_quiet l e : quiet oside future_api e -> ok l -> Ko (channel (l ++ [e])) -> ok (l ++ [e]).
  Proof.
    intros Q H Hk. destruct e; try contradiction Q. apply ok_ch; auto.
    - destruct e; cbn in *; try exact I; right; apply Q.
    - left. now apply (sent_stable (sent l) l).
    - intros ->. destruct Q. discriminate.
    - destruct e; auto.
  Qed.
  (** Events of the generator that leave the channel alone. *)
  Lemma ok_other l e : match e with FCh _ => False | FOut (Complete _) => False | FEnd => False | FOverRet _ => False | _ => True end ->
    d_bad (drv (l ++ [e])) = false -> ok l -> ok (l ++ [e]).
  Proof.
    intros Q E [H1 H2 H3 H4 H5 H6 H7 H8 H9 H10 H11 H12 H13].
    assert (completed (l ++ [e]) = completed l) as Ec.
    { unfold completed. rewrite flat_map_app. destruct e as [| |[]| | | | |]; try contradiction; cbn; now rewrite app_nil_r. }
    assert (d_done (drv (l ++ [e])) = d_done (drv l) /\
      d_ended (drv (l ++ [e])) = d_ended (drv l) /\ d_begun (drv (l ++ [e])) = d_begun (drv l)) as (E2 & E3 & E4).
    { rewrite driving_snoc. destruct (drv l). destruct e as [| |[]| | | | |]; try contradiction; cbn; repeat split; auto. }
    assert (resolving (l ++ [e]) = resolving l) as E5.
    { unfold resolving. rewrite fold_snoc. destruct (fold_left ustep l fut0). destruct e as [| |[]| | | | |]; try contradiction; reflexivity. }
    assert (polled (l ++ [e]) = polled l) as E6.
    { unfold polled. rewrite flat_map_app. destruct e as [| |[]| | | | |]; try contradiction; cbn; now rewrite app_nil_r. }
    constructor; rewrite ?E2, ?E3, ?E4, ?E5, ?E6, ?Ec; auto; try (rewrite ch_other by (destruct e; try contradiction; exact I); auto).
    apply Forall_app. split; auto. constructor; auto. destruct e; try contradiction; exact I.
  Qed.

  Notation gwp_ := (gwp oside future_api Ko ok psus pend).
  Ltac drs E := rewrite driving_snoc, E; cbn; rewrite ?Nat.eqb_refl; reflexivity.

  Lemma gwp_end_ l : ok l -> k_done (receiver_wakeups (channel l)) = true -> ((exists r lt, (exists n, dr oclose true r lt true false false (S n) n l) /\
      (d_begun (drv l) = true \/ v_ok (values (channel l)) = true)) \/
      (exists r lt n m, dr oclose true r lt false false false n m l) /\ d_begun (drv l) = true) -> gwp_ GEnd l.
  Proof.
    intros Ho Hn Hp. eapply (gwp_end _ _ _ _ _ _ (fun l => k_done (receiver_wakeups (channel l)) = true /\ ((exists r lt, (exists n, dr oclose true r lt true false false (S n) n l) /\
      (d_begun (drv l) = true \/ v_ok (values (channel l)) = true)) \/
      (exists r lt n m, dr oclose true r lt false false false n m l) /\ d_begun (drv l) = true))); eauto.
    { apply stable_and; [sta_|]. intros l1 e q [(r & lt & (n & A) & B)|((r & lt & n & m & A) & B)].
      - left. exists r, lt. split; [exists n; eapply dr_stable; eauto|].
        destruct B as [B|B]; [left; eapply begun_stable; eauto|right; eapply ok_stable; eauto].
      - right. split; [exists r, lt, n, m; eapply dr_stable; eauto|eapply begun_stable; eauto]. }
    clear - at_. intros l [H1 H2 H3 H4 H5 H6 H7 H8 H9 H10 H11 H12 H13] [Hn Hp]. unfold pend.
    assert (completed (l ++ [FEnd]) = completed l) as Ec.
    { unfold completed. rewrite flat_map_app. cbn. now rewrite app_nil_r. }
    assert (u_got (resolving (l ++ [FEnd])) = u_got (resolving l) /\ u_unr (resolving (l ++ [FEnd])) = u_unr (resolving l) /\
      u_due (resolving (l ++ [FEnd])) = u_due (resolving l) /\ u_miss (resolving (l ++ [FEnd])) = u_miss (resolving l)) as (Eg & Eu & Ed & Em).
    { unfold resolving. rewrite fold_snoc. now destruct (fold_left ustep l fut0). }
    assert (polled (l ++ [FEnd]) = polled l) as E6.
    { unfold polled. rewrite flat_map_app. cbn. now rewrite app_nil_r. }
    destruct Hp as [(r & lt & (n & bg & cl & E) & Hb)|((r & lt & n & m & bg & cl & E) & Hb)]; rewrite driving_snoc, E in *;
      (split; [|reflexivity]); constructor; rewrite ?driving_snoc, ?E, ?Ec, ?Eg, ?Eu, ?Ed, ?Em, ?E6, ?ch_other by exact I; cbn in *; rewrite ?orb_true_r; auto.
    all: try (apply Forall_app; split; auto; constructor; [exact I|auto]).
    - intros _ _ ->. destruct Hb; [discriminate|auto].
    - now rewrite Hb.
  Qed.

  Ltac vd := match goal with
    | |- context [vstep (fold_left vstep ?c vals0) _] => destruct (fold_left vstep c vals0)
    | |- context [cstep (fold_left cstep ?c cwake0) _] => destruct (fold_left cstep c cwake0)
    | H : context [cstep (fold_left cstep ?c cwake0) _] |- _ => destruct (fold_left cstep c cwake0)
    end.
  Lemma turn l : ok l -> psus l -> ok (l ++ [FRun]) /\ gwp_ future_body (l ++ [FRun]).
  Proof.
    intros Ho ((r & n & bg & cl & E) & Es).
    assert (ok (l ++ [FRun])) as Ho' by (apply ok_other; [exact I|drs E|exact Ho]).
    split; [exact Ho'|]. unfold future_body.
    eapply (gwp_call _ _ _ _ _ _
      (fun l => dr oclose true false cl false false false (S n) n l /\ sent l = [] /\ (cl = true -> d_closed (drv l) = true))
      (fun l => dr oclose true false cl false false false (S n) n l /\ sent l = [] /\ (cl = true -> late l = true))); sta_.
    - intros l1 H _. apply ok_ch; [left; reflexivity| |discriminate|first [exact I|exact Hk]|assumption]. left. rewrite ch_snoc. unfold values. rewrite fold_snoc. now vd.
    - intros l1 (H1 & H2 & H3). split; [now apply dr_ch|]. split.
      + rewrite ch_snoc. unfold values in *. rewrite fold_snoc. now vd.
      + intros Hc. specialize (H3 Hc). rewrite <- (proj1 (c_rel l1)) in H3. rewrite ch_snoc. unfold sender_wakeups in *. rewrite fold_snoc.
        vd. exact H3.
    - clear l Ho Es E Ho'. intros l r0 Ho (H1 & H2 & H3) Hk. pose proof (last_shape _ _ _ Hk) as [b ->].
      assert (ok (l ++ [FCh (ERet IsCanceled (RBool b))])) as Ho'.
      { apply ok_ch; [left; reflexivity| |discriminate|first [exact I|exact Hk]|assumption]. left. rewrite ch_snoc. unfold values. rewrite fold_snoc. vd; now destruct b. }
      assert (sent (l ++ [FCh (ERet IsCanceled (RBool b))]) = []) as H2'.
      { rewrite ch_snoc. unfold values in *. rewrite fold_snoc. vd; now destruct b. }
      pose proof (dr_ch oclose _ _ _ _ _ _ _ _ _ (ERet IsCanceled (RBool b)) H1) as H1'.
      destruct (Ko_sender _ Hk) as [C1 C2]. pose proof (proj2 (c_rel (l ++ [FCh (ERet IsCanceled (RBool b))]))) as C3.
      destruct b.
      + (* canceled *)
        assert (d_begun (drv (l ++ [FCh (ERet IsCanceled (RBool true))])) = true) as Hb.
        { rewrite <- C3. rewrite ch_snoc in *. unfold sender_wakeups in *. rewrite fold_snoc in *. vd.
          cbn in *. apply orb_false_elim in C2. destruct C2 as [_ C2]. now destruct c_begun. }
        eapply (gwp_call _ _ _ _ _ _
          (fun l => dr oclose true false cl false false false (S n) n l /\ d_begun (drv l) = true)
          (fun l => dr oclose true false cl false false false (S n) n l /\ d_begun (drv l) = true)); sta_.
        * intros l1 H (_ & Hb1). apply ok_ch; [left; reflexivity| |intros _; exact Hb1|first [exact I|exact Hk]|assumption]. left. rewrite ch_snoc. unfold values. rewrite fold_snoc. now vd.
        * intros l1 (A & B). split; [now apply dr_ch|]. rewrite driving_snoc. destruct (drv l1). cbn in *. now rewrite B.
        * intros l1 r1 Ho1 (A & B) Hk1. apply gwp_end_.
          -- apply ok_ch; [left; reflexivity| |discriminate|exact Hk1|assumption]. left. rewrite ch_snoc. unfold values. rewrite fold_snoc. vd; now destruct r1.
          -- rewrite ch_snoc. unfold receiver_wakeups. rewrite fold_snoc. now destruct (fold_left kstep (channel l1) rwake0).
          -- right. split; [exists false, cl, (S n), n; now apply dr_ch|]. rewrite driving_snoc. destruct (drv l1). cbn in *. now rewrite B.
      + (* not canceled *)
        assert (cl = false) as ->.
        { destruct cl; [|reflexivity]. specialize (H3 eq_refl). rewrite ch_snoc in *. unfold sender_wakeups in *. rewrite fold_snoc in *. vd.
          cbn in *. subst. now rewrite orb_true_r in C1. }
        eapply (gwp_resume _ _ _ _ _ _
          (fun l => dr oclose true false false false false false (S n) n l /\ sent l = [])
          (fun l => dr oclose true true false false false false (S n) n l /\ sent l = [])); sta_.
        * intros l1 H ((bg1 & cl1 & E1) & _). apply ok_other; [exact I|drs E1|exact H].
        * intros l1 ((bg1 & cl1 & E1) & A). split; [exists bg1, cl1; drs E1|]. now rewrite ch_other.
        * clear - at_. intros l o Ho ((bg1 & cl1 & E) & A). destruct o as [y|v].
          -- assert (ok (l ++ [FOut (Yielded y)])) as Ho' by (apply ok_other; [exact I|drs E|exact Ho]).
             eapply (gwp_yield _ _ _ _ _ _
               (fun l => dr oclose true true false false false false (S n) (S n) l /\ sent l = [])); sta_.
             ++ clear - at_. intros l Ho ((bg1 & cl1 & E) & A). split; [apply ok_other; [exact I|drs E|exact Ho]|].
                split; [exists true, (S n), bg1, cl1; drs E|]. now rewrite ch_other.
             ++ split; [exists bg1, cl1; drs E|]. now rewrite ch_other.
          -- assert (completed (l ++ [FOut (Complete v)]) = [v]) as Ec.
             { unfold completed in *. rewrite flat_map_app. cbn. destruct Ho. unfold completed in *. now rewrite k_none0 by now rewrite E. }
             assert (ok (l ++ [FOut (Complete v)])) as Ho'.
             { pose proof Ho as [G1 G2 G3 G4 G5 G6 G7 G8 G9 G10 G11 G12 G13].
               assert (u_got (resolving (l ++ [FOut (Complete v)])) = u_got (resolving l) /\ u_unr (resolving (l ++ [FOut (Complete v)])) = u_unr (resolving l) /\
                 u_due (resolving (l ++ [FOut (Complete v)])) = u_due (resolving l) /\ u_miss (resolving (l ++ [FOut (Complete v)])) = u_miss (resolving l)) as (Eg & Eu & Ed & Em).
               { unfold resolving. rewrite fold_snoc. now destruct (fold_left ustep l fut0). }
               assert (polled (l ++ [FOut (Complete v)]) = polled l) as E6.
               { unfold polled. rewrite flat_map_app. cbn. now rewrite app_nil_r. }
               constructor; rewrite ?Ec, ?Eg, ?Eu, ?Ed, ?Em, ?E6; auto; try (rewrite ch_other by exact I; assumption).
               - rewrite driving_snoc, E. cbn. now rewrite Nat.eqb_refl.
               - apply Forall_app. split; auto. repeat constructor.
               - rewrite driving_snoc, E. discriminate.
               - left. now rewrite ch_other.
               - rewrite driving_snoc, E. discriminate.
               - rewrite driving_snoc, E. discriminate.
               - rewrite driving_snoc, ch_other by exact I. intros A'. specialize (G8 A'). rewrite E in *. exact G8. }
             eapply (gwp_call _ _ _ _ _ _
               (fun l => dr oclose true true false true false false (S n) n l /\ sent l = [] /\ completed l = [v])
               (fun l => dr oclose true true false true false false (S n) n l)); sta_.
             ++ clear - at_. intros l Ho (H1 & H2 & H3). apply ok_ch; [left; reflexivity| |discriminate|first [exact I|exact Hk]|assumption]. right. rewrite ch_snoc. unfold values in *. rewrite fold_snoc.
                vd. cbn in *. now subst.
             ++ intros l1 (H1 & H2 & H3). now apply dr_ch.
             ++ clear - at_. intros l r Ho H1 Hk. pose proof (last_shape _ _ _ Hk) as Hr. destruct (Ko_sender _ Hk) as [C1 C2].
                pose proof (proj2 (c_rel (l ++ [FCh (ERet (Send v) r)]))) as C3.
                apply gwp_end_.
                ** apply ok_ch; [left; reflexivity| |discriminate|first [exact I|exact Hk]|assumption]. left. rewrite ch_snoc. unfold values. rewrite fold_snoc. vd; now destruct r.
                ** rewrite ch_snoc. unfold receiver_wakeups. rewrite fold_snoc. now destruct (fold_left kstep (channel l) rwake0).
                ** left. exists true, false. split; [exists n; now apply dr_ch|]. destruct Hr as [->|[v' ->]].
                   --- right. rewrite ch_snoc. unfold values. rewrite fold_snoc. now vd.
                   --- left. rewrite <- C3. rewrite ch_snoc in *. unfold sender_wakeups in *. rewrite fold_snoc in *. vd.
                       cbn in *. apply orb_false_elim in C2. destruct C2 as [_ C2]. now destruct c_begun.
             ++ repeat split; auto; [exists bg1, cl1; drs E|]. now rewrite ch_other.
    - split; [exists bg, cl; drs E|]. split; [now rewrite ch_other|]. intros ->. now rewrite driving_snoc, E.
  Qed.

  Definition goodo (l : list (ev oop ores)) (m : mem) : Prop := uaf m = false.
  Lemma uaf_step x a : uaf (smem (step oside oconsuming ocode at_ x a)) = false -> uaf (smem x) = false.
  Proof.
    intros H. destruct (uaf (smem x)) eqn:E; [|reflexivity]. rewrite <- H. clear H. destruct a as [o|s spur]; cbn [step].
    - destruct (thr_of x (oside o)); auto. destruct (oside o); auto.
    - destruct (thr_of x s) as [|o p|]; auto. destruct (pstep oconsuming at_ s o p (smem x) spur) as [[m e] t] eqn:Ep.
      destruct s; cbn; destruct p; cbn in Ep; unfold take, peek in Ep; cbn in Ep;
        try (destruct (cells (smem x) c)); try (destruct at_; [destruct old; [destruct (_ || _)|]|]);
        injection Ep as <- _ _; cbn; rewrite ?E; auto.
  Qed.

  Theorem future_ok sched : let s := future_run at_ sched in
    uaf (smem (fch s)) = false ->
    channel (flog s) = slog (fch s) /\ Ko (slog (fch s)) /\ ok (flog s) /\
    (fgen s = Ended -> d_ended (drv (flog s)) = true) /\ (fgen s = Susp -> d_late (drv (flog s)) = false).
  Proof.
    intros s U. unfold s, future_run in *.
    destruct (inv_run oside oconsuming ocode at_ future_api future_body goodo Ko ok psus pend) with (sched := sched) as (H1 & (sc & H2) & H3); auto.
    - intros x a. apply uaf_step.
    - intros sc x U'. exists sc. auto.
    - exact ok_quiet.
    - intros l e Q _ ((r & n & H) & H'). split; [exists r, n; eapply dr_stable; eauto|eapply sent_stable; eauto].
    - intros l e Q _ H. unfold pend in *. rewrite driving_snoc. destruct (drv l). destruct e as [| |[]| |[]| | |[]]; try contradiction; cbn in *; auto.
    - constructor; cbn; auto.
    - split; [|reflexivity]. exists false, 0%nat, false, false. reflexivity.
    - exact turn.
    - destruct (H3 U) as (_ & Ho & Hf). split; [exact H1|]. split; [|split; [exact Ho|]].
      + exists sc. split; [exact (f_equal slog H2)|]. change (orun at_ sc) with (run oside oconsuming ocode at_ sys0 sc). now rewrite <- H2.
      + split; intros E; rewrite E in Hf; [apply Hf|]. destruct Hf as [((r & n & bg & cl & Ed) & _) _]. now rewrite Ed.
  Qed.
End Future.
