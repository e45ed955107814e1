(** The structure of the list on the weak memory, for C86. *)
Require Import NArith List Bool Arith Lia.
From Verif Require Import Spsc WeakSpec RaceSpec Weak RaceProofs WeakList WeakListProofs.
Import ListNotations.
Open Scope nat_scope.

(** [d] updates of the head are not seen yet by context 0. *)
Definition pos (prev : option (nat * bool)) (A : list nat) (d : nat) : Prop :=
  match prev with None => d <= length A | Some (p, _) => exists A', A = A' ++ [p] /\ d <= length A' end.
Definition dpos (L : list nat) (d : nat) (dr : dst) : Prop :=
  match dr with
  | DIdle => True
  | DNext prev x => exists A B, L = A ++ x :: B /\ pos prev A d
  | DFilter prev x y => exists A B, L = A ++ x :: B /\ pos prev A d /\ y = hd_error B
  | DHead x y | DCas x y => exists A B, L = A ++ x :: B /\ d <= length A /\ y = hd_error B
  | DWalk p x y => exists A1 q A2 B, p = Some q /\ L = A1 ++ q :: A2 ++ x :: B /\ d <= length A1 /\ y = hd_error B
  | DSet p _ x y => exists A B, L = A ++ p :: x :: B /\ d <= length A /\ y = hd_error B
  | DFree prev x y => exists A B, L = A ++ B /\ pos prev A d /\ y = hd_error B
  end.
Definition held (dr : dst) : list nat := match dr with DFree _ x _ => [x] | _ => [] end.
(** The nodes freed so far. *)
Definition freed (lg : list (nat * maccess * bool)) : list nat :=
  flat_map (fun e => match snd (fst e) with MFree (S x) => [x] | _ => [] end) lg.
Definition gone (lg : list (nat * maccess * bool)) (i j : nat) : Prop :=
  exists e f b, nth_error lg i = Some e /\ nth_error lg j = Some f /\ snd (fst e) = MFree b /\ block (snd (fst f)) = b /\ i < j.

Record safe (L : list nat) (s : lsys) : Prop := {
  s_hist : forall i, i <= length (hist s) - 1 - pseen s 0 -> nth i (hist s) None = nth_error L i;
  s_link : forall A x B, L = A ++ x :: B -> nexts s x = hd_error B;
  s_nodup : NoDup (freed (llog s) ++ held (drain s) ++ L);
  s_lt : forall x, In x (freed (llog s) ++ held (drain s) ++ L) -> x < nodes s /\ forall c, pnode (push s c) <> Some x;
  s_all : forall x, x < nodes s -> In x (freed (llog s) ++ held (drain s) ++ L) \/ exists c, pnode (push s c) = Some x;
  s_pos : dpos L (length (hist s) - 1 - pseen s 0) (drain s);
  s_zero : forall e, In e (llog s) -> snd (fst e) <> MFree 0;
  s_log : forall i j, ~ gone (llog s) i j
}.

Lemma freed_app l l' : freed (l ++ l') = freed l ++ freed l'.
Proof. apply flat_map_app. Qed.
Lemma freed_in lg i e x : nth_error lg i = Some e -> snd (fst e) = MFree (S x) -> In x (freed lg).
Proof. intros N E. apply nth_error_In in N. unfold freed. apply in_flat_map. exists e. split; auto. rewrite E. now left. Qed.

Lemma log_snoc lg e : (forall i j, ~ gone lg i j) -> (forall e, In e lg -> snd (fst e) <> MFree 0) ->
  (forall x, In x (freed lg) -> block (snd (fst e)) <> S x) -> forall i j, ~ gone (lg ++ [e]) i j.
Proof.
  intros H Z N i j (a & b & c & A & B & C & D & L).
  apply nth_snoc in A as [A|(-> & ->)].
  - apply nth_snoc in B as [B|(-> & ->)].
    + apply (H i j). exists a, b, c. auto.
    + destruct c as [|x]; [apply (Z a); [eapply nth_error_In; eauto|auto]|]. apply (N x); auto. eapply freed_in; eauto.
  - apply some_lt in B. rewrite app_length in B. cbn in B. lia.
Qed.
Lemma pos_le prev A d d' : d' <= d -> pos prev A d -> pos prev A d'.
Proof. destruct prev as [[p t]|]; cbn; [|lia]. intros L (A' & E & H). exists A'. split; auto. lia. Qed.
Lemma dpos_le L d d' dr : d' <= d -> dpos L d dr -> dpos L d' dr.
Proof.
  intros H. pose proof (fun prev A => pos_le prev A d d' H) as P.
  destruct dr; cbn; auto; intros X; repeat match goal with H : ex _ |- _ => destruct H | H : _ /\ _ |- _ => destruct H end;
    repeat eexists; eauto; lia.
Qed.

Lemma nodup_disj (l l' : list nat) : NoDup (l ++ l') -> forall z, In z l -> In z l' -> False.
Proof. induction l as [|a l IH]; cbn; [tauto|]. intros N z [->|I] J; inversion N; subst; eauto. apply H1. apply in_or_app. auto. Qed.

(** Steps that change neither the list, the head nor the set of freed nodes. *)
Lemma still L h k nx pu se dr lg nx' pu' se' dr' e :
  safe L (Lsys h k nx pu se dr lg) ->
  (match snd (fst e) with MFree _ => False | _ => True end) ->
  (block (snd (fst e)) = 0 \/ exists x, block (snd (fst e)) = S x /\ (In x L \/ exists c, pnode (pu c) = Some x)) ->
  se 0 <= se' 0 -> (forall x, In x L -> nx' x = nx x) -> (forall c, pnode (pu' c) = pnode (pu c)) -> held dr' = held dr ->
  dpos L (length h - 1 - se' 0) dr' ->
  safe L (Lsys h k nx' pu' se' dr' (lg ++ [e])).
Proof.
  intros [] E B S X P H D. cbn [hist nodes nexts push pseen drain llog] in *.
  assert (F : freed (lg ++ [e]) = freed lg).
  { rewrite freed_app. cbn. destruct (snd (fst e)); try contradiction; now rewrite app_nil_r. }
  constructor; cbn [hist nodes nexts push pseen drain llog]; rewrite ?F, ?H; auto.
  - intros i L'. apply s_hist0. lia.
  - intros A x B' ->. rewrite X by (apply in_elt). eauto.
  - intros x I. destruct (s_lt0 x I) as (A & C). split; auto. intros c. rewrite P. auto.
  - intros x I. destruct (s_all0 x I) as [A|(c & A)]; auto. right. exists c. now rewrite P.
  - intros f I. apply in_app_or in I as [I|[<-|[]]]; auto. intros Q. now rewrite Q in E.
  - apply log_snoc; auto. intros x I Q. destruct B as [B|(y & B & Y)]; [lia|]. assert (y = x) as -> by lia.
    destruct Y as [Y|(c & Y)].
    + apply (nodup_disj _ _ s_nodup0 x); auto. apply in_or_app. auto.
    + destruct (s_lt0 x) as (_ & Z); [apply in_or_app; auto|]. apply (Z c Y).
Qed.

Fixpoint linked (nx : nat -> option nat) (L : list nat) : Prop :=
  match L with x :: M => nx x = hd_error M /\ linked nx M | [] => True end.
Lemma linked_spec nx L : linked nx L <-> forall A x B, L = A ++ x :: B -> nx x = hd_error B.
Proof.
  induction L as [|y L IH]; cbn.
  - split; auto. intros _ [|] x B; discriminate.
  - split.
    + intros (E & H) [|a A] x B; cbn; intros [= -> ->]; auto. exact (proj1 IH H A x B eq_refl).
    + intros H. split; [apply (H [] y L eq_refl)|]. apply IH. intros A x B ->. now apply (H (y :: A)).
Qed.
Lemma linked_ext nx nx' L : (forall x, In x L -> nx' x = nx x) -> linked nx L -> linked nx' L.
Proof. induction L as [|y L IH]; cbn; auto. intros E (A & B). split; [rewrite E; auto|]. apply IH; auto. Qed.
Lemma linked_app nx A B : linked nx (A ++ B) -> linked nx B.
Proof. induction A as [|a A IH]; cbn; tauto. Qed.
Lemma linked_cut nx A p x B : NoDup (A ++ p :: x :: B) -> linked nx (A ++ p :: x :: B) -> linked (upd_ nx p (hd_error B)) (A ++ p :: B).
Proof.
  induction A as [|a A IH]; intros N.
  - cbn. inversion_clear N as [|? ? N1 N2]. inversion_clear N2 as [|? ? N3 N4]. intros (E & F & G). split; [unfold upd_; now rewrite Nat.eqb_refl|].
    eapply linked_ext; [|exact G]. intros z I. unfold upd_. destruct (Nat.eqb_spec z p) as [->|]; auto. exfalso. apply N1. now right.
  - cbn [app linked]. inversion_clear N as [|? ? N1 N2]. intros (E & F). split; [|auto].
    unfold upd_ at 1. destruct (Nat.eqb_spec a p) as [->|]; [exfalso; apply N1; apply in_elt|]. rewrite E. now destruct A.
Qed.

Lemma dpos_cons L d dr x : dpos L d dr -> dpos (x :: L) (S d) dr.
Proof.
  assert (P : forall prev A, pos prev A d -> pos prev (x :: A) (S d)).
  { intros [[p t]|] A; cbn; [|lia]. intros (A' & -> & H). exists (x :: A'). cbn. split; auto. lia. }
  destruct dr; cbn; auto; intros X; repeat match goal with H : ex _ |- _ => destruct H | H : _ /\ _ |- _ => destruct H end; subst.
  1,2,7: exists (x :: x0), x1; cbn; auto.
  1,2,4: exists (x :: x0), x1; cbn; repeat split; auto; lia.
  exists (x :: x0), x1, x2, x3. cbn. repeat split; auto. lia.
Qed.

Lemma safe_push L h k nx pu se dr lg c x v :
  safe L (Lsys h k nx pu se dr lg) -> 0 < length h -> se 0 < length h -> pu c = PCas x v -> nx x = v -> nth 0 h None = v -> x < k ->
  (forall d, pnode (pu d) = Some x -> d = c) ->
  safe (x :: L) (Lsys (Some x :: h) k nx (upd_ pu c PIdle) (upd_ se c (S (length h - 1))) dr (lg ++ [(c, MUpd head Release (length h - 1), false)])).
Proof.
  intros [] P S Pc X V K U. cbn [hist nodes nexts push pseen drain llog] in *.
  assert (F : freed (lg ++ [(c, MUpd head Release (length h - 1), false)]) = freed lg) by (rewrite freed_app; cbn; now rewrite app_nil_r).
  assert (I : forall y, In y (freed lg ++ held dr ++ x :: L) <-> y = x \/ In y (freed lg ++ held dr ++ L)).
  { intros y. rewrite !in_app_iff. cbn. intuition auto. }
  assert (N : ~ In x (freed lg ++ held dr ++ L)) by (intros J; destruct (s_lt0 _ J) as (_ & Z); apply (Z c); now rewrite Pc).
  constructor; cbn [hist nodes nexts push pseen drain llog]; rewrite ?F.
  - intros [|i]; cbn [nth nth_error length]; auto. intros L'. apply s_hist0. revert L'. unfold upd_. destruct (Nat.eqb_spec 0 c); lia.
  - apply linked_spec. cbn. split; [|now apply linked_spec]. rewrite X, <- V. rewrite (s_hist0 0) by lia. reflexivity.
  - rewrite app_assoc in N, s_nodup0 |- *. apply (NoDup_Add (Add_app x (freed lg ++ held dr) L)). split; auto.
  - intros y J. apply I in J as [->|J].
    + split; auto. intros d. unfold upd_. destruct (Nat.eqb_spec d c); [discriminate|]. intros E. apply U in E. congruence.
    + destruct (s_lt0 y J) as (A & B). split; auto. intros d. unfold upd_. destruct (Nat.eqb_spec d c); [discriminate|]. apply B.
  - intros y L'. destruct (s_all0 y L') as [A|(d & A)]; [left; apply I; auto|]. destruct (Nat.eq_dec d c) as [->|M].
    + left. apply I. rewrite Pc in A. cbn in A. left. congruence.
    + right. exists d. unfold upd_. destruct (Nat.eqb_spec d c); congruence.
  - apply (dpos_le _ (Datatypes.S (length h - 1 - se 0))); [|now apply dpos_cons]. unfold upd_. cbn [length]. destruct (Nat.eqb_spec 0 c); lia.
  - intros f J. apply in_app_or in J as [J|[<-|[]]]; auto. discriminate.
  - apply log_snoc; cbn; auto; lia.
Qed.

Lemma safe_fresh L h k nx pu se dr lg c :
  safe L (Lsys h k nx pu se dr lg) -> pu c = PIdle -> (forall d x, pnode (pu d) = Some x -> x < k) ->
  safe L (Lsys h (S k) nx (upd_ pu c (PVal k)) se dr lg).
Proof.
  intros [] P B. cbn [hist nodes nexts push pseen drain llog] in *. constructor; cbn [hist nodes nexts push pseen drain llog]; auto.
  - intros x I. destruct (s_lt0 x I) as (L' & N). split; [lia|]. intros d. unfold upd_. destruct (Nat.eqb_spec d c); [|apply N]. cbn. intros [= ->]. lia.
  - intros x L'. destruct (Nat.eq_dec x k) as [->|N].
    + right. exists c. unfold upd_. now rewrite Nat.eqb_refl.
    + destruct (s_all0 x ltac:(lia)) as [A|(d & A)]; auto. right. exists d. unfold upd_. destruct (Nat.eqb_spec d c) as [->|]; auto.
      rewrite P in A. discriminate.
Qed.

Lemma nodup_r (l l' : list nat) : NoDup (l ++ l') -> NoDup l'.
Proof. induction l as [|a l IH]; cbn; auto. intros N. inversion_clear N. auto. Qed.
Lemma eqo_ne a b : eqo a b = false -> a <> b.
Proof. intros E ->. destruct b; cbn in E; [|discriminate]. rewrite Nat.eqb_refl in E. discriminate. Qed.
Lemma pos_len prev A d : pos prev A d -> d <= length A.
Proof. destruct prev as [[p t]|]; cbn; auto. intros (A' & -> & L). rewrite app_length. lia. Qed.
Lemma after_pos L prev A B d : L = A ++ B -> pos prev A d -> dpos L d (after_ prev (hd_error B)).
Proof. intros -> P. destruct B as [|y B]; cbn; auto. eauto. Qed.

Lemma safe_step up own L s a : inv up own s -> safe L s -> exists L', safe L' (lstep s a).
Proof.
  intros V I. destruct s as [h k nx pu se dr lg]. pose proof V as [V1 V2 V3 V4 V5 V6 V7 V8 V9 V10].
  pose proof I as [I1 I2 I3 I4 I5 I6 I7 I8]. cbn [hist nodes nexts push pseen drain llog] in *.
  assert (NL : NoDup L) by (apply nodup_r in I3; now apply nodup_r in I3).
  destruct a as [c|c spur back|back|b spur back]; cbn [lstep].
  - destruct (pu c) eqn:P; try (now exists L). exists L. apply safe_fresh; auto. intros d x E. now destruct (V7 d x E).
  - set (s := Lsys h k nx pu se dr lg) in *. set (n := lpick s c back).
    assert (Ln : n < length h) by (apply (lpick_lt s); [apply V9|apply V1]).
    assert (Sn : upd_ se c n 0 >= se 0) by (unfold upd_; destruct (Nat.eqb_spec 0 c) as [<-|]; [|lia]; unfold n, lpick; cbn [pseen s]; lia).
    assert (Dn : dpos L (length h - 1 - upd_ se c n 0) dr) by (eapply dpos_le; [|exact I6]; lia).
    assert (Q : forall p', pnode p' = pnode (pu c) -> forall d, pnode (upd_ pu c p' d) = pnode (pu d)).
    { intros p' E d. unfold upd_. destruct (Nat.eqb_spec d c) as [->|]; auto. }
    destruct (pu c) as [|x|x|x v|x v] eqn:P; [now exists L| | | |].
    + exists L. eapply still; [exact I|exact Logic.I|..]; eauto. right. exists x. split; auto. right. exists c. now rewrite P.
    + exists L. eapply still; [exact I|exact Logic.I|..]; eauto.
    + exists L. eapply still; [exact I|exact Logic.I|..]; eauto.
      * right. exists x. split; auto. right. exists c. now rewrite P.
      * intros y J. unfold upd_. destruct (Nat.eqb_spec y x) as [->|]; auto. exfalso.
        destruct (I4 x) as (_ & Z); [rewrite !in_app_iff; auto|]. apply (Z c). now rewrite P.
    + destruct (_ || _ || _) eqn:F.
      * exists L. eapply still; [exact I|exact Logic.I|..]; eauto.
      * rewrite !orb_false_iff, !negb_false_iff, Nat.eqb_eq in F. destruct F as ((_ & F) & G). apply eqo_eq in F.
        exists (x :: L). rewrite G. apply (safe_push _ _ _ _ _ _ _ _ _ _ v); auto.
        -- eauto.
        -- rewrite <- F. symmetry. now apply (lpick_top s).
        -- destruct (V7 c x); auto. now rewrite P.
        -- intros d E. destruct (V7 d x E) as (_ & <- & _). destruct (V7 c x) as (_ & <- & _); auto. now rewrite P.
  - set (s := Lsys h k nx pu se dr lg) in *. set (n := lpick s 0 back).
    assert (Ln : n < length h) by (apply (lpick_lt s); [apply V9|apply V1]).
    assert (Sn : n >= se 0) by (unfold n, lpick; cbn [pseen s]; lia).
    destruct dr; try (now exists L). exists L.
    assert (E : lvalue s n = nth_error L (length h - 1 - n)) by (unfold lvalue; cbn [hist s]; apply I1; lia).
    eapply still; [exact I|exact Logic.I|..]; eauto.
    + unfold after_. destruct (lvalue s n); reflexivity.
    + change (upd_ se 0 n 0) with n. destruct (lvalue s n) as [x|] eqn:Ev; cbn [after_ dpos pos]; auto.
      symmetry in E. apply nth_error_split in E as (A & B & -> & LA). exists A, B. split; auto. lia.
  - set (s := Lsys h k nx pu se dr lg) in *. set (n := lpick s 0 back).
    assert (Ln : n < length h) by (apply (lpick_lt s); [apply V9|apply V1]).
    assert (Sn : n >= se 0) by (unfold n, lpick; cbn [pseen s]; lia).
    assert (E : lvalue s n = nth_error L (length h - 1 - n)) by (unfold lvalue; cbn [hist s]; apply I1; lia).
    assert (Q : forall x y, (exists A B, L = A ++ x :: B /\ length h - 1 - se 0 <= length A /\ y = hd_error B) ->
      dpos L (length h - 1 - upd_ se 0 n 0) (if eqo (lvalue s n) (Some x) then DCas x y else DWalk (lvalue s n) x y)).
    { intros x y (A & B & -> & LA & ->). change (upd_ se 0 n 0) with n. destruct (eqo _ _) eqn:F.
      - exists A, B. repeat split; auto. lia.
      - apply eqo_ne in F. rewrite E in F |- *. destruct (Nat.eq_dec (length h - 1 - n) (length A)) as [Ed|Nd].
        + exfalso. apply F. rewrite Ed, nth_error_app2, Nat.sub_diag; auto.
        + rewrite nth_error_app1 by lia. destruct (nth_error A (length h - 1 - n)) as [q|] eqn:Eq; [|apply nth_error_None in Eq; lia].
          apply nth_error_split in Eq as (A1 & A2 & -> & L1). exists A1, q, A2, B. rewrite <- app_assoc. cbn [app]. repeat split; auto. lia. }
    assert (Hq : forall x y, held (if eqo (lvalue s n) (Some x) then DCas x y else DWalk (lvalue s n) x y) = []) by (intros; now destruct (eqo _ _)).
    destruct dr as [|p x|p x y|x y|x y|p x y|p t x y|p x y]; [now exists L|..].
    + destruct I6 as (A & B & EL & P). exists L. eapply still; [exact I|exact Logic.I|..]; eauto.
      * right. exists x. split; auto. left. rewrite EL. apply in_elt.
      * cbn. exists A, B. rewrite (I2 _ _ _ EL). auto.
    + destruct I6 as (A & B & EL & P & ->). exists L. eapply still; [exact I|exact Logic.I|..]; eauto.
      * right. exists x. split; auto. left. rewrite EL. apply in_elt.
      * destruct b; [destruct p as [[p t]|]; reflexivity|]. unfold after_. now destruct (hd_error B).
      * destruct b.
        -- destruct p as [[p t]|]; [destruct P as (A' & -> & P); exists A', B; rewrite <- app_assoc in EL; auto|exists A, B; auto].
        -- apply (after_pos L (Some (x, false)) (A ++ [x]) B); [now rewrite <- app_assoc|]. exists A. split; auto. now apply pos_len in P.
    + exists L. eapply still; [exact I|exact Logic.I|..]; eauto.
    + destruct (_ || _ || _) eqn:F.
      * exists L. eapply still; [exact I|exact Logic.I|..]; eauto.
      * rewrite !orb_false_iff, !negb_false_iff, Nat.eqb_eq in F. destruct F as ((_ & F) & G). apply eqo_eq in F.
        destruct I6 as (A & B & -> & P & ->). rewrite E, G, Nat.sub_diag in F.
        assert (A = []) as ->. { destruct A as [|a A]; auto. cbn in F. injection F as ->. inversion_clear NL. exfalso. apply H. apply in_elt. }
        cbn [app] in *. exists B. rewrite G. constructor; cbn [hist nodes nexts push pseen drain llog]; unfold upd_; cbn [Nat.eqb].
        -- intros i Li. cbn [length] in Li. assert (i = 0) as -> by lia. now destruct B.
        -- intros A' z B' ->. now apply (I2 (x :: A')).
        -- rewrite freed_app. cbn. rewrite app_nil_r. exact I3.
        -- intros z. rewrite freed_app. cbn. rewrite app_nil_r. apply I4.
        -- intros z. rewrite freed_app. cbn. rewrite app_nil_r. apply I5.
        -- cbn. exists [], B. repeat split; auto. cbn. lia.
        -- intros f J. apply in_app_or in J as [J|[<-|[]]]; auto. discriminate.
        -- apply log_snoc; cbn; auto; lia.
    + destruct p as [q|]; [|now exists L]. destruct I6 as (A1 & q' & A2 & B & [= <-] & EL & P & ->).
      pose proof (I2 _ _ _ EL) as Nq. exists L. eapply still; [exact I|exact Logic.I|..]; eauto.
      * right. exists q. split; auto. left. rewrite EL. apply in_elt.
      * now destruct (eqo _ _).
      * rewrite Nq. destruct A2 as [|z A2]; cbn [app hd_error].
        -- rewrite (proj2 (Nat.eqb_eq x x) eq_refl : eqo (Some x) (Some x) = true). exists A1, B. auto.
        -- destruct (eqo (Some z) (Some x)) eqn:F.
           ++ apply eqo_eq in F. injection F as ->. exfalso. rewrite EL in NL. apply nodup_r in NL. inversion_clear NL as [|? ? _ N2].
              inversion_clear N2 as [|? ? N3 _]. apply N3. apply in_elt.
           ++ exists (A1 ++ [q]), z, A2, B. rewrite <- app_assoc, app_length. cbn. repeat split; auto. lia.
    + destruct I6 as (A & B & -> & P & ->). exists (A ++ p :: B).
      assert (J : forall z, In z (A ++ p :: x :: B) <-> z = x \/ In z (A ++ p :: B)) by (intros z; rewrite !in_app_iff; cbn; intuition auto).
      assert (K : forall z, In z (freed lg ++ [] ++ A ++ p :: x :: B) <-> In z (freed lg ++ [x] ++ A ++ p :: B)).
      { intros z. cbn [app]. rewrite (in_app_iff (freed lg)), (in_app_iff (freed lg) (x :: _)), J. cbn. intuition auto. }
      assert (D : forall i, i <= length A -> nth_error (A ++ p :: B) i = nth_error (A ++ p :: x :: B) i).
      { intros i Li. destruct (Nat.eq_dec i (length A)) as [->|Ni]; [now rewrite !nth_error_app2, Nat.sub_diag by auto|now rewrite !nth_error_app1 by lia]. }
      constructor; cbn [hist nodes nexts push pseen drain llog]; rewrite ?freed_app; cbn [freed flat_map snd fst]; rewrite ?app_nil_r.
      * intros i Li. rewrite D by lia. auto.
      * apply linked_spec. apply linked_cut with (x := x); auto. now apply linked_spec.
      * cbn [held app] in I3 |- *. apply (NoDup_Add (Add_app x (freed lg) (A ++ p :: B))).
        pose proof (Add_app x (freed lg ++ A ++ [p]) B) as T. repeat (rewrite <- app_assoc in T; cbn [app] in T). now apply (NoDup_Add T).
      * intros z Iz. apply K in Iz. auto.
      * intros z Lz. destruct (I5 z Lz) as [Iz|Iz]; auto. left. now apply K.
      * cbn. exists (A ++ [p]), B. rewrite <- app_assoc. repeat split; auto. exists A. auto.
      * intros f Jf. apply in_app_or in Jf as [Jf|[<-|[]]]; auto. discriminate.
      * apply log_snoc; auto. cbn. intros z Iz [= ->]. apply (nodup_disj _ _ I3 z); auto. cbn. apply in_elt.
    + destruct I6 as (A & B & -> & P & ->). exists (A ++ B).
      assert (Fr : freed (lg ++ [(0, MFree (S x), false)]) = freed lg ++ [x]) by (rewrite freed_app; reflexivity).
      assert (Hd : held (after_ p (hd_error B)) = []) by (unfold after_; now destruct (hd_error B)).
      constructor; cbn [hist nodes nexts push pseen drain llog]; rewrite ?Fr, ?Hd; auto.
      * cbn [app held] in *. now rewrite <- app_assoc.
      * intros z. cbn [app held] in *. rewrite <- app_assoc. apply I4.
      * intros z. cbn [app held] in *. rewrite <- app_assoc. apply I5.
      * now apply (after_pos _ _ A).
      * intros f J. apply in_app_or in J as [J|[<-|[]]]; auto. discriminate.
      * apply log_snoc; auto. cbn. intros z Iz [= ->]. apply (nodup_disj _ _ I3 z); auto. cbn. now left.
Qed.

Lemma safe0 : safe [] lsys0.
Proof.
  constructor; cbn; auto; try tauto; try lia; try apply NoDup_nil.
  - intros [|[|i]]; auto.
  - intros [|] x B; discriminate.
  - intros i j (e & f & b & H & _). destruct i; discriminate.
Qed.
Lemma safe_run l : exists L, safe L (lrun l).
Proof.
  unfold lrun. assert (H : forall l s, (exists up own, inv up own s) -> (exists L, safe L s) -> exists L, safe L (fold_left lstep l s)).
  { clear l. induction l as [|a l IH]; intros s (up & own & I) (L & S); cbn; eauto. apply IH; [now apply (inv_step up own)|]. now apply (safe_step up own L). }
  apply H; [exists (fun _ => None), (fun _ => 0); apply inv0|]. exists []. apply safe0.
Qed.
