(** Proofs about the shared stack: ownership, no loss, linearizability. *)
Require Import NArith List Bool Arith Lia.
From Verif Require Import AtomicSpec LinSpec Treiber.
From Verif Require AtomicsProofs.
Import ListNotations.
Open Scope N_scope.

Lemma upd_same {A} (f : nat -> A) t a : upd f t a t = a.
Proof. apply AtomicsProofs.upd_same. Qed.
Lemma upd_other {A} (f : nat -> A) t t' a : t' <> t -> upd f t a t' = f t'.
Proof. apply AtomicsProofs.upd_other. Qed.

(** ** Lists of nodes *)

Lemma mem_N_In x l : mem_N x l = true <-> In x l.
Proof.
  induction l as [|y r IH]; simpl; [easy|]. rewrite orb_true_iff, IH, N.eqb_eq.
  intuition.
Qed.

Lemma mem_N_false x l : ~ In x l -> mem_N x l = false.
Proof. intros H. destruct (mem_N x l) eqn:E; [|easy]. now apply mem_N_In in E. Qed.

Lemma remove1_In_other x y l : x <> y -> (In y (remove1 x l) <-> In y l).
Proof.
  intros Hne. induction l as [|z r IH]; simpl; [easy|].
  destruct (N.eqb_spec x z) as [->|]; simpl; rewrite ?IH; intuition congruence.
Qed.

Lemma remove1_incl x y l : In y (remove1 x l) -> In y l.
Proof.
  induction l as [|z r IH]; simpl; [easy|]. destruct (x =? z); simpl; intuition.
Qed.

Lemma remove1_NoDup x l : NoDup l -> NoDup (remove1 x l) /\ ~ In x (remove1 x l).
Proof.
  induction 1 as [|z r Hz Hr [IH1 IH2]]; simpl; [split; [constructor|easy]|].
  destruct (N.eqb_spec x z) as [->|]; [easy|]. split.
  - constructor; [|easy]. intros H. now apply remove1_incl in H.
  - simpl. intuition congruence.
Qed.

Lemma NoDup_snoc (l : list N) x : NoDup l -> ~ In x l -> NoDup (l ++ [x]).
Proof.
  intros H Hx. rewrite <- (rev_involutive (l ++ [x])). apply NoDup_rev.
  rewrite rev_app_distr. simpl. constructor; [now rewrite <- in_rev|now apply NoDup_rev].
Qed.

Lemma In_snoc (l : list N) x y : In y (l ++ [x]) <-> In y l \/ y = x.
Proof. rewrite in_app_iff. simpl. intuition. Qed.

(** ** The chain of links *)

Fixpoint chain (f : N -> N) (h : N) (l : list N) : Prop :=
  match l with
  | [] => h = 0
  | x :: r => h = x /\ x <> 0 /\ chain f (f x) r
  end.

Lemma chain_ext f g l : forall h, (forall x, In x l -> f x = g x) -> chain f h l -> chain g h l.
Proof.
  induction l as [|x r IH]; simpl; intros h Hx; [easy|].
  intros (-> & H0 & Hc). repeat split; auto. rewrite <- Hx by auto. apply IH; auto.
Qed.

Lemma chain_hd f h l : chain f h l -> h <> 0 -> exists r, l = h :: r /\ chain f (f h) r.
Proof. destruct l as [|x r]; simpl; [easy|]. intros (-> & _ & Hc) _. eauto. Qed.

Lemma chain_hd_in f h l : chain f h l -> h = 0 \/ In h l.
Proof. destruct l; simpl; intuition. Qed.

Lemma nset_same f a v : nset f a v a = v.
Proof. unfold nset. now rewrite N.eqb_refl. Qed.
Lemma nset_other f a v x : x <> a -> nset f a v x = f x.
Proof. unfold nset. intros. destruct (N.eqb_spec x a); easy. Qed.

Section Proofs.
Variables size edge : N.
Hypothesis Hsize : 0 < size.

(** Blocks never handed out yet. *)
Definition unissued (u x : N) : Prop := exists k, x = u + size * k /\ x < edge.

(** The bump pointer stays on the block grid. *)
Definition on_grid (u : N) : Prop := exists k, edge = u + size * k.

Lemma unissued_mono u x : unissued (u + size) x -> unissued u x.
Proof. intros (k & -> & H). exists (k + 1). lia. Qed.

Lemma unissued_split u x : unissued u x -> x = u \/ unissued (u + size) x.
Proof.
  intros (k & -> & H). destruct (N.eq_dec k 0) as [->|]; [left; lia|right].
  exists (k - 1). split; [|easy].
  replace (u + size + size * (k - 1)) with (u + size * (1 + (k - 1))) by lia. f_equal. f_equal. lia.
Qed.

Lemma not_unissued_next u : ~ unissued (u + size) u.
Proof. intros (k & H & _). nia. Qed.

Lemma on_grid_le u : on_grid u -> u <= edge.
Proof. intros [k ->]. nia. Qed.

Lemma on_grid_next u : on_grid u -> u <> edge -> on_grid (u + size) /\ unissued u u.
Proof.
  intros [k E] Hne. assert (k <> 0) by (intros ->; lia). split.
  - exists (k - 1). replace (u + size + size * (k - 1)) with (u + size * (1 + (k - 1))) by lia.
    rewrite E. f_equal. f_equal. lia.
  - exists 0. split; [lia|]. rewrite E. nia.
Qed.

(** *** Ownership of nodes: [l] is the list, [cr] the nodes carried by operations *)

Record own (m : shm) (l : list N) (cr : nat -> option N) : Prop := {
  own_chain : chain (nx m) (hd m) l;
  own_nd_l : NoDup l;
  own_nd_h : NoDup (held m);
  own_lh : forall x, In x l -> ~ In x (held m);
  own_ld : forall x, In x l -> ~ In x (dead m);
  own_hd : forall x, In x (held m) -> ~ In x (dead m);
  own_h0 : forall x, In x (held m) -> x <> 0;
  own_cr : forall t x, cr t = Some x ->
    x <> 0 /\ ~ In x l /\ ~ In x (held m) /\ ~ In x (dead m) /\ ~ unissued (un m) x;
  own_cr2 : forall t t' x, cr t = Some x -> cr t' = Some x -> t = t';
  own_fresh : forall x, In x l \/ In x (held m) \/ In x (dead m) -> ~ unissued (un m) x;
  own_grid : on_grid (un m);
  own_un0 : 0 < un m \/ un m = edge
}.

(** Where a node of the universe can be. *)
Definition somewhere (m : shm) (l : list N) (cr : nat -> option N) (x : N) : Prop :=
  In x l \/ In x (held m) \/ In x (dead m) \/ unissued (un m) x \/ exists t, cr t = Some x.

Lemma own_cr_ext m l cr cr' : (forall t, cr' t = cr t) -> own m l cr -> own m l cr'.
Proof.
  intros E H. destruct H. constructor; auto.
  - intros t x. rewrite E. apply own_cr0.
  - intros t t' x. rewrite !E. apply own_cr3.
Qed.

Lemma somewhere_cr_ext m l cr cr' x :
  (forall t, cr' t = cr t) -> (somewhere m l cr x <-> somewhere m l cr' x).
Proof.
  intros E. split; intros [H|[H|[H|[H|[t H]]]]]; unfold somewhere; auto;
    right; right; right; right; exists t; specialize (E t); congruence.
Qed.

(** The elementary transfers of ownership. *)

Lemma own_call_push m l cr t x :
  own m l cr -> In x (held m) -> cr t = None ->
  own (take_held m x) l (upd cr t (Some x)) /\
  (forall y, somewhere m l cr y <-> somewhere (take_held m x) l (upd cr t (Some x)) y).
Proof.
  intros H Hx Ht. destruct H.
  destruct (remove1_NoDup x (held m) own_nd_h0) as [N1 N2].
  assert (Hin : forall y, In y (remove1 x (held m)) -> In y (held m)) by (intros y; apply remove1_incl).
  split.
  - constructor; simpl; auto.
    + intros y Hy Hy2. apply (own_lh0 y); auto.
    + intros t' y. destruct (Nat.eq_dec t' t) as [->|Hne].
      * rewrite upd_same. intros [= <-]. refine (conj _ (conj _ (conj _ (conj _ _)))); auto.
        intros Hl. now apply (own_lh0 x).
      * rewrite upd_other by easy. intros Hc. destruct (own_cr0 t' y Hc) as (A & B & C & D & E).
        repeat split; auto.
    + intros t1 t2 y. destruct (Nat.eq_dec t1 t) as [->|]; destruct (Nat.eq_dec t2 t) as [->|];
        rewrite ?upd_same, ?upd_other by easy; auto.
      * intros [= <-] Hc. destruct (own_cr0 _ _ Hc) as (_ & _ & C & _). easy.
      * intros Hc [= <-]. destruct (own_cr0 _ _ Hc) as (_ & _ & C & _). easy.
      * apply own_cr3.
    + intros y [Hy|[Hy|Hy]]; apply own_fresh0; auto.
  - intros y. split.
    + intros [Hy|[Hy|[Hy|[Hy|[t' Hy]]]]]; unfold somewhere; simpl; auto.
      * destruct (N.eq_dec x y) as [<-|Hne].
        -- do 4 right. exists t. now rewrite upd_same.
        -- right; left. now apply remove1_In_other.
      * do 4 right. exists t'. rewrite upd_other; [easy|]. congruence.
    + intros [Hy|[Hy|[Hy|[Hy|[t' Hy]]]]]; unfold somewhere; simpl in *; auto.
      destruct (Nat.eq_dec t' t) as [->|Hne].
      * rewrite upd_same in Hy. injection Hy as <-. auto.
      * rewrite upd_other in Hy by easy. eauto 10.
Qed.

Lemma own_return m l cr t x :
  own m l cr -> cr t = Some x ->
  own (give_held m x) l (upd cr t None) /\
  (forall y, somewhere m l cr y <-> somewhere (give_held m x) l (upd cr t None) y).
Proof.
  intros H Ht. destruct H. destruct (own_cr0 t x Ht) as (X0 & Xl & Xh & Xd & Xu).
  split.
  - constructor; simpl; auto.
    + now apply NoDup_snoc.
    + intros y Hy. rewrite In_snoc. intros [Hh| ->]; [now apply (own_lh0 y)|easy].
    + intros y. rewrite In_snoc. intros [Hh| ->]; [now apply own_hd0|easy].
    + intros y. rewrite In_snoc. intros [Hh| ->]; [now apply own_h1|easy].
    + intros t' y. destruct (Nat.eq_dec t' t) as [->|Hne]; [now rewrite upd_same|].
      rewrite upd_other by easy. intros Hc. destruct (own_cr0 t' y Hc) as (A & B & C & D & E).
      repeat split; auto. rewrite In_snoc. intros [?| ->]; [easy|].
      apply Hne. eapply own_cr3; eauto.
    + intros t1 t2 y. destruct (Nat.eq_dec t1 t) as [->|]; destruct (Nat.eq_dec t2 t) as [->|];
        rewrite ?upd_same, ?upd_other by easy; try easy. apply own_cr3.
    + intros y. rewrite In_snoc. intros [Hy|[[Hy| ->]|Hy]]; auto.
  - intros y. split.
    + intros [Hy|[Hy|[Hy|[Hy|[t' Hy]]]]]; unfold somewhere; simpl; rewrite ?In_snoc; auto.
      destruct (Nat.eq_dec t' t) as [->|Hne].
      * right; left. right. congruence.
      * do 4 right. exists t'. now rewrite upd_other.
    + unfold somewhere; simpl; rewrite ?In_snoc.
      intros [Hy|[[Hy| ->]|[Hy|[Hy|[t' Hy]]]]]; eauto 10.
      destruct (Nat.eq_dec t' t) as [->|Hne].
      * now rewrite upd_same in Hy.
      * rewrite upd_other in Hy by easy. eauto 10.
Qed.

Lemma own_pushed m l cr t x :
  own m l cr -> cr t = Some x -> nx m x = hd m ->
  own (set_hd m x) (x :: l) (upd cr t None) /\
  (forall y, somewhere m l cr y <-> somewhere (set_hd m x) (x :: l) (upd cr t None) y).
Proof.
  intros H Ht Hn. destruct H. destruct (own_cr0 t x Ht) as (X0 & Xl & Xh & Xd & Xu).
  split.
  - constructor; simpl; auto.
    + split; [easy|]. split; [easy|]. now rewrite Hn.
    + now constructor.
    + intros y [<-|Hy]; auto.
    + intros y [<-|Hy]; auto.
    + intros t' y. destruct (Nat.eq_dec t' t) as [->|Hne]; [now rewrite upd_same|].
      rewrite upd_other by easy. intros Hc. destruct (own_cr0 t' y Hc) as (A & B & C & D & E).
      repeat split; auto. intros [<-|?]; [|easy]. apply Hne. eapply own_cr3; eauto.
    + intros t1 t2 y. destruct (Nat.eq_dec t1 t) as [->|]; destruct (Nat.eq_dec t2 t) as [->|];
        rewrite ?upd_same, ?upd_other by easy; try easy. apply own_cr3.
    + intros y [[<-|Hy]|[Hy|Hy]]; auto.
  - intros y. split.
    + intros [Hy|[Hy|[Hy|[Hy|[t' Hy]]]]]; unfold somewhere; simpl; auto.
      destruct (Nat.eq_dec t' t) as [->|Hne].
      * left. left. congruence.
      * do 4 right. exists t'. now rewrite upd_other.
    + intros [[<-|Hy]|[Hy|[Hy|[Hy|[t' Hy]]]]]; unfold somewhere; simpl in *; eauto 10.
      destruct (Nat.eq_dec t' t) as [->|Hne].
      * now rewrite upd_same in Hy.
      * rewrite upd_other in Hy by easy. eauto 10.
Qed.

Lemma own_popped m l cr t x :
  own m (x :: l) cr -> cr t = None ->
  own (set_hd m (nx m x)) l (upd cr t (Some x)) /\
  (forall y, somewhere m (x :: l) cr y <-> somewhere (set_hd m (nx m x)) l (upd cr t (Some x)) y).
Proof.
  intros H Ht. destruct H. simpl in own_chain0. destruct own_chain0 as (Eh & X0 & Hc).
  inversion own_nd_l0 as [|? ? Nx Nl]; subst.
  split.
  - constructor; simpl; auto.
    + intros y Hy. apply own_lh0. now right.
    + intros y Hy. apply own_ld0. now right.
    + intros t' y. destruct (Nat.eq_dec t' t) as [->|Hne].
      * rewrite upd_same. intros [= <-]. refine (conj _ (conj _ (conj _ (conj _ _)))); auto.
        -- apply own_lh0. now left.
        -- apply own_ld0. now left.
        -- apply own_fresh0. left. now left.
      * rewrite upd_other by easy. intros Hcr. destruct (own_cr0 t' y Hcr) as (A & B & C & D & E).
        repeat split; auto. intros Hy. apply B. now right.
    + intros t1 t2 y. destruct (Nat.eq_dec t1 t) as [->|]; destruct (Nat.eq_dec t2 t) as [->|];
        rewrite ?upd_same, ?upd_other by easy; try easy.
      * intros [= <-] Hcr. destruct (own_cr0 _ _ Hcr) as (_ & B & _). exfalso. apply B. now left.
      * intros Hcr [= <-]. destruct (own_cr0 _ _ Hcr) as (_ & B & _). exfalso. apply B. now left.
      * apply own_cr3.
    + intros y [Hy|[Hy|Hy]]; apply own_fresh0; auto. left. now right.
  - intros y. split.
    + intros [[<-|Hy]|[Hy|[Hy|[Hy|[t' Hy]]]]]; unfold somewhere; simpl; auto.
      * do 4 right. exists t. now rewrite upd_same.
      * do 4 right. exists t'. rewrite upd_other; [easy|congruence].
    + intros [Hy|[Hy|[Hy|[Hy|[t' Hy]]]]]; unfold somewhere; simpl in *; auto.
      destruct (Nat.eq_dec t' t) as [->|Hne].
      * rewrite upd_same in Hy. injection Hy as <-. auto.
      * rewrite upd_other in Hy by easy. eauto 10.
Qed.

Lemma own_bumped m l cr t :
  own m l cr -> cr t = None -> un m <> edge ->
  own (set_un m (un m + size)) l (upd cr t (Some (un m))) /\
  (forall y, somewhere m l cr y <-> somewhere (set_un m (un m + size)) l (upd cr t (Some (un m))) y).
Proof.
  intros H Ht Hne0. destruct H. destruct (on_grid_next _ own_grid0 Hne0) as [G1 G2].
  split.
  - constructor; simpl; auto.
    + intros t' y. destruct (Nat.eq_dec t' t) as [->|Hne].
      * rewrite upd_same. intros [= <-]. refine (conj _ (conj _ (conj _ (conj _ _)))).
        -- lia.
        -- intros Hy. now apply (own_fresh0 (un m)); auto.
        -- intros Hy. now apply (own_fresh0 (un m)); auto.
        -- intros Hy. now apply (own_fresh0 (un m)); auto.
        -- apply not_unissued_next.
      * rewrite upd_other by easy. intros Hc. destruct (own_cr0 t' y Hc) as (A & B & C & D & E).
        repeat split; auto. intros Hu. now apply E, unissued_mono.
    + intros t1 t2 y. destruct (Nat.eq_dec t1 t) as [->|]; destruct (Nat.eq_dec t2 t) as [->|];
        rewrite ?upd_same, ?upd_other by easy; try easy.
      * intros [= <-] Hc. destruct (own_cr0 _ _ Hc) as (_ & _ & _ & _ & E). easy.
      * intros Hc [= <-]. destruct (own_cr0 _ _ Hc) as (_ & _ & _ & _ & E). easy.
      * apply own_cr3.
    + intros y Hy Hu. apply (own_fresh0 y Hy). now apply unissued_mono.
    + left. lia.
  - intros y. split.
    + intros [Hy|[Hy|[Hy|[Hy|[t' Hy]]]]]; unfold somewhere; simpl; auto.
      * apply unissued_split in Hy as [->|Hy]; auto.
        do 4 right. exists t. now rewrite upd_same.
      * do 4 right. exists t'. rewrite upd_other; [easy|congruence].
    + intros [Hy|[Hy|[Hy|[Hy|[t' Hy]]]]]; unfold somewhere; simpl in *; auto.
      * apply unissued_mono in Hy. auto.
      * destruct (Nat.eq_dec t' t) as [->|Hne].
        -- rewrite upd_same in Hy. injection Hy as <-. auto.
        -- rewrite upd_other in Hy by easy. eauto 10.
Qed.

Lemma own_write m l cr x v :
  own m l cr -> ~ In x l -> own (set_nx m x v) l cr.
Proof.
  intros H Hx. destruct H. constructor; simpl; auto.
  eapply chain_ext; [|exact own_chain0].
  intros y Hy. rewrite nset_other; [easy|congruence].
Qed.

Lemma own_kill m l cr x :
  own m l cr -> In x (held m) ->
  own (kill_held m x) l cr /\
  (forall y, somewhere m l cr y <-> somewhere (kill_held m x) l cr y).
Proof.
  intros H Hx. destruct H. destruct (remove1_NoDup x (held m) own_nd_h0) as [N1 N2].
  assert (Hin : forall y, In y (remove1 x (held m)) -> In y (held m)) by (intros y; apply remove1_incl).
  split.
  - constructor; simpl; auto.
    + intros y Hy Hy2. apply (own_lh0 y); auto.
    + intros y Hy. rewrite In_snoc. intros [Hd| ->]; [now apply (own_ld0 y)|now apply (own_lh0 x)].
    + intros y Hy. rewrite In_snoc. intros [Hd| ->]; [now apply (own_hd0 y); auto|easy].
    + intros t y Hc. destruct (own_cr0 t y Hc) as (A & B & C & D & E). repeat split; auto.
      rewrite In_snoc. intros [?| ->]; easy.
    + intros y. rewrite In_snoc. intros [Hy|[Hy|[Hy| ->]]]; apply own_fresh0; auto.
  - intros y. split.
    + intros [Hy|[Hy|[Hy|[Hy|Hy]]]]; unfold somewhere; simpl; rewrite ?In_snoc; auto.
      destruct (N.eq_dec x y) as [<-|Hne]; auto.
      right; left. now apply remove1_In_other.
    + unfold somewhere; simpl; rewrite ?In_snoc.
      intros [Hy|[Hy|[[Hy| ->]|[Hy|Hy]]]]; auto.
Qed.

Lemma own_fault m l cr b : own m l cr ->
  own (Shm (hd m) (nx m) (un m) (held m) (dead m) b) l cr.
Proof. intros H. destruct H. constructor; auto. Qed.

(** ** Hardware build *)

Definition carry (c : thr) : option N :=
  match c with
  | TPush0 x | TPush1 x _ | TPush2 x _ => Some x
  | TDone (RNode x) => Some x
  | _ => None
  end.

(** The node a pop in progress has read from the head. *)
Definition holds (c : thr) : option N :=
  match c with TPop1 _ cur | TPop2 _ cur _ => Some cur | _ => None end.

Definition pushing (c : thr) : option N :=
  match c with TPush0 x | TPush1 x _ | TPush2 x _ => Some x | _ => None end.

Lemma pushing_carry c x : pushing c = Some x -> carry c = Some x.
Proof. destruct c; simpl; easy. Qed.

(** A node is neither pushed back nor freed while a pop in progress still holds it. *)
Fixpoint no_reuse (s : tstate) (ls : list tlabel) : Prop :=
  match ls with
  | [] => True
  | lb :: r =>
      match lb with
      | LInv _ (OPush x) | LFree x => forall t, holds (th s t) <> Some x
      | _ => True
      end /\ no_reuse (fst (tstep size edge s lb)) r
  end.

Definition thr_ok (m : shm) (l : list N) (c : thr) : Prop :=
  match c with
  | TPush2 x cur => nx m x = cur
  | TPop2 _ cur nxt => cur <> 0 /\ (In cur l -> nx m cur = nxt)
  | TBump1 u => u = edge -> un m = edge
  | _ => True
  end.

Record tinv (s : tstate) (l : list N) : Prop := {
  ti_own : own (sh s) l (fun t => carry (th s t));
  ti_ok : forall t, thr_ok (sh s) l (th s t);
  ti_hold : forall t t' x, holds (th s t) = Some x -> x <> 0 ->
    pushing (th s t') <> Some x /\ ~ In x (dead (sh s));
  ti_fault : fault (sh s) = false
}.

(** The list after a step. *)
Definition lnext (s : tstate) (lb : tlabel) (l : list N) : list N :=
  match lb with
  | LStep t spur =>
      match th s t with
      | TPush2 x cur => if negb spur && (hd (sh s) =? cur) then x :: l else l
      | TPop2 _ cur _ => if negb spur && (hd (sh s) =? cur) then tl l else l
      | _ => l
      end
  | _ => l
  end.

Definition label_ok (s : tstate) (lb : tlabel) : Prop :=
  match lb with
  | LInv _ (OPush x) | LFree x => forall t, holds (th s t) <> Some x
  | _ => True
  end.

Lemma carry_upd (f : nat -> thr) t c : forall t',
  carry (upd f t c t') = upd (fun t' => carry (f t')) t (carry c) t'.
Proof.
  intros t'. destruct (Nat.eq_dec t' t) as [->|Hne]; now rewrite ?upd_same, ?upd_other.
Qed.

Lemma carry_upd_same (f : nat -> thr) t c : carry c = carry (f t) -> forall t',
  carry (upd f t c t') = carry (f t').
Proof.
  intros E t'. destruct (Nat.eq_dec t' t) as [->|Hne]; now rewrite ?upd_same, ?upd_other.
Qed.

(** A step of context [t] which does not change shared memory or ownership. *)
Lemma tinv_local s l t c :
  tinv s l -> carry c = carry (th s t) -> thr_ok (sh s) l c ->
  (pushing c = None \/ pushing c = pushing (th s t)) ->
  (forall x, holds c = Some x -> x <> 0 -> (In x l \/ holds (th s t) = Some x)) ->
  tinv (TState (sh s) (upd (th s) t c)) l.
Proof.
  intros [HO HK HH HF] Hc Hok Hp Hh. constructor; simpl; auto.
  - eapply own_cr_ext; [|exact HO]. intros t'. simpl. now apply carry_upd_same.
  - intros t'. destruct (Nat.eq_dec t' t) as [->|Hne]; now rewrite ?upd_same, ?upd_other.
  - intros t1 t2 x.
    assert (HP : pushing (upd (th s) t c t2) = Some x -> exists t3, pushing (th s t3) = Some x).
    { destruct (Nat.eq_dec t2 t) as [->|Hne]; rewrite ?upd_same, ?upd_other by easy; [|eauto].
      intros E. destruct Hp as [Hp|Hp]; [congruence|]. exists t. congruence. }
    destruct (Nat.eq_dec t1 t) as [->|Hne]; rewrite ?upd_same, ?upd_other by easy.
    + intros E H0. destruct (Hh x E H0) as [Hl|Ho].
      * split; [|now apply (own_ld _ _ _ HO)].
        intros E2. apply HP in E2 as [t3 E3]. apply pushing_carry in E3.
        apply (own_cr _ _ _ HO) in E3. easy.
      * split; [|now apply (HH t t x)]. intros E2. apply HP in E2 as [t3 E3].
        destruct (HH t t3 x Ho H0) as [Hn _]; auto.
    + intros E H0. split; [|now apply (HH t1 t1 x)]. intros E2. apply HP in E2 as [t3 E3].
      destruct (HH t1 t3 x E H0) as [Hn _]; auto.
Qed.

Lemma tinv_step s l lb :
  tinv s l -> label_ok s lb ->
  tinv (fst (tstep size edge s lb)) (lnext s lb l) /\
  (forall x, somewhere (sh s) l (fun t => carry (th s t)) x <->
     let s' := fst (tstep size edge s lb) in
     somewhere (sh s') (lnext s lb l) (fun t => carry (th s' t)) x).
Proof.
  intros HI Hlb. pose proof HI as [HO HK HH HF].
  assert (Hsame : tinv s l /\ (forall x, somewhere (sh s) l (fun t => carry (th s t)) x <->
     somewhere (sh s) l (fun t => carry (th s t)) x)) by (split; [exact HI|reflexivity]).
  assert (Hloc : forall t c,
    carry c = carry (th s t) -> thr_ok (sh s) l c ->
    (pushing c = None \/ pushing c = pushing (th s t)) ->
    (forall x, holds c = Some x -> x <> 0 -> (In x l \/ holds (th s t) = Some x)) ->
    tinv (TState (sh s) (upd (th s) t c)) l /\
    (forall x, somewhere (sh s) l (fun t => carry (th s t)) x <->
       somewhere (sh s) l (fun t' => carry (upd (th s) t c t')) x)).
  { intros t c H1 H2 H3 H4. split; [now apply tinv_local|].
    intros x. apply somewhere_cr_ext. intros t'. simpl. now apply carry_upd_same. }
  destruct lb as [t o|t spur|t|x v|x].
  - (* call *)
    simpl. destruct (th s t) eqn:Et; simpl; try exact Hsame.
    destruct o as [x| |]; simpl.
    + destruct (mem_N x (held (sh s))) eqn:Ex; [|exact Hsame]. apply mem_N_In in Ex. simpl.
      destruct (own_call_push (sh s) l (fun t => carry (th s t)) t x HO Ex) as [O1 O2];
        [simpl; now rewrite Et|].
      split.
      * constructor; simpl; auto.
        -- eapply own_cr_ext; [|exact O1]. intros t'. apply (carry_upd (th s) t (TPush0 x)).
        -- intros t'. destruct (Nat.eq_dec t' t) as [->|Hne]; rewrite ?upd_same, ?upd_other by easy;
             [exact I|]. pose proof (HK t') as Hk. destruct (th s t'); auto.
        -- intros t1 t2 y. destruct (Nat.eq_dec t1 t) as [->|Hne]; rewrite ?upd_same, ?upd_other by easy;
             [easy|]. intros E1 H0. split; [|now apply (HH t1 t1 y)].
           destruct (Nat.eq_dec t2 t) as [->|Hne2]; rewrite ?upd_same, ?upd_other by easy.
           ++ simpl. intros [= <-]. now apply (Hlb t1).
           ++ now apply (HH t1 t2 y).
      * intros y. rewrite O2. apply somewhere_cr_ext.
        intros t'. apply (carry_upd (th s) t (TPush0 x)).
    + apply Hloc; simpl; auto; try easy. now rewrite Et.
    + apply Hloc; simpl; auto; try easy. now rewrite Et.
  - (* access *)
    simpl. pose proof (HK t) as Hk. destruct (th s t) as [|x|x cur|x cur|al|al cur|al cur nxt| |u|r] eqn:Et;
      simpl.
    + apply Hloc; simpl; auto; try easy; now rewrite Et.
    + apply Hloc; simpl; auto; try easy; rewrite Et; auto.
    + (* link written *)
      assert (Hcx : carry (th s t) = Some x) by now rewrite Et.
      destruct (own_cr _ _ _ HO t x Hcx) as (X0 & Xl & Xh & Xd & Xu).
      split.
      * constructor; simpl; auto.
        -- eapply own_cr_ext; [|apply own_write; [exact HO|exact Xl]].
           intros t'. simpl. apply carry_upd_same. now rewrite Et.
        -- intros t'. destruct (Nat.eq_dec t' t) as [->|Hne]; rewrite ?upd_same, ?upd_other by easy.
           { simpl. apply nset_same. }
           pose proof (HK t') as Hk'. destruct (th s t') eqn:Et'; simpl in *; auto.
           { rewrite nset_other; [easy|]. intros ->. apply Hne.
             apply (own_cr2 _ _ _ HO t' t x); [now rewrite Et'|easy]. }
           { destruct Hk' as [K0 K1]. split; [easy|]. intros Hl. rewrite nset_other; auto. congruence. }
        -- intros t1 t2 y. destruct (Nat.eq_dec t1 t) as [->|Hne]; rewrite ?upd_same, ?upd_other by easy;
             [easy|]. intros E1 H0. split; [|now apply (HH t1 t1 y)].
           destruct (Nat.eq_dec t2 t) as [->|Hne2]; rewrite ?upd_same, ?upd_other by easy.
           ++ simpl. pose proof (HH t1 t y E1 H0) as [Hn _]. rewrite Et in Hn. exact Hn.
           ++ now apply (HH t1 t2 y).
      * intros y. change (somewhere (set_nx (sh s) x cur) l) with (somewhere (sh s) l).
        apply somewhere_cr_ext.
        intros t'. simpl. apply carry_upd_same. now rewrite Et.
    + (* push compare-exchange *)
      destruct (negb spur && (hd (sh s) =? cur)) eqn:Ec; simpl.
      2:{ apply Hloc; simpl; auto; try easy; rewrite Et; auto. }
      apply andb_true_iff in Ec as [_ Ec]. apply N.eqb_eq in Ec. simpl in Hk.
      assert (Hcx : carry (th s t) = Some x) by now rewrite Et.
      destruct (own_pushed (sh s) l (fun t => carry (th s t)) t x HO Hcx) as [O1 O2];
        [congruence|].
      destruct (own_cr _ _ _ HO t x Hcx) as (X0 & Xl & Xh & Xd & Xu).
      split.
      * constructor; simpl; auto.
        -- eapply own_cr_ext; [|exact O1]. intros t'. apply (carry_upd (th s) t (TDone RPushed)).
        -- intros t'. destruct (Nat.eq_dec t' t) as [->|Hne]; rewrite ?upd_same, ?upd_other by easy;
             [exact I|]. pose proof (HK t') as Hk'. destruct (th s t') eqn:Et'; simpl in *; auto.
           destruct Hk' as [K0 K1]. split; [easy|]. intros [<-|Hl]; auto.
           exfalso. destruct (HH t' t x) as [Hn _]; [now rewrite Et'|easy|].
           apply Hn. now rewrite Et.
        -- intros t1 t2 y. destruct (Nat.eq_dec t1 t) as [->|Hne]; rewrite ?upd_same, ?upd_other by easy;
             [easy|]. intros E1 H0. split; [|now apply (HH t1 t1 y)].
           destruct (Nat.eq_dec t2 t) as [->|Hne2]; rewrite ?upd_same, ?upd_other by easy; [easy|].
           now apply (HH t1 t2 y).
      * intros y. rewrite O2. apply somewhere_cr_ext.
        intros t'. apply (carry_upd (th s) t (TDone RPushed)).
    + (* pop: load *)
      apply Hloc; simpl; auto; try easy; [now rewrite Et|].
      intros y [= <-] H0. left. destruct (chain_hd_in _ _ _ (own_chain _ _ _ HO)); easy.
    + destruct (N.eqb_spec cur 0) as [->|Hc]; simpl.
      { destruct al; apply Hloc; simpl; auto; try easy; now rewrite Et. }
      (* pop: link read *)
      assert (Hnd : ~ In cur (dead (sh s))).
      { apply (HH t t cur); [now rewrite Et|easy]. }
      assert (Hm : touch (sh s) cur = sh s).
      { unfold touch. rewrite (mem_N_false _ _ Hnd), orb_false_r. now destruct (sh s). }
      rewrite Hm. apply Hloc; simpl; auto; try easy; rewrite Et; auto.
    + destruct (negb spur && (hd (sh s) =? cur)) eqn:Ec; simpl.
      2:{ apply Hloc; simpl; auto; try easy; [now rewrite Et|].
          intros y [= <-] H0. left. destruct (chain_hd_in _ _ _ (own_chain _ _ _ HO)); easy. }
      apply andb_true_iff in Ec as [_ Ec]. apply N.eqb_eq in Ec.
      destruct Hk as [K0 K1].
      destruct (chain_hd _ _ _ (own_chain _ _ _ HO)) as (r & El & Hr); [congruence|].
      rewrite Ec in El. subst l. simpl.
      rewrite <- (K1 (or_introl eq_refl)).
      destruct (own_popped (sh s) r (fun t => carry (th s t)) t cur HO) as [O1 O2];
        [simpl; now rewrite Et|].
      split.
      * constructor; simpl; auto.
        -- eapply own_cr_ext; [|exact O1]. intros t'. apply (carry_upd (th s) t (TDone (RNode cur))).
        -- intros t'. destruct (Nat.eq_dec t' t) as [->|Hne]; rewrite ?upd_same, ?upd_other by easy;
             [exact I|]. pose proof (HK t') as Hk'. destruct (th s t') eqn:Et'; simpl in *; auto.
           destruct Hk' as [L0 L1]. split; [easy|]. intros Hl. apply L1. now right.
        -- intros t1 t2 y. destruct (Nat.eq_dec t1 t) as [->|Hne]; rewrite ?upd_same, ?upd_other by easy;
             [easy|]. intros E1 H0. split; [|now apply (HH t1 t1 y)].
           destruct (Nat.eq_dec t2 t) as [->|Hne2]; rewrite ?upd_same, ?upd_other by easy; [easy|].
           now apply (HH t1 t2 y).
      * intros y. rewrite O2. apply somewhere_cr_ext.
        intros t'. apply (carry_upd (th s) t (TDone (RNode cur))).
    + apply Hloc; simpl; auto; try easy; now rewrite Et.
    + destruct (N.eqb_spec u edge) as [->|Hu]; simpl.
      { apply Hloc; simpl; auto; try easy; now rewrite Et. }
      destruct (negb spur && (un (sh s) =? u)) eqn:Ec; simpl.
      2:{ apply Hloc; simpl; auto; try easy; now rewrite Et. }
      apply andb_true_iff in Ec as [_ Ec]. apply N.eqb_eq in Ec. subst u.
      destruct (own_bumped (sh s) l (fun t => carry (th s t)) t HO) as [O1 O2];
        [simpl; now rewrite Et|easy|].
      split.
      * constructor; simpl; auto.
        -- eapply own_cr_ext; [|exact O1]. intros t'. apply (carry_upd (th s) t (TDone (RNode (un (sh s))))).
        -- intros t'. destruct (Nat.eq_dec t' t) as [->|Hne]; rewrite ?upd_same, ?upd_other by easy;
             [exact I|]. pose proof (HK t') as Hk'. destruct (th s t') eqn:Et'; simpl in *; auto.
           intros E. apply Hk' in E. easy.
        -- intros t1 t2 y. destruct (Nat.eq_dec t1 t) as [->|Hne]; rewrite ?upd_same, ?upd_other by easy;
             [easy|]. intros E1 H0. split; [|now apply (HH t1 t1 y)].
           destruct (Nat.eq_dec t2 t) as [->|Hne2]; rewrite ?upd_same, ?upd_other by easy; [easy|].
           now apply (HH t1 t2 y).
      * intros y. rewrite O2. apply somewhere_cr_ext.
        intros t'. apply (carry_upd (th s) t (TDone (RNode (un (sh s))))).
    + apply Hloc; simpl; auto; try easy; now rewrite Et.
  - (* return *)
    simpl. destruct (th s t) as [| | | | | | | | |r] eqn:Et; simpl; try exact Hsame.
    destruct r as [|x|]; simpl; try (apply Hloc; simpl; auto; try easy; now rewrite Et).
    assert (Hcx : carry (th s t) = Some x) by now rewrite Et.
    destruct (own_return (sh s) l (fun t => carry (th s t)) t x HO Hcx) as [O1 O2].
    split.
    + constructor; simpl; auto.
      * eapply own_cr_ext; [|exact O1]. intros t'. apply (carry_upd (th s) t TIdle).
      * intros t'. destruct (Nat.eq_dec t' t) as [->|Hne]; rewrite ?upd_same, ?upd_other by easy;
          [exact I|]. pose proof (HK t') as Hk'. destruct (th s t'); auto.
      * intros t1 t2 y. destruct (Nat.eq_dec t1 t) as [->|Hne]; rewrite ?upd_same, ?upd_other by easy;
          [easy|]. intros E1 H0. split; [|now apply (HH t1 t1 y)].
        destruct (Nat.eq_dec t2 t) as [->|Hne2]; rewrite ?upd_same, ?upd_other by easy; [easy|].
        now apply (HH t1 t2 y).
    + intros y. rewrite O2. apply somewhere_cr_ext.
      intros t'. apply (carry_upd (th s) t TIdle).
  - simpl. destruct (mem_N x (held (sh s))) eqn:Ex; [|exact Hsame]. apply mem_N_In in Ex. simpl.
    assert (Hxl : ~ In x l) by (intros Hl; now apply (own_lh _ _ _ HO x)).
    split; [|reflexivity]. constructor; simpl; auto.
    + now apply own_write.
    + intros t'. pose proof (HK t') as Hk'. destruct (th s t') eqn:Et'; simpl in *; auto.
      * rewrite nset_other; [easy|]. intros ->.
        destruct (own_cr _ _ _ HO t' x) as (_ & _ & C & _); [now rewrite Et'|easy].
      * destruct Hk' as [K0 K1]. split; [easy|]. intros Hl. rewrite nset_other; auto. congruence.
  - simpl. destruct (mem_N x (held (sh s))) eqn:Ex; [|exact Hsame]. apply mem_N_In in Ex. simpl.
    destruct (own_kill (sh s) l (fun t => carry (th s t)) x HO Ex) as [O1 O2].
    split; [|exact O2]. constructor; simpl; auto.
    intros t1 t2 y E1 H0. split; [now apply (HH t1 t2 y)|].
    rewrite In_snoc. intros [Hd| ->]; [now apply (HH t1 t2 y)|]. now apply (Hlb t1).
Qed.


Lemma tinv_run ls : forall s l, tinv s l -> no_reuse s ls ->
  exists l', tinv (fst (trun size edge s ls)) l' /\
    forall x, somewhere (sh s) l (fun t => carry (th s t)) x <->
      somewhere (sh (fst (trun size edge s ls))) l'
        (fun t => carry (th (fst (trun size edge s ls)) t)) x.
Proof.
  induction ls as [|lb ls IH]; intros s l HI Hr.
  - exists l. simpl. split; [exact HI|reflexivity].
  - destruct Hr as [Hlb Hr]. destruct (tinv_step s l lb HI Hlb) as [HI' HS].
    destruct (IH _ _ HI' Hr) as (l' & HI2 & HS2). exists l'.
    simpl. destruct (tstep size edge s lb) as [s1 e1]. simpl in *.
    destruct (trun size edge s1 ls) as [s2 e2]. simpl in *. split; [easy|].
    intros x. now rewrite HS.
Qed.

(** Initial states. *)
Lemma tinv_init a nodes link :
  NoDup nodes -> (forall x, In x nodes -> x <> 0 /\ ~ unissued a x) ->
  on_grid a -> (0 < a \/ a = edge) ->
  tinv (tinit (shm_init a nodes link)) [].
Proof.
  intros Hnd Hn Hg Ha. constructor; simpl; auto; try easy.
  constructor; simpl; auto; try easy.
  - constructor.
  - intros x Hx. now apply Hn.
  - intros x [[]|[Hx|[]]]. now apply Hn.
Qed.

(** *** Sufficient conditions on schedules *)

Definition popping (c : thr) : bool :=
  match c with TPop0 _ | TPop1 _ _ | TPop2 _ _ _ => true | _ => false end.

(** No two pops (allocations from the free list) overlap each other. *)
Fixpoint solo_pops (s : tstate) (ls : list tlabel) : Prop :=
  match ls with
  | [] => True
  | lb :: r =>
      match lb with
      | LInv _ OPop | LInv _ OAlloc => forall t, popping (th s t) = false
      | _ => True
      end /\ solo_pops (fst (tstep size edge s lb)) r
  end.

(** No push or free starts while a pop is in progress. *)
Fixpoint quiet_pops (s : tstate) (ls : list tlabel) : Prop :=
  match ls with
  | [] => True
  | lb :: r =>
      match lb with
      | LInv _ (OPush _) | LFree _ => forall t, popping (th s t) = false
      | _ => True
      end /\ quiet_pops (fst (tstep size edge s lb)) r
  end.

Lemma quiet_no_reuse ls : forall s, quiet_pops s ls -> no_reuse s ls.
Proof.
  induction ls as [|lb ls IH]; intros s; [easy|]. intros [H1 H2]. split; [|now apply IH].
  destruct lb as [t [x| |]|t sp|t|x v|x]; auto; intros t' E; specialize (H1 t');
    destruct (th s t'); easy.
Qed.

Definition solo_inv (s : tstate) (l : list N) : Prop :=
  (forall t t', popping (th s t) = true -> popping (th s t') = true -> t = t') /\
  (forall t x, holds (th s t) = Some x -> x = 0 \/ In x l).

Definition solo_ok (s : tstate) (lb : tlabel) : Prop :=
  match lb with
  | LInv _ OPop | LInv _ OAlloc => forall t, popping (th s t) = false
  | _ => True
  end.

Lemma holds_popping c x : holds c = Some x -> popping c = true.
Proof. destruct c; easy. Qed.

Lemma solo_label_ok s l lb : tinv s l -> solo_inv s l ->
  (match lb with LInv t (OPush x) => th s t = TIdle -> mem_N x (held (sh s)) = true -> forall t', holds (th s t') <> Some x
   | LFree x => mem_N x (held (sh s)) = true -> forall t', holds (th s t') <> Some x
   | _ => True end).
Proof.
  intros HI [_ H2].
  assert (H : forall x, mem_N x (held (sh s)) = true -> forall t', holds (th s t') <> Some x).
  { intros x Hx t' E. apply mem_N_In in Hx. destruct (H2 _ _ E) as [->|Hl].
    - now apply (own_h0 _ _ _ (ti_own _ _ HI) 0).
    - now apply (own_lh _ _ _ (ti_own _ _ HI) x). }
  destruct lb as [t [x| |]|t sp|t|x v|x]; auto.
Qed.

Lemma solo_step s l lb : tinv s l -> solo_inv s l -> solo_ok s lb ->
  solo_inv (fst (tstep size edge s lb)) (lnext s lb l).
Proof.
  intros HI [H1 H2] Hok.
  assert (Hupd : forall m t c l',
    (popping c = true -> popping (th s t) = true) ->
    (forall x, holds c = Some x -> x = 0 \/ In x l') ->
    (forall t' x, t' <> t -> holds (th s t') = Some x -> In x l -> In x l') ->
    solo_inv (TState m (upd (th s) t c)) l').
  { intros m t c l' A B C. split; simpl.
    - intros t1 t2. destruct (Nat.eq_dec t1 t) as [->|N1]; destruct (Nat.eq_dec t2 t) as [->|N2];
        rewrite ?upd_same, ?upd_other by easy; auto.
    - intros t1 x. destruct (Nat.eq_dec t1 t) as [->|N1]; rewrite ?upd_same, ?upd_other by easy; auto.
      intros E. destruct (H2 _ _ E) as [->|Hl]; eauto. }
  destruct lb as [t o|t spur|t|x v|x]; simpl.
  - destruct (th s t) eqn:Et; try (split; assumption).
    destruct (may_call (sh s) o); [|split; assumption]. simpl.
    destruct o as [x| |]; simpl in *.
    + apply Hupd; simpl; try easy.
    + split; simpl.
      * intros t1 t2. destruct (Nat.eq_dec t1 t) as [->|N1]; destruct (Nat.eq_dec t2 t) as [->|N2];
          rewrite ?upd_same, ?upd_other by easy; auto; rewrite ?Hok; easy.
      * intros t1 x. destruct (Nat.eq_dec t1 t) as [->|N1]; rewrite ?upd_same, ?upd_other by easy; eauto.
        easy.
    + split; simpl.
      * intros t1 t2. destruct (Nat.eq_dec t1 t) as [->|N1]; destruct (Nat.eq_dec t2 t) as [->|N2];
          rewrite ?upd_same, ?upd_other by easy; auto; rewrite ?Hok; easy.
      * intros t1 x. destruct (Nat.eq_dec t1 t) as [->|N1]; rewrite ?upd_same, ?upd_other by easy; eauto.
        easy.
  - pose proof (own_chain _ _ _ (ti_own _ _ HI)) as Hch.
    pose proof (chain_hd_in _ _ _ Hch) as Hin.
    destruct (th s t) as [|x|x cur|x cur|al|al cur|al cur nxt| |u|r] eqn:Et; simpl.
    + apply Hupd; simpl; rewrite ?Et; try easy; eauto.
    + apply Hupd; simpl; rewrite ?Et; try easy; eauto.
    + apply Hupd; simpl; rewrite ?Et; try easy; eauto.
    + destruct (negb spur && (hd (sh s) =? cur)); simpl; apply Hupd; simpl; rewrite ?Et; try easy; eauto.
    + apply Hupd; simpl; rewrite ?Et; try easy; eauto. intros y [= <-]; easy.
    + destruct (cur =? 0) eqn:Ec; simpl; [destruct al; apply Hupd; simpl; rewrite ?Et; try easy; eauto|].
      apply Hupd; simpl; rewrite ?Et; try easy; eauto.
      intros y [= <-]. apply (H2 t). now rewrite Et.
    + destruct (negb spur && (hd (sh s) =? cur)); simpl; apply Hupd; simpl; rewrite ?Et; try easy; eauto.
      * intros t' y Hne E _. exfalso. apply Hne. apply H1; [eapply holds_popping; eauto|now rewrite Et].
      * intros y [= <-]; easy.
    + apply Hupd; simpl; rewrite ?Et; try easy; eauto.
    + destruct (u =? edge); simpl; [apply Hupd; simpl; rewrite ?Et; try easy; eauto|].
      destruct (negb spur && (un (sh s) =? u)); simpl; apply Hupd; simpl; rewrite ?Et; try easy; eauto.
    + apply Hupd; simpl; rewrite ?Et; try easy; eauto.
  - destruct (th s t) eqn:Et; try (split; assumption). simpl.
    apply Hupd; simpl; rewrite ?Et; try easy; eauto.
  - destruct (mem_N x (held (sh s))); split; assumption.
  - destruct (mem_N x (held (sh s))); split; assumption.
Qed.

(** A label that is not enabled changes nothing; [enabled] labels satisfy the
    reuse condition automatically when pops are solo. *)
Lemma tinv_step_solo s l lb : tinv s l -> solo_inv s l ->
  tinv (fst (tstep size edge s lb)) (lnext s lb l) /\
  (forall x, somewhere (sh s) l (fun t => carry (th s t)) x <->
     let s' := fst (tstep size edge s lb) in
     somewhere (sh s') (lnext s lb l) (fun t => carry (th s' t)) x).
Proof.
  intros HI HS. pose proof (solo_label_ok s l lb HI HS) as Hl.
  destruct lb as [t [x| |]|t sp|t|x v|x];
    try (apply tinv_step; [exact HI|exact I]).
  - destruct (th s t) eqn:Et; try (simpl; rewrite Et; simpl; split; [exact HI|reflexivity]).
    destruct (mem_N x (held (sh s))) eqn:Ex.
    + apply tinv_step; [exact HI|]. exact (Hl eq_refl eq_refl).
    + simpl. rewrite Et, Ex. simpl. split; [exact HI|reflexivity].
  - destruct (mem_N x (held (sh s))) eqn:Ex.
    + apply tinv_step; [exact HI|]. exact (Hl eq_refl).
    + simpl. rewrite Ex. simpl. split; [exact HI|reflexivity].
Qed.

(** *** Linearizability (push and pop) *)

Definition no_alloc (lb : tlabel) : Prop :=
  match lb with LInv _ OAlloc => False | _ => True end.

Definition lrel (c : thr) (a : lstat top tres) : Prop :=
  match c with
  | TIdle => a = LIdle
  | TPush0 x | TPush1 x _ | TPush2 x _ => a = LPend (OPush x)
  | TPop0 al => al = false /\ a = LPend OPop
  | TPop1 al cur => al = false /\ (if cur =? 0 then a = LDone RNone else a = LPend OPop)
  | TPop2 al _ _ => al = false /\ a = LPend OPop
  | TBump0 | TBump1 _ => False
  | TDone r => a = LDone r
  end.

Definition tsim (s : tstate) (l : list N) (tr : list (lvis top tres)) : Prop :=
  exists a, lexec stack_ap [] tr a /\ lobj a = l /\ forall t, lrel (th s t) (lth a t).

Lemma tsim_step s l lb tr : tinv s l -> tsim s l tr -> no_alloc lb ->
  tsim (fst (tstep size edge s lb)) (lnext s lb l) (tr ++ snd (tstep size edge s lb)).
Proof.
  intros HI (a & Ha & Hl & Hr) Hna.
  assert (Hsame : tsim s l (tr ++ [])) by (rewrite app_nil_r; exists a; auto).
  assert (Hst : forall m t c, lrel c (lth a t) -> tsim (TState m (upd (th s) t c)) l (tr ++ [])).
  { intros m t c Hc. rewrite app_nil_r. exists a. split; [easy|]. split; [easy|].
    intros t'. simpl. destruct (Nat.eq_dec t' t) as [->|Hne]; now rewrite ?upd_same, ?upd_other. }
  assert (Heff : forall m t c o l', lth a t = LPend o -> l' = fst (stack_ap o l) ->
            lrel c (LDone (snd (stack_ap o l))) ->
            tsim (TState m (upd (th s) t c)) l' (tr ++ [])).
  { intros m t c o l' Hp El Hc. rewrite app_nil_r. subst l.
    eexists. split; [apply (lx_effect _ _ _ _ t o Ha Hp)|]. split; [now rewrite El|].
    intros t'. simpl. destruct (Nat.eq_dec t' t) as [->|Hne]; now rewrite ?upd_same, ?upd_other. }
  pose proof (own_chain _ _ _ (ti_own _ _ HI)) as Hch.
  destruct lb as [t o|t spur|t|x v|x]; simpl.
  - pose proof (Hr t) as Ht. destruct (th s t) eqn:Et; try exact Hsame. simpl in Ht.
    destruct (may_call (sh s) o); [|exact Hsame]. simpl.
    eexists. split; [apply lx_call; [exact Ha|exact Ht]|]. split; [easy|]. simpl.
    intros t'. destruct (Nat.eq_dec t' t) as [->|Hne]; rewrite ?upd_same, ?upd_other by easy; [|apply Hr].
    destruct o; simpl; auto. easy.
  - pose proof (Hr t) as Ht. pose proof (ti_ok _ _ HI t) as Hk.
    destruct (th s t) as [|x|x cur|x cur|al|al cur|al cur nxt| |u|r] eqn:Et; simpl in *.
    + now apply Hst.
    + now apply Hst.
    + now apply Hst.
    + destruct (negb spur && (hd (sh s) =? cur)); simpl; [|now apply Hst].
      eapply Heff; eauto. reflexivity.
    + destruct Ht as [-> Ht]. destruct (N.eqb_spec (hd (sh s)) 0) as [E0|E0].
      * eapply (Heff _ _ _ OPop); eauto.
        -- destruct l; [reflexivity|]. simpl in Hch. destruct Hch as (? & ? & _). congruence.
        -- simpl. rewrite E0. simpl. split; [easy|].
           destruct l; [reflexivity|]. simpl in Hch. destruct Hch as (? & ? & _). congruence.
      * apply Hst. simpl. split; [easy|]. now destruct (N.eqb_spec (hd (sh s)) 0).
    + destruct Ht as [-> Ht]. destruct (N.eqb_spec cur 0) as [->|E0]; simpl; apply Hst; simpl; auto.
    + destruct Ht as [-> Ht]. destruct (negb spur && (hd (sh s) =? cur)) eqn:Ec; simpl.
      * apply andb_true_iff in Ec as [_ Ec]. apply N.eqb_eq in Ec. destruct Hk as [K0 _].
        destruct (chain_hd _ _ _ Hch) as (r & El & _); [congruence|].
        eapply (Heff _ _ _ OPop); eauto; rewrite El; simpl; [reflexivity|]. now rewrite Ec.
      * destruct (N.eqb_spec (hd (sh s)) 0) as [E0|E0].
        -- eapply (Heff _ _ _ OPop); eauto.
           ++ destruct l; [reflexivity|]. simpl in Hch. destruct Hch as (? & ? & _). congruence.
           ++ simpl. rewrite E0. simpl. split; [easy|].
              destruct l; [reflexivity|]. simpl in Hch. destruct Hch as (? & ? & _). congruence.
        -- apply Hst. simpl. split; [easy|]. now destruct (N.eqb_spec (hd (sh s)) 0).
    + easy.
    + easy.
    + now apply Hst.
  - pose proof (Hr t) as Ht. destruct (th s t) eqn:Et; try exact Hsame. simpl in Ht. simpl.
    eexists. split; [apply lx_return; [exact Ha|exact Ht]|]. split; [easy|]. simpl.
    intros t'. destruct (Nat.eq_dec t' t) as [->|Hne]; rewrite ?upd_same, ?upd_other by easy; [|apply Hr].
    reflexivity.
  - destruct (mem_N x (held (sh s))); simpl; [|exact Hsame]. rewrite app_nil_r. exists a. auto.
  - destruct (mem_N x (held (sh s))); simpl; [|exact Hsame]. rewrite app_nil_r. exists a. auto.
Qed.

Lemma tsim_run ls : forall s l tr, tinv s l -> tsim s l tr -> no_reuse s ls -> Forall no_alloc ls ->
  exists l', tinv (fst (trun size edge s ls)) l' /\
    tsim (fst (trun size edge s ls)) l' (tr ++ snd (trun size edge s ls)).
Proof.
  induction ls as [|lb ls IH]; intros s l tr HI HS Hr Hna.
  - exists l. simpl. rewrite app_nil_r. auto.
  - destruct Hr as [Hlb Hr]. inversion Hna as [|? ? Hn1 Hn2]; subst.
    destruct (tinv_step s l lb HI Hlb) as [HI' _].
    pose proof (tsim_step s l lb tr HI HS Hn1) as HS'.
    destruct (IH _ _ _ HI' HS' Hr Hn2) as (l' & A & B). exists l'. simpl.
    destruct (tstep size edge s lb) as [s1 e1]. simpl in *.
    destruct (trun size edge s1 ls) as [s2 e2]. simpl in *. rewrite app_assoc. auto.
Qed.

Lemma solo_run ls : forall s l, tinv s l -> solo_inv s l -> solo_pops s ls ->
  exists l', tinv (fst (trun size edge s ls)) l' /\ solo_inv (fst (trun size edge s ls)) l' /\
    (forall x, somewhere (sh s) l (fun t => carry (th s t)) x <->
      somewhere (sh (fst (trun size edge s ls))) l'
        (fun t => carry (th (fst (trun size edge s ls)) t)) x) /\
    (Forall no_alloc ls -> forall tr, tsim s l tr ->
       tsim (fst (trun size edge s ls)) l' (tr ++ snd (trun size edge s ls))).
Proof.
  induction ls as [|lb ls IH]; intros s l HI HS Hr.
  - exists l. simpl. split; [easy|]. split; [easy|]. split; [reflexivity|]. intros _ tr. now rewrite app_nil_r.
  - destruct Hr as [Hlb Hr].
    destruct (tinv_step_solo s l lb HI HS) as [HI' HW].
    pose proof (solo_step s l lb HI HS Hlb) as HS'.
    destruct (IH _ _ HI' HS' Hr) as (l' & A & B & C & D). exists l'. simpl.
    assert (HT : no_alloc lb -> forall tr, tsim s l tr ->
       tsim (fst (tstep size edge s lb)) (lnext s lb l) (tr ++ snd (tstep size edge s lb))).
    { intros Hn tr Ht. now apply tsim_step. }
    destruct (tstep size edge s lb) as [s1 e1]. simpl in *.
    destruct (trun size edge s1 ls) as [s2 e2]. simpl in *.
    split; [easy|]. split; [easy|]. split; [intros x; now rewrite HW|].
    intros Hf tr Ht. inversion Hf; subst. rewrite app_assoc. apply D; auto.
Qed.

(** *** Everything that is not in use can be obtained *)

Definition alloc_by (t : nat) : list tlabel :=
  [LInv t OAlloc; LStep t false; LStep t false; LStep t false; LStep t false; LRet t].

Fixpoint allocs_by (t : nat) (k : nat) : list tlabel :=
  match k with O => [] | S k' => alloc_by t ++ allocs_by t k' end.

Lemma trun_app l1 : forall s l2,
  fst (trun size edge s (l1 ++ l2)) = fst (trun size edge (fst (trun size edge s l1)) l2).
Proof.
  induction l1 as [|lb l1 IH]; intros s l2; [easy|].
  simpl. destruct (tstep size edge s lb) as [s1 e1]. specialize (IH s1 l2).
  destruct (trun size edge s1 (l1 ++ l2)) as [s2 e2].
  destruct (trun size edge s1 l1) as [s3 e3]. simpl in *. exact IH.
Qed.

Lemma alloc_by_pop s l t x r : tinv s l -> l = x :: r -> th s t = TIdle ->
  let s' := fst (trun size edge s (alloc_by t)) in
  held (sh s') = held (sh s) ++ [x] /\ tinv s' r /\ th s' t = TIdle /\ un (sh s') = un (sh s).
Proof.
  intros HI El Ht. subst l.
  pose proof (own_chain _ _ _ (ti_own _ _ HI)) as (Eh & X0 & Hc).
  assert (Hnd : ~ In x (dead (sh s))) by (apply (own_ld _ _ _ (ti_own _ _ HI)); now left).
  cbv zeta. destruct s as [m c]. cbn [sh th] in *.
  assert (Hrun : exists c', fst (trun size edge (TState m c) (alloc_by t)) =
     TState (give_held (set_hd m (nx m x)) x) c' /\ c' t = TIdle).
  { unfold alloc_by. cbn [trun tstep sh th]. rewrite Ht. cbn [may_call on_call begin sh th].
    rewrite upd_same. cbn [taccess]. cbn [sh th]. rewrite upd_same. cbn [taccess].
    rewrite Eh. destruct (N.eqb_spec x 0) as [?|_]; [easy|]. cbn [sh th]. rewrite upd_same.
    assert (Hm : touch m x = m).
    { unfold touch. rewrite (mem_N_false _ _ Hnd), orb_false_r. now destruct m. }
    rewrite Hm. cbn [taccess negb andb]. rewrite Eh, N.eqb_refl. cbn [sh th]. rewrite upd_same.
    cbn [taccess sh th]. rewrite upd_same. cbn [fst on_return]. eexists. split; [reflexivity|].
    now rewrite upd_same. }
  destruct Hrun as (c' & E & Hc').
  split; [rewrite E; reflexivity|].
  assert (HT : tinv (fst (trun size edge (TState m c) (alloc_by t))) r).
  { assert (Hq : quiet_pops (TState m c) (alloc_by t)).
    { unfold alloc_by. cbn [quiet_pops]. tauto. }
    destruct (tinv_run _ _ _ HI (quiet_no_reuse _ _ Hq)) as (l' & HI' & _).
    assert (l' = r) as <-; [|easy].
    pose proof (own_chain _ _ _ (ti_own _ _ HI')) as Hc2. rewrite E in Hc2. simpl in Hc2.
    clear -Hc Hc2. revert Hc Hc2. generalize (nx m x) as h. revert l'.
    induction r as [|y r IH]; intros [|z l'] h; simpl; try easy.
    - intros -> (-> & H & _). easy.
    - intros (-> & H & _) E. easy.
    - intros (-> & _ & H1) (-> & _ & H2). f_equal. eapply IH; eauto. }
  split; [exact HT|]. rewrite E. auto.
Qed.

Lemma alloc_by_bump s t : tinv s [] -> th s t = TIdle -> un (sh s) <> edge ->
  let s' := fst (trun size edge s (alloc_by t)) in
  held (sh s') = held (sh s) ++ [un (sh s)] /\ tinv s' [] /\ th s' t = TIdle /\
  un (sh s') = un (sh s) + size.
Proof.
  intros HI Ht Hu.
  pose proof (own_chain _ _ _ (ti_own _ _ HI)) as Eh. simpl in Eh.
  cbv zeta. destruct s as [m c]. cbn [sh th] in *.
  assert (Hrun : exists c', fst (trun size edge (TState m c) (alloc_by t)) =
     TState (give_held (set_un m (un m + size)) (un m)) c' /\ c' t = TIdle).
  { unfold alloc_by. cbn [trun tstep sh th]. rewrite Ht. cbn [may_call on_call begin sh th].
    rewrite upd_same. cbn [taccess]. cbn [sh th]. rewrite upd_same. cbn [taccess].
    rewrite Eh, N.eqb_refl. cbn [sh th]. rewrite upd_same.
    cbn [taccess sh th]. rewrite upd_same. cbn [taccess].
    destruct (N.eqb_spec (un m) edge) as [?|_]; [easy|].
    rewrite N.eqb_refl. cbn [negb andb sh th]. rewrite upd_same.
    cbn [fst on_return]. eexists. split; [reflexivity|]. now rewrite upd_same. }
  destruct Hrun as (c' & E & Hc').
  split; [rewrite E; reflexivity|].
  assert (HT : tinv (fst (trun size edge (TState m c) (alloc_by t))) []).
  { assert (Hq : quiet_pops (TState m c) (alloc_by t)).
    { unfold alloc_by. cbn [quiet_pops]. tauto. }
    destruct (tinv_run _ _ _ HI (quiet_no_reuse _ _ Hq)) as (l' & HI' & _).
    assert (l' = []) as <-; [|easy].
    pose proof (own_chain _ _ _ (ti_own _ _ HI')) as Hc2. rewrite E in Hc2. simpl in Hc2.
    destruct l'; [easy|]. simpl in Hc2. destruct Hc2 as (? & ? & _). congruence. }
  split; [exact HT|]. rewrite E. auto.
Qed.

Lemma obtain_list t x l : forall s, tinv s l -> th s t = TIdle -> In x l ->
  exists k, In x (held (sh (fst (trun size edge s (allocs_by t k))))).
Proof.
  induction l as [|y r IH]; intros s HI Ht HIn; [easy|].
  destruct (alloc_by_pop s (y :: r) t y r HI eq_refl Ht) as (Hh & HI' & Ht' & _).
  destruct (N.eq_dec x y) as [->|Hne].
  - exists 1%nat. change (allocs_by t 1) with (alloc_by t ++ []). rewrite app_nil_r, Hh. apply In_snoc. auto.
  - destruct HIn as [->|HIn]; [easy|].
    destruct (IH _ HI' Ht' HIn) as [k Hk]. exists (S k). cbn [allocs_by]. now rewrite trun_app.
Qed.

Lemma obtain_fresh t x (n : nat) : forall s l, tinv s l -> th s t = TIdle ->
  x = un (sh s) + size * N.of_nat n -> x < edge ->
  exists k, In x (held (sh (fst (trun size edge s (allocs_by t k))))).
Proof.
  induction n as [|n IHn]; intros s l; revert s; induction l as [|y r IH]; intros s HI Ht Hx Hlt.
  - assert (un (sh s) <> edge) as Hu by lia.
    destruct (alloc_by_bump s t HI Ht Hu) as (Hh & HI' & Ht' & _).
    exists 1%nat. change (allocs_by t 1) with (alloc_by t ++ []). rewrite app_nil_r, Hh. apply In_snoc. right. lia.
  - destruct (alloc_by_pop s (y :: r) t y r HI eq_refl Ht) as (Hh & HI' & Ht' & Hu).
    destruct (IH _ HI' Ht') as [k Hk]; [now rewrite Hu|easy|].
    exists (S k). cbn [allocs_by]. now rewrite trun_app.
  - assert (un (sh s) <> edge) as Hu by nia.
    destruct (alloc_by_bump s t HI Ht Hu) as (Hh & HI' & Ht' & Hu').
    destruct (IHn _ _ HI' Ht') as [k Hk]; [rewrite Hu'; nia|easy|].
    exists (S k). cbn [allocs_by]. now rewrite trun_app.
  - destruct (alloc_by_pop s (y :: r) t y r HI eq_refl Ht) as (Hh & HI' & Ht' & Hu).
    destruct (IH _ HI' Ht') as [k Hk]; [now rewrite Hu|easy|].
    exists (S k). cbn [allocs_by]. now rewrite trun_app.
Qed.

Lemma obtain_all s l x : tinv s l -> (forall t, th s t = TIdle) ->
  somewhere (sh s) l (fun t => carry (th s t)) x ->
  ~ In x (held (sh s)) -> ~ In x (dead (sh s)) ->
  forall t, exists k, In x (held (sh (fst (trun size edge s (allocs_by t k))))).
Proof.
  intros HI Hid [H|[H|[H|[(k & E & Hlt)|[t' H]]]]] Hh Hd t; try easy.
  - eapply obtain_list; eauto.
  - apply (obtain_fresh t x (N.to_nat k) s l); auto. rewrite N2Nat.id. exact E.
  - rewrite Hid in H. easy.
Qed.

End Proofs.
