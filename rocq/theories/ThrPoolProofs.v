(** Proofs about the macros for pools of threads. *)
Require Import NArith List Bool Lia Arith Permutation.
From Verif Require Import Soft ThrPool ThrPoolSpec.
Import ListNotations.
Open Scope N_scope.

Lemma mem_in x l : mem x l = true <-> In x l.
Proof.
  unfold mem. rewrite existsb_exists. split.
  - intros (y & H & E). apply N.eqb_eq in E. now subst.
  - intros H. exists x. split; [exact H|apply N.eqb_refl].
Qed.
Lemma nodupb_ok l : nodupb l = true <-> NoDup l.
Proof.
  induction l as [|x l IH]; simpl.
  - split; [constructor|reflexivity].
  - rewrite andb_true_iff, negb_true_iff, IH. split.
    + intros [H D]. constructor; [|exact D]. intros I. apply mem_in in I. congruence.
    + inversion 1; subst. split; [|assumption]. destruct (mem x l) eqn:E; [|reflexivity]. apply mem_in in E. contradiction.
Qed.

Lemma nodup_right {A} (a b : list A) : NoDup (a ++ b) -> NoDup b.
Proof. induction a; simpl; [auto|]. inversion 1; auto. Qed.

(** ** Struct tables *)
Definition decls (items : list item) : list N := flat_map (fun i => match i with IStruct _ n _ => [n] | _ => [] end) items.

Lemma structs_decls on items n : In n (map fst (structs on items)) -> In n (decls items).
Proof.
  induction items as [|i items IH]; simpl; [auto|]. unfold structs in *. simpl. rewrite map_app, !in_app_iff. intros [H|H].
  - left. destruct i; simpl in *; auto. destruct (holds on cfgs); simpl in H; auto.
  - right. apply IH. exact H.
Qed.
Lemma structs_nodup on items : NoDup (decls items) -> NoDup (map fst (structs on items)).
Proof.
  induction items as [|i items IH]; intros D; [constructor|]. unfold structs, decls in *. simpl in *. rewrite map_app.
  destruct i; simpl in *; auto. inversion D; subst. destruct (holds on cfgs); simpl; [|auto].
  constructor; [|auto]. intros H. apply (structs_decls on items) in H. contradiction.
Qed.
Lemma fields_none on items n : ~ In n (decls items) -> fields_of on items n = None.
Proof.
  intros H. unfold fields_of. destruct (find _ _) eqn:F; [|reflexivity]. apply find_some in F. destruct F as [F E].
  apply N.eqb_eq in E. exfalso. apply H, (structs_decls on). rewrite <- E. now apply in_map.
Qed.
Lemma fields_found on items c n fs : NoDup (decls items) -> In (IStruct c n fs) items ->
  fields_of on items n = if holds on c then Some (map snd (filter (fun f => holds on (fst f)) fs)) else None.
Proof.
  induction items as [|i items IH]; intros D I; [destruct I|]. destruct I as [->|I].
  - unfold fields_of, structs. simpl. simpl in D. inversion D; subst. destruct (holds on c); simpl.
    + now rewrite N.eqb_refl.
    + apply (fields_none on items n). assumption.
  - assert (G : forall x, (forall c' n' fs', i = IStruct c' n' fs' -> n' <> x) -> fields_of on (i :: items) x = fields_of on items x).
    { intros x H. unfold fields_of, structs. simpl. destruct i; simpl; auto. destruct (holds on cfgs); simpl; auto.
      destruct (N.eqb_spec name x); auto. exfalso. now apply (H _ _ _ eq_refl). }
    rewrite G.
    + apply IH; [|exact I]. unfold decls in *. simpl in D. destruct i; simpl in *; auto. now inversion D.
    + intros c' n' fs' -> ->. unfold decls in D. simpl in D. inversion D; subst. apply H1. apply in_flat_map.
      eexists. split; [exact I|]. now left.
Qed.

(** ** The items of a pool *)
Section Pool.
Variables (camel : N -> N) (i : input).
Notation thr := (i_thr i).
Notation ths := (i_threads i).
Notation items := (pool_items camel i).

Lemma indices_length {A} (l : list A) : length (indices l) = length l.
Proof. unfold indices. now rewrite map_length, seq_length. Qed.
Lemma combine_snd {A B} (a : list A) (b : list B) : length a = length b -> map snd (combine a b) = b.
Proof. revert b. induction a; destruct b; simpl; intros H; try discriminate; f_equal; auto. Qed.
Lemma tok_flat {B} (f : N * decl -> list B) (g : decl -> list B) :
  (forall x, f x = g (snd x)) -> flat_map f (combine (indices ths) ths) = flat_map g ths.
Proof.
  intros H. assert (G : forall l, flat_map f l = flat_map g (map snd l)) by (induction l; simpl; [|rewrite H]; congruence).
  rewrite G, combine_snd; [reflexivity|apply indices_length].
Qed.
Lemma flat_flat {A B C} (f : A -> list B) (g : B -> list C) l : flat_map g (flat_map f l) = flat_map (fun x => flat_map g (f x)) l.
Proof. induction l; simpl; [reflexivity|]. now rewrite flat_map_app, IHl. Qed.
Lemma flat_single {A B} (f : A -> B) l : flat_map (fun x => [f x]) l = map f l.
Proof. induction l; simpl; [reflexivity|]. now rewrite IHl. Qed.

Lemma decls_pool : decls items = types camel i.
Proof.
  unfold pool_items, def_thr, def_local, def_index, decls, types. simpl. f_equal. f_equal. f_equal.
  rewrite flat_flat. rewrite (tok_flat _ (fun d => [camel (d_name d)])); [apply flat_single|reflexivity].
Qed.
Lemma news_pool : news items = [b_name thr; b_name (i_local i)].
Proof.
  unfold pool_items, def_thr, def_local, def_index, news. simpl. rewrite flat_flat.
  rewrite (tok_flat _ (fun d => [])); [|reflexivity]. do 2 f_equal. induction ths; auto.
Qed.
Lemma takes_pool : takes items = d_name (i_index i) :: map (fun d => camel (d_name d)) ths.
Proof.
  unfold pool_items, def_thr, def_local, def_index, takes. simpl. rewrite flat_flat. f_equal.
  rewrite (tok_flat _ (fun d => [camel (d_name d)])); [apply flat_single|reflexivity].
Qed.
Lemma tokens_pool : tokens items = map (fun d => camel (d_name d)) ths.
Proof.
  unfold pool_items, def_thr, def_local, def_index, tokens. simpl. rewrite flat_flat.
  rewrite (tok_flat _ (fun d => [camel (d_name d)])); [apply flat_single|reflexivity].
Qed.
Lemma threads_pool : threads_ items = [b_name thr].
Proof.
  unfold pool_items, def_thr, def_local, def_index, threads_. simpl. rewrite flat_flat. f_equal.
  rewrite (tok_flat _ (fun d => [])); [|reflexivity]. induction ths; auto.
Qed.
End Pool.

Lemma nth_indices {A} (l : list A) k d : nth_error (combine (indices l) l) k = Some d <->
  fst d = N.of_nat k /\ nth_error l k = Some (snd d).
Proof.
  unfold indices. assert (G : forall m, nth_error (combine (map N.of_nat (seq m (length l))) l) k = Some d <->
     fst d = N.of_nat (m + k) /\ nth_error l k = Some (snd d)); [|exact (G 0%nat)].
  revert k. induction l as [|a l IH]; intros k m; simpl.
  - destruct k; simpl; split; try discriminate; intros [_ H]; discriminate.
  - destruct k; simpl.
    + rewrite Nat.add_0_r. destruct d; simpl. split; [intros [= <- <-]; auto|intros [-> [= ->]]; auto].
    + rewrite IH. now rewrite Nat.add_succ_comm.
Qed.

(** ** Lookup *)
Lemma find_unique {A} (p : A -> bool) l x : In x l -> p x = true -> (forall y, In y l -> p y = true -> y = x) -> find p l = Some x.
Proof.
  induction l as [|a l IH]; simpl; intros I P U; [destruct I|]. destruct (p a) eqn:E.
  - f_equal. apply U; auto.
  - apply IH; auto. destruct I as [->|I]; [congruence|exact I].
Qed.
Lemma flat_nodup {A} (key : A -> list N) (l : list A) a b x :
  NoDup (flat_map key l) -> In a l -> In b l -> In x (key a) -> In x (key b) -> a = b.
Proof.
  induction l as [|c l IH]; simpl; intros D Ia Ib Xa Xb; [destruct Ia|].
  assert (D' : NoDup (flat_map key l)) by (apply nodup_right in D; exact D).
  assert (NI : In x (key c) -> ~ In x (flat_map key l)).
  { clear -D. revert D. generalize (flat_map key l). induction (key c) as [|y k IHk]; simpl; intros r D []; inversion D; subst.
    - intros H. apply H2, in_or_app. now right.
    - now apply IHk. }
  destruct Ia as [->|Ia], Ib as [->|Ib]; auto.
  - exfalso. apply NI; auto. apply in_flat_map. eauto.
  - exfalso. apply NI; auto. apply in_flat_map. eauto.
Qed.
Lemma inits_fields l index : inits (map (fun f => (f_name f, CInit (f_init f))) l) index = initial l index.
Proof. unfold inits, initial. rewrite flat_map_concat_map, map_map, <- flat_map_concat_map. simpl. apply flat_single. Qed.
Lemma no_local l (g : N -> list (N * N)) :
  flat_map (fun c : N * cexp => match snd c with CLocal t => g t | _ => [] end) (map (fun f => (f_name f, CInit (f_init f))) l) = [].
Proof. induction l; auto. Qed.

Section Made.
Variables (camel : N -> N) (i : input) (items : list item).
Hypothesis Hin : forall x, In x (pool_items camel i) -> In x items.
Hypothesis Hnew : NoDup (news items).
Hypothesis Htake : NoDup (takes items).
Hypothesis Htok : NoDup (tokens items).
Hypothesis Hthr : NoDup (threads_ items).

Lemma in_new ty c : In (INew ty c) items -> new_of items ty = c.
Proof.
  intros I. unfold new_of. rewrite (find_unique _ _ (INew ty c)); auto; [apply N.eqb_refl|].
  intros [] J E; try discriminate. apply N.eqb_eq in E. subst.
  apply (flat_nodup _ items _ _ ty Hnew J I); simpl; auto.
Qed.
Lemma in_thread ty n e : In (IThread ty n e) items -> thread_impl items ty = Some (n, e).
Proof.
  intros I. unfold thread_impl. rewrite (find_unique _ _ (IThread ty n e)); auto; [apply N.eqb_refl|].
  intros [] J E; try discriminate. apply N.eqb_eq in E. subst.
  apply (flat_nodup _ items _ _ ty Hthr J I); simpl; auto.
Qed.
Lemma in_token ty t n : In (IThrToken ty t n) items -> token_impl items ty = Some (t, n).
Proof.
  intros I. unfold token_impl. rewrite (find_unique _ _ (IThrToken ty t n)); auto; [apply N.eqb_refl|].
  intros [] J E; try discriminate. apply N.eqb_eq in E. subst.
  apply (flat_nodup _ items _ _ ty Htok J I); simpl; auto.
Qed.
Lemma in_take ty c : In (ITake ty c) items ->
  take items ty = flat_map (fun c => match snd c with CTake t => [(fst c, t)] | _ => [] end) c.
Proof.
  intros I. unfold take. rewrite (find_unique _ _ (ITake ty c)); auto; [apply N.eqb_refl|].
  intros [] J E; try discriminate. apply N.eqb_eq in E. subst.
  apply (flat_nodup _ items _ _ ty Htake J I); simpl; auto.
Qed.

Lemma new_object k : new items (b_name (i_thr i)) k = Object (initial (b_fields (i_thr i)) k) (initial (b_fields (i_local i)) k).
Proof.
  unfold new. erewrite (in_new (b_name (i_thr i))).
  2:{ apply Hin. unfold pool_items, def_thr. simpl. right. left. reflexivity. }
  simpl. rewrite inits_fields. f_equal.
  rewrite (no_local (b_fields (i_thr i)) (fun l => inits (new_of items l) k)), app_nil_r.
  erewrite (in_new (b_name (i_local i))).
  2:{ apply Hin. unfold pool_items, def_thr. simpl. do 4 right. left. reflexivity. }
  apply inits_fields.
Qed.

Lemma pool_made : the_pool camel i [] items.
Proof.
  assert (T : thread_impl items (b_name (i_thr i)) = Some (N.of_nat (length (i_threads i)), map (fun x => (b_name (i_thr i), x)) (indices (i_threads i)))).
  { apply in_thread, Hin. unfold pool_items, def_thr. simpl. do 2 right. left. reflexivity. }
  assert (K : forall k d, nth_error (i_threads i) k = Some d -> token_impl items (camel (d_name d)) = Some (b_name (i_thr i), N.of_nat k)).
  { intros k d H. apply in_token, Hin. unfold pool_items, def_thr, def_local, def_index. simpl. do 7 right. apply in_flat_map.
    exists (N.of_nat k, d). split; [apply (nth_error_In _ k); apply nth_indices; auto|]. simpl. auto. }
  unfold the_pool. cbv zeta. unfold count, pool. rewrite T. simpl. split; [reflexivity|]. rewrite !map_length, indices_length. split; [reflexivity|].
  split; [|split].
  - intros k d H. split; [apply K; exact H|]. unfold to_thr. rewrite (K k d H). unfold pool. rewrite T. rewrite Nat2N.id, map_map. simpl.
    assert (N1 : nth_error (indices (i_threads i)) k = Some (N.of_nat k)).
    { unfold indices. rewrite nth_error_map. assert (L : (k < length (i_threads i))%nat) by (apply nth_error_Some; congruence).
      rewrite (nth_error_nth' (seq 0 (length (i_threads i))) 0%nat) by (rewrite seq_length; exact L). now rewrite seq_nth. }
    rewrite nth_error_map, N1. simpl. f_equal. apply new_object.
  - intros k k' d d' H H' E. pose proof (K k d H) as A. pose proof (K k' d' H') as B. rewrite E in A.
    rewrite A in B. injection B. lia.
  - erewrite in_take.
    2:{ apply Hin. unfold pool_items, def_thr, def_local, def_index. simpl. do 6 right. left. reflexivity. }
    rewrite flat_map_concat_map, map_map, <- flat_map_concat_map. simpl. apply flat_single.
Qed.
End Made.

Lemma accepted_made camel on i : accepted on (pool_items camel i) = true -> the_pool camel i [] (pool_items camel i).
Proof.
  unfold accepted. rewrite !andb_true_iff, !nodupb_ok. intros [[[[[_ _] A] B] C] D]. apply pool_made; auto.
Qed.

(** ** What is accepted *)
Section Accept.
Variables (camel : N -> N) (on : nat -> bool) (i : input).
Notation items := (pool_items camel i).

Lemma holds_in l : holds on l = true <-> forall c, In c l -> on c = true.
Proof. unfold holds. apply forallb_forall. Qed.

(** The struct expression of a body with the fields [added] before the others. *)
Lemma ctor_fields {A} (cf : A -> list nat) (nm : A -> N) (ex : A -> cexp) ty c (added : list (N * cexp)) fs :
  NoDup (decls items) ->
  In (IStruct c ty (map (fun a => ([], fst a)) added ++ map (fun f => (cf f, nm f)) fs)) items ->
  ctor_ok on items ty (added ++ map (fun f => (nm f, ex f)) fs) = true <->
  holds on c = true /\ NoDup (map fst added ++ map nm fs) /\ (forall f, In f fs -> holds on (cf f) = true).
Proof.
  intros D I. unfold ctor_ok. rewrite (fields_found on _ _ _ _ D I). destruct (holds on c); [|split; [discriminate|intros [X _]; discriminate]].
  rewrite filter_app, !map_app.
  assert (E1 : map snd (filter (fun f : list nat * N => holds on (fst f)) (map (fun a : N * cexp => ([], fst a)) added)) = map fst added).
  { clear. induction added; simpl; congruence. }
  rewrite E1, (map_map _ fst). simpl. rewrite !andb_true_iff, nodupb_ok, !forallb_forall.
  split.
  - intros [[P B] _]. split; [reflexivity|]. split; [exact P|]. intros f F.
    assert (X : In (nm f, ex f) (added ++ map (fun f => (nm f, ex f)) fs)).
    { apply in_or_app. right. apply in_map_iff. eauto. }
    apply B in X. simpl in X. apply mem_in in X. apply in_app_or in X.
    assert (NA : ~ In (nm f) (map fst added)).
    { intros Y. clear -P Y F. induction (map fst added) as [|z r IH]; [destruct Y|]. simpl in P. inversion P; subst. destruct Y as [->|Y].
      - apply H1, in_or_app. right. now apply in_map.
      - now apply IH. }
    destruct X as [X|X]; [contradiction|]. apply in_map_iff in X. destruct X as ([cfs n] & E & X). simpl in E. subst n.
    apply filter_In in X. destruct X as [X HX]. simpl in HX. apply in_map_iff in X. destruct X as (g & E & G). injection E as E2 E3.
    apply nodup_right in P. assert (f = g).
    { clear -P F G E3. induction fs as [|h fs IH]; [destruct F|]. simpl in P. inversion P; subst.
      destruct F as [->|F], G as [->|G]; auto.
      - exfalso. apply H1. rewrite <- E3. now apply in_map.
      - exfalso. apply H1. rewrite E3. now apply in_map. }
    subst g. now rewrite E2.
  - intros (_ & P & B).
    assert (E2 : map snd (filter (fun f : list nat * N => holds on (fst f)) (map (fun f => (cf f, nm f)) fs)) = map nm fs).
    { clear -B. induction fs as [|f fs IH]; [reflexivity|]. simpl. rewrite (B f (or_introl eq_refl)). simpl. f_equal. apply IH. intros g G. apply B. now right. }
    rewrite E2. split; [split|]; [exact P| |].
    + intros [n e] X. simpl. apply mem_in. apply in_app_or in X. apply in_or_app. destruct X as [X|X].
      * left. apply in_map_iff. exists (n, e). auto.
      * right. apply in_map_iff in X. destruct X as (f & [= <- _] & F). now apply in_map.
    + intros n X. now apply mem_in.
Qed.

Lemma struct_ok cfgs ty fs : In (IStruct cfgs ty fs) items -> NoDup (map snd fs) -> item_ok on items (IStruct cfgs ty fs) = true.
Proof.
  intros _ D. simpl. apply orb_true_iff. right. apply nodupb_ok. clear -D. induction fs as [|f fs IH]; simpl in *; [constructor|].
  inversion D; subst. destruct (holds on (fst f)); simpl; [|auto]. constructor; [|auto]. intros H. apply H1.
  apply in_map_iff in H. destruct H as (g & <- & G). apply filter_In in G. now apply in_map.
Qed.
Lemma known_struct cfgs ty fs : NoDup (decls items) -> In (IStruct cfgs ty fs) items -> known on items ty = holds on cfgs.
Proof. intros D I. unfold known. rewrite (fields_found on _ _ _ _ D I). destruct (holds on cfgs); reflexivity. Qed.

Lemma thr_struct : In (IStruct (b_cfgs (i_thr i)) (b_name (i_thr i))
   (map (fun a : N * cexp => ([], fst a)) [(FIB_CHAIN, CChain); (LOCAL, CLocal (b_name (i_local i)))]
    ++ map (fun f => (f_cfgs f, f_name f)) (b_fields (i_thr i)))) items.
Proof. left. reflexivity. Qed.
Lemma local_struct : In (IStruct (b_cfgs (i_local i)) (b_name (i_local i))
   (map (fun a : N * cexp => ([], fst a)) [] ++ map (fun f => (f_cfgs f, f_name f)) (b_fields (i_local i)))) items.
Proof. do 3 right. left. reflexivity. Qed.
Lemma index_struct : In (IStruct (d_cfgs (i_index i)) (d_name (i_index i))
   (map (fun a : N * cexp => ([], fst a)) [] ++ map (fun d => (d_cfgs d, d_name d)) (i_threads i))) items.
Proof. do 5 right. left. reflexivity. Qed.
Lemma token_item k d : nth_error (i_threads i) k = Some d ->
  incl [IStruct (d_cfgs d) (camel (d_name d)) []; ITake (camel (d_name d)) []; IThrToken (camel (d_name d)) (b_name (i_thr i)) (N.of_nat k)] items.
Proof.
  intros H x X. do 7 right. apply in_flat_map. exists (N.of_nat k, d).
  split; [apply (nth_error_In _ k); apply nth_indices; auto|]. exact X.
Qed.

Lemma accepted_iff : NoDup (types camel i) ->
  accepted on items = true <->
  all_on on i /\ fields_apart [FIB_CHAIN; LOCAL] i /\ N.of_nat (length (i_threads i)) < 2 ^ 16.
Proof.
  intros T. assert (D : NoDup (decls items)) by (rewrite decls_pool; exact T).
  assert (CT := ctor_fields f_cfgs f_name (fun f => CInit (f_init f)) _ _ _ _ D thr_struct).
  assert (CL := ctor_fields f_cfgs f_name (fun f => CInit (f_init f)) _ _ _ _ D local_struct).
  assert (CI := ctor_fields d_cfgs d_name (fun d => CTake (camel (d_name d))) _ _ _ _ D index_struct).
  assert (KT := known_struct _ _ _ D thr_struct). assert (KL := known_struct _ _ _ D local_struct).
  assert (NT : NoDup (map d_name (i_threads i))).
  { unfold types in T. inversion T as [|? ? _ T1]; subst. inversion T1 as [|? ? _ T2]; subst. inversion T2 as [|? ? _ T3]; subst.
    rewrite <- (map_map d_name camel) in T3. revert T3. apply NoDup_map_inv. }
  assert (KD : forall k d, nth_error (i_threads i) k = Some d -> known on items (camel (d_name d)) = holds on (d_cfgs d)).
  { intros k d H. apply (known_struct _ _ [] D). apply (token_item k d H). now left. }
  unfold accepted. rewrite !andb_true_iff, forallb_forall. split.
  - intros [[[[[_ O] _] _] _] _].
    assert (OT := O _ (or_intror (or_introl eq_refl))). assert (OH := O _ (or_intror (or_intror (or_introl eq_refl)))).
    assert (OL := O _ (or_intror (or_intror (or_intror (or_intror (or_introl eq_refl)))))).
    assert (OI := O _ (or_intror (or_intror (or_intror (or_intror (or_intror (or_intror (or_introl eq_refl)))))))).
    cbn [item_ok] in OT, OH, OL, OI. apply andb_true_iff in OT, OL, OI. destruct OT as [OT _], OL as [OL _], OI as [OI _].
    apply CT in OT. apply CL in OL. apply CI in OI. destruct OT as (T1 & T2 & T3), OL as (L1 & L2 & L3), OI as (I1 & _ & I3).
    split; [|split].
    + intros c Hc. unfold conditions in Hc. rewrite !in_app_iff, !in_flat_map in Hc.
      destruct Hc as [Hc|[Hc|[Hc|[(f & F & Hc)|[(f & F & Hc)|(d & F & Hc)]]]]].
      * apply (proj1 (holds_in _) T1 c Hc). * apply (proj1 (holds_in _) L1 c Hc). * apply (proj1 (holds_in _) I1 c Hc).
      * apply (proj1 (holds_in _) (T3 f F) c Hc). * apply (proj1 (holds_in _) (L3 f F) c Hc). * apply (proj1 (holds_in _) (I3 d F) c Hc).
    + split; assumption.
    + rewrite !andb_true_iff in OH. destruct OH as [[[_ OH] _] _]. apply N.ltb_lt. exact OH.
  - intros (A & (F1 & F2) & L).
    assert (H : forall l, incl l (conditions i) -> holds on l = true) by (intros l Hl; apply holds_in; intros c Hc; apply A, Hl, Hc).
    unfold conditions in H.
    assert (H1 : holds on (b_cfgs (i_thr i)) = true) by (apply H; intros c Hc; rewrite !in_app_iff; tauto).
    assert (H2 : holds on (b_cfgs (i_local i)) = true) by (apply H; intros c Hc; rewrite !in_app_iff; tauto).
    assert (H3 : holds on (d_cfgs (i_index i)) = true) by (apply H; intros c Hc; rewrite !in_app_iff; tauto).
    assert (H4 : forall f, In f (b_fields (i_thr i)) -> holds on (f_cfgs f) = true).
    { intros f If. apply H. intros c Hc. rewrite !in_app_iff, !in_flat_map. do 3 right. left. eauto. }
    assert (H5 : forall f, In f (b_fields (i_local i)) -> holds on (f_cfgs f) = true).
    { intros f If. apply H. intros c Hc. rewrite !in_app_iff, !in_flat_map. do 4 right. left. eauto. }
    assert (H6 : forall d, In d (i_threads i) -> holds on (d_cfgs d) = true).
    { intros d If. apply H. intros c Hc. rewrite !in_app_iff, !in_flat_map. do 5 right. eauto. }
    rewrite H1 in KT. rewrite H2 in KL.
    assert (T2 := T). unfold types in T2. inversion T2 as [|? ? N1 T3]; subst. inversion T3 as [|? ? N2 T4]; subst. inversion T4 as [|? ? N3 T5]; subst.
    rewrite !nodupb_ok, news_pool, takes_pool, tokens_pool, threads_pool.
    split; [split; [split; [split; [split|]|]|]|].
    + now apply structs_nodup.
    + intros x X. unfold pool_items, def_thr, def_local, def_index in X. simpl in X.
      destruct X as [<-|[<-|[<-|[<-|[<-|[<-|[<-|X]]]]]]].
      * apply struct_ok; [left; reflexivity|]. simpl. rewrite map_map. simpl. exact F1.
      * cbn [item_ok]. apply andb_true_iff. split; [apply CT; auto|]. simpl. rewrite KL. simpl. clear. induction (b_fields (i_thr i)); auto.
      * cbn [item_ok]. rewrite KT, map_length, indices_length, N.eqb_refl, andb_true_r. simpl. apply andb_true_iff. split.
        { apply N.ltb_lt. exact L. }
        { apply forallb_forall. intros e He. apply in_map_iff in He. destruct He as (k & <- & Hk). simpl. rewrite KT. simpl.
          unfold indices in Hk. apply in_map_iff in Hk. destruct Hk as (m & <- & Hm). apply in_seq in Hm. apply N.ltb_lt. lia. }
      * apply struct_ok; [do 3 right; left; reflexivity|]. rewrite map_map. simpl. exact F2.
      * cbn [item_ok]. apply andb_true_iff. split; [apply CL; auto|]. clear. induction (b_fields (i_local i)); auto.
      * apply struct_ok; [do 5 right; left; reflexivity|]. rewrite map_map. simpl. exact NT.
      * cbn [item_ok]. apply andb_true_iff. split; [apply CI; auto|]. apply forallb_forall. intros c Hc. apply in_map_iff in Hc.
        destruct Hc as (d & <- & Hd). simpl. apply In_nth_error in Hd as Hk. destruct Hk as (k & Hk). rewrite (KD k d Hk). now apply H6.
      * apply in_flat_map in X. destruct X as (kd & Hkd & X). apply In_nth_error in Hkd. destruct Hkd as (k & Hk). apply nth_indices in Hk.
        destruct kd as [kk d]. simpl in Hk. destruct Hk as [-> Hk]. assert (Hd := nth_error_In _ _ Hk). specialize (KD k d Hk). rewrite (H6 d Hd) in KD.
        simpl in X. destruct X as [<-|[<-|[<-|[]]]].
        { apply struct_ok; [apply (token_item k d Hk); now left|constructor]. }
        { cbn [item_ok]. simpl. unfold ctor_ok. rewrite (fields_found on _ (d_cfgs d) _ [] D) by (apply (token_item k d Hk); now left).
          rewrite (H6 d Hd). reflexivity. }
        { cbn [item_ok]. rewrite KD, KT. simpl. apply N.ltb_lt. assert ((k < length (i_threads i))%nat) by (apply nth_error_Some; congruence). lia. }
    + constructor; [|constructor; [intros []|constructor]]. intros [E|[]]. apply N1. left. exact E.
    + constructor; assumption.
    + exact T5.
    + constructor; [intros []|constructor].
Qed.

(** With all conditions holding, types of the same name are refused. *)
Lemma accepted_types : all_on on i -> accepted on items = true -> NoDup (types camel i).
Proof.
  intros A. unfold accepted. rewrite !andb_true_iff, nodupb_ok. intros [[[[[S _] _] _] _] _]. rewrite <- decls_pool.
  assert (E : map fst (structs on items) = decls items); [|rewrite <- E; exact S].
  assert (H : forall c n fs, In (IStruct c n fs) items -> holds on c = true).
  { intros c n fs I. apply holds_in. intros x X. apply A. unfold conditions. rewrite !in_app_iff, !in_flat_map.
    unfold pool_items, def_thr, def_local, def_index in I. simpl in I.
    destruct I as [I|[I|[I|[I|[I|[I|[I|I]]]]]]]; try discriminate; try (injection I as <- _ _; tauto).
    apply in_flat_map in I. destruct I as ([k d] & Hd & I). simpl in I. destruct I as [I|[I|[I|[]]]]; try discriminate.
    injection I as <- _ _. do 5 right. exists d. split; [|exact X]. apply in_combine_r in Hd. exact Hd. }
  clear -H. induction items as [|x l IH]; [reflexivity|]. unfold structs, decls in *. simpl. rewrite map_app, IH by (intros; eapply H; right; eauto).
  destruct x; simpl; auto. rewrite (H cfgs name fields (or_introl eq_refl)). reflexivity.
Qed.
End Accept.

(** ** Software-managed threads *)
Lemma structs_soft on l ty : structs on (l ++ [ISoft ty]) = structs on l.
Proof. unfold structs. rewrite flat_map_app. simpl. apply app_nil_r. Qed.
Lemma item_ok_soft on l ty x : item_ok on (l ++ [ISoft ty]) x = item_ok on l x.
Proof.
  assert (F : forall t, fields_of on (l ++ [ISoft ty]) t = fields_of on l t) by (intros t; unfold fields_of; now rewrite structs_soft).
  assert (K : forall t, known on (l ++ [ISoft ty]) t = known on l t) by (intros t; unfold known; now rewrite F).
  assert (C : forall t c, ctor_ok on (l ++ [ISoft ty]) t c = ctor_ok on l t c) by (intros t c; unfold ctor_ok; now rewrite F).
  assert (E : forall e, exp_ok on (l ++ [ISoft ty]) e = exp_ok on l e) by (intros []; simpl; rewrite ?K; reflexivity).
  assert (G : forall (c : list (N * cexp)), forallb (fun c => exp_ok on (l ++ [ISoft ty]) (snd c)) c = forallb (fun c => exp_ok on l (snd c)) c).
  { induction c; simpl; [reflexivity|]. now rewrite E, IHc. }
  destruct x; cbn [item_ok]; rewrite ?K, ?C, ?G, ?F; auto. do 2 f_equal. induction elems; simpl; [reflexivity|]. now rewrite K, IHelems.
Qed.
Lemma accepted_soft on l ty : accepted on (l ++ [ISoft ty]) = accepted on l && item_ok on l (ISoft ty).
Proof.
  unfold accepted. rewrite structs_soft, forallb_app. cbn [forallb]. rewrite item_ok_soft.
  assert (E : forallb (item_ok on (l ++ [ISoft ty])) l = forallb (item_ok on l) l).
  { generalize l at 2 4. intros m. induction m; simpl; [reflexivity|]. now rewrite item_ok_soft, IHm. }
  rewrite E. unfold news, takes, tokens, threads_. rewrite !flat_map_app. cbn [flat_map app]. rewrite !app_nil_r, andb_true_r.
  destruct (nodupb (map fst (structs on l))), (forallb (item_ok on l) l), (item_ok on l (ISoft ty)); simpl; rewrite ?andb_false_r, ?andb_true_r; reflexivity.
Qed.
Lemma types_soft camel i : types camel (with_priority i) = types camel i.
Proof. reflexivity. Qed.

Lemma soft_iff camel on i : NoDup (types camel i) ->
  accepted on (soft_items camel i) = true <->
  all_on on i /\ fields_apart [FIB_CHAIN; LOCAL; PRIORITY] i /\ N.of_nat (length (i_threads i)) < 2 ^ 16.
Proof.
  intros T. unfold soft_items. rewrite accepted_soft, andb_true_iff, (accepted_iff camel on (with_priority i) T).
  assert (X : all_on on (with_priority i) <-> all_on on i) by reflexivity. rewrite X.
  assert (Y : fields_apart [FIB_CHAIN; LOCAL] (with_priority i) <-> fields_apart [FIB_CHAIN; LOCAL; PRIORITY] i) by reflexivity. rewrite Y.
  split; [tauto|]. intros H. split; [exact H|]. destruct H as (A & _). cbn [item_ok].
  assert (D : NoDup (decls (pool_items camel (with_priority i)))) by (rewrite decls_pool; exact T).
  pose proof (fields_found on _ _ _ _ D (thr_struct camel (with_priority i))) as FF.
  assert (H1 : holds on (b_cfgs (i_thr i)) = true) by (apply holds_in; intros c Hc; apply A; unfold conditions; rewrite !in_app_iff; tauto).
  cbn [i_thr with_priority b_cfgs b_name] in FF. rewrite FF, H1. reflexivity.
Qed.

Lemma soft_made camel on i : accepted on (soft_items camel i) = true ->
  the_pool camel i [(PRIORITY, 0)] (soft_items camel i) /\
  pending (soft_items camel i) (b_name (i_thr i)) = Some (repeat 0 (N.to_nat (pending_size (N.of_nat (length (i_threads i)))))).
Proof.
  unfold accepted. rewrite !andb_true_iff, !nodupb_ok. intros [[[[[_ _] A] B] C] D].
  assert (P : the_pool camel (with_priority i) [] (soft_items camel i)).
  { apply pool_made; auto. intros x X. apply in_or_app. now left. }
  split; [exact P|]. destruct P as [P _]. unfold pending. cbn [with_priority i_thr b_name i_threads] in P. rewrite P.
  assert (E : existsb (fun x => match x with ISoft t => t =? b_name (i_thr i) | _ => false end) (soft_items camel i) = true).
  { apply existsb_exists. exists (ISoft (b_name (i_thr i))). split; [apply in_or_app; right; now left|apply N.eqb_refl]. }
  rewrite E. reflexivity.
Qed.

(** ** The order of the sections *)
Lemma step_swap o a b : section_step (section_step o a) b = section_step (section_step o b) a.
Proof.
  destruct o as [[t l i h r]|]; [|reflexivity].
  destruct a as [b1|b1|d1|[] l1|[] p1], b as [b2|b2|d2|[] l2|[] p2]; simpl;
    try reflexivity; destruct t, l, i, h, r; reflexivity.
Qed.
Lemma parse_order l l' : Permutation l l' -> parse_pool l = parse_pool l'.
Proof.
  intros P. unfold parse_pool. assert (E : forall o, fold_left section_step l o = fold_left section_step l' o); [|now rewrite E].
  induction P; intros o; simpl; auto.
  - now rewrite step_swap.
  - now rewrite IHP1.
Qed.
