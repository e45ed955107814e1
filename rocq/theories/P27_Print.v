(** Properties of the printing macros (C94, C95, C96). *)
Require Import NArith Arith List Bool Lia.
From Verif Require Import Stream StreamSpec StreamProofs PrintSpec Print PrintProofs.
Import ListNotations.
Open Scope N_scope.

Lemma enabled_testbit mask st : is_enabled mask st = N.testbit mask st.
Proof.
  unfold is_enabled. destruct (N.testbit mask st) eqn:E.
  - destruct (N.eqb_spec (N.land mask (N.shiftl 1 st)) 0) as [C|C]; [|easy]. exfalso.
    assert (H : N.testbit (N.land mask (N.shiftl 1 st)) st = true).
    { rewrite N.land_spec, E, N.shiftl_spec_high', N.sub_diag by lia. reflexivity. }
    rewrite C in H. now rewrite N.bits_0 in H.
  - replace (N.land mask (N.shiftl 1 st)) with 0; [easy|]. symmetry. apply N.bits_inj. intros i.
    rewrite N.land_spec, N.bits_0. destruct (N.eq_dec i st) as [->|Hne]; [now rewrite E|].
    rewrite N.shiftl_1_l, N.pow2_bits_false by congruence. apply andb_false_r.
Qed.

(** * C94: what the probe reads is what the program printed *)

(** Statements compile if and only if they have a meaning (one literal: if it has no braces). *)
Theorem C94_compiles_partial : forall s, plain s ->
  ((exists p, expand s = Some p) <-> exists ms, says s ms).
Proof.
  intros s P. split.
  - intros (p & E). destruct (expand_some s p E) as [H|(nl & t & u & D & ->)]; [exact H|].
    eexists. econstructor. apply formats_plain. exact P.
  - intros (ms & H). destruct (expand_says s ms P H) as (p & E & _). eauto.
Qed.
Print Assumptions C94_compiles_partial.

(** Any contexts with any programs, any schedule, any probe.  The bytes written for a context, with their
    streams, are a prefix of its messages in order, leaving out those that found their stream disabled;
    by the time of its next call they are all there; a call finds its stream enabled if and only if the
    probe has set its bit; the probe reads what is written, in order; and when a context has finished
    all its messages are written.
    Missing: literals with braces, for which the statement is false, see [C94_literal_refuted]. *)
Theorem C94_messages_partial : forall buf size mask pr ms ps ls, 0 < size < 2 ^ 32 ->
  (forall c s, In s (pr c) -> plain s) ->
  (forall c, says_all (pr c) (ms c)) ->
  (forall c, expand_all (pr c) = Some (ps c)) ->
  let s := prun (pinit buf size mask ps) ls in
  let l := plog s in
  (forall c, exists rest, tagged (due (ms c) (calls_of c l)) = tagged (frames_of c l) ++ rest) /\
  (forall l1 c st on l2, l = l1 ++ EvCall c st on :: l2 ->
     tagged (frames_of c l1) = tagged (due (ms c) (calls_of c l1)) /\
     on = N.testbit (mask_of mask l1) st /\
     exists t o, nth_error (ms c) (length (calls_of c l1)) = Some (t, o) /\ st = stream_of t) /\
  (exists rest, all_wrote l = all_read l ++ rest) /\
  (forall c, prog s c = [] -> pend s c = [] ->
     length (calls_of c l) = length (ms c) /\ tagged (frames_of c l) = tagged (due (ms c) (calls_of c l))).
Proof.
  intros buf size mask pr ms ps ls Hs HP HS HE s l.
  pose proof (pinv_run buf size mask ps ls _ (pinv_init buf size mask ps)) as [R M D P A O C Q]. fold s in R, M, D, P, A, O, C, Q.
  fold l in R, M, D, P, A, Q.
  assert (EM : forall c, ms c = map (fun m => (fst m, concat (snd m))) (prints (ps c))).
  { intros c. destruct (expand_says_all _ _ (HP c) (HS c)) as (p & E & <-).
    rewrite HE in E. injection E as <-. apply msgs_prints. }
  split; [|split; [|split]].
  - intros c. exists (tagged (pend s c)). rewrite EM, <- tagged_sent, <- D. apply tagged_app.
  - intros l1 c st on l2 E. destruct (Q _ _ _ E) as (Q1 & Q2 & t & o & Q3 & Q4).
    split; [|split].
    + rewrite EM, <- tagged_sent, <- Q1. reflexivity.
    + rewrite <- enabled_testbit. exact Q2.
    + exists t, (concat o). split; [|exact Q4]. rewrite EM. erewrite map_nth_error by exact Q3. reflexivity.
  - destruct R as (ls' & tr & E & W & G).
    destruct (sinv_run ls' _ _ (sinv_init buf size Hs)) as (pd & _ & W' & _).
    rewrite E in W'. cbn [snd] in W'. rewrite app_nil_l, W, G in W'. eauto.
  - intros c E1 E2. split.
    + specialize (P c). rewrite E1 in P. cbn in P. rewrite app_nil_r in P.
      rewrite EM, map_length.
      assert (L : (length (prints (ps c)) <= length (calls_of c l))%nat).
      { pose proof (f_equal (@length _) P) as F. rewrite firstn_length in F. lia. }
      assert (U : (length (calls_of c l) <= length (prints (ps c)))%nat); [|exact (Nat.le_antisymm _ _ U L)].
      clear -Q. clearbody l. revert Q.
      induction l as [|e l IH] using rev_ind; intros Q; [cbn; lia|].
      assert (Ql : settled mask ps l).
      { intros l1 x l2 E. apply (Q l1 x (l2 ++ [e])). rewrite E, <- app_assoc. reflexivity. }
      specialize (IH Ql). rewrite calls_of_app, app_length.
      destruct e as [m|d x|d st on|d f|f]; cbn; try lia.
      destruct (N.eqb_spec d c) as [->|Hd]; cbn; [|lia].
      destruct (Q l _ [] eq_refl) as (_ & _ & t & o & Q3 & _).
      assert (length (calls_of c l) < length (prints (ps c)))%nat; [|lia].
      apply nth_error_Some. congruence.
    + rewrite EM, <- tagged_sent, <- D, E2, app_nil_r. reflexivity.
Qed.
Print Assumptions C94_messages_partial.

(** One context: what the probe has read is a prefix of the messages. *)
Theorem C94_one_context_partial : forall buf size mask pr ms ps ls, 0 < size < 2 ^ 32 ->
  (forall s, In s pr -> plain s) -> says_all pr ms -> expand_all pr = Some ps ->
  let l := plog (prun (pinit buf size mask (fun c => if c =? 0 then ps else [])) ls) in
  exists rest, tagged (due ms (calls_of 0 l)) = tagged (all_read l) ++ rest.
Proof.
  intros buf size mask pr ms ps ls Hs HP HS HE l.
  set (f := fun c => if c =? 0 then ps else []) in l.
  pose proof (pinv_run buf size mask f ls _ (pinv_init buf size mask f)) as V.
  assert (Z : forall c, c <> 0 -> frames_of c l = []).
  { intros c Hc. pose proof (pi_due _ _ _ _ _ V c) as D. fold l in D.
    assert (f c = []) by (unfold f; destruct (N.eqb_spec c 0); easy). rewrite H in D. cbn in D.
    now apply app_eq_nil in D. }
  assert (E : all_wrote l = frames_of 0 l).
  { clearbody l. clear -Z. induction l as [|e l IH]; [easy|].
    assert (Zl : forall c, c <> 0 -> frames_of c l = []).
    { intros c Hc. specialize (Z c Hc). destruct e; cbn in Z; auto. destruct (_ =? _); [discriminate|auto]. }
    destruct e as [m|d x|d st on|d g|g]; cbn; auto.
    destruct (N.eqb_spec d 0) as [->|Hd]; [now rewrite IH|].
    specialize (Z d Hd). cbn in Z. rewrite N.eqb_refl in Z. discriminate. }
  destruct (C94_messages_partial buf size mask (fun c => if c =? 0 then pr else []) (fun c => if c =? 0 then ms else []) f ls Hs)
    as (A & _ & (r & B) & _).
  { intros c s. destruct (c =? 0); [apply HP|intros []]. }
  { intros c. destruct (c =? 0); [exact HS|constructor]. }
  { intros c. unfold f. destruct (c =? 0); [exact HE|reflexivity]. }
  fold l in A, B. destruct (A 0) as (rest & A0). cbn in A0. rewrite <- E, B, tagged_app, <- app_assoc in A0. eauto.
Qed.
Print Assumptions C94_one_context_partial.

(** * Cases *)

Definition no_args : display := fun _ _ => ([], true).
Definition five : display := fun _ _ => ([[53]], true).
Definition try_ (c : N) : list plabel := PTry c :: repeat PWrite 20.
Definition read_ : list plabel := repeat PRead 40.

(** println!("{{}}") and println!("{x}") with x = 5 are read as they are spelled, not as [format!] has
    them: "{}" and "5". *)
Theorem C94_literal_refuted : exists s D o ps ls,
  says (SPrint true Stdout (ILit s D)) [(Stdout, o)] /\
  expand_all [SPrint true Stdout (ILit s D)] = Some ps /\
  let x := prun (pinit (fun _ => 0) 64 1 (fun c => if c =? 0 then ps else [])) ls in
  calls_of 0 (plog x) = [true] /\ prog x 0 = [] /\ pend x 0 = [] /\
  all_read (plog x) = [(0, s ++ [newline])] /\ o <> s ++ [newline].
Proof.
  exists [123; 123; 125; 125], no_args, ([123; 125] ++ ends true true), [MPrint Stdout [[123; 123; 125; 125; 10]]],
    ([PStep 0] ++ try_ 0 ++ read_).
  split; [constructor; apply f_open, f_close, f_end|]. vm_compute. repeat split; try reflexivity. discriminate.
Qed.
Print Assumptions C94_literal_refuted.
Theorem C94_inline_refuted : exists s D o ps ls,
  says (SPrint true Stdout (ILit s D)) [(Stdout, o)] /\
  expand_all [SPrint true Stdout (ILit s D)] = Some ps /\
  let x := prun (pinit (fun _ => 0) 64 1 (fun c => if c =? 0 then ps else [])) ls in
  calls_of 0 (plog x) = [true] /\ prog x 0 = [] /\ pend x 0 = [] /\
  o = [53; newline] /\ all_read (plog x) = [(0, [123; 120; 125; newline])].
Proof.
  exists [123; 120; 125], five, ([53] ++ ends true true), [MPrint Stdout [[123; 120; 125; 10]]],
    ([PStep 0] ++ try_ 0 ++ read_).
  split.
  - constructor. apply (f_arg five 0 [120] [] [] true); [|easy|constructor].
    intros b [<-|[]]. easy.
  - vm_compute. repeat split; reflexivity.
Qed.
Print Assumptions C94_inline_refuted.

(** With a comma it is a format string: println!("{{{}}}", 5) prints "{5}". *)
Definition braces5 : stmt := SPrint true Stdout (IFmt [123; 123; 123; 125; 125; 125] five).
Lemma braces5_says : says braces5 [(Stdout, [123; 53; 125; newline])].
Proof.
  apply (says_fmt true Stdout _ five [123; 53; 125] true). apply f_open.
  apply (f_arg five 0 [] [125; 125] [125] true no_braces_nil eq_refl). apply f_close, f_end.
Qed.

(** Two contexts, the second interrupting the first between two transactions of one message; the
    stream for errors is enabled on the way. *)
Definition hi : stmt := SPrint false Stderr (ILit [104; 105] no_args).
Definition c94_pr (c : N) : list stmt := if c =? 0 then [hi; braces5; hi] else if c =? 1 then [hi] else [].
Definition c94_ps (c : N) : list prim := match expand_all (c94_pr c) with Some p => p | None => [] end.
Definition c94_run : psys :=
  prun (pinit (fun _ => 0) 64 1 c94_ps)
    ([PStep 0; PStep 0; PTry 0] ++ repeat PWrite 20 ++ [PMask 3; PStep 1] ++ try_ 1 ++ try_ 0 ++ try_ 0 ++ [PStep 0] ++ try_ 0 ++ read_).
Example C94_case :
  (forall c s, In s (c94_pr c) -> plain s) /\
  (forall c, says_all (c94_pr c) (if c =? 0 then [(Stderr, [104; 105]); (Stdout, [123; 53; 125; newline]); (Stderr, [104; 105])]
     else if c =? 1 then [(Stderr, [104; 105])] else [])) /\
  (forall c, expand_all (c94_pr c) = Some (c94_ps c)) /\
  plog c94_run = [EvCall 0 1 false; EvCall 0 0 true; EvWrote 0 (0, [123]); EvMask 3; EvCall 1 1 true;
    EvWrote 1 (1, [104; 105]); EvWrote 0 (0, [53]); EvWrote 0 (0, [125; 10]); EvCall 0 1 true; EvWrote 0 (1, [104; 105]);
    EvRead (0, [123]); EvRead (1, [104; 105]); EvRead (0, [53]); EvRead (0, [125; 10]); EvRead (1, [104; 105])].
Proof.
  assert (P : plain hi) by (intros b [<-|[<-|[]]]; easy).
  assert (S1 : says hi [(Stderr, [104; 105])]).
  { apply (says_lit false Stderr [104; 105] no_args [104; 105] true). now apply formats_plain. }
  split; [|split; [|split; [|vm_compute; reflexivity]]].
  - intros c s. unfold c94_pr. destruct (c =? 0); [intros [<-|[<-|[<-|[]]]]; (exact P || exact I)|].
    destruct (c =? 1); [intros [<-|[]]; exact P|intros []].
  - intros c. unfold c94_pr. destruct (c =? 0); [|destruct (c =? 1); [|constructor]].
    + apply (sa_cons _ _ [_] _ S1). apply (sa_cons _ _ [_] _ braces5_says). apply (sa_cons _ _ [_] _ S1). constructor.
    + apply (sa_cons _ _ [_] _ S1). constructor.
  - intros c. unfold c94_ps, c94_pr. destruct (c =? 0); [reflexivity|]. destruct (c =? 1); reflexivity.
Qed.

(** * C95: dbg! *)

Lemma expand_acts s p : expand s = Some p -> acts_p p = acts s.
Proof.
  destruct s as [nl t i|file line vals]; intros E.
  - assert (exists r, to_prim t r = Some p) as (r & H) by (destruct nl; eexists; exact E).
    destruct r; [|discriminate]. cbn in H. injection H as <-. reflexivity.
  - destruct vals as [|v vals]; [cbn in E; injection E as <-; reflexivity|].
    cbn [expand] in E. cbn [acts]. revert p E. generalize (v :: vals). clear.
    induction l as [|v l IH]; intros p E; [cbn in E; injection E as <-; reflexivity|].
    cbn [dbg_vals] in E. destruct (dbg_vals file line l) as [q|]; [|cbn in E; discriminate].
    cbn in E. injection E as <-. cbn. do 2 f_equal. exact (IH q eq_refl).
Qed.
Lemma expand_all_acts l : forall p, expand_all l = Some p -> acts_p p = flat_map acts l.
Proof.
  induction l as [|s l IH]; intros p E; cbn in E; [injection E as <-; reflexivity|].
  destruct (expand s) as [q|] eqn:E1; [|discriminate]. destruct (expand_all l) as [r|]; [|discriminate].
  injection E as <-. unfold acts_p in *. cbn. rewrite map_app. f_equal; [exact (expand_acts s q E1)|now apply IH].
Qed.

(** [dbg!] evaluates each of its expressions once, in order, whether or not the stream is enabled, and
    then prints it; at each evaluation all that was printed before has been written. *)
Theorem C95_dbg_evaluates : forall buf size mask pr ps ls c, expand_all (pr c) = Some (ps c) ->
  let s := prun (pinit buf size mask ps) ls in
  let l := plog s in
  (exists rest, flat_map acts (pr c) = acts_of c l ++ rest) /\
  (prog s c = [] -> flat_map acts (pr c) = acts_of c l) /\
  (forall l1 e l2, l = l1 ++ EvEval c e :: l2 -> forall ms, (forall s, In s (pr c) -> plain s) -> says_all (pr c) ms ->
     tagged (frames_of c l1) = tagged (due ms (calls_of c l1))).
Proof.
  intros buf size mask pr ps ls c HE s l.
  pose proof (pinv_run buf size mask ps ls _ (pinv_init buf size mask ps)) as [R M D P A O C Q].
  fold s in A, Q. fold l in A, Q. rewrite <- (expand_all_acts _ _ HE). split; [|split].
  - eexists. apply A.
  - intros E. rewrite (A c), E. cbn. apply app_nil_r.
  - intros l1 e l2 E ms HP HS. destruct (expand_says_all _ _ HP HS) as (p & E1 & <-).
    rewrite HE in E1. injection E1 as <-.
    pose proof (Q _ _ _ E) as Q1. cbn in Q1. rewrite Q1, tagged_sent, <- msgs_prints. reflexivity.
Qed.
Print Assumptions C95_dbg_evaluates.

(** dbg!(a, b) at m:7, a = 1, b = 2; the stream is enabled in between. *)
Definition dbg_ab : stmt := SDbg [109] [55] [Dval 1 [97] ([[49]], true); Dval 2 [98] ([[50]], true)].
Definition c95_ps : list prim := match expand dbg_ab with Some p => p | None => [] end.
Definition c95_run : psys :=
  prun (pinit (fun _ => 0) 64 0 (fun c => if c =? 0 then c95_ps else []))
    ([PStep 0; PStep 0; PStep 0; PMask 2; PStep 0] ++ concat (repeat (try_ 0) 11) ++ read_ ++ read_ ++ read_).
Example C95_case :
  expand_all [dbg_ab] = Some c95_ps /\
  acts_of 0 (plog c95_run) = [AEval 1; ACall 1; AEval 2; ACall 1] /\
  calls_of 0 (plog c95_run) = [false; true] /\ prog c95_run 0 = [] /\
  concat (map snd (all_read (plog c95_run))) = [91; 109; 58; 55; 93; 32; 98; 32; 61; 32; 50; 10].
Proof. vm_compute. repeat split; reflexivity. Qed.

(** * C96: messages in one piece *)

Lemma short_expand s p : short s -> expand s = Some p ->
  exists t u, p = [MPrint t [u]] /\ (length u <= 64)%nat.
Proof.
  destruct s as [nl t i|]; [|easy]. intros H E.
  destruct nl, i; cbn in H, E; try easy; injection E as <-; do 2 eexists; (split; [reflexivity|]);
    rewrite ?app_length; cbn; lia.
Qed.
Lemma short_all l : forall p, (forall s, In s l -> short s) -> expand_all l = Some p ->
  forall on, sent (prints p) on = nonempty (due (msgs p) on).
Proof.
  induction l as [|s l IH]; intros p H E on; cbn in E; [injection E as <-; reflexivity|].
  destruct (expand s) as [q|] eqn:E1; [|discriminate]. destruct (expand_all l) as [r|]; [|discriminate].
  injection E as <-. destruct (short_expand s q (H s (or_introl eq_refl)) E1) as (t & u & -> & L).
  cbn. destruct on as [|b on]; [reflexivity|].
  assert (G : sent (prints r) on = nonempty (due (msgs r) on)).
  { apply IH; [|reflexivity]. intros x I. apply H. now right. }
  unfold prints, msgs in G. rewrite G, app_nil_r. destruct b; [|reflexivity].
  unfold call_frames. cbn. rewrite app_nil_r. destruct u as [|x u].
  - reflexivity.
  - rewrite (proj2 (proj2 (chunk_frames_spec _ _))) by (cbn in *; lia). reflexivity.
Qed.

(** Messages given as one string of at most 64 bytes come in one frame each.
    Missing: longer messages and messages with arguments, see [C96_in_one_piece_refuted]. *)
Theorem C96_in_one_piece_partial : forall buf size mask pr ms ps ls c,
  (forall s, In s (pr c) -> plain s /\ short s) ->
  says_all (pr c) (ms c) -> expand_all (pr c) = Some (ps c) ->
  let l := plog (prun (pinit buf size mask ps) ls) in
  exists rest, nonempty (due (ms c) (calls_of c l)) = frames_of c l ++ rest.
Proof.
  intros buf size mask pr ms ps ls c HP HS HE l.
  pose proof (pinv_run buf size mask ps ls _ (pinv_init buf size mask ps)) as [R M D P A O C Q].
  fold l in D. destruct (expand_says_all _ _ (fun s I => proj1 (HP s I)) HS) as (p & E & <-).
  rewrite HE in E. injection E as <-.
  rewrite <- (short_all _ _ (fun s I => proj2 (HP s I)) HE), <- D. eauto.
Qed.
Print Assumptions C96_in_one_piece_partial.

(** A handler that prints "hi" while println!("{{{}}}", 5) is in progress gets in the middle. *)
Definition hi0 : stmt := SPrint false Stdout (ILit [104; 105] no_args).
Theorem C96_in_one_piece_refuted : exists a b oa ob pa pb ls,
  says a [(Stdout, oa)] /\ says b [(Stdout, ob)] /\ plain a /\ plain b /\
  expand_all [a] = Some pa /\ expand_all [b] = Some pb /\
  let x := prun (pinit (fun _ => 0) 64 1 (fun c => if c =? 0 then pa else if c =? 1 then pb else [])) ls in
  prog x 0 = [] /\ prog x 1 = [] /\ pend x 0 = [] /\ pend x 1 = [] /\
  let got := concat (map snd (all_read (plog x))) in
  length got = length (oa ++ ob) /\ got <> oa ++ ob /\ got <> ob ++ oa.
Proof.
  exists braces5, hi0, [123; 53; 125; newline], [104; 105],
    [MPrint Stdout [[123]; [53]; [125; 10]]], [MPrint Stdout [[104; 105]]],
    ([PStep 0; PTry 0] ++ repeat PWrite 20 ++ [PStep 1] ++ try_ 1 ++ try_ 0 ++ try_ 0 ++ read_).
  assert (P : plain hi0) by (intros b [<-|[<-|[]]]; easy).
  split; [apply braces5_says|]. split.
  { apply (says_lit false Stdout [104; 105] no_args [104; 105] true). now apply formats_plain. }
  split; [exact I|]. split; [exact P|]. vm_compute. repeat split; try reflexivity; discriminate.
Qed.
Print Assumptions C96_in_one_piece_refuted.

Example C96_case :
  plain hi0 /\ short hi0 /\ says_all [hi0] [(Stdout, [104; 105])] /\ expand_all [hi0] = Some [MPrint Stdout [[104; 105]]].
Proof.
  assert (P : plain hi0) by (intros b [<-|[<-|[]]]; easy).
  split; [exact P|]. split; [cbn; lia|]. split; [|reflexivity].
  apply (sa_cons _ _ [_] []); [|constructor].
  apply (says_lit false Stdout [104; 105] no_args [104; 105] true). now apply formats_plain.
Qed.
