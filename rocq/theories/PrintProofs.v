(** Proofs about the printing macros. *)
Require Import NArith Arith List Bool Lia.
From Verif Require Import Stream StreamSpec StreamProofs PrintSpec Print.
Import ListNotations.
Open Scope N_scope.

(** ** Format strings *)

Lemma no_braces_nil : no_braces [].
Proof. intros b []. Qed.
Lemma no_braces_snoc t b : no_braces t -> b <> lbrace -> b <> rbrace -> no_braces (t ++ [b]).
Proof. intros H A B c I. apply in_app_or in I. destruct I as [I|[<-|[]]]; auto. Qed.
Lemma no_braces_tl b t : no_braces (b :: t) -> no_braces t.
Proof. intros H c I. apply H. now right. Qed.

Fixpoint all_ok (D : display) (ps : list piece) : bool :=
  match ps with [] => true | PLit _ :: ps => all_ok D ps | PArg k t :: ps => snd (D k t) && all_ok D ps end.

Lemma fwrite_flush D acc ps : concat (fwrite D (flush acc ps)) = acc ++ concat (fwrite D ps).
Proof. destruct acc; reflexivity. Qed.
Lemma all_ok_flush D acc ps : all_ok D (flush acc ps) = all_ok D ps.
Proof. destruct acc; reflexivity. Qed.

Lemma fparse_arg n acc : forall t u s, no_braces t ->
  fparse n (FArg acc u) (t ++ rbrace :: s) = emit acc n (u ++ t) (fparse (S n) (FLit []) s).
Proof.
  induction t as [|b t IH]; intros u s H.
  - cbn. now rewrite app_nil_r.
  - cbn [app fparse]. destruct (H b (or_introl eq_refl)) as [A B].
    apply N.eqb_neq in A, B. rewrite A, B, IH by (eapply no_braces_tl; eauto).
    now rewrite <- app_assoc.
Qed.
Lemma fparse_open n acc t s : no_braces t ->
  fparse n (FOpen acc) (t ++ rbrace :: s) = emit acc n t (fparse (S n) (FLit []) s).
Proof.
  intros H. destruct t as [|b t]; [reflexivity|].
  cbn [app fparse]. destruct (H b (or_introl eq_refl)) as [A B].
  apply N.eqb_neq in A, B. rewrite A, B, fparse_arg by (eapply no_braces_tl; eauto). reflexivity.
Qed.

Lemma formats_fparse D n s o k : formats D n s o k -> forall acc, exists ps,
  fparse n (FLit acc) s = Some ps /\ concat (fwrite D ps) = acc ++ o /\ all_ok D ps = k.
Proof.
  induction 1 as [n|n b s o k A B H IH|n s o k H IH|n s o k H IH|n t s o k T K H IH|n t s o k T K H IH]; intros acc.
  - exists (flush acc []). cbn. rewrite fwrite_flush, all_ok_flush. cbn. auto.
  - destruct (IH (acc ++ [b])) as (ps & E & C & O). exists ps. cbn [fparse].
    apply N.eqb_neq in A, B. rewrite A, B, E, C, <- app_assoc. auto.
  - destruct (IH (acc ++ [lbrace])) as (ps & E & C & O). exists ps. cbn. rewrite E, C, <- app_assoc. auto.
  - destruct (IH (acc ++ [rbrace])) as (ps & E & C & O). exists ps. cbn. rewrite E, C, <- app_assoc. auto.
  - destruct (IH []) as (ps & E & C & O). exists (flush acc (PArg n t :: ps)).
    cbn [fparse]. change (lbrace =? lbrace) with true. cbn iota.
    rewrite fparse_open, E by easy. split; [reflexivity|].
    rewrite fwrite_flush, all_ok_flush. cbn [fwrite all_ok]. rewrite K, concat_app, C. auto.
  - destruct (IH []) as (ps & E & C & O). exists (flush acc (PArg n t :: ps)).
    cbn [fparse]. change (lbrace =? lbrace) with true. cbn iota.
    rewrite fparse_open, E by easy. split; [reflexivity|].
    rewrite fwrite_flush, all_ok_flush. cbn [fwrite all_ok]. rewrite K, concat_app. cbn. now rewrite app_nil_r.
Qed.

Definition before (m : fmode) : bytes :=
  match m with FLit _ => [] | FOpen _ => [lbrace] | FClose _ => [rbrace] | FArg _ t => lbrace :: t end.
Definition mode_ok (m : fmode) : Prop := match m with FArg _ t => no_braces t | _ => True end.

Lemma formats_some_arg D n t s : no_braces t -> (exists o k, formats D (S n) s o k) ->
  exists o k, formats D n (lbrace :: t ++ rbrace :: s) o k.
Proof.
  intros H (o & k & F). destruct (snd (D n t)) eqn:E; do 2 eexists; [eapply f_arg|eapply f_fail]; eauto.
Qed.

Lemma fparse_formats D : forall s n m ps, mode_ok m -> fparse n m s = Some ps ->
  exists o k, formats D n (before m ++ s) o k.
Proof.
  induction s as [|b s IH]; intros n m ps M E.
  - destruct m; cbn in E; try discriminate. exists [], true. constructor.
  - destruct m as [acc|acc|acc|acc t]; cbn [fparse] in E; cbn [before].
    + destruct (N.eqb_spec b lbrace) as [->|A]; [exact (IH n (FOpen acc) ps I E)|].
      destruct (N.eqb_spec b rbrace) as [->|B]; [exact (IH n (FClose acc) ps I E)|].
      destruct (IH n (FLit (acc ++ [b])) ps I E) as (o & k & F).
      exists (b :: o), k. now constructor.
    + destruct (N.eqb_spec b lbrace) as [->|A].
      { destruct (IH n (FLit (acc ++ [lbrace])) ps I E) as (o & k & F). exists (lbrace :: o), k. now constructor. }
      destruct (N.eqb_spec b rbrace) as [->|B].
      { destruct (fparse (S n) (FLit []) s) as [qs|] eqn:E1; [|discriminate].
        apply (formats_some_arg D n [] s no_braces_nil). exact (IH (S n) (FLit []) qs I E1). }
      apply (IH n (FArg acc [b]) ps); [|exact E].
      exact (no_braces_snoc [] b no_braces_nil A B).
    + destruct (N.eqb_spec b rbrace) as [->|B]; [|discriminate].
      destruct (IH n (FLit (acc ++ [rbrace])) ps I E) as (o & k & F). exists (rbrace :: o), k. now constructor.
    + destruct (N.eqb_spec b lbrace) as [->|A]; [discriminate|].
      destruct (N.eqb_spec b rbrace) as [->|B].
      { destruct (fparse (S n) (FLit []) s) as [qs|] eqn:E1; [|discriminate].
        apply (formats_some_arg D n t s M). exact (IH (S n) (FLit []) qs I E1). }
      destruct (IH n (FArg acc (t ++ [b])) ps (no_braces_snoc t b M A B) E) as (o & k & F).
      exists o, k. cbn [before] in F. cbn [app] in F |- *. now rewrite <- app_assoc in F.
Qed.

Lemma formats_nl D n s o k : formats D n s o k -> formats D n (s ++ [newline]) (o ++ ends true k) k.
Proof.
  induction 1 as [n|n b s o k A B H IH|n s o k H IH|n s o k H IH|n t s o k T K H IH|n t s o k T K H IH].
  - cbn. constructor; [easy|easy|constructor].
  - cbn. now constructor.
  - cbn. now constructor.
  - cbn. now constructor.
  - cbn [app]. rewrite <- !app_assoc. cbn [app]. now apply f_arg.
  - cbn [app]. rewrite <- app_assoc. cbn [app ends andb]. rewrite app_nil_r. now eapply f_fail; eauto.
Qed.

Lemma snoc_inv {A} (s : list A) : s = [] \/ exists r y, s = r ++ [y].
Proof. destruct s as [|a s] using rev_ind; [now left|right; eauto]. Qed.

Lemma formats_nl_inv D n s o k : formats D n (s ++ [newline]) o k -> exists o k, formats D n s o k.
Proof.
  intros F. remember (s ++ [newline]) as u eqn:U. revert s U.
  induction F as [n|n b s' o k A B H IH|n s' o k H IH|n s' o k H IH|n t s' o k T K H IH|n t s' o k T K H IH];
    intros s U.
  - destruct s; discriminate.
  - destruct s as [|b0 s]; [exists [], true; constructor|]. cbn in U. injection U as <- U.
    destruct (IH s U) as (o1 & k1 & F). exists (b :: o1), k1. now constructor.
  - destruct s as [|b0 [|b1 s]]; cbn in U; try discriminate. injection U as <- <- U.
    destruct (IH s U) as (o1 & k1 & F). exists (lbrace :: o1), k1. now constructor.
  - destruct s as [|b0 [|b1 s]]; cbn in U; try discriminate. injection U as <- <- U.
    destruct (IH s U) as (o1 & k1 & F). exists (rbrace :: o1), k1. now constructor.
  - destruct (snoc_inv s') as [->|(r & y & ->)].
    + change (lbrace :: t ++ [rbrace]) with ((lbrace :: t) ++ [rbrace]) in U.
      apply app_inj_tail in U. now destruct U.
    + replace (lbrace :: t ++ rbrace :: r ++ [y]) with ((lbrace :: t ++ rbrace :: r) ++ [y]) in U
        by (cbn; now rewrite <- app_assoc).
      apply app_inj_tail in U. destruct U as [<- ->].
      apply formats_some_arg; [easy|]. now apply IH.
  - destruct (snoc_inv s') as [->|(r & y & ->)].
    + change (lbrace :: t ++ [rbrace]) with ((lbrace :: t) ++ [rbrace]) in U.
      apply app_inj_tail in U. now destruct U.
    + replace (lbrace :: t ++ rbrace :: r ++ [y]) with ((lbrace :: t ++ rbrace :: r) ++ [y]) in U
        by (cbn; now rewrite <- app_assoc).
      apply app_inj_tail in U. destruct U as [<- ->].
      apply formats_some_arg; [easy|]. now apply IH.
Qed.

Lemma formats_plain D : forall s n, no_braces s -> formats D n s s true.
Proof.
  induction s as [|b s IH]; intros n H; [constructor|].
  destruct (H b (or_introl eq_refl)). constructor; auto. apply IH. eapply no_braces_tl; eauto.
Qed.

(** Format strings mean one thing. *)
Lemma formats_fun D n s o k o' k' : formats D n s o k -> formats D n s o' k' -> o = o' /\ k = k'.
Proof.
  intros F G. destruct (formats_fparse _ _ _ _ _ F []) as (ps & E & C & <-).
  destruct (formats_fparse _ _ _ _ _ G []) as (ps' & E' & C' & <-).
  rewrite E in E'. injection E' as <-. cbn in C, C'. split; congruence.
Qed.

(** ** Statements *)

Definition msgs (p : list prim) : list (target * bytes) :=
  flat_map (fun x => match x with MPrint t cs => [(t, concat cs)] | MEval _ => [] end) p.
Lemma msgs_app p q : msgs (p ++ q) = msgs p ++ msgs q.
Proof. apply flat_map_app. Qed.

Lemma print_fmt s D o k : formats D 0 s o k ->
  exists cs, print_ (IFmt s D) = Some cs /\ concat cs = o.
Proof.
  intros F. destruct (formats_fparse _ _ _ _ _ F []) as (ps & E & C & _).
  unfold print_. rewrite E. exists (fwrite D ps). auto.
Qed.

Lemma dbg_vals_msgs file line : forall vals, exists p, dbg_vals file line vals = Some p /\
  msgs p = map (fun v => (Stderr, [91] ++ file ++ [58] ++ line ++ [93; 32] ++ dtext v ++ [32; 61; 32] ++
       concat (fst (dshow v)) ++ ends true (snd (dshow v)))) vals.
Proof.
  induction vals as [|v vals (p & E & M)]; [exists []; auto|].
  cbn [dbg_vals]. rewrite E. cbn -[concat msgs]. eexists. split; [reflexivity|].
  cbn [msgs flat_map app map]. fold (msgs p). rewrite M. f_equal. f_equal.
  cbn. destruct (snd (dshow v)); rewrite ?concat_app; cbn; reflexivity.
Qed.

Lemma expand_says s ms : plain s -> says s ms -> exists p, expand s = Some p /\ msgs p = ms.
Proof.
  intros P H. destruct H as [t|nl t s D o k F|t s|nl t s D o k F|file line|file line v vals].
  - eexists. split; [reflexivity|]. reflexivity.
  - cbn in P. destruct (formats_fun _ _ _ _ _ _ _ F (formats_plain D s 0 P)) as [-> ->].
    destruct nl; (eexists; split; [reflexivity|]; cbn; now rewrite !app_nil_r).
  - eexists. split; [reflexivity|]. cbn. now rewrite app_nil_r.
  - destruct nl.
    + destruct (print_fmt _ _ _ _ (formats_nl _ _ _ _ _ F)) as (cs & E & C).
      cbn [expand println_]. rewrite E. eexists. split; [reflexivity|]. cbn. now rewrite C.
    + destruct (print_fmt _ _ _ _ F) as (cs & E & C).
      cbn [expand]. rewrite E. eexists. split; [reflexivity|]. cbn. now rewrite C, app_nil_r.
  - eexists. split; [reflexivity|]. cbn. reflexivity.
  - apply (dbg_vals_msgs file line (v :: vals)).
Qed.

(** What compiles has a meaning (for one literal: if it is a format string at all). *)
Lemma expand_some s p : expand s = Some p ->
  (exists ms, says s ms) \/ exists nl t u D, s = SPrint nl t (ILit u D).
Proof.
  intros E. destruct s as [nl t i|file line vals].
  - destruct i as [|u D|u|u D].
    + destruct nl; [|discriminate]. left. eexists. constructor.
    + right. eauto.
    + destruct nl; [discriminate|]. left. eexists. constructor.
    + left. destruct nl; cbn in E.
      * destruct (fparse 0 (FLit []) (u ++ [newline])) as [ps|] eqn:E1; [|discriminate].
        destruct (fparse_formats D _ 0 (FLit []) ps Logic.I E1) as (o & k & F).
        apply formats_nl_inv in F. destruct F as (o1 & k1 & F). eexists. econstructor. eauto.
      * destruct (fparse 0 (FLit []) u) as [ps|] eqn:E1; [|discriminate].
        destruct (fparse_formats D _ 0 (FLit []) ps Logic.I E1) as (o & k & F).
        eexists. econstructor. eauto.
  - left. destruct vals; eexists; constructor.
Qed.

Lemma expand_says_all l ms : (forall s, In s l -> plain s) -> says_all l ms ->
  exists p, expand_all l = Some p /\ msgs p = ms.
Proof.
  intros P H. induction H as [|s l ms ns H _ IH]; [exists []; auto|].
  destruct (expand_says s ms (P s (or_introl eq_refl)) H) as (p & E & M).
  destruct IH as (q & E' & M'); [intros u I; apply P; now right|].
  exists (p ++ q). cbn. rewrite E, E', msgs_app, M, M'. auto.
Qed.

(** ** Transactions *)

Lemma write_bytes_spec (bs : bytes) : forall fuel p len, (N.to_nat len < fuel)%nat ->
  exists ts, write_bytes fuel p len = Some ts /\
    concat (map (fun t => bytes_at (fun a => nth (N.to_nat a) bs 0) (fst t) (snd t)) ts) =
      bytes_at (fun a => nth (N.to_nat a) bs 0) p len /\
    (forall t, In t ts -> 1 <= snd t <= 64) /\
    (1 <= len <= 64 -> ts = [(p, len)]).
Proof.
  induction fuel as [|fuel IH]; intros p len Hf; [lia|].
  cbn [write_bytes]. unfold default_transaction_length.
  destruct (N.ltb_spec 64 len) as [H|H].
  - destruct (IH (p + 64) (len - 64)) as (ts & -> & A & B & _); [lia|].
    exists ((p, 64) :: ts). split; [easy|]. split; [|split].
    + cbn [map concat fst snd]. rewrite A. unfold bytes_at.
      replace (N.to_nat len) with (N.to_nat 64 + N.to_nat (len - 64))%nat by lia.
      rewrite seq_app, map_app. f_equal. cbn [Nat.add].
      replace (seq (N.to_nat 64) (N.to_nat (len - 64))) with
        (map (Nat.add (N.to_nat 64)) (seq 0 (N.to_nat (len - 64)))).
      * rewrite map_map. apply map_ext. intros i. f_equal. lia.
      * generalize (N.to_nat (len - 64)), (N.to_nat 64). intros j i.
        rewrite <- (Nat.add_0_r i) at 2. generalize 0%nat.
        induction j as [|j J]; intros z; cbn; [easy|]. rewrite J. now rewrite Nat.add_succ_r.
    + intros t [<-|Ht]; [cbn; lia|auto].
    + lia.
  - destruct (N.ltb_spec 0 len) as [H0|H0].
    + exists [(p, len mod 256)]. rewrite N.mod_small by lia. split; [easy|]. split; [|split].
      * cbn. now rewrite app_nil_r.
      * intros t [<-|[]]. cbn. lia.
      * easy.
    + exists []. replace len with 0 by lia. repeat split; try easy; cbn in *; try lia; try easy.
Qed.

Lemma bytes_at_nth bs : bytes_at (fun a => nth (N.to_nat a) bs 0) 0 (N.of_nat (length bs)) = bs.
Proof.
  unfold bytes_at. rewrite Nnat.Nat2N.id.
  transitivity (map (fun i => nth i bs 0) (seq 0 (length bs))).
  - apply map_ext. intros i. f_equal. lia.
  - induction bs as [|b bs IH]; [easy|]. cbn [length seq map nth]. f_equal.
    rewrite <- seq_shift, map_map. exact IH.
Qed.

Lemma tagged_app a b : tagged (a ++ b) = tagged a ++ tagged b.
Proof. apply flat_map_app. Qed.

Lemma chunk_frames_spec st bs :
  tagged (chunk_frames st bs) = map (pair st) bs /\
  (forall f, In f (chunk_frames st bs) -> fst f = st /\ 1 <= flen f <= 64) /\
  ((1 <= length bs <= 64)%nat -> chunk_frames st bs = [(st, bs)]).
Proof.
  unfold chunk_frames.
  destruct (write_bytes_spec bs (S (length bs)) 0 (N.of_nat (length bs))) as (ts & -> & A & B & C); [lia|].
  split; [|split].
  - rewrite bytes_at_nth in A.
    transitivity (map (pair st) (concat (map (fun t => bytes_at (fun a => nth (N.to_nat a) bs 0) (fst t) (snd t)) ts)));
      [|now rewrite A]. clear A B C.
    induction ts as [|t ts IH]; [easy|]. cbn [map concat tagged flat_map fst snd].
    rewrite map_app. f_equal. exact IH.
  - intros f I. apply in_map_iff in I. destruct I as (t & <- & I). cbn [fst]. split; [easy|].
    unfold flen. cbn [snd]. rewrite map_length, seq_length, Nnat.N2Nat.id. auto.
  - intros L. rewrite C by lia. cbn [map fst snd]. f_equal. f_equal.
    exact (bytes_at_nth bs).
Qed.

Lemma call_frames_tagged t cs : tagged (call_frames t cs) = tagged [(stream_of t, concat cs)].
Proof.
  cbn. rewrite app_nil_r. induction cs as [|c cs IH]; [easy|].
  cbn [call_frames flat_map concat]. fold (call_frames t cs).
  rewrite tagged_app, map_app, (proj1 (chunk_frames_spec _ _)), IH. easy.
Qed.
Lemma call_frames_ok t cs f : In f (call_frames t cs) -> startable f = true.
Proof.
  intros I. apply in_flat_map in I. destruct I as (c & _ & I).
  destruct (proj1 (proj2 (chunk_frames_spec _ _)) f I) as [E L].
  unfold startable, stream_count. rewrite E. destruct t; cbn;
    apply N.ltb_lt; lia.
Qed.

(** ** Contexts *)

Lemma calls_of_app c a b : calls_of c (a ++ b) = calls_of c a ++ calls_of c b.
Proof. induction a as [|[] a IH]; cbn; auto. destruct (_ =? _); cbn; now rewrite IH. Qed.
Lemma frames_of_app c a b : frames_of c (a ++ b) = frames_of c a ++ frames_of c b.
Proof. induction a as [|[] a IH]; cbn; auto. destruct (_ =? _); cbn; now rewrite IH. Qed.
Lemma all_wrote_app a b : all_wrote (a ++ b) = all_wrote a ++ all_wrote b.
Proof. induction a as [|[] a IH]; cbn; auto. now rewrite IH. Qed.
Lemma all_read_app a b : all_read (a ++ b) = all_read a ++ all_read b.
Proof. induction a as [|[] a IH]; cbn; auto. now rewrite IH. Qed.
Lemma mask_of_app m a b : mask_of m (a ++ b) = mask_of (mask_of m a) b.
Proof. revert m. induction a as [|[] a IH]; intros m0; cbn; auto. Qed.

Lemma reads_read tr : all_read (reads tr) = got tr /\ all_wrote (reads tr) = [] /\
  (forall c, calls_of c (reads tr) = [] /\ frames_of c (reads tr) = []) /\ (forall m, mask_of m (reads tr) = m).
Proof. induction tr as [|[] tr (A & B & C & D)]; cbn; repeat split; auto; try apply C. now rewrite A. Qed.

Definition prints (p : list prim) : list (target * list bytes) :=
  flat_map (fun x => match x with MPrint t cs => [(t, cs)] | MEval _ => [] end) p.
Fixpoint sent (ms : list (target * list bytes)) (on : list bool) : list frame :=
  match ms, on with
  | (t, cs) :: ms, b :: on => (if b then call_frames t cs else []) ++ sent ms on
  | _, _ => []
  end.
Lemma sent_nil ms : sent ms [] = [].
Proof. now destruct ms as [|[]]. Qed.
Lemma sent_snoc : forall ms on t o r b, ms = firstn (length on) ms ++ (t, o) :: r ->
  sent ms (on ++ [b]) = sent ms on ++ if b then call_frames t o else [].
Proof.
  induction ms as [|[t1 o1] ms IH]; intros on t o r b E; [destruct on; discriminate|].
  destruct on as [|b1 on].
  - cbn in E. injection E as -> -> _. cbn. now rewrite sent_nil, app_nil_r.
  - cbn in E. injection E as E. cbn. rewrite (IH _ _ _ _ _ E). now rewrite app_assoc.
Qed.
Lemma msgs_prints p : msgs p = map (fun m => (fst m, concat (snd m))) (prints p).
Proof. induction p as [|[] p IH]; cbn; [easy| |]; unfold msgs, prints in IH; now rewrite IH. Qed.
Lemma tagged_sent ms : forall on, tagged (sent ms on) = tagged (due (map (fun m => (fst m, concat (snd m))) ms) on).
Proof.
  induction ms as [|[t cs] ms IH]; intros on; [easy|]. destruct on as [|b on]; [easy|].
  cbn [sent due map fst snd]. rewrite tagged_app, IH. destruct b; [|easy].
  rewrite call_frames_tagged. cbn. now rewrite app_nil_r.
Qed.

(** The memory has run. *)
Definition ran (buf : N -> N) (size : N) (x : ssys) (l : list pev) : Prop :=
  exists ls tr, srun (sinit buf size) ls = (x, tr) /\ wrote tr = all_wrote l /\ got tr = all_read l.
Lemma ran_step buf size x l lb l' : ran buf size x l ->
  all_wrote l' = wrote (snd (sstep x lb)) -> all_read l' = got (snd (sstep x lb)) ->
  ran buf size (fst (sstep x lb)) (l ++ l').
Proof.
  intros (ls & tr & E & W & G) W' G'.
  exists (ls ++ [lb]), (tr ++ snd (sstep x lb)).
  rewrite srun_app, E. cbn [fst snd srun]. destruct (sstep x lb) as [y e]. cbn [fst snd] in *.
  rewrite app_nil_r, wrote_app, got_app, all_wrote_app, all_read_app, W, G, W', G'. auto.
Qed.
Lemma ran_log buf size x l l' : ran buf size x l -> all_wrote l' = [] -> all_read l' = [] ->
  ran buf size x (l ++ l').
Proof.
  intros (ls & tr & E & W & G) W' G'. exists ls, tr. now rewrite all_wrote_app, all_read_app, W', G', !app_nil_r.
Qed.

Definition busy (w : wpos) : bool := match w with WIdle | WRes _ => false | _ => true end.

Definition acts_p (p : list prim) : list act :=
  map (fun x => match x with MEval e => AEval e | MPrint t _ => ACall (stream_of t) end) p.
Lemma acts_of_app c a b : acts_of c (a ++ b) = acts_of c a ++ acts_of c b.
Proof. induction a as [|[] a IH]; cbn; auto; destruct (_ =? _); cbn; now rewrite IH. Qed.
Lemma reads_acts c tr : acts_of c (reads tr) = [].
Proof. induction tr as [|[] tr IH]; cbn; auto. Qed.

Section Inv.
Variables (buf : N -> N) (size mask : N) (pr : N -> list prim).

(** Calls and evaluations happen when all earlier messages of the context are written; calls find the
    stream as the mask says. *)
Definition settled (l : list pev) : Prop := forall l1 e l2, l = l1 ++ e :: l2 ->
  match e with
  | EvCall c st on => frames_of c l1 = sent (prints (pr c)) (calls_of c l1) /\
      on = is_enabled (mask_of mask l1) st /\
      exists t o, nth_error (prints (pr c)) (length (calls_of c l1)) = Some (t, o) /\ st = stream_of t
  | EvEval c _ => frames_of c l1 = sent (prints (pr c)) (calls_of c l1)
  | _ => True
  end.

Record pinv (s : psys) : Prop := {
  pi_ran : ran buf size (pm s) (plog s);
  pi_mask : pmask s = mask_of mask (plog s);
  pi_due : forall c, frames_of c (plog s) ++ pend s c =
    sent (prints (pr c)) (calls_of c (plog s));
  pi_prog : forall c, prints (pr c) = firstn (length (calls_of c (plog s))) (prints (pr c)) ++ prints (prog s c);
  pi_acts : forall c, acts_p (pr c) = acts_of c (plog s) ++ acts_p (prog s c);
  pi_ok : forall c f, In f (pend s c) -> startable f = true;
  pi_cur : busy (swp (pm s)) = true -> exists r, pend s (pcur s) = sfr (pm s) :: r;
  pi_settled : settled (plog s)
}.

Lemma settled_snoc l e : settled l ->
  match e with
  | EvCall c st on => frames_of c l = sent (prints (pr c)) (calls_of c l) /\
      on = is_enabled (mask_of mask l) st /\
      exists t o, nth_error (prints (pr c)) (length (calls_of c l)) = Some (t, o) /\ st = stream_of t
  | EvEval c _ => frames_of c l = sent (prints (pr c)) (calls_of c l)
  | _ => True
  end -> settled (l ++ [e]).
Proof.
  intros H G l1 e' l2 E. destruct (snoc_inv l2) as [->|(r & y & ->)].
  - apply app_inj_tail in E. destruct E as [<- <-]. exact G.
  - change (l1 ++ e' :: r ++ [y]) with (l1 ++ (e' :: r) ++ [y]) in E. rewrite app_assoc in E.
    apply app_inj_tail in E. destruct E as [E _]. exact (H _ _ _ E).
Qed.
Lemma settled_quiet l l' : settled l -> (forall e, In e l' -> exists f, e = EvRead f) -> settled (l ++ l').
Proof.
  intros H Q. induction l' as [|e l' IH] using rev_ind; [now rewrite app_nil_r|].
  rewrite app_assoc. apply settled_snoc.
  - apply IH. intros x I. apply Q, in_or_app. now left.
  - destruct (Q e) as (f & ->); [apply in_or_app; right; now left|exact Logic.I].
Qed.
Lemma reads_in tr e : In e (reads tr) -> exists f, e = EvRead f.
Proof. induction tr as [|[] tr IH]; cbn; [easy| | | |]; auto. intros [<-|I]; eauto. Qed.

Lemma upd_same {A} (f : N -> A) c v : upd f c v c = v.
Proof. unfold upd. now rewrite N.eqb_refl. Qed.
Lemma upd_other {A} (f : N -> A) c v d : d <> c -> upd f c v d = f d.
Proof. intros H. unfold upd. apply N.eqb_neq in H. now rewrite H. Qed.

Lemma pinv_init : pinv (pinit buf size mask pr).
Proof.
  constructor; cbn.
  - exists [], []. auto.
  - reflexivity.
  - intros c. now rewrite sent_nil.
  - reflexivity.
  - reflexivity.
  - intros c f [].
  - discriminate.
  - intros l1 e l2 E. destruct l1; discriminate.
Qed.

Lemma wstep_cases x : (exists f, snd (wstep x) = [SWrote f] /\ busy (swp x) = true /\ f = sfr x /\
      busy (swp (fst (wstep x))) = false) \/
  (wrote (snd (wstep x)) = [] /\ got (snd (wstep x)) = [] /\ (forall f, snd (wstep x) <> [SWrote f]) /\
   sfr (fst (wstep x)) = sfr x /\ (busy (swp (fst (wstep x))) = true -> busy (swp x) = true)).
Proof.
  destruct x as [s w f r]. destruct w as [| |r0|[|b todo] a next|next|a| |[]]; cbn; try (right; easy).
  left. eauto.
Qed.
Lemma rstep_cases x : wrote (snd (rstep x)) = [] /\ sfr (fst (rstep x)) = sfr x /\ swp (fst (rstep x)) = swp x.
Proof.
  destruct x as [s w f r]. destruct r; cbn; auto.
  - destruct (_ =? _); auto.
  - destruct (_ <? _); auto.
Qed.

Lemma pinv_step s l : pinv s -> pinv (pstep s l).
Proof.
  intros Hp. pose proof Hp as [R M D P A O C Q]. destruct l as [m|c|c| |]; cbn [pstep].
  - constructor; cbn [pm pmask prog pend pcur plog].
    + now apply ran_log.
    + now rewrite mask_of_app.
    + intros c. rewrite frames_of_app, calls_of_app. cbn. rewrite !app_nil_r. apply D.
    + intros c. rewrite calls_of_app. cbn. rewrite app_nil_r. apply P.
    + intros c. rewrite acts_of_app. cbn. rewrite app_nil_r. apply A.
    + exact O.
    + exact C.
    + now apply settled_snoc.
  - destruct (pend s c) as [|f0 fs] eqn:Ep; [|exact Hp].
    assert (Dc : frames_of c (plog s) = sent (prints (pr c)) (calls_of c (plog s))).
    { rewrite <- D, Ep, app_nil_r. reflexivity. }
    destruct (prog s c) as [|[e|t cs] r] eqn:Eg; [exact Hp| |].
    + constructor; cbn [pm pmask prog pend pcur plog].
      * now apply ran_log.
      * now rewrite mask_of_app.
      * intros d. rewrite frames_of_app, calls_of_app. cbn. rewrite !app_nil_r. apply D.
      * intros d. rewrite calls_of_app. cbn. rewrite app_nil_r. rewrite (P d) at 1. f_equal.
        destruct (N.eq_dec d c) as [->|Hd]; [rewrite upd_same, Eg; reflexivity|now rewrite upd_other].
      * intros d. rewrite acts_of_app, (A d), <- app_assoc. f_equal. cbn.
        destruct (N.eqb_spec c d) as [<-|Hd]; [rewrite upd_same, Eg; reflexivity|now rewrite upd_other by congruence].
      * exact O.
      * exact C.
      * now apply settled_snoc.
    + set (on := is_enabled (pmask s) (stream_of t)).
      pose proof (P c) as Pc. rewrite Eg in Pc. cbn [prints flat_map app] in Pc. fold (prints r) in Pc.
      assert (Nc : nth_error (prints (pr c)) (length (calls_of c (plog s))) = Some (t, cs)).
      { rewrite Pc. rewrite nth_error_app2; rewrite firstn_length_le; auto; try rewrite PeanoNat.Nat.sub_diag; auto.
        all: assert (L : length (firstn (length (calls_of c (plog s))) (prints (pr c))) = length (calls_of c (plog s)) \/
               (length (prints (pr c)) <= length (calls_of c (plog s)))%nat)
             by (rewrite firstn_length; lia).
        all: destruct L as [L|L]; [rewrite firstn_length in L; lia|].
        all: rewrite firstn_all2 in Pc by exact L; exfalso.
        all: assert (F : length (prints (pr c)) = length (prints (pr c) ++ (t, cs) :: prints r)) by (now rewrite <- Pc).
        all: rewrite app_length in F; cbn in F; lia. }
      constructor; cbn [pm pmask prog pend pcur plog].
      * now apply ran_log.
      * now rewrite mask_of_app.
      * intros d. rewrite frames_of_app, calls_of_app. cbn.
        destruct (N.eqb_spec c d) as [<-|Hd].
        -- rewrite upd_same, app_nil_r, (sent_snoc _ _ _ _ _ on Pc), Dc. reflexivity.
        -- rewrite upd_other by congruence. rewrite !app_nil_r. apply D.
      * intros d. rewrite calls_of_app. cbn. destruct (N.eqb_spec c d) as [<-|Hd].
        -- rewrite upd_same, app_length. cbn. rewrite Pc at 1.
           rewrite PeanoNat.Nat.add_1_r.
           apply nth_error_split in Nc. destruct Nc as (l1 & l2 & E1 & E2).
           rewrite E1 in Pc |- *. rewrite <- E2 in Pc |- *.
           rewrite firstn_app, firstn_all, PeanoNat.Nat.sub_diag in Pc. cbn in Pc.
           rewrite app_nil_r in Pc. apply app_inv_head in Pc. injection Pc as ->.
           rewrite !firstn_app, firstn_all, PeanoNat.Nat.sub_diag.
           rewrite (firstn_all2 l1) by lia. replace (S (length l1) - length l1)%nat with 1%nat by lia. cbn.
           rewrite app_nil_r, <- app_assoc. reflexivity.
        -- rewrite upd_other by congruence. rewrite app_nil_r. apply P.
      * intros d. rewrite acts_of_app, (A d), <- app_assoc. f_equal. cbn.
        destruct (N.eqb_spec c d) as [<-|Hd]; [rewrite upd_same, Eg; reflexivity|now rewrite upd_other by congruence].
      * intros d f. destruct (N.eq_dec d c) as [->|Hd].
        -- rewrite upd_same. destruct on; [apply call_frames_ok|intros []].
        -- rewrite upd_other by easy. apply O.
      * intros B. destruct (C B) as (q & E). rewrite upd_other; [eauto|]. intros <-. congruence.
      * apply settled_snoc; [exact Q|]. split; [exact Dc|]. split; [now rewrite <- M|]. eauto.
  - destruct (swp (pm s)) eqn:Ew; try exact Hp.
    destruct (pend s c) as [|f fs] eqn:Ep; [exact Hp|].
    assert (St : startable f = true) by (apply (O c); rewrite Ep; now left).
    assert (Es : sstep (pm s) (LWrite f) = (Ssys (smem (pm s)) WReadR f (srp (pm s)), [SStart f]))
      by (cbn; now rewrite Ew, St).
    constructor; cbn [pm pmask prog pend pcur plog]; auto.
    + replace (plog s) with (plog s ++ []) by apply app_nil_r.
      apply ran_step; [exact R| |]; rewrite Es; reflexivity.
    + intros _. rewrite Es. cbn. exists fs. exact Ep.
  - cbn [sstep].
    destruct (wstep_cases (pm s)) as [(f & E & B & F & B')|(W & G & Nw & F & B)].
    + destruct (wstep (pm s)) as [x tr] eqn:Es. cbn [fst snd] in *. subst tr.
      destruct (C B) as (q & Eq). rewrite <- F in Eq.
      constructor; cbn [pm pmask prog pend pcur plog].
      * pose proof (ran_step buf size (pm s) (plog s) LW [EvWrote (pcur s) f] R) as H.
        cbn [sstep] in H. rewrite Es in H. now apply H.
      * now rewrite mask_of_app.
      * intros d. rewrite frames_of_app, calls_of_app. cbn. rewrite app_nil_r.
        destruct (N.eqb_spec (pcur s) d) as [<-|Hd].
        -- rewrite upd_same, Eq. cbn [tl]. rewrite <- D, Eq, <- app_assoc. reflexivity.
        -- rewrite upd_other by congruence. rewrite app_nil_r. apply D.
      * intros d. rewrite calls_of_app. cbn. rewrite app_nil_r. apply P.
      * intros d. rewrite acts_of_app. cbn. rewrite app_nil_r. apply A.
      * intros d g. destruct (N.eq_dec d (pcur s)) as [->|Hd].
        -- rewrite upd_same, Eq. cbn. intros I. apply (O (pcur s)). rewrite Eq. now right.
        -- rewrite upd_other by easy. apply O.
      * rewrite B'. discriminate.
      * now apply settled_snoc.
    + assert (H : pinv (Psys (fst (wstep (pm s))) (pmask s) (prog s) (pend s) (pcur s) (plog s))).
      { constructor; cbn [pm pmask prog pend pcur plog]; auto.
        - pose proof (ran_step buf size (pm s) (plog s) LW [] R) as H.
          cbn [sstep] in H. rewrite W, G, app_nil_r in H. now apply H.
        - intros B1. rewrite F. auto. }
      destruct (wstep (pm s)) as [x tr]. cbn [fst snd] in *.
      destruct tr as [|[g|g|g|g] [|]]; auto. now destruct (Nw g).
  - cbn [sstep]. pose proof (rstep_cases (pm s)) as (W & F & B).
    pose proof (ran_step buf size (pm s) (plog s) LR) as H. cbn [sstep] in H.
    destruct (rstep (pm s)) as [x tr]. cbn [fst snd] in *.
    destruct (reads_read tr) as (R1 & R2 & R3 & R4).
    constructor; cbn [pm pmask prog pend pcur plog]; auto.
    + apply H; [exact R|now rewrite R2, W|exact R1].
    + rewrite mask_of_app, R4. exact M.
    + intros c. destruct (R3 c) as [E1 E2]. rewrite frames_of_app, calls_of_app, E1, E2, !app_nil_r. apply D.
    + intros c. destruct (R3 c) as [E1 E2]. rewrite calls_of_app, E1, app_nil_r. apply P.
    + intros c. rewrite acts_of_app, reads_acts, app_nil_r. apply A.
    + rewrite B, F. exact C.
    + apply settled_quiet; [exact Q|]. intros e. apply reads_in.
Qed.

Lemma pinv_run ls : forall s, pinv s -> pinv (prun s ls).
Proof. induction ls as [|l ls IH]; intros s H; [exact H|]. apply IH. now apply pinv_step. Qed.
End Inv.
