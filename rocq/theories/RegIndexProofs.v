(** Lemmas about the index of register tokens. *)
Require Import List Bool Arith Lia.
From Verif Require Import RegIndex RegIndexSpec.
Import ListNotations.

Definition on (b : block) : bool := forallb here (b_cfgs b).
Definition opt_expand (fuel : nat) (l : list item) (p : option (nat * option nat)) (ext : list def) : option (list def) :=
  match p with None => Some ext | Some p => expand fuel l p ext end.

(** The macros that are left of the conditional blocks. *)
Fixpoint acts (name i : nat) (prev : option (nat * option nat)) (bs : list block) : list item :=
  match bs with
  | [] => []
  | b :: r =>
      (if on b then make_macro prev (b_cfgs b) (name, Some i) [b] else make_macro prev [negate (b_cfgs b)] (name, Some i) [])
        :: acts name (S i) (Some (name, Some i)) r
  end.

Lemma active_cond : forall bs name i prev, active (fst (cond_items name i prev bs)) = acts name i prev bs.
Proof.
  induction bs as [|b r IH]; intros name i prev; [reflexivity|].
  cbn [cond_items acts]. specialize (IH name (S i) (Some (name, Some i))).
  destruct (cond_items name (S i) (Some (name, Some i)) r) as [l p]. cbn [fst] in *.
  unfold active in *. unfold on. cbn [filter i_cfgs make_macro forallb negate here].
  destruct (forallb here (b_cfgs b)); cbn; rewrite IH; reflexivity.
Qed.

Definition conds (c : call) := filter conditional (c_blocks c).
Definition regular (c : call) := filter (fun b => negb (conditional b)) (c_blocks c).
Definition prev_name (c : call) := option_map (fun n : nat => (n, @None nat)) (c_prev c).
Definition last_cond (c : call) := snd (cond_items (c_name c) 0 (prev_name c) (conds c)).
Definition call_acts (c : call) : list item :=
  acts (c_name c) 0 (prev_name c) (conds c) ++ [make_macro (last_cond c) [] (c_name c, None) (regular c)].

Lemma active_app : forall a b, active (a ++ b) = active a ++ active b.
Proof. intros. apply filter_app. Qed.
Lemma active_call : forall c, active (expand_call c) = call_acts c.
Proof.
  intros c. unfold expand_call, call_acts, last_cond. fold (conds c) (prev_name c) (regular c).
  rewrite <- active_cond. destruct (cond_items (c_name c) 0 (prev_name c) (conds c)) as [l p].
  rewrite active_app. reflexivity.
Qed.
Lemma active_all : forall cs, active (concat (map expand_call cs)) = concat (map call_acts cs).
Proof.
  induction cs as [|c r IH]; [reflexivity|]. cbn [map concat]. rewrite active_app, active_call, IH. reflexivity.
Qed.

Lemma name_eqb_eq : forall a b, name_eqb a b = true <-> a = b.
Proof.
  intros [a x] [b y]. unfold name_eqb. cbn. rewrite andb_true_iff, Nat.eqb_eq.
  destruct x as [x|], y as [y|]; try rewrite Nat.eqb_eq; split; intros E; try (destruct E; subst; congruence); inversion E; auto.
Qed.
Lemma lookup_in : forall l x, NoDup (map i_name l) -> In x l -> lookup l (i_name x) = Some x.
Proof.
  induction l as [|a l IH]; intros x N I; [destruct I|]. cbn in N. inversion N as [|? ? A B]; subst. cbn [lookup find].
  destruct (name_eqb (i_name a) (i_name x)) eqn:E.
  - apply name_eqb_eq in E. destruct I as [->|I]; [reflexivity|]. destruct A. rewrite E. apply in_map. exact I.
  - destruct I as [->|I]; [|apply IH; auto]. rewrite (proj2 (name_eqb_eq _ _) eq_refl) in E. discriminate.
Qed.

Lemma acts_names : forall bs name i prev x, In x (acts name i prev bs) -> exists j, i <= j /\ i_name x = (name, Some j).
Proof.
  induction bs as [|b r IH]; intros name i prev x I; [destruct I|]. destruct I as [<-|I].
  - exists i. destruct (on b); auto.
  - destruct (IH _ _ _ _ I) as (j & A & B). exists j. split; [lia|exact B].
Qed.
Lemma acts_nodup : forall bs name i prev, NoDup (map i_name (acts name i prev bs)).
Proof.
  induction bs as [|b r IH]; intros name i prev; [constructor|]. cbn [acts map]. constructor; [|apply IH].
  intros I. apply in_map_iff in I. destruct I as (x & E & I). destruct (acts_names _ _ _ _ _ I) as (j & A & B).
  rewrite B in E. destruct (on b); cbn in E; inversion E; lia.
Qed.
Lemma call_names : forall c x, In x (call_acts c) -> fst (i_name x) = c_name c.
Proof.
  intros c x I. apply in_app_or in I. destruct I as [I|[<-|[]]]; [|reflexivity].
  destruct (acts_names _ _ _ _ _ I) as (j & _ & B). rewrite B. reflexivity.
Qed.
Lemma nodup_app : forall {A} (a b : list A), NoDup a -> NoDup b -> (forall x, In x a -> ~ In x b) -> NoDup (a ++ b).
Proof.
  intros A a. induction a as [|x a IH]; intros b Na Nb D; [exact Nb|]. inversion Na; subst. cbn. constructor.
  - intros I. apply in_app_or in I. destruct I as [I|I]; [auto|]. apply (D x); [left; reflexivity|exact I].
  - apply IH; auto. intros y I. apply D. right. exact I.
Qed.
Lemma call_nodup : forall c, NoDup (map i_name (call_acts c)).
Proof.
  intros c. unfold call_acts. rewrite map_app. apply nodup_app.
  - apply acts_nodup.
  - constructor; [intros []|constructor].
  - intros n I [E|[]]. cbn in E. subst n. apply in_map_iff in I. destruct I as (x & E & I).
    destruct (acts_names _ _ _ _ _ I) as (j & _ & B). rewrite B in E. discriminate.
Qed.
Lemma all_nodup : forall cs, NoDup (map c_name cs) -> NoDup (map i_name (concat (map call_acts cs))).
Proof.
  induction cs as [|c r IH]; intros N; [constructor|]. cbn in N. inversion N as [|? ? A B]; subst.
  cbn [map concat]. rewrite map_app. apply nodup_app; [apply call_nodup|apply IH; exact B|].
  intros n I J. apply in_map_iff in I. destruct I as (x & <- & I). apply in_map_iff in J. destruct J as (y & E & J).
  apply in_concat in J. destruct J as (l & Jl & J). apply in_map_iff in Jl. destruct Jl as (d & <- & Jd).
  apply A. rewrite <- (call_names _ _ I), <- E, (call_names _ _ J). apply in_map. exact Jd.
Qed.

Definition ondefs (bs : list block) : list def := concat (map block_defs (filter on bs)).
Lemma expand_conds : forall L bs name i prev fuel ext,
  (forall x, In x (acts name i prev bs) -> lookup L (i_name x) = Some x) ->
  opt_expand (fuel + length bs) L (snd (cond_items name i prev bs)) ext = opt_expand fuel L prev (ondefs bs ++ ext).
Proof.
  induction bs as [|b r IH]; intros name i prev fuel ext H.
  - cbn. rewrite Nat.add_0_r. reflexivity.
  - cbn [cond_items length]. specialize (IH name (S i) (Some (name, Some i)) (S fuel) ext).
    replace (fuel + S (length r)) with (S fuel + length r) by lia.
    destruct (cond_items name (S i) (Some (name, Some i)) r) as [l p]. cbn [snd] in *. rewrite IH.
    2:{ intros x I. apply H. right. exact I. }
    cbn [opt_expand expand]. pose proof (H _ (or_introl eq_refl)) as E.
    replace (i_name (if on b then make_macro prev (b_cfgs b) (name, Some i) [b] else make_macro prev [negate (b_cfgs b)] (name, Some i) []))
      with (name, Some i) in E by (destruct (on b); reflexivity).
    rewrite E. unfold ondefs. cbn [filter]. destruct (on b); cbn; rewrite ?app_nil_r, <- ?app_assoc; destruct prev; reflexivity.
Qed.

Definition call_defs (c : call) : list def := ondefs (conds c) ++ concat (map block_defs (regular c)).
Lemma expand_one : forall L c fuel ext,
  (forall x, In x (call_acts c) -> lookup L (i_name x) = Some x) ->
  expand (S (fuel + length (conds c))) L (c_name c, None) ext = opt_expand fuel L (prev_name c) (call_defs c ++ ext).
Proof.
  intros L c fuel ext H. cbn [expand].
  assert (E : lookup L (c_name c, None) = Some (make_macro (last_cond c) [] (c_name c, None) (regular c))).
  { apply (H (make_macro (last_cond c) [] (c_name c, None) (regular c))). apply in_or_app. right. left. reflexivity. }
  rewrite E. cbn [i_prev i_defs make_macro]. unfold call_defs. rewrite <- app_assoc.
  rewrite <- (expand_conds L (conds c) (c_name c) 0 (prev_name c)).
  - reflexivity.
  - intros x I. apply H. apply in_or_app. left. exact I.
Qed.
Lemma acts_length : forall bs name i prev, length (acts name i prev bs) = length bs.
Proof. induction bs as [|b r IH]; intros; [reflexivity|]. cbn. rewrite IH. reflexivity. Qed.

Definition end_name (prev : option nat) (cs : list call) : option (nat * option nat) :=
  option_map (fun n => (n, None)) (fold_left (fun _ c => Some (c_name c)) cs prev).
Lemma expand_chain : forall L cs prev fuel ext,
  linked prev cs ->
  (forall x, In x (concat (map call_acts cs)) -> lookup L (i_name x) = Some x) ->
  opt_expand (fuel + length (concat (map call_acts cs))) L (end_name prev cs) ext =
  opt_expand fuel L (option_map (fun n => (n, None)) prev) (concat (map call_defs cs) ++ ext).
Proof.
  induction cs as [|c r IH]; intros prev fuel ext K H.
  - cbn. rewrite Nat.add_0_r. reflexivity.
  - destruct K as (P & K). cbn [map concat]. rewrite app_length. unfold call_acts at 1. rewrite app_length, acts_length. cbn [length].
    replace (fuel + (length (conds c) + 1 + length (concat (map call_acts r))))
      with (S (fuel + length (conds c)) + length (concat (map call_acts r))) by lia.
    change (end_name prev (c :: r)) with (end_name (Some (c_name c)) r). rewrite IH; [|exact K|].
    2:{ intros x I. apply H. cbn. apply in_or_app. right. exact I. }
    cbn [option_map]. unfold opt_expand at 1. rewrite expand_one.
    2:{ intros x I. apply H. cbn. apply in_or_app. left. exact I. }
    unfold prev_name. rewrite P, <- app_assoc. reflexivity.
Qed.

Lemma expand_more : forall L f n ext r, expand f L n ext = Some r -> forall f', f <= f' -> expand f' L n ext = Some r.
Proof.
  induction f as [|f IH]; intros n ext r E f' Le; [discriminate|]. destruct f' as [|f']; [lia|]. cbn in *.
  destruct (lookup L n) as [i|]; [|discriminate]. destruct (i_prev i); [|exact E]. apply (IH _ _ _ E). lia.
Qed.

Lemma concat_incl : forall {A B} (f : A -> list B) a b, incl a b -> incl (concat (map f a)) (concat (map f b)).
Proof.
  intros A B f a b I x J. apply in_concat in J. destruct J as (l & Jl & J). apply in_map_iff in Jl. destruct Jl as (d & <- & Jd).
  apply in_concat. exists (f d). split; [apply in_map; apply I; exact Jd|exact J].
Qed.

Lemma nodup_names : forall chain cs : list call, NoDup (map c_name cs) -> incl chain cs -> NoDup chain -> NoDup (map c_name chain).
Proof.
  assert (U : forall (cs : list call) a b, NoDup (map c_name cs) -> In a cs -> In b cs -> c_name a = c_name b -> a = b).
  { induction cs as [|x l IH]; intros a b N A B E; [destruct A|]. cbn in N. inversion N as [|? ? P Q]; subst.
    destruct A as [->|A], B as [->|B]; auto.
    - destruct P. rewrite E. apply in_map. exact B.
    - destruct P. rewrite <- E. apply in_map. exact A. }
  induction chain as [|c r IH]; intros cs N I D; [constructor|]. inversion D as [|? ? P Q]; subst. cbn. constructor.
  - intros J. apply in_map_iff in J. destruct J as (d & E & J). apply P.
    rewrite (U cs c d); auto; apply I; [left; reflexivity|right; exact J].
  - apply (IH cs); auto. intros x J. apply I. right. exact J.
Qed.

Lemma index_defs : forall cs chain c undefs, program cs chain c ->
  index cs (c_name c) undefs = Some (members (inner (concat (map call_defs (chain ++ [c]))) undefs)).
Proof.
  intros cs chain c undefs (N & I & D & K). unfold index. rewrite active_all.
  set (L := concat (map call_acts cs)).
  assert (NL : NoDup (map i_name L)) by (apply all_nodup; exact N).
  pose proof (expand_chain L (chain ++ [c]) None 0 [] K) as E.
  assert (X : end_name None (chain ++ [c]) = Some (c_name c, None)).
  { unfold end_name. rewrite fold_left_app. reflexivity. }
  rewrite X in E. cbn [opt_expand option_map] in E. rewrite app_nil_r in E.
  assert (LI : forall x, In x (concat (map call_acts (chain ++ [c]))) -> lookup L (i_name x) = Some x).
  { intros x J. apply lookup_in; [exact NL|]. apply (concat_incl call_acts _ _ I). exact J. }
  rewrite (expand_more _ _ _ _ _ (E LI) (S (length L))).
  - reflexivity.
  - cbn [plus].
    assert (Le : length (map i_name (concat (map call_acts (chain ++ [c])))) <= length (map i_name L)).
    { apply NoDup_incl_length.
      - apply all_nodup. apply (nodup_names _ cs); assumption.
      - apply incl_map. apply concat_incl. exact I. }
    rewrite !map_length in Le. lia.
Qed.

(** The map of the innermost macro. *)
Lemma insert_in : forall m d e, In e (insert m d) <-> (In e m /\ d_name e <> d_name d) \/ e = d.
Proof.
  intros m d e. unfold insert. rewrite in_app_iff, filter_In, negb_true_iff, Nat.eqb_neq. cbn. intuition.
Qed.
Lemma filter_nodup : forall (p : def -> bool) m, NoDup (map d_name m) -> NoDup (map d_name (filter p m)).
Proof.
  intros p m. induction m as [|a m IH]; intros N; [constructor|]. cbn in N. inversion N as [|? ? A B]; subst. cbn.
  destruct (p a); [|auto]. cbn. constructor; [|auto]. intros I. apply A. apply in_map_iff in I. destruct I as (x & E & I).
  apply filter_In in I. rewrite <- E. apply in_map. apply I.
Qed.
Lemma insert_nodup : forall m d, NoDup (map d_name m) -> NoDup (map d_name (insert m d)).
Proof.
  intros m d N. unfold insert. rewrite map_app. apply nodup_app.
  - apply filter_nodup. exact N.
  - constructor; [intros []|constructor].
  - intros n I [<-|[]]. apply in_map_iff in I. destruct I as (x & E & I). apply filter_In in I.
    destruct I as (_ & I). rewrite E, Nat.eqb_refl in I. discriminate.
Qed.
Lemma fold_insert : forall defs m, NoDup (map d_name m) ->
  let r := fold_left insert defs m in
  NoDup (map d_name r) /\ (forall e, In e r -> In e defs \/ In e m) /\
  (forall e, In e defs \/ In e m -> exists e', In e' r /\ d_name e' = d_name e).
Proof.
  induction defs as [|d r IH]; intros m N; cbn [fold_left].
  - split; [exact N|]. split; [auto|]. intros e [[]|I]. exists e. auto.
  - destruct (IH _ (insert_nodup m d N)) as (A & B & C). split; [exact A|]. split.
    + intros e I. destruct (B e I) as [J|J]; [left; right; exact J|]. apply insert_in in J.
      destruct J as [(J & _)| ->]; [right; exact J|left; left; reflexivity].
    + intros e [[->|I]|I].
      * apply C. right. apply insert_in. right. reflexivity.
      * apply C. left. exact I.
      * destruct (Nat.eq_dec (d_name e) (d_name d)) as [E|E].
        -- rewrite E. apply C. right. apply insert_in. right. reflexivity.
        -- apply C. right. apply insert_in. left. split; assumption.
Qed.

Lemma holds_here : forall l, forallb here l = true <-> holds l.
Proof. intros l. unfold holds. apply forallb_forall. Qed.
Lemma defs_entry : forall cs e, In e (concat (map call_defs cs)) <->
  exists g, entry cs g /\ e = Def (g_name g) (g_cfgs g).
Proof.
  assert (B : forall b e, In e (block_defs b) <-> exists g, In g (b_regs b) /\ g_skip g = false /\ e = Def (g_name g) (g_cfgs g)).
  { intros b e. unfold block_defs. rewrite in_map_iff. split.
    - intros (g & <- & I). apply filter_In in I. destruct I as (I & S). apply negb_true_iff in S. exists g. auto.
    - intros (g & I & S & ->). exists g. split; [reflexivity|]. apply filter_In. rewrite S. auto. }
  assert (C : forall c e, In e (call_defs c) <-> exists b, In b (c_blocks c) /\ on b = true /\ In e (block_defs b)).
  { intros c e. unfold call_defs, ondefs, conds, regular. rewrite in_app_iff, !in_concat. split.
    - intros [(l & L & I)|(l & L & I)]; apply in_map_iff in L; destruct L as (b & <- & L).
      + apply filter_In in L. destruct L as (L & O). apply filter_In in L. exists b. split; [apply L|]. auto.
      + apply filter_In in L. destruct L as (L & O). exists b. split; [exact L|]. split; [|exact I].
        unfold on, conditional in *. destruct (b_cfgs b); [reflexivity|discriminate].
    - intros (b & L & O & I). destruct (conditional b) eqn:K.
      + left. exists (block_defs b). split; [|exact I]. apply in_map. apply filter_In. split; [|exact O]. apply filter_In. auto.
      + right. exists (block_defs b). split; [|exact I]. apply in_map. apply filter_In. rewrite K. auto. }
  intros cs e. rewrite in_concat. split.
  - intros (l & L & I). apply in_map_iff in L. destruct L as (c & <- & L). apply C in I. destruct I as (b & Ib & O & I).
    apply B in I. destruct I as (g & Ig & S & ->). exists g. split; [|reflexivity]. exists c, b.
    apply holds_here in O. auto.
  - intros (g & (c & b & L & Ib & O & Ig & S) & ->). exists (call_defs c). split; [apply in_map; exact L|].
    apply C. exists b. split; [exact Ib|]. split; [apply holds_here; exact O|]. apply B. exists g. auto.
Qed.

Lemma members_in : forall defs undefs n, In n (members (inner defs undefs)) <->
  exists e, In e (fold_left insert defs []) /\ d_name e = n /\ ~ In n undefs /\ forallb there (d_cfgs e) = true.
Proof.
  intros defs undefs n. unfold members, inner. rewrite in_map_iff. split.
  - intros (e & <- & I). apply filter_In in I. destruct I as (I & T). apply filter_In in I. destruct I as (I & U).
    exists e. split; [exact I|]. split; [reflexivity|]. split; [|exact T]. intros J. apply negb_true_iff in U.
    rewrite <- not_true_iff_false in U. apply U. apply existsb_exists. exists (d_name e). split; [exact J|apply Nat.eqb_refl].
  - intros (e & I & <- & U & T). exists e. split; [reflexivity|]. apply filter_In. split; [|exact T]. apply filter_In.
    split; [exact I|]. apply negb_true_iff. apply not_true_iff_false. intros J. apply U. apply existsb_exists in J.
    destruct J as (x & J & E). apply Nat.eqb_eq in E. rewrite E. exact J.
Qed.
