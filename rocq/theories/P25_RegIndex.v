(** C92: an index of register tokens has one token for each declared register. *)
Require Import List Bool Arith.
From Verif Require Import RegIndex RegIndexSpec RegIndexProofs.
Import ListNotations.

Definition yes := Cfg true true.
Definition no := Cfg false false.

(** One crate with [SCB { #[cfg(a)] CCR; #[cfg(not(a))] CCR; }] where [a] holds: no token for it. *)
Theorem C92_twice_refuted : exists cs c n,
  program cs [] c /\ same_crate cs /\ declared [c] n /\ index cs (c_name c) [] = Some [].
Proof.
  exists [Call 0 None [Block [] [Regdef 7 [yes] false; Regdef 7 [no] false]]],
         (Call 0 None [Block [] [Regdef 7 [yes] false; Regdef 7 [no] false]]), 7.
  split; [|split; [|split]].
  - split; [repeat constructor; intros []|]. split; [apply incl_refl|]. split; [repeat constructor; intros []|]. cbn. auto.
  - intros g k (c & b & [<-|[]] & [<-|[]] & _ & [<-|[<-|[]]] & _) [<-|[]]; reflexivity.
  - exists (Regdef 7 [yes] false). split; [|split; [intros k [<-|[]]; reflexivity|reflexivity]].
    exists (Call 0 None [Block [] [Regdef 7 [yes] false; Regdef 7 [no] false]]), (Block [] [Regdef 7 [yes] false; Regdef 7 [no] false]).
    cbn. repeat split; auto. intros k [].
  - vm_compute. reflexivity.
Qed.
Print Assumptions C92_twice_refuted.

(** Two crates: the register is declared under a feature of the first one, the second one does not
    have the feature. The condition of a block has its meaning from the first, that of a register does not. *)
Theorem C92_crates_refuted : exists cs c n m,
  program cs [] c /\ agree cs /\ declared [c] n /\ declared [c] m /\ index cs (c_name c) [] = Some [m] /\ n <> m.
Proof.
  set (f := Cfg true false).
  set (b := Block [] [Regdef 7 [f] false]). set (d := Block [f] [Regdef 8 [] false]).
  exists [Call 0 None [b; d]], (Call 0 None [b; d]), 7, 8.
  split; [|split; [|split; [|split; [|split]]]].
  - split; [repeat constructor; intros []|]. split; [apply incl_refl|]. split; [repeat constructor; intros []|]. cbn. auto.
  - intros g g' _ (c & e & [<-|[]] & [<-|[<-|[]]] & _ & [<-|[]] & _) _ _ k; [intros [<-|[]]; reflexivity|intros []].
  - exists (Regdef 7 [f] false). split; [|split; [intros k [<-|[]]; reflexivity|reflexivity]].
    exists (Call 0 None [b; d]), b. cbn. repeat split; auto. intros k [].
  - exists (Regdef 8 [] false). split; [|split; [intros k []|reflexivity]].
    exists (Call 0 None [b; d]), d. cbn. repeat split; auto. intros k [<-|[]]; reflexivity.
  - vm_compute. reflexivity.
  - discriminate.
Qed.
Print Assumptions C92_crates_refuted.

(** Otherwise the index has exactly the declared registers that are not excluded. *)
Theorem C92_exact_partial : forall cs chain c undefs,
  program cs chain c -> same_crate (chain ++ [c]) -> agree (chain ++ [c]) ->
  exists l, index cs (c_name c) undefs = Some l /\
    forall n, In n l <-> declared (chain ++ [c]) n /\ ~ In n undefs.
Proof.
  intros cs chain c undefs P SC AG. eexists. split; [apply (index_defs _ _ _ _ P)|]. intros n.
  set (all := chain ++ [c]) in *. destruct (fold_insert (concat (map call_defs all)) [] (NoDup_nil _)) as (_ & B & C).
  assert (T : forall g, entry all g -> (forallb there (g_cfgs g) = true <-> holds (g_cfgs g))).
  { intros g G. rewrite forallb_forall. unfold holds. split; intros H k J; specialize (H k J); specialize (SC g k G J); congruence. }
  rewrite members_in. split.
  - intros (e & I & <- & U & K). split; [|exact U]. destruct (B e I) as [J|[]]. apply defs_entry in J.
    destruct J as (g & G & ->). exists g. split; [exact G|]. split; [apply (T g G); exact K|reflexivity].
  - intros ((g & G & H & <-) & U). destruct (C (Def (g_name g) (g_cfgs g))) as (e & I & E).
    { left. apply defs_entry. exists g. auto. }
    exists e. split; [exact I|]. split; [exact E|]. split; [exact U|]. destruct (B e I) as [J|[]].
    apply defs_entry in J. destruct J as (g' & G' & ->). apply (T g' G'). apply (AG g g'); auto.
Qed.
Print Assumptions C92_exact_partial.

(** No register has two tokens in an index, whatever the conditions. *)
Theorem C92_once : forall cs chain c undefs, program cs chain c ->
  exists l, index cs (c_name c) undefs = Some l /\ NoDup l.
Proof.
  intros cs chain c undefs P. eexists. split; [apply (index_defs _ _ _ _ P)|].
  destruct (fold_insert (concat (map call_defs (chain ++ [c]))) [] (NoDup_nil _)) as (A & _).
  unfold members, inner. apply filter_nodup, filter_nodup. exact A.
Qed.
Print Assumptions C92_once.

(** In one crate, an index never has a token for a register that is not declared or that is excluded. *)
Theorem C92_sound : forall cs chain c undefs l,
  program cs chain c -> same_crate (chain ++ [c]) -> index cs (c_name c) undefs = Some l ->
  forall n, In n l -> declared (chain ++ [c]) n /\ ~ In n undefs.
Proof.
  intros cs chain c undefs l P SC E n I. rewrite (index_defs _ _ _ _ P) in E. inversion E; subst l.
  apply members_in in I. destruct I as (e & I & <- & U & K). split; [|exact U].
  destruct (fold_insert (concat (map call_defs (chain ++ [c]))) [] (NoDup_nil _)) as (_ & B & _).
  destruct (B e I) as [J|[]]. apply defs_entry in J. destruct J as (g & G & ->). exists g. split; [exact G|].
  split; [|reflexivity]. intros k J. rewrite <- (SC g k G J). cbn in K. rewrite forallb_forall in K. apply K. exact J.
Qed.
Print Assumptions C92_sound.

(** A program with conditional blocks that hold and do not, an exclamation mark, an excluded register
    and two calls that extend the same one. *)
Definition base := Call 0 None [Block [yes; no] [Regdef 1 [] false]; Block [] [Regdef 2 [] false; Regdef 3 [] true]; Block [yes] [Regdef 4 [] false; Regdef 5 [no] false]].
Definition ext1 := Call 1 (Some 0) [Block [yes; yes] [Regdef 6 [] false; Regdef 7 [yes] false]].
Definition ext2 := Call 2 (Some 0) [Block [] [Regdef 8 [] false]].
Example ex_program : program [base; ext1; ext2] [base] ext1.
Proof.
  split; [repeat constructor; cbn; intuition discriminate|]. split; [intros x [<-|[<-|[]]]; cbn; auto|].
  split; [repeat constructor; cbn; intuition discriminate|]. cbn. auto.
Qed.
Example ex_index : index [base; ext1; ext2] 1 [6] = Some [4; 2; 7].
Proof. reflexivity. Qed.
Example ex_other : index [base; ext1; ext2] 2 [] = Some [4; 2; 8].
Proof. reflexivity. Qed.
Example ex_same : same_crate ([base] ++ [ext1]) /\ agree ([base] ++ [ext1]).
Proof.
  split.
  - intros g k (c & b & C & B & _ & R & _). cbn in C. destruct C as [<-|[<-|[]]]; cbn in B.
    + destruct B as [<-|[<-|[<-|[]]]]; cbn in R; intuition (subst; cbn in *; intuition (subst; reflexivity)).
    + destruct B as [<-|[]]; cbn in R; intuition (subst; cbn in *; intuition (subst; reflexivity)).
  - intros g g' (c & b & C & B & _ & R & _) (c' & b' & C' & B' & _ & R' & _).
    cbn in C, C'. destruct C as [<-|[<-|[]]], C' as [<-|[<-|[]]]; cbn in B, B';
      repeat match goal with H : _ \/ _ |- _ => destruct H | H : False |- _ => destruct H end; subst; cbn in R, R';
      repeat match goal with H : _ \/ _ |- _ => destruct H | H : False |- _ => destruct H end; subst; cbn; intros; try discriminate; auto.
Qed.
