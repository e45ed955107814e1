(** Properties of register tokens: C90, C91. *)
Require Import NArith List Bool Arith Lia Permutation.
From Verif Require Import RegTokSpec RegTok RegTokProofs.
Import ListNotations.
Open Scope nat_scope.

(** * C90 *)

(** A token that is not [Copy] exists at most once, and one for a whole register excludes all
    others.  This is false for registers without fields: the only field of their token is public
    and of type [PhantomData], so that safe code can make as many tokens as it likes. *)
Definition bare : rdef := Rdef (fun _ => 0) (fun _ => false) true.
Theorem C90_forged_refuted : exists d v r l, toks (rrun d v r l) = [Whole 0 Urt; Whole 0 Urt; Whole 0 Srt].
Proof. exists bare, 0, 0%N, [RJoin 0 Urt; RJoin 0 Urt]. vm_compute. reflexivity. Qed.
Print Assumptions C90_forged_refuted.

(** It is true if each variant has a field.
    Missing: registers without fields. *)
Theorem C90_alone_partial : forall d v r l w t, (forall v, 0 < fields d v) -> t <> Crt ->
  In (Whole w t) (toks (rrun d v r l)) ->
  toks (rrun d v r l) = [Whole w t] /\
  forall m, In m (ops (rrun d v r l)) -> m_tok m = Whole w t.
Proof.
  intros d v r l w t F Ne I. pose proof (rinv_run d F v r l) as X. set (s := rrun d v r l) in *.
  assert (O : owned t = true) by (destruct t; easy).
  apply In_nth_error in I. destruct I as [k E]. pose proof (nth_perm _ _ _ E) as P.
  pose proof (r_cls _ _ X) as C. unfold all in C.
  pose proof (cls_perm d _ _ (Permutation_app_tail (held (ops s)) P) C) as C'. simpl in C'.
  apply whole_alone in C'; [|easy]. apply app_eq_nil in C'. destruct C' as [N1 N2]. rewrite N1 in P.
  apply Permutation_sym, Permutation_length_1_inv in P. split; [easy|].
  intros m Im. destruct (atomic (tag_of (m_tok m))) eqn:Am.
  - apply (r_at _ _ X m Im) in Am. rewrite P in Am. destruct Am as [<-|[]]. reflexivity.
  - exfalso. assert (K : In (m_tok m) (held (ops s))) by (unfold held; apply in_map; apply filter_In; rewrite Am; now split).
    rewrite N2 in K. destruct K.
Qed.
Print Assumptions C90_alone_partial.

Definition affine (x : tok) : bool := match x with Whole _ Crt | Fld _ _ Crt => false | _ => true end.
Theorem C90_once_partial : forall d v r l, (forall v, 0 < fields d v) -> NoDup (filter affine (toks (rrun d v r l))).
Proof.
  intros d v r l F. pose proof (r_cls _ _ (rinv_run d F v r l)) as C. set (s := rrun d v r l) in *.
  assert (Ea : forall x, affine x = is_owned x) by (intros [? []|? ? []]; reflexivity).
  rewrite (filter_ext _ _ Ea).
  assert (N : NoDup (filter is_owned (all s))).
  { destruct C as [(w & t & O & ->)|[(w & t & O & N & _)|(w & m & _ & N & _)]].
    - simpl. destruct (is_owned _); repeat constructor; easy.
    - now apply NoDup_filter.
    - exact N. }
  unfold all in N. rewrite filter_app in N. clear - N. revert N. generalize (filter is_owned (held (ops s))).
  induction (filter is_owned (toks s)) as [|x a IH]; intros b N; [constructor|]. simpl in N. inversion N; subst.
  constructor; [|eapply IH; eauto]. intros I. apply H1. apply in_or_app. now left.
Qed.
Print Assumptions C90_once_partial.

(** While a non-atomic [modify] is under way there is no token at all that something else could
    be done with. *)
Theorem C90_exclusive_partial : forall d v r l m, (forall v, 0 < fields d v) ->
  In m (ops (rrun d v r l)) -> tag_of (m_tok m) = Urt ->
  toks (rrun d v r l) = [] /\ ops (rrun d v r l) = [m].
Proof.
  intros d v r l m F I E. apply (borrowed_alone d); [now apply rinv_run|easy|]. now rewrite E.
Qed.
Print Assumptions C90_exclusive_partial.

(** A register with one field, and a write-only variant with two. *)
Definition three (b : bool) : rdef := Rdef (fun v => S v) (fun v => v =? 1) b.
Definition ex_tokens : list ract :=
  [RSplit 0; RConv 1 Crt; RConv 0 Crt; RJoin 1 Srt].
(** Field 1 has been made copyable and copied; the register cannot be put together
    again. *)
Example ex_tokens_runs :
  toks (rrun (three true) 1 0%N ex_tokens) = [Fld 1 1 Crt; Fld 1 1 Crt; Fld 1 0 Srt].
Proof. vm_compute. reflexivity. Qed.
(** Unless all of it is there. *)
Example ex_join : toks (rrun (three true) 1 0%N [RSplit 0; RJoin 1 Srt; RConv 0 Urt]) = [Whole 1 Urt].
Proof. vm_compute. reflexivity. Qed.
Example ex_borrowed : exists m, In m (ops (rrun (three true) 0 7%N [RConv 0 Urt; RBegin 3 0 N.succ; RConv 0 Crt; RJoin 0 Crt])) /\ tag_of (m_tok m) = Urt.
Proof. exists (Mop 3 (Whole 0 Urt) N.succ 7%N). split; [left; vm_compute; reflexivity|reflexivity]. Qed.

(** * C91 *)

(** The value of the register is that after the completed stores and updates one after the other:
    no [modify], atomic or not, overwrites what has been written since it has read the register.
    This is false: for forged tokens (C90), *)
Theorem C91_forged_refuted : exists d v r l, hw d = true /\ reg (rrun d v r l) <> replay r (rlog (rrun d v r l)).
Proof.
  exists bare, 0, 0%N, [RJoin 0 Urt; RJoin 0 Urt; RBegin 1 0 N.succ; RBegin 2 0 N.succ; REnd 1 false; REnd 2 false].
  split; [reflexivity|]. vm_compute. discriminate.
Qed.
Print Assumptions C91_forged_refuted.

(** and, in the build without atomics, if the closure of a [modify] writes to the register by
    itself: what it has written is lost. *)
Theorem C91_nested_refuted : exists d v r l, (forall v, 0 < fields d v) /\ hw d = false /\
  ops (rrun d v r l) = [] /\ reg (rrun d v r l) <> replay r (rlog (rrun d v r l)).
Proof.
  exists (three false), 0, 0%N,
    [RBegin 1 0 (fun v => N.lor v 1); RBegin 1 0 (fun v => N.lor v 2); REnd 1 false; REnd 1 false].
  split; [intros; simpl; lia|]. split; [reflexivity|]. split; [reflexivity|]. vm_compute. discriminate.
Qed.
Print Assumptions C91_nested_refuted.

(** With atomics it is true, even for nested calls.
    Missing: registers without fields. *)
Theorem C91_hw_partial : forall d v r l, (forall v, 0 < fields d v) -> hw d = true ->
  reg (rrun d v r l) = replay r (rlog (rrun d v r l)).
Proof. intros. now apply hw_run. Qed.
Print Assumptions C91_hw_partial.

(** Without atomics it is true if no closure uses the register.
    Missing: registers without fields; closures that do. *)
Theorem C91_soft_partial : forall d v r l, (forall v, 0 < fields d v) -> hw d = false ->
  (forall l1 a l2, l = l1 ++ a :: l2 -> nested (rrun d v r l1) a = false) ->
  reg (rrun d v r l) = replay r (rlog (rrun d v r l)).
Proof. intros. now apply soft_run. Qed.
Print Assumptions C91_soft_partial.

(** A whole register and the field of a write-only variant are written to; a field of a register that can be read is not. *)
Example C91_case_store :
  reg (rrun (three true) 0 3%N [RStore 1 0 9%N]) = 9%N /\ reg (rrun (three true) 1 3%N [RSplit 0; RStore 1 1 5%N]) = 5%N /\
  reg (rrun (three true) 0 3%N [RSplit 0; RStore 1 0 5%N]) = 3%N.
Proof. vm_compute. auto. Qed.
(** The same nested calls with atomics: the outer one is made again. *)
Example ex_nested_hw :
  let s := rrun (three true) 0 0%N [RBegin 1 0 (fun v => N.lor v 1); RBegin 1 0 (fun v => N.lor v 2); REnd 1 false; REnd 1 false] in
  reg s = 2%N /\ length (ops s) = 1 /\ reg (rstep (three true) s (REnd 1 false)) = 3%N.
Proof. vm_compute. auto. Qed.
(** Two contexts, one of which interrupts a non-atomic [modify] in vain, then all share the fields. *)
Definition ex_mixed (again : list ract) : list ract :=
  [RConv 0 Urt; RBegin 1 0 (fun v => N.lor v 1); RStore 2 0 9%N; REnd 1 false; RConv 0 Srt; RSplit 0; RConv 0 Crt;
   RBegin 1 0 (fun v => N.lor v 2); RBegin 2 0 (fun v => N.lor v 4); REnd 1 false; REnd 2 true] ++ again ++ [REnd 2 false].
Example ex_mixed_hw : reg (rrun (three true) 0 0%N (ex_mixed [])) = 7%N /\ length (rlog (rrun (three true) 0 0%N (ex_mixed []))) = 3.
Proof. vm_compute. auto. Qed.
Example ex_mixed_soft :
  let l := ex_mixed [RBegin 2 0 (fun v => N.lor v 4)] in
  reg (rrun (three false) 0 0%N l) = 7%N /\ length (rlog (rrun (three false) 0 0%N l)) = 3 /\
  forallb (fun n => negb (nested (rrun (three false) 0 0%N (firstn n l)) (nth n l (RDrop 0)))) (seq 0 13) = true.
Proof. vm_compute. auto. Qed.
