(** The soft-thread machine with at most 32 threads, seen as a transition system on
    sets: the header is the running level and a set of levels, a cell is a set of
    threads.  A level is a priority plus 1. *)
Require Import NArith List Bool Lia.
From Verif Require Import SoftSpec Soft.
Import ListNotations.
Open Scope N_scope.
Local Arguments N.sub : simpl never.
Local Arguments N.add : simpl never.
Local Arguments N.eqb : simpl never.
Local Arguments N.shiftl : simpl never.
Local Arguments N.shiftr : simpl never.
Local Arguments N.modulo : simpl never.

(** ** Words *)
Lemma land_bit w k : (N.land w (2 ^ k) =? 0) = negb (N.testbit w k).
Proof.
  destruct (N.testbit w k) eqn:E; simpl.
  - apply N.eqb_neq. intros H. assert (K : N.testbit (N.land w (2 ^ k)) k = true).
    { rewrite N.land_spec, E, N.pow2_bits_true. reflexivity. }
    rewrite H, N.bits_0 in K. discriminate.
  - apply N.eqb_eq. apply N.bits_inj. intros n. rewrite N.land_spec, N.bits_0.
    destruct (N.eqb_spec k n) as [<-|Hn]; [now rewrite E|]. rewrite N.pow2_bits_false; auto. now rewrite andb_false_r.
Qed.
Lemma pow2_bit k n : N.testbit (2 ^ k) n = (n =? k).
Proof. rewrite N.pow2_bits_eqb. apply N.eqb_sym. Qed.
Lemma one_shl k : N.shiftl 1 k = 2 ^ k.
Proof. rewrite N.shiftl_1_l. reflexivity. Qed.

Lemma bit32 i : i < 32 -> pending_bit i = 2 ^ i.
Proof.
  intros H. unfold pending_bit, COL_BITS. rewrite !one_shl. f_equal.
  change (2 ^ 5 - 1) with (N.ones 5). rewrite N.land_ones. apply N.mod_small. exact H.
Qed.
Lemma row1 count : 1 <= count <= 32 -> row_size count = 1.
Proof.
  intros H. unfold row_size, COL_BITS. rewrite one_shl. change (2 ^ 5 - 1) with (N.ones 5).
  rewrite N.land_ones, N.shiftr_div_pow2. change (2 ^ 5) with 32.
  destruct (N.eq_dec count 32) as [->|Hn]; [reflexivity|].
  rewrite N.div_small, N.mod_small by lia. destruct (N.ltb_spec 0 count); lia.
Qed.
Lemma cell_at count i p : 1 <= count <= 32 -> i < count -> p < 27 -> cell_idx count i p = 28 - (p + 1).
Proof.
  intros H Hi Hp. unfold cell_idx, COL_BITS, PRIORITY_LEVELS. rewrite row1, N.shiftr_div_pow2 by auto. change (2 ^ 5) with 32.
  rewrite N.div_small by lia. lia.
Qed.

(** The header. *)
Definition hdC (w : N) : N := N.shiftr w 27.
Definition hdP (w l : N) : bool := N.testbit w (l - 1).
Lemma hdC_lor w p : p < 27 -> hdC (N.lor w (N.shiftl 1 p)) = hdC w.
Proof.
  intros H. unfold hdC. rewrite one_shl, N.shiftr_lor. replace (N.shiftr (2 ^ p) 27) with 0; [apply N.lor_0_r|].
  rewrite N.shiftr_div_pow2. symmetry. apply N.div_small. apply N.pow_lt_mono_r; lia.
Qed.
Lemma hdP_lor w p l : 1 <= l -> hdP (N.lor w (N.shiftl 1 p)) l = hdP w l || (l =? p + 1).
Proof.
  intros H. unfold hdP. rewrite one_shl, N.lor_spec, pow2_bit. f_equal.
  destruct (N.eqb_spec (l - 1) p), (N.eqb_spec l (p + 1)); auto; lia.
Qed.
Lemma hdC_set w p : p <= 27 -> hdC (cursor_set_priority w p) = p.
Proof.
  intros H. unfold hdC, cursor_set_priority, PRIORITY_LEVELS. rewrite N.shiftr_lor, N.shiftr_land.
  rewrite (N.shiftr_div_pow2 (N.ones 27)). replace (N.ones 27 / 2 ^ 27) with 0 by reflexivity. rewrite N.land_0_r, N.lor_0_l.
  rewrite N.shiftl_mul_pow2, N.mod_small by (change (2 ^ 27) with 134217728; change (2 ^ 32) with 4294967296; lia).
  rewrite N.shiftr_div_pow2. apply N.div_mul. discriminate.
Qed.
Lemma hdP_set w p l : p <= 27 -> 1 <= l <= 27 -> hdP (cursor_set_priority w p) l = hdP w l.
Proof.
  intros H Hl. unfold hdP, cursor_set_priority, PRIORITY_LEVELS.
  rewrite N.mod_small by (rewrite N.shiftl_mul_pow2; change (2 ^ 27) with 134217728; change (2 ^ 32) with 4294967296; lia).
  rewrite N.lor_spec, N.land_spec, N.ones_spec_low, andb_true_r, N.shiftl_spec_low, orb_false_r by lia. reflexivity.
Qed.
Lemma hdC_diff w p : 1 <= p <= 27 -> hdC (N.ldiff w (N.shiftl 1 (p - 1))) = hdC w.
Proof.
  intros H. unfold hdC. rewrite one_shl, N.shiftr_ldiff. replace (N.shiftr (2 ^ (p - 1)) 27) with 0; [apply N.ldiff_0_r|].
  rewrite N.shiftr_div_pow2. symmetry. apply N.div_small. apply N.pow_lt_mono_r; lia.
Qed.
Lemma hdP_diff w p l : 1 <= l -> 1 <= p -> hdP (N.ldiff w (N.shiftl 1 (p - 1))) l = hdP w l && negb (l =? p).
Proof.
  intros H Hp. unfold hdP. rewrite one_shl, N.ldiff_spec, pow2_bit. f_equal. f_equal.
  destruct (N.eqb_spec (l - 1) (p - 1)), (N.eqb_spec l p); auto; lia.
Qed.

Lemma find_spec n w prev : prev <= N.of_nat n ->
  match find_priority n w prev with
  | Some p => prev < p <= N.of_nat n /\ hdP w p = true /\ forall l, p < l <= N.of_nat n -> hdP w l = false
  | None => forall l, prev < l <= N.of_nat n -> hdP w l = false
  end.
Proof.
  induction n as [|n IH]; intros H.
  - simpl. intros l Hl. lia.
  - cbn [find_priority]. destruct (N.eqb_spec (N.of_nat (S n)) prev) as [E|E]; [intros l Hl; lia|].
    rewrite one_shl, land_bit, negb_involutive. fold (hdP w (N.of_nat (S n))). destruct (hdP w (N.of_nat (S n))) eqn:B.
    + split; [lia|]. split; auto. intros l Hl. lia.
    + specialize (IH ltac:(lia)). destruct (find_priority n w prev) as [p|].
      * destruct IH as (A1 & A2 & A3). split; [lia|]. split; auto. intros l Hl.
        destruct (N.eq_dec l (N.of_nat (S n))) as [->|]; auto. apply A3. lia.
      * intros l Hl. destruct (N.eq_dec l (N.of_nat (S n))) as [->|]; auto. apply IH. lia.
Qed.

Lemma find_cursor w pri prev : prev <= pri <= 27 ->
  match cursor_find_priority w pri prev with
  | Some (p, w') => prev < p <= pri /\ hdP w p = true /\ (forall l, p < l <= pri -> hdP w l = false) /\
      hdC w' = p /\ forall l, 1 <= l <= 27 -> hdP w' l = hdP w l && negb (l =? p)
  | None => forall l, prev < l <= pri -> hdP w l = false
  end.
Proof.
  intros H. unfold cursor_find_priority. pose proof (find_spec (N.to_nat pri) w prev) as F.
  rewrite N2Nat.id in F. specialize (F ltac:(lia)). destruct (find_priority _ _ _) as [p|]; auto.
  destruct F as (A1 & A2 & A3). split; [lia|]. split; auto. split; auto. split.
  - rewrite hdC_diff by lia. apply hdC_set. lia.
  - intros l Hl. rewrite hdP_diff, hdP_set by lia. reflexivity.
Qed.

(** ** The sets *)
Definition hC (s : sst) : N := hdC (pm s 0).
Definition hP (s : sst) (l : N) : bool := hdP (pm s 0) l.
Definition cell (s : sst) (l i : N) : bool := N.testbit (pm s (28 - l)) i.

Lemma cell_init l i : cell sinit l i = false.
Proof. reflexivity. Qed.
Lemma hP_init l : hP sinit l = false.
Proof. reflexivity. Qed.
Lemma hC_init : hC sinit = 0.
Proof. reflexivity. Qed.

(** ** Well-formed stacks *)
Definition wfq (count ptr pri : N) (q : lpos) : Prop :=
  ptr = 28 - pri /\
  match q with
  | RLoad i => i = 0
  | RBit i b _ | RMod i b _ | RCall i b _ | RBody i b _ => i < count /\ b = 2 ^ i
  | RNext | RNextC _ => True
  end.
Definition wff (count : N) (f : frame) : Prop :=
  match f with
  | FPrio i _ | FClr i | FIs i => i < count
  | FCell i p _ | FHead i p _ | FClrC i p | FIsC i p => i < count /\ p < 27
  | _ => True
  end.
(** [c]: the level that the header shows. *)
Fixpoint wf (count : N) (l : list frame) (c : N) : Prop :=
  match l with
  | [] => c = 0
  | FLoop ptr pri prev q :: r => pri = c /\ prev < pri <= 27 /\ wfq count ptr pri q /\ wf count r prev
  | f :: r => wff count f /\ wf count r c
  end.

Lemma wf_le count l c : wf count l c -> c <= 27.
Proof.
  revert c. induction l as [|f l IH]; simpl; intros c H; [lia|].
  destruct f; try (apply IH; apply H). lia.
Qed.

(** ** The transitions *)

(** The frame that follows a bit. *)
Definition adv (count ptr pri prev i w : N) : frame :=
  FLoop ptr pri prev (if i + 1 =? count then RNext else RBit (i + 1) (2 ^ (i + 1)) w).

Lemma after_adv count ptr pri prev i w : count <= 32 -> i < count ->
  after_bit count ptr pri prev i (2 ^ i) w = adv count ptr pri prev i w.
Proof.
  intros H Hi. unfold after_bit, adv. rewrite N.mod_small by (change (2 ^ 16) with 65536; lia).
  destruct (N.eqb_spec (i + 1) count) as [E|E]; auto.
  assert (K : N.shiftl (2 ^ i) 1 mod 2 ^ 32 = 2 ^ (i + 1)).
  { rewrite N.shiftl_mul_pow2, <- N.pow_add_r, N.mod_small; auto. apply N.pow_lt_mono_r; lia. }
  rewrite K. destruct (N.eqb_spec (2 ^ (i + 1)) 0) as [Z|_]; auto. apply N.pow_nonzero in Z; lia.
Qed.

(** Nothing but the stack changes. *)
Definition quiet (s s' : sst) : Prop :=
  hC s' = hC s /\ (forall l, hP s' l = hP s l) /\ (forall l i, cell s' l i = cell s l i) /\ pr s' = pr s.

Inductive tr (count : N) (s s' : sst) : Prop :=
| T_skip : s' = s -> tr count s s'
| T_irq : quiet s s' -> slog s' = slog s -> stk s' = FIrq :: stk s -> tr count s s'
| T_ret r : quiet s s' -> slog s' = slog s -> stk s = FIrq :: r -> stk s' = r -> tr count s s'
| T_end e r : quiet s s' -> slog s' = slog s ++ [e] -> stk s = FEnd e :: r -> stk s' = r -> tr count s s'
| T_wake i auto : quiet s s' -> slog s' = slog s ++ [EWake i] -> i < count -> stk s' = FPrio i auto :: stk s -> tr count s s'
| T_prio i auto r : quiet s s' -> slog s' = slog s -> stk s = FPrio i auto :: r -> stk s' = FCell i (pr s i) auto :: r ->
    tr count s s'
| T_pend i p auto r : hC s' = hC s -> (forall l, hP s' l = hP s l) -> pr s' = pr s ->
    (forall l j, 1 <= l <= 27 -> cell s' l j = cell s l j || ((l =? p + 1) && (j =? i))) ->
    slog s' = slog s ++ [EPend i p] -> stk s = FCell i p auto :: r -> cell s (p + 1) i = false ->
    stk s' = FHead i p auto :: r -> tr count s s'
| T_again i p auto r : hC s' = hC s -> (forall l, hP s' l = hP s l) -> pr s' = pr s ->
    (forall l j, 1 <= l <= 27 -> cell s' l j = cell s l j) ->
    slog s' = slog s ++ [EPend i p] -> stk s = FCell i p auto :: r -> cell s (p + 1) i = true ->
    stk s' = FEnd (if auto then EWoken i else EWill i false) :: r -> tr count s s'
| T_mark i p auto r : hC s' = hC s -> (forall l, 1 <= l <= 27 -> hP s' l = hP s l || (l =? p + 1)) -> pr s' = pr s ->
    (forall l j, 1 <= l <= 27 -> cell s' l j = cell s l j) ->
    slog s' = slog s ++ [EMark i p] -> stk s = FHead i p auto :: r ->
    stk s' = (if hC s <? p + 1 then if auto then [FStart; FEnd (EWoken i)] else [FEnd (EWill i true)]
              else [FEnd (if auto then EWoken i else EWill i false)]) ++ r -> tr count s s'
| T_preempt : quiet s s' -> slog s' = slog s -> stk s' = FStart :: stk s -> tr count s s'
| T_start0 f c r : quiet s s' -> slog s' = slog s -> stk s = f :: r -> f = FStart \/ f = FStartC c ->
    (forall l, hC s < l <= 27 -> hP s l = false) -> stk s' = r -> tr count s s'
| T_start1 f c c' r : quiet s s' -> slog s' = slog s -> stk s = f :: r -> f = FStart \/ f = FStartC c ->
    stk s' = FStartC c' :: r -> tr count s s'
| T_sel f c p r : (f = FStart \/ f = FStartC c) -> hC s < p <= 27 -> hP s p = true ->
    (forall l, p < l <= 27 -> hP s l = false) -> hC s' = p ->
    (forall l, 1 <= l <= 27 -> hP s' l = hP s l && negb (l =? p)) -> pr s' = pr s ->
    (forall l j, 1 <= l <= 27 -> cell s' l j = cell s l j) ->
    slog s' = slog s ++ [ESel (p - 1)] -> stk s = f :: r ->
    stk s' = FLoop (28 - p) p (hC s) (RLoad 0) :: r -> tr count s s'
| T_empty ptr pri prev r : quiet s s' -> slog s' = slog s -> stk s = FLoop ptr pri prev (RLoad 0) :: r ->
    (forall i, cell s pri i = false) -> stk s' = FLoop ptr pri prev RNext :: r -> tr count s s'
| T_load ptr pri prev w r : quiet s s' -> slog s' = slog s -> stk s = FLoop ptr pri prev (RLoad 0) :: r ->
    (forall i, N.testbit w i = cell s pri i) -> stk s' = FLoop ptr pri prev (RBit 0 1 w) :: r -> tr count s s'
| T_bit ptr pri prev i b w r : quiet s s' -> slog s' = slog s -> stk s = FLoop ptr pri prev (RBit i b w) :: r ->
    N.testbit w i = true -> stk s' = FLoop ptr pri prev (RMod i b w) :: r -> tr count s s'
| T_pass ptr pri prev i b w r : quiet s s' -> slog s' = slog s -> stk s = FLoop ptr pri prev (RBit i b w) :: r ->
    N.testbit w i = false -> stk s' = adv count ptr pri prev i w :: r -> tr count s s'
| T_fail ptr pri prev i b w w' r : quiet s s' -> slog s' = slog s -> stk s = FLoop ptr pri prev (RMod i b w) :: r ->
    (forall j, N.testbit w' j = cell s pri j) -> stk s' = FLoop ptr pri prev (RMod i b w') :: r -> tr count s s'
| T_take ptr pri prev i b w w' r : hC s' = hC s -> (forall l, hP s' l = hP s l) -> pr s' = pr s ->
    (forall l j, 1 <= l <= 27 -> cell s' l j = cell s l j && negb ((l =? pri) && (j =? i))) ->
    slog s' = slog s ++ [ETake i (pri - 1)] -> stk s = FLoop ptr pri prev (RMod i b w) :: r ->
    (forall j, N.testbit w' j = cell s pri j) -> stk s' = FLoop ptr pri prev (RCall i b w') :: r -> tr count s s'
| T_body ptr pri prev i b w r : quiet s s' -> slog s' = slog s ++ [EResume i (pri - 1)] ->
    stk s = FLoop ptr pri prev (RCall i b w) :: r -> stk s' = FLoop ptr pri prev (RBody i b w) :: r -> tr count s s'
| T_done ptr pri prev i b w r : quiet s s' -> slog s' = slog s ++ [EDone i] ->
    stk s = FLoop ptr pri prev (RBody i b w) :: r -> stk s' = adv count ptr pri prev i w :: r -> tr count s s'
| T_next0 ptr pri prev q c r : quiet s s' -> slog s' = slog s -> (q = RNext \/ q = RNextC c) ->
    stk s = FLoop ptr pri prev q :: r -> forall c', stk s' = FLoop ptr pri prev (RNextC c') :: r -> tr count s s'
| T_next ptr pri prev q c r p : (q = RNext \/ q = RNextC c) -> prev < p < pri -> hP s p = true ->
    (forall l, p < l < pri -> hP s l = false) -> hC s' = p ->
    (forall l, 1 <= l <= 27 -> hP s' l = hP s l && negb (l =? p)) -> pr s' = pr s ->
    (forall l j, 1 <= l <= 27 -> cell s' l j = cell s l j) ->
    slog s' = slog s ++ [ENext (p - 1)] -> stk s = FLoop ptr pri prev q :: r ->
    stk s' = FLoop (28 - p) p prev (RLoad 0) :: r -> tr count s s'
| T_back ptr pri prev q c r : (q = RNext \/ q = RNextC c) ->
    (forall l, prev < l < pri -> hP s l = false) -> hC s' = prev ->
    (forall l, 1 <= l <= 27 -> hP s' l = hP s l) -> pr s' = pr s ->
    (forall l j, 1 <= l <= 27 -> cell s' l j = cell s l j) ->
    slog s' = slog s ++ [EBack] -> stk s = FLoop ptr pri prev q :: r -> stk s' = r -> tr count s s'
| T_clr0 i : quiet s s' -> slog s' = slog s -> i < count -> stk s' = FClr i :: stk s -> tr count s s'
| T_clr1 i r : quiet s s' -> slog s' = slog s -> stk s = FClr i :: r -> stk s' = FClrC i (pr s i) :: r -> tr count s s'
| T_clr i p r : hC s' = hC s -> (forall l, hP s' l = hP s l) -> pr s' = pr s ->
    (forall l j, 1 <= l <= 27 -> cell s' l j = cell s l j && negb ((l =? p + 1) && (j =? i))) ->
    slog s' = slog s ++ [EClear i p] -> stk s = FClrC i p :: r -> stk s' = r -> tr count s s'
| T_is0 i : quiet s s' -> slog s' = slog s -> i < count -> stk s' = FIs i :: stk s -> tr count s s'
| T_is1 i r : quiet s s' -> slog s' = slog s -> stk s = FIs i :: r -> stk s' = FIsC i (pr s i) :: r -> tr count s s'
| T_is i p r : quiet s s' -> slog s' = slog s ++ [EIs i p (cell s (p + 1) i)] -> stk s = FIsC i p :: r -> stk s' = r ->
    tr count s s'
| T_setprio i p : hC s' = hC s -> (forall l, hP s' l = hP s l) -> (forall l j, cell s' l j = cell s l j) ->
    pr s' = (fun j => if j =? i then p else pr s j) -> i < count -> p < 27 ->
    slog s' = slog s ++ [EPrio i p] -> stk s' = stk s -> tr count s s'.

Lemma quiet_refl s l : quiet s (set_stk s l).
Proof. unfold quiet. auto. Qed.
Lemma quiet_acc count s c l : quiet s (set_stk (access count s c) l).
Proof. unfold quiet. auto. Qed.
Lemma quiet_emit s l e : quiet s (semit (set_stk s l) e).
Proof. unfold quiet. auto. Qed.
Lemma quiet_acc_emit count s c l e : quiet s (semit (set_stk (access count s c) l) e).
Proof. unfold quiet. auto. Qed.
#[export] Hint Resolve quiet_refl quiet_acc quiet_emit quiet_acc_emit : soft.

Section Small.
Variable count : N.
Hypothesis small : 1 <= count <= 32.
Variable atomics : bool.

Record base (s : sst) : Prop := Base {
  b_wf : wf count (stk s) (hC s);
  b_pr : forall i, pr s i < 27
}.

Lemma nexted_tr s0 s ptr pri prev q c r (Q : q = RNext \/ q = RNextC c) : base s0 ->
  s = access count s0 0 -> stk s0 = FLoop ptr pri prev q :: r ->
  tr count s0 (nexted count s ptr pri prev r (pm s 0)).
Proof.
  intros B -> E. pose proof (b_wf _ B) as W. rewrite E in W. simpl in W. destruct W as (Wp & Wr & (Wq & _) & W).
  unfold nexted, next_new. change (pm (access count s0 0) 0) with (pm s0 0). pose proof (find_cursor (pm s0 0) (pri - 1) prev ltac:(lia)) as F.
  destruct (cursor_find_priority (pm s0 0) (pri - 1) prev) as [[p c']|].
  - destruct F as (F1 & F2 & F3 & F4 & F5). destruct (N.eqb_spec p prev) as [|_]; [lia|].
    rewrite row1 by auto. replace (ptr + 1 * (pri - p)) with (28 - p) by lia.
    eapply T_next with (ptr := ptr) (pri := pri) (prev := prev) (q := q) (c := c) (r := r) (p := p); eauto; try (simpl; lia).
    + intros l Hl. apply F3. lia.
    + intros l j Hl. unfold cell. simpl. destruct (N.eqb_spec (28 - l) 0); auto. lia.
  - rewrite N.eqb_refl. eapply T_back with (ptr := ptr) (pri := pri) (prev := prev) (q := q) (c := c) (r := r); eauto.
    + intros l Hl. apply F. lia.
    + unfold hC. simpl. apply hdC_set. lia.
    + intros l Hl. unfold hP. simpl. apply hdP_set; lia.
    + intros l j Hl. unfold cell. simpl. destruct (N.eqb_spec (28 - l) 0); auto. lia.
Qed.

Lemma start_tr s0 f c r w : base s0 -> (f = FStart \/ f = FStartC c) -> stk s0 = f :: r -> w = pm s0 0 ->
  match start_new w with
  | None => tr count s0 (set_stk (access count s0 0) r)
  | Some (p, prev, c') =>
      tr count s0 (semit (set_stk (put (access count s0 0) 0 c') (started count p prev :: r)) (ESel (p - 1)))
  end.
Proof.
  intros B Hf E ->. pose proof (wf_le _ _ _ (b_wf _ B)) as W. unfold start_new.
  change (N.shiftr (pm s0 0) PRIORITY_LEVELS) with (hC s0).
  pose proof (find_cursor (pm s0 0) 27 (hC s0) ltac:(lia)) as F. change PRIORITY_LEVELS with 27.
  destruct (cursor_find_priority (pm s0 0) 27 (hC s0)) as [[p c']|].
  - destruct F as (F1 & F2 & F3 & F4 & F5). unfold started. change PRIORITY_LEVELS with 27. rewrite row1 by auto.
    replace (1 + 1 * (27 - p)) with (28 - p) by lia.
    eapply T_sel with (p := p) (f := f) (c := c) (r := r); eauto.
    intros l j Hl. unfold cell. simpl. destruct (N.eqb_spec (28 - l) 0); auto. lia.
  - eapply T_start0; eauto with soft; try reflexivity.
Qed.

Lemma lstep_tr s ptr pri prev q r spur : base s -> stk s = FLoop ptr pri prev q :: r ->
  tr count s (lstep count atomics s ptr pri prev q r spur).
Proof.
  intros B E. pose proof (b_wf _ B) as W. rewrite E in W. simpl in W. destruct W as (Wp & Wr & (Wq & Wx) & W).
  destruct q as [i|i b w|i b w|i b w|i b w| |c]; unfold lstep; cbv zeta beta.
  - subst i. change (pm (access count s ptr) ptr) with (pm s ptr).
    assert (C : forall i, N.testbit (pm s ptr) i = cell s pri i) by (intros i; unfold cell; now rewrite Wq).
    destruct (N.eqb_spec (pm s ptr) 0) as [Z|Z].
    + replace ((0 + N.shiftl 1 COL_BITS) mod 2 ^ 16) with 32 by reflexivity.
      destruct (N.leb_spec count 32); [|lia]. eapply T_empty; eauto with soft; try reflexivity. intros i. rewrite <- C, Z. apply N.bits_0.
    + eapply T_load; eauto with soft; try reflexivity.
  - destruct Wx as (Wi & ->). rewrite land_bit, negb_involutive. destruct (N.testbit w i) eqn:T.
    + eapply T_bit; eauto with soft; try reflexivity.
    + rewrite after_adv by lia. eapply T_pass; eauto with soft; try reflexivity.
  - destruct Wx as (Wi & ->). change (pm (access count s ptr) ptr) with (pm s ptr).
    assert (C : forall i, N.testbit (pm s ptr) i = cell s pri i) by (intros j; unfold cell; now rewrite Wq).
    destruct (atomics && _).
    + eapply T_fail; eauto with soft; try reflexivity.
    + eapply T_take with (ptr := ptr) (pri := pri) (prev := prev) (i := i) (b := 2 ^ i) (w := w) (w' := pm s ptr) (r := r); eauto.
      * unfold hC, semit, set_stk. simpl pm. destruct (N.eqb_spec 0 ptr); [lia|reflexivity].
      * intros l. unfold hP, semit, set_stk. simpl pm. destruct (N.eqb_spec 0 ptr); [lia|reflexivity].
      * intros l j Hl. unfold cell, semit, set_stk. simpl pm. rewrite (N.eqb_sym l).
        destruct (N.eqb_spec (28 - l) ptr) as [K|K], (N.eqb_spec pri l) as [L|L]; try lia; cbn [andb negb];
          rewrite ?andb_true_r; auto. rewrite N.ldiff_spec, pow2_bit. now rewrite <- K.
  - eapply T_body; eauto with soft; try reflexivity.
  - now apply T_skip.
  - destruct atomics.
    + eapply T_next0 with (c := 0) (q := RNext); eauto with soft; try reflexivity.
    + eapply (nexted_tr s _ ptr pri prev RNext 0); eauto.
  - change (pm (access count s 0) 0) with (pm s 0). destruct ((pm s 0 =? c) && negb spur) eqn:K.
    + apply andb_true_iff in K as (K & _). apply N.eqb_eq in K. rewrite <- K.
      change (pm s 0) with (pm (access count s 0) 0). eapply (nexted_tr s _ ptr pri prev (RNextC c) c); eauto.
    + eapply T_next0 with (c := c) (q := RNextC c); eauto with soft; try reflexivity.
Qed.

Lemma fstep_tr s spur : base s -> tr count s (fstep count atomics s spur).
Proof.
  intros B. unfold fstep. destruct (stk s) as [|f r] eqn:E; [now apply T_skip|].
  pose proof (b_wf _ B) as W. rewrite E in W.
  destruct f as [|e|i auto|i p auto|i p auto| |c|ptr pri prev q|i|i p|i|i p].
  - now apply T_skip.
  - eapply T_end; eauto with soft; try reflexivity.
  - eapply T_prio; eauto with soft; try reflexivity.
  - simpl in W. destruct W as ((Wi & Wp) & W).
    rewrite bit32, land_bit, cell_at by lia. cbv zeta.
    change (pm (access count s (28 - (p + 1))) (28 - (p + 1))) with (pm s (28 - (p + 1))).
    change (N.testbit (pm s (28 - (p + 1))) i) with (cell s (p + 1) i).
    set (s1 := semit (put (access count s (28 - (p + 1))) (28 - (p + 1)) (N.lor (pm s (28 - (p + 1))) (2 ^ i))) (EPend i p)).
    assert (P0 : pm s1 0 = pm s 0).
    { subst s1. simpl. destruct (N.eqb_spec 0 (28 - (p + 1))); [lia|reflexivity]. }
    assert (C0 : forall l j, 1 <= l <= 27 -> cell s1 l j = cell s l j || ((l =? p + 1) && (j =? i))).
    { intros l j Hl. unfold cell. subst s1. simpl pm.
      destruct (N.eqb_spec (28 - l) (28 - (p + 1))) as [K|], (N.eqb_spec l (p + 1)) as [L|]; try lia.
      - rewrite N.lor_spec, pow2_bit. now rewrite L.
      - now rewrite orb_false_r. }
    assert (H0 : hC s1 = hC s) by (unfold hC; now rewrite P0).
    assert (H1 : forall l, hP s1 l = hP s l) by (intros l; unfold hP; now rewrite P0).
    destruct (cell s (p + 1) i) eqn:T; cbn [negb].
    + eapply T_again with (i := i) (p := p) (auto := auto) (r := r); auto.
      intros l j Hl. change (cell s1 l j = cell s l j). rewrite C0 by auto.
      destruct (N.eqb_spec l (p + 1)) as [->|]; [|now rewrite orb_false_r].
      destruct (N.eqb_spec j i) as [->|]; [now rewrite T|apply orb_false_r].
    + eapply T_pend with (i := i) (p := p) (auto := auto) (r := r); auto.
  - simpl in W. destruct W as ((Wi & Wp) & W).
    change (pm (access count s 0) 0) with (pm s 0). change (N.shiftr (pm s 0) PRIORITY_LEVELS) with (hC s).
    cbv zeta. set (s1 := semit (put (access count s 0) 0 (N.lor (pm s 0) (N.shiftl 1 p))) (EMark i p)).
    assert (H0 : hC s1 = hC s) by now apply hdC_lor.
    assert (H1 : forall l, 1 <= l <= 27 -> hP s1 l = hP s l || (l =? p + 1)) by (intros l Hl; apply hdP_lor; lia).
    assert (C0 : forall l j, 1 <= l <= 27 -> cell s1 l j = cell s l j).
    { intros l j Hl. unfold cell. simpl pm. destruct (N.eqb_spec (28 - l) 0); [lia|auto]. }
    assert (G : forall l, l = (if hC s <? p + 1 then if auto then [FStart; FEnd (EWoken i)] else [FEnd (EWill i true)]
              else [FEnd (if auto then EWoken i else EWill i false)]) ++ r -> tr count s (set_stk s1 l)).
    { intros l ->. eapply T_mark with (i := i) (p := p) (auto := auto) (r := r); auto. }
    destruct (hC s <? p + 1); [destruct auto|]; apply G; reflexivity.
  - pose proof (start_tr s FStart 0 r (pm s 0) B (or_introl eq_refl) E eq_refl) as X.
    change (pm (access count s 0) 0) with (pm s 0). destruct (start_new (pm s 0)) as [[[p prev] c']|]; auto.
    destruct atomics; auto. eapply T_start1 with (c := 0) (f := FStart); eauto with soft; try reflexivity.
  - pose proof (start_tr s (FStartC c) c r (pm s 0) B (or_intror eq_refl) E eq_refl) as X.
    change (pm (access count s 0) 0) with (pm s 0). destruct ((pm s 0 =? c) && negb spur) eqn:K.
    + apply andb_true_iff in K as (K & _). apply N.eqb_eq in K. rewrite <- K.
      destruct (start_new (pm s 0)) as [[[p prev] c']|]; auto.
    + destruct (start_new (pm s 0)) as [[[p prev] c']|]; auto. eapply T_start1 with (c := c) (f := FStartC c); eauto with soft; try reflexivity.
  - now apply lstep_tr.
  - eapply T_clr1; eauto with soft; try reflexivity.
  - simpl in W. destruct W as ((Wi & Wp) & W).
    rewrite bit32, cell_at by lia. change (pm (access count s (28 - (p + 1))) (28 - (p + 1))) with (pm s (28 - (p + 1))).
    eapply T_clr with (i := i) (p := p) (r := r); eauto.
    + unfold hC, semit, set_stk. simpl pm. destruct (N.eqb_spec 0 (28 - (p + 1))); [lia|reflexivity].
    + intros l. unfold hP, semit, set_stk. simpl pm. destruct (N.eqb_spec 0 (28 - (p + 1))); [lia|reflexivity].
    + intros l j Hl. unfold cell, semit, set_stk. simpl pm.
      destruct (N.eqb_spec (28 - l) (28 - (p + 1))) as [K|K], (N.eqb_spec l (p + 1)) as [L|L]; try lia; cbn [andb negb];
        rewrite ?andb_true_r; auto. rewrite N.ldiff_spec, pow2_bit. now rewrite <- K.
  - eapply T_is1; eauto with soft; try reflexivity.
  - simpl in W. destruct W as ((Wi & Wp) & W).
    rewrite bit32, cell_at, land_bit, negb_involutive by lia.
    change (N.testbit (pm (access count s (28 - (p + 1))) (28 - (p + 1))) i) with (cell s (p + 1) i).
    eapply T_is; eauto with soft; try reflexivity.
Qed.

Lemma step_tr s a : base s -> tr count s (sstep count atomics s a).
Proof.
  intros B. destruct a as [|o|spur]; simpl.
  - apply T_irq; auto with soft.
  - unfold opstep. destruct (stk s) as [|f r] eqn:E; [now apply T_skip|].
    assert (Q : f = FIrq \/ (exists ptr pri prev i b w, f = FLoop ptr pri prev (RBody i b w)) \/
      opstep count s o = s) by (unfold opstep; rewrite E; destruct f as [| | | | | | |? ? ? []| | | |]; eauto 10).
    destruct Q as [->|[(ptr & pri & prev & i & b & w & ->)|Q]].
    + destruct o as [j|j| |j|j|j p|];
        try (destruct (N.ltb_spec j count) as [J|J]; [|now apply T_skip]).
      * apply (T_wake count s _ j true); auto with soft. simpl. now rewrite E.
      * apply (T_wake count s _ j false); auto with soft. simpl. now rewrite E.
      * apply T_preempt; auto with soft. simpl. now rewrite E.
      * apply (T_clr0 count s _ j); auto with soft. simpl. now rewrite E.
      * apply (T_is0 count s _ j); auto with soft. simpl. now rewrite E.
      * destruct (N.ltb_spec p PRIORITY_LEVELS) as [P|P]; [|now apply T_skip].
        apply (T_setprio count s _ j p); auto.
      * eapply T_ret; eauto with soft; try reflexivity.
    + destruct o as [j|j| |j|j|j p|];
        try (destruct (N.ltb_spec j count) as [J|J]; [|now apply T_skip]).
      * apply (T_wake count s _ j true); auto with soft. simpl. now rewrite E.
      * apply (T_wake count s _ j false); auto with soft. simpl. now rewrite E.
      * apply T_preempt; auto with soft. simpl. now rewrite E.
      * apply (T_clr0 count s _ j); auto with soft. simpl. now rewrite E.
      * apply (T_is0 count s _ j); auto with soft. simpl. now rewrite E.
      * destruct (N.ltb_spec p PRIORITY_LEVELS) as [P|P]; [|now apply T_skip].
        apply (T_setprio count s _ j p); auto.
      * pose proof (b_wf _ B) as W. rewrite E in W. simpl in W. destruct W as (Wp & Wr & (Wq & Wx & ->) & W).
        rewrite after_adv by lia. eapply T_done; eauto with soft; try reflexivity.
    + unfold opstep in Q. rewrite E in Q. rewrite Q. now apply T_skip.
  - now apply fstep_tr.
Qed.

Lemma adv_wf ptr pri prev i w r c : i < count -> wf count (FLoop ptr pri prev RNext :: r) c ->
  wf count (adv count ptr pri prev i w :: r) c.
Proof.
  clear small. intros Hi. unfold adv. simpl. intros (A & B & (C & _) & D). repeat (split; auto).
  destruct (N.eqb_spec (i + 1) count); auto. split; [lia|reflexivity].
Qed.

Ltac wfgo := cbn [wf wff app] in *; unfold wfq in *;
  repeat match goal with H : _ /\ _ |- _ => destruct H end; repeat apply conj; auto.

Lemma base_step s s' : base s -> tr count s s' -> base s'.
Proof.
  pose proof small as (Sm1 & Sm2). clear small. intros [W P] H. split.
  - destruct H; try (match goal with Q : quiet _ _ |- _ => destruct Q as (HC & _) end);
      try match goal with X : s' = s |- _ => rewrite X; exact W end;
      try match goal with X : stk s = _ |- _ => rewrite X in W end;
      match goal with X : stk s' = _ |- _ => rewrite X end;
      match goal with X : hC s' = _ |- _ => rewrite X end;
      try match goal with X : _ = FStart \/ _ |- _ => destruct X as [-> | ->] end; try (solve [wfgo]);
      try (match goal with |- context [if hC s <? ?p + 1 then if ?auto then _ else _ else _] => destruct (hC s <? p + 1), auto end; solve [wfgo]);
      try (solve [wfgo; lia]);
      try (simpl in W; destruct W as (W1 & W2 & (W3 & W4) & W5); apply adv_wf; [apply W4|]; solve [wfgo]).

  - destruct H; try (match goal with Q : quiet _ _ |- _ => destruct Q as (_ & _ & _ & ->) end); auto;
      try (match goal with H : pr s' = pr s |- _ => now rewrite H end).
    + now subst.
    + intros j. rewrite H2. destruct (j =? i); auto.
Qed.

Lemma base_init : base sinit.
Proof. split; [reflexivity|]. intros i. reflexivity. Qed.
End Small.
