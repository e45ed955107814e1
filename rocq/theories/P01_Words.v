(** Property theorems C01-C07: atomic words, critical sections, bit-fields and
    registers.  Every theorem is followed by a concrete instance. *)
Require Import NArith List Bool Arith Lia.
From Verif Require Import AtomicSpec Atomics AtomicsProofs Bitfield BitfieldProofs RegProofs.
Import ListNotations.
Open Scope N_scope.

(** C01: for every schedule (any number of contexts, any operations, any spurious
    failures), the compare-exchange loops produce a trace of the atomic word. *)
Theorem C01_cas_atomic : forall w0 ls,
  let (s, tr) := crun (cinit w0) ls in atomic_trace w0 tr (cw s).
Proof. exact cas_atomic. Qed.
Print Assumptions C01_cas_atomic.

(** C01, progress part: once other contexts stop interfering and compare-exchange
    stops failing spuriously, one more loop iteration completes the update. *)
Theorem C01_cas_undisturbed : forall w o old,
  match caccess w (CHave o old) false with
  | (w', CDone _) => True
  | (w', CHave o' old') =>
      loops o -> o' = o /\ old' = w' /\
      exists r, snd (caccess w' (CHave o' old') false) = CDone r
  | _ => False
  end.
Proof. exact cas_undisturbed. Qed.
Print Assumptions C01_cas_undisturbed.

(** Two contexts increment concurrently; context 0 loses a race, fails once
    spuriously, and both increments are counted. *)
Example C01_example :
  let ls := [CInv 0 (Modify N.succ); CStep 0 false; CInv 1 (Modify N.succ);
             CStep 1 false; CStep 1 false; CRet 1;
             CStep 0 false; CStep 0 true; CStep 0 false; CRet 0] in
  cw (fst (crun (cinit 5) ls)) = 7 /\
  snd (crun (cinit 5) ls) =
    [Inv 0 (Modify N.succ); Inv 1 (Modify N.succ); Ret 1 (RVal 5); Ret 0 (RVal 6)].
Proof. vm_compute. auto. Qed.

(** C02: for every placement of interrupts, the critical-section implementation
    produces a trace of the atomic word. *)
Theorem C02_soft_atomic : forall w0 ie0 ls,
  let (s, tr) := srun (sinit w0 ie0) ls in atomic_trace w0 tr (sw s).
Proof. exact soft_atomic. Qed.
Print Assumptions C02_soft_atomic.

(** An interrupt preempts before the critical section and updates the same word;
    an attempt to take one inside of the critical section has no effect. *)
Example C02_example :
  let ls := [SLInv (Modify N.succ);
             SLIrq; SLInv (Modify (N.mul 2)); SLStep; SLStep; SLStep; SLStep; SLRet; SLIret;
             SLStep; SLIrq; SLStep; SLStep; SLStep; SLRet] in
  sw (fst (srun (sinit 5 true) ls)) = 11 /\
  snd (srun (sinit 5 true) ls) =
    [Inv 0 (Modify N.succ); Inv 1 (Modify (N.mul 2)); Ret 1 (RVal 5); Ret 0 (RVal 10)].
Proof. vm_compute. auto. Qed.

(** C03: nested critical sections: the interrupt state after the program is the
    one before; inside any critical section interrupts are disabled, outside they
    are as at the start. *)
Theorem C03_paused_nests : forall p depth ie,
  let (ie', obs) := cs_exec p depth ie in
  ie' = ie /\
  Forall (fun '(d, e) => (depth <= d)%nat /\ (d = depth -> e = ie) /\
                         ((depth < d)%nat -> e = false)) obs.
Proof. exact cs_exec_spec. Qed.
Print Assumptions C03_paused_nests.

(** C03 for first-class handles dropped in reverse order of creation. *)
Theorem C03_handles_lifo : forall ie0 os s,
  hgood ie0 s -> lifo (length (snd s)) os -> hgood ie0 (hrun s os).
Proof. exact hrun_lifo. Qed.
Print Assumptions C03_handles_lifo.

(** C03 inside the atomic operations: the interrupt state is restored whenever the
    running context is outside of its critical section. *)
Theorem C03_restored_after_rmw : forall w0 ie0 ls,
  let s := fst (srun (sinit w0 ie0) ls) in
  match stk s with
  | f :: _ => ~ in_cs f -> sie s = ie0
  | [] => False
  end.
Proof. exact soft_ie_restored. Qed.
Print Assumptions C03_restored_after_rmw.

Example C03_example :
  cs_exec (CSeq CObs (CSeq (CPaused (CSeq (CPaused CObs) CObs)) CObs)) 0 true
  = (true, [(0%nat, true); (2%nat, false); (1%nat, false); (0%nat, true)]).
Proof. reflexivity. Qed.

Example C03_handles_example :
  hgood true (true, []) /\ lifo 0 [HPause; HPause; HDrop 1; HDrop 0] /\
  hrun (true, []) [HPause; HPause; HDrop 1] = (false, [true]) /\
  hrun (true, []) [HPause; HPause; HDrop 1; HDrop 0] = (true, []).
Proof. vm_compute. auto. Qed.

(** C60: "interrupts stay disabled as long as any handle is alive" is false for
    handles dropped out of order: dropping the outer handle first re-enables
    interrupts while the inner one is alive. *)
Theorem C60_handle_order_refuted :
  exists os, let (ie, live) := hrun (true, []) os in live <> [] /\ ie = true.
Proof. exists [HPause; HPause; HDrop 0]. vm_compute. split; [discriminate|reflexivity]. Qed.
Print Assumptions C60_handle_order_refuted.

(** C60, positive part: with handles dropped in reverse order, interrupts are
    disabled as long as a handle is alive and back in the initial state when none
    is. *)
Theorem C60_handle_order_partial : forall ie0 os,
  lifo 0 os ->
  let (ie, live) := hrun (ie0, []) os in
  (live <> [] -> ie = false) /\ (live = [] -> ie = ie0).
Proof.
  intros ie0 os H. pose proof (hrun_lifo ie0 os (ie0, []) eq_refl H) as G.
  destruct (hrun (ie0, []) os) as [ie live]. unfold hgood in G. simpl in G.
  destruct live; [easy|]. destruct G as (-> & _). easy.
Qed.
Print Assumptions C60_handle_order_partial.

(** C04: writing a field then reading gives the written value truncated to the
    width; every bit outside of the field is unchanged; the result fits. *)
Theorem C04_write_then_read : forall n off w v x,
  off + w <= n -> x < 2 ^ n -> v < 2 ^ n ->
  read_bits n off w (write_bits n off w v x) = v mod 2 ^ w.
Proof. exact write_read. Qed.
Print Assumptions C04_write_then_read.

Theorem C04_write_bits_exact : forall n off w v x i,
  off + w <= n -> x < 2 ^ n -> v < 2 ^ n ->
  N.testbit (write_bits n off w v x) i =
  if (off <=? i) && (i <? off + w) then N.testbit v (i - off) else N.testbit x i.
Proof. exact write_bits_bits. Qed.
Print Assumptions C04_write_bits_exact.

Theorem C04_write_bits_in_range : forall n off w v x,
  off + w <= n -> x < 2 ^ n -> v < 2 ^ n -> write_bits n off w v x < 2 ^ n.
Proof. exact write_bits_lt. Qed.
Print Assumptions C04_write_bits_in_range.

Theorem C04_read_bits_value : forall n off w x,
  off + w <= n -> x < 2 ^ n -> read_bits n off w x = (x / 2 ^ off) mod 2 ^ w.
Proof. exact read_bits_spec. Qed.
Print Assumptions C04_read_bits_value.

(** Accessors of disjoint fields commute. *)
Theorem C04_disjoint_commute : forall n f g o p x,
  f_off f + f_width f <= n -> 0 < f_width f ->
  f_off g + f_width g <= n -> 0 < f_width g ->
  (f_off f + f_width f <= f_off g \/ f_off g + f_width g <= f_off f) ->
  x < 2 ^ n ->
  (forall v, o = FWriteBits v -> v < 2 ^ n) ->
  (forall v, p = FWriteBits v -> v < 2 ^ n) ->
  apply_fop n f o (apply_fop n g p x) = apply_fop n g p (apply_fop n f o x).
Proof. exact apply_fop_comm. Qed.
Print Assumptions C04_disjoint_commute.

Example C04_example :
  write_bits 8 2 3 0xFF 0x81 = 0x9D /\ read_bits 8 2 3 0x9D = 7 /\
  write_bits 8 0 8 0x5A 0x81 = 0x5A /\ read_bits 8 0 8 0x5A = 0x5A /\
  2 + 3 <= 8 /\ 0x81 < 2 ^ 8 /\ 0xFF < 2 ^ 8.
Proof. vm_compute. repeat split; auto; discriminate. Qed.

(** C05: the five single-bit operations. *)
Theorem C05_single_bit : forall n off x i b,
  off < n -> x < 2 ^ n ->
  read_bit n off x = N.testbit x off /\
  N.testbit (set_bit n off x) i = (if i =? off then true else N.testbit x i) /\
  N.testbit (clear_bit n off x) i = (if i =? off then false else N.testbit x i) /\
  N.testbit (toggle_bit n off x) i = (if i =? off then negb (N.testbit x i) else N.testbit x i) /\
  N.testbit (write_bit n off b x) i = (if i =? off then b else N.testbit x i).
Proof.
  intros. repeat split; auto using read_bit_spec, set_bit_bits, clear_bit_bits,
    toggle_bit_bits, write_bit_bits.
Qed.
Print Assumptions C05_single_bit.

Example C05_example :
  set_bit 8 7 0x01 = 0x81 /\ clear_bit 8 7 0x81 = 0x01 /\ toggle_bit 8 0 0x81 = 0x80 /\
  write_bit 8 3 true 0x81 = 0x89 /\ read_bit 8 7 0x81 = true.
Proof. vm_compute. auto. Qed.

(** C06: whatever the interleaving, each context finds the bits it owns exactly as
    if it had been the only one updating the register; the whole register value
    is a serialization of the updates by C01 / C02. *)
Theorem C06_reg_cas : forall n owner w0 ls t i,
  w0 < 2 ^ n -> owner i = t ->
  let (s, tr) := crun (cinit w0) ls in
  (forall t' o, In (Inv t' o) tr -> owned_update n owner t' o) ->
  cth s t = CIdle ->
  N.testbit (cw s) i = N.testbit (run_ops (ops_of t tr) w0) i.
Proof. exact cas_reg_bits. Qed.
Print Assumptions C06_reg_cas.

Theorem C06_reg_soft : forall n owner w0 ie0 ls t i,
  w0 < 2 ^ n -> owner i = t ->
  let (s, tr) := srun (sinit w0 ie0) ls in
  (forall t' o, In (Inv t' o) tr -> owned_update n owner t' o) ->
  (nth_error (rev (stk s)) t = Some SIdle \/ nth_error (rev (stk s)) t = None) ->
  N.testbit (sw s) i = N.testbit (run_ops (ops_of t tr) w0) i.
Proof. exact soft_reg_bits. Qed.
Print Assumptions C06_reg_soft.

(** Context 0 owns bits 0-3 and context 1 bits 4-7; context 1 interferes between
    the load and the compare-exchange of context 0. *)
Example C06_example :
  let a := reg_field_op 8 (Field 0 4) (FWriteBits 0xA) in
  let b := reg_field_op 8 (Field 4 1) FSet in
  let ls := [CInv 0 a; CStep 0 false; CInv 1 b; CStep 1 false; CStep 1 false; CRet 1;
             CStep 0 false; CStep 0 false; CRet 0] in
  cw (fst (crun (cinit 0) ls)) = 0x1A /\
  owned_update 8 (fun i => if i <? 4 then 0%nat else 1%nat) 0 a /\
  owned_update 8 (fun i => if i <? 4 then 0%nat else 1%nat) 1 b.
Proof.
  split; [vm_compute; reflexivity|]. split.
  - exists (Field 0 4), (FWriteBits 0xA). simpl.
    repeat split; try lia. { intros v [= <-]. lia. }
    intros i Hi. destruct (N.ltb_spec i 4); [easy|lia].
  - exists (Field 4 1), FSet. simpl. repeat split; try lia. { discriminate. }
    intros i Hi. destruct (N.ltb_spec i 4); [lia|easy].
Qed.

(** C07: a store through a single-field accessor of a write-only register leaves
    the reset value outside of the field, whatever the register held before. *)
Theorem C07_store_from_reset : forall n reset f o old i,
  f_off f + f_width f <= n -> 0 < f_width f -> reset < 2 ^ n ->
  (forall v, o = FWriteBits v -> v < 2 ^ n) ->
  let r := wo_field_store n reset f o old in
  r < 2 ^ n /\
  ((i < f_off f \/ f_off f + f_width f <= i) -> N.testbit r i = N.testbit reset i) /\
  (forall v, o = FWriteBits v -> read_bits n (f_off f) (f_width f) r = v mod 2 ^ f_width f) /\
  (forall b, o = FWriteBit b -> read_bit n (f_off f) r = b) /\
  (o = FSet -> read_bit n (f_off f) r = true) /\
  (o = FClear -> read_bit n (f_off f) r = false) /\
  (o = FToggle -> read_bit n (f_off f) r = negb (read_bit n (f_off f) reset)).
Proof.
  intros n reset f o old i H Hw Hr Hv r. subst r. unfold wo_field_store, reg_store.
  assert (f_off f < n) by lia.
  split; [now apply apply_fop_lt|]. split; [intros; now apply apply_fop_frame|].
  split; [intros v ->; apply write_read; auto|].
  split; [intros b ->|split; [intros ->|split; intros ->]]; simpl; rewrite ?read_bit_spec by easy;
    rewrite ?write_bit_bits, ?set_bit_bits, ?clear_bit_bits, ?toggle_bit_bits, ?N.eqb_refl by easy;
    reflexivity.
Qed.
Print Assumptions C07_store_from_reset.

(** [modify] of a register that is not shared: the old value with one operation on the field, applied once. *)
Theorem C04_modify_unsync : forall n f o old i,
  f_off f + f_width f <= n -> 0 < f_width f -> old < 2 ^ n ->
  (forall v, o = FWriteBits v -> v < 2 ^ n) ->
  let r := reg_modify_unsync (apply_fop n f o) old in
  r < 2 ^ n /\
  ((i < f_off f \/ f_off f + f_width f <= i) -> N.testbit r i = N.testbit old i) /\
  (forall v, o = FWriteBits v -> read_bits n (f_off f) (f_width f) r = v mod 2 ^ f_width f) /\
  (forall b, o = FWriteBit b -> read_bit n (f_off f) r = b) /\
  (o = FSet -> read_bit n (f_off f) r = true) /\
  (o = FClear -> read_bit n (f_off f) r = false) /\
  (o = FToggle -> read_bit n (f_off f) r = negb (read_bit n (f_off f) old)).
Proof.
  intros n f o old i H Hw Hr Hv r. subst r. unfold reg_modify_unsync.
  assert (f_off f < n) by lia.
  split; [now apply apply_fop_lt|]. split; [intros; now apply apply_fop_frame|].
  split; [intros v ->; apply write_read; auto|].
  split; [intros b ->|split; [intros ->|split; intros ->]]; simpl; rewrite ?read_bit_spec by easy;
    rewrite ?write_bit_bits, ?set_bit_bits, ?clear_bit_bits, ?toggle_bit_bits, ?N.eqb_refl by easy;
    reflexivity.
Qed.
Print Assumptions C04_modify_unsync.
Example C04_modify_case : reg_modify_unsync (apply_fop 32 (Field 4 1) FToggle) 0xFF = 0xEF.
Proof. vm_compute. reflexivity. Qed.

Theorem C07_reset : forall reset old, reg_reset reset old = reset.
Proof. reflexivity. Qed.
Print Assumptions C07_reset.

Example C07_example :
  wo_field_store 32 0xBEEFCACE (Field 4 8) (FWriteBits 0x55) 0xFFFFFFFF = 0xBEEFC55E.
Proof. vm_compute. reflexivity. Qed.
