(** Properties of the debug stream and of heap tracing (C48, C49, C50, C58, C59, C63,
    C64). *)
Require Import NArith List Bool Arith Lia.
From Verif Require Import Stream StreamSpec StreamProofs.
Import ListNotations.
Open Scope N_scope.

(** * The frame buffer *)

(** For every buffer, every sequence of transactions and every progress of the
    reader, at the granularity of single accesses: nothing is written outside the
    buffer; every transaction has exactly one outcome, in order (at most one is in
    progress); the frames read so far are a prefix of the frames successfully
    written; and the reader, left alone, obtains exactly the rest. *)
Theorem C48_frames_intact : forall buf size ls, 0 < size < 2 ^ 32 ->
  let (x, tr) := srun (sinit buf size) ls in
  soob (smem x) = false /\
  (exists cur, (length cur <= 1)%nat /\ starts tr = outcomes tr ++ cur) /\
  exists pend n, wrote tr = got tr ++ pend /\
    got (snd (srun x (repeat LR n))) = pend /\
    sr (smem (fst (srun x (repeat LR n)))) = sw (smem (fst (srun x (repeat LR n)))).
Proof.
  intros buf size ls Hs.
  destruct (sinv_run ls _ _ (sinv_init buf size Hs)) as (pend & HI & E & _).
  pose proof (current_run ls (sinit buf size)) as HC.
  destruct (srun (sinit buf size) ls) as [x tr]. cbn [fst snd] in *.
  split; [apply (si_oob _ _ HI)|]. split.
  - exists (current x). split; [|exact HC]. unfold current. destruct (swp x) as [| | | | | | |[]]; simpl; lia.
  - destruct (rd_drain x pend HI) as (n & _ & G2 & _ & _ & G5). exists pend, n. auto.
Qed.
Print Assumptions C48_frames_intact.

Definition hello : frame := (7, [104; 101; 108; 108; 111]).
Definition fr2 : frame := (3, [1; 2]).

(** A buffer of 11 bytes; the second frame does not fit, a wrap mark is left, and the
    retry succeeds while the reader is in the middle of the first frame. *)
Example C48_case :
  let (x, tr) := srun (sinit (fun _ => 9) 11)
    (attempt hello ++ repeat LR 9 ++ attempt hello ++ repeat LR 3 ++ attempt fr2) in
  tr = [SStart hello; SWrote hello; SRead hello; SStart hello; SFailed hello; SStart fr2; SWrote fr2] /\
  map (sbuf (smem x)) [0; 1; 2; 3; 7] = [3; 2; 1; 2; 255] /\
  snd (srun x (repeat LR 6)) = [SRead fr2].
Proof. vm_compute. auto. Qed.

(** Once the reader has caught up and nobody else interferes, a write whose frame is
    shorter than the buffer succeeds at the first attempt, or at the second one after
    the reader has skipped the wrap mark. *)
Theorem C49_completes : forall buf size ls f, 0 < size < 2 ^ 32 ->
  let x := fst (srun (sinit buf size) ls) in
  swp x = WIdle -> srp x = RIdle -> sr (smem x) = sw (smem x) ->
  fst f < 32 -> flen f < 256 -> flen f + 2 < size ->
  snd (srun x (attempt f)) = [SStart f; SWrote f] \/
  snd (srun x (attempt f ++ [LR; LR; LR] ++ attempt f)) = [SStart f; SFailed f; SStart f; SWrote f].
Proof.
  intros buf size ls f Hs x Hw Hr E F1 F2 F3.
  destruct (sinv_run ls _ _ (sinv_init buf size Hs)) as (pend & HI & _ & _ & Z). fold x in HI, Z.
  simpl in Z. eapply two_attempts; eauto.
  - unfold startable, stream_count. apply andb_true_intro. split; now apply N.ltb_lt.
  - rewrite elen_eq, Z. easy.
Qed.
Print Assumptions C49_completes.

(** The reader, left alone, does catch up. *)
Theorem C49_reader_catches_up : forall buf size ls, 0 < size < 2 ^ 32 ->
  let x := fst (srun (sinit buf size) ls) in
  exists n, let y := fst (srun x (repeat LR n)) in
    srp y = RIdle /\ sr (smem y) = sw (smem y) /\ swp y = swp x.
Proof.
  intros buf size ls Hs x.
  destruct (sinv_run ls _ _ (sinv_init buf size Hs)) as (pend & HI & _). fold x in HI.
  destruct (rd_drain x pend HI) as (n & G1 & G2 & G3 & _). exists n. auto.
Qed.
Print Assumptions C49_reader_catches_up.

(** A frame that is not shorter than the buffer is never accepted, whatever the
    reader does: [write_transaction] would retry forever.  (By C48 the attempts do
    not disturb what is read.) *)
Theorem C49_too_long_never : forall buf size ls f, 0 < size < 2 ^ 32 -> size <= flen f + 2 ->
  ~ In (SWrote f) (snd (srun (sinit buf size) ls)).
Proof.
  intros buf size ls f Hs Hf C.
  destruct (sinv_run ls _ _ (sinv_init buf size Hs)) as (pend & _ & _ & W & _).
  specialize (W f C). rewrite elen_eq in W. simpl in W. lia.
Qed.
Print Assumptions C49_too_long_never.

(** Both alternatives of [C49_completes] occur. *)
Example C49_case :
  let x := fst (srun (sinit (fun _ => 0) 8) (attempt fr2 ++ repeat LR 6)) in
  swp x = WIdle /\ srp x = RIdle /\ sr (smem x) = sw (smem x) /\ sr (smem x) = 4 /\
  snd (srun x (attempt fr2)) = [SStart fr2; SWrote fr2] /\
  snd (srun x (attempt hello ++ [LR; LR; LR] ++ attempt hello)) =
    [SStart hello; SFailed hello; SStart hello; SWrote hello].
Proof. vm_compute. auto 10. Qed.

(** * Splitting *)

Lemma bytes_at_add m a n k : bytes_at m a (n + k) = bytes_at m a n ++ bytes_at m (a + n) k.
Proof.
  unfold bytes_at. rewrite N2Nat.inj_add, seq_app, map_app. f_equal. simpl.
  replace (seq (N.to_nat n) (N.to_nat k)) with (map (Nat.add (N.to_nat n)) (seq 0 (N.to_nat k))).
  - rewrite map_map. apply map_ext. intros i. f_equal. lia.
  - clear. generalize (N.to_nat k) as j, (N.to_nat n) as i. intros j i.
    rewrite <- (Nat.add_0_r i) at 2. generalize 0%nat as z.
    induction j as [|j IH]; intros z; simpl; [easy|]. rewrite IH. now rewrite Nat.add_succ_r.
Qed.

(** The transactions issued for [len] bytes at [p]: their payloads concatenate to the
    bytes; each carries between 1 and 64 bytes, all but the last exactly 64. *)
Theorem C50_write_bytes : forall p len, exists bound, forall fuel, (bound <= fuel)%nat ->
  exists ts, write_bytes fuel p len = Some ts /\
    (forall m, concat (map (fun t => bytes_at m (fst t) (snd t)) ts) = bytes_at m p len) /\
    (forall t, In t ts -> 1 <= snd t <= 64) /\
    (forall t, In t (removelast ts) -> snd t = 64) /\
    (len = 0 -> ts = []).
Proof.
  intros p len. exists (S (N.to_nat len)). intros fuel. revert p len.
  induction fuel as [|fuel IH]; intros p len Hf; [lia|].
  cbn [write_bytes]. unfold default_transaction_length in *.
  destruct (N.ltb_spec 64 len) as [H|H].
  - destruct (IH (p + 64) (len - 64)) as (ts & -> & A & B & C & D); [lia|].
    exists ((p, 64) :: ts). split; [easy|]. split; [|split; [|split]].
    + intros m. cbn [map concat fst snd]. rewrite A, <- bytes_at_add. f_equal. lia.
    + intros t [<-|Ht]; [simpl; lia|auto].
    + intros t Ht. destruct ts as [|t0 ts]; [easy|]. cbn [removelast] in Ht.
      destruct Ht as [<-|Ht]; [easy|]. now apply C.
    + lia.
  - destruct (N.ltb_spec 0 len) as [H0|H0].
    + exists [(p, len mod 256)]. rewrite N.mod_small by lia. split; [easy|]. split; [|split; [|split]].
      * intros m. simpl. now rewrite app_nil_r.
      * intros t [<-|[]]. simpl. lia.
      * easy.
      * lia.
    + exists []. assert (len = 0) by lia. subst. split; [easy|]. split; [easy|]. split; [easy|]. split; easy.
Qed.
Print Assumptions C50_write_bytes.

Example C50_case : write_bytes 10 1000 150 = Some [(1000, 64); (1064, 64); (1128, 22)] /\
  write_bytes 10 1000 128 = Some [(1000, 64); (1064, 64)] /\ write_bytes 1 1000 0 = Some [].
Proof. vm_compute. auto. Qed.

(** * Heap tracing *)

Lemma le_bytes_length n : forall v, length (le_bytes n v) = n.
Proof. induction n; simpl; auto. Qed.
Lemma le_val_bytes n : forall v, v < 256 ^ N.of_nat n -> le_val (le_bytes n v) = v.
Proof.
  induction n as [|n IH]; intros v Hv.
  - simpl in *. lia.
  - cbn [le_bytes le_val]. rewrite Nat2N.inj_succ, N.pow_succ_r' in Hv.
    rewrite IH by (apply N.div_lt_upper_bound; lia).
    pose proof (N.div_mod' v 256). lia.
Qed.
Lemma le_zero n : le_bytes n 0 = repeat 0 n.
Proof. induction n as [|n IH]; [easy|]. cbn [le_bytes repeat]. change (0 / 256) with 0. now rewrite IH. Qed.
Lemma rev_repeat (n : nat) : rev (repeat 0 n) = repeat 0 n.
Proof.
  induction n as [|n IH]; [easy|]. cbn [repeat rev]. rewrite IH.
  clear. induction n as [|n IH]; [easy|]. cbn [repeat app]. now rewrite IH.
Qed.

(** Operation codes sit in the last byte of the first word. *)
Lemma to_be_code k op : op < 256 -> to_be (S k) op = repeat 0 k ++ [op].
Proof.
  intros H. unfold to_be. cbn [le_bytes rev]. rewrite N.div_small by easy.
  rewrite le_zero, rev_repeat, N.mod_small by easy. easy.
Qed.

Lemma skip_code k op rest : op < 256 -> (3 <= k)%nat ->
  skipn 3 (to_be (S k) op ++ rest) = repeat 0 (k - 3) ++ op :: rest.
Proof.
  intros H Hk. rewrite to_be_code by easy.
  destruct k as [|[|[|k]]]; try lia. cbn [repeat]. rewrite <- app_assoc. cbn [app skipn].
  replace (S (S (S k)) - 3)%nat with k by lia. reflexivity.
Qed.

Lemma nth_code (j : nat) (op : N) rest : nth_error (repeat 0 j ++ op :: rest) j = Some op.
Proof. induction j; simpl; auto. Qed.
Lemma skip_zeros (j : nat) (op : N) rest : skipn (S j) (repeat 0 j ++ op :: rest) = rest.
Proof. induction j; simpl; auto. Qed.

(** For any word size of at least 4 bytes: with the stream disabled nothing is
    emitted; with it enabled exactly one frame, on that stream, within the transaction
    limit, from which the operation and its sizes are recovered. *)
Theorem C58_trace_decodes : forall ws mask st o, (4 <= ws)%nat -> (ws <= 64)%nat -> sizes_ok ws o ->
  if N.testbit mask st
  then exists payload, trace ws mask st o = [(st, payload)] /\ parse ws payload = Some o /\
         write_transaction st payload = Some (st, payload)
  else trace ws mask st o = [].
Proof.
  intros ws mask st o Hws Hws2 Hs. unfold trace.
  assert (He : is_enabled mask st = N.testbit mask st).
  { unfold is_enabled. destruct (N.testbit mask st) eqn:E.
    - destruct (N.eqb_spec (N.land mask (N.shiftl 1 st)) 0) as [C|C]; [|easy]. exfalso.
      assert (N.testbit (N.land mask (N.shiftl 1 st)) st = true).
      { rewrite N.land_spec, E, N.shiftl_spec_high', N.sub_diag by lia. reflexivity. }
      rewrite C in H. now rewrite N.bits_0 in H.
    - replace (N.land mask (N.shiftl 1 st)) with 0; [easy|]. symmetry. apply N.bits_inj. intros i.
      rewrite N.land_spec, N.bits_0. destruct (N.eq_dec i st) as [->|Hne]; [now rewrite E|].
      rewrite N.shiftl_1_l, N.pow2_bits_false by congruence. apply andb_false_r. }
  rewrite He. destruct (N.testbit mask st); [|easy].
  eexists. split; [reflexivity|].
  destruct ws as [|k]; [lia|].
  assert (G : forall op rest, op < 4 ->
    nth_error (skipn 3 (to_be (S k) op ++ rest)) (S k - 4) = Some op /\
    skipn (S k - 3) (skipn 3 (to_be (S k) op ++ rest)) = rest).
  { intros op rest Hop. rewrite skip_code by lia.
    replace (S k - 4)%nat with (k - 3)%nat by lia. replace (S k - 3)%nat with (S (k - 3)) by lia.
    split; [apply nth_code|apply skip_zeros]. }
  assert (W0 : forall v rest, v < 256 ^ N.of_nat (S k) -> word (S k) (le_bytes (S k) v ++ rest) 0 = v).
  { intros v rest Hv. unfold word. rewrite Nat.mul_0_l. cbn [skipn].
    rewrite firstn_app, le_bytes_length, Nat.sub_diag, firstn_O, app_nil_r.
    rewrite firstn_all2 by (rewrite le_bytes_length; lia). now apply le_val_bytes. }
  assert (W1 : forall u v, v < 256 ^ N.of_nat (S k) -> word (S k) (le_bytes (S k) u ++ le_bytes (S k) v) 1 = v).
  { intros u v Hv. unfold word. rewrite Nat.mul_1_l.
    rewrite skipn_app, le_bytes_length, Nat.sub_diag, skipn_all2 by (rewrite le_bytes_length; lia).
    cbn [skipn app]. rewrite firstn_all2 by (rewrite le_bytes_length; lia). now apply le_val_bytes. }
  assert (L : (length (trace_buf (S k) o) <= 3 * S k)%nat).
  { unfold trace_buf, to_be. destruct o; rewrite !app_length, rev_length, !le_bytes_length; lia. }
  split.
  - unfold parse, trace_buf. destruct o as [n|n|p n|p n]; cbn [sizes_ok] in Hs.
    + destruct (G 0 (le_bytes (S k) n)) as [-> ->]; [lia|].
      rewrite <- (app_nil_r (le_bytes (S k) n)), W0 by easy. reflexivity.
    + destruct (G 1 (le_bytes (S k) n)) as [-> ->]; [lia|].
      rewrite <- (app_nil_r (le_bytes (S k) n)), W0 by easy. reflexivity.
    + destruct (G 2 (le_bytes (S k) p ++ le_bytes (S k) n)) as [-> ->]; [lia|].
      rewrite W0, W1 by easy. reflexivity.
    + destruct (G 3 (le_bytes (S k) p ++ le_bytes (S k) n)) as [-> ->]; [lia|].
      rewrite W0, W1 by easy. reflexivity.
  - unfold write_transaction. rewrite skipn_length.
    destruct (N.ltb_spec (N.of_nat (length (trace_buf (S k) o) - 3)) 256); [easy|lia].
Qed.
Print Assumptions C58_trace_decodes.

Example C58_case : trace 4 8 3 (HGrow 24 1000) = [(3, [2; 24; 0; 0; 0; 232; 3; 0; 0])] /\
  trace 4 8 2 (HGrow 24 1000) = [] /\ N.testbit 8 3 = true /\ N.testbit 8 2 = false /\
  sizes_ok 4 (HGrow 24 1000).
Proof. vm_compute. repeat split; discriminate || reflexivity. Qed.

(** Not every heap operation is traced: zeroed allocation and growth leave no frame
    even when the stream is enabled. *)
Theorem C63_every_operation_traced_refuted :
  exists ws mask st c, N.testbit mask st = true /\ call_trace ws mask st c = [].
Proof. exists 4%nat, 1, 0, (CAllocateZeroed 16). vm_compute. auto. Qed.
Print Assumptions C63_every_operation_traced_refuted.

(** Missing: the two zeroed entry points. All the others are traced. *)
Theorem C63_other_operations_traced_partial : forall ws mask st c, N.testbit mask st = true ->
  (4 <= ws)%nat -> (ws <= 64)%nat ->
  match c with
  | CAllocateZeroed _ | CGrowZeroed _ _ => True
  | CAllocate n | CGlobalAlloc n =>
      n < 256 ^ N.of_nat ws -> exists p, call_trace ws mask st c = [(st, p)] /\ parse ws p = Some (HAlloc n)
  | CDeallocate n | CGlobalDealloc n =>
      n < 256 ^ N.of_nat ws -> exists p, call_trace ws mask st c = [(st, p)] /\ parse ws p = Some (HDealloc n)
  | CGrow o n => o < 256 ^ N.of_nat ws /\ n < 256 ^ N.of_nat ws ->
      exists p, call_trace ws mask st c = [(st, p)] /\ parse ws p = Some (HGrow o n)
  | CShrink o n => o < 256 ^ N.of_nat ws /\ n < 256 ^ N.of_nat ws ->
      exists p, call_trace ws mask st c = [(st, p)] /\ parse ws p = Some (HShrink o n)
  end.
Proof.
  intros ws mask st c Hm H1 H2.
  assert (G : forall o, sizes_ok ws o -> exists p, trace ws mask st o = [(st, p)] /\ parse ws p = Some o).
  { intros o Ho. pose proof (C58_trace_decodes ws mask st o H1 H2 Ho) as H. rewrite Hm in H.
    destruct H as (p & A & B & _). eauto. }
  destruct c as [n|n|n|o n|o n|o n|n|n]; try exact I; intros Hn; apply G; exact Hn.
Qed.
Print Assumptions C63_other_operations_traced_partial.

Example C63_case : call_trace 4 1 0 (CShrink 32 8) = [(0, [3; 32; 0; 0; 0; 8; 0; 0; 0])].
Proof. reflexivity. Qed.

(** The documented limit of [write_transaction] ("panics if length is more than
    256") is not the implemented one: 256 bytes already panic. *)
Theorem C64_documented_limit_refuted :
  exists st bytes, N.of_nat (length bytes) <= 256 /\ write_transaction st bytes = None.
Proof. exists 0, (repeat 0 256). vm_compute. split; [discriminate|reflexivity]. Qed.
Print Assumptions C64_documented_limit_refuted.

(** Missing: length 256. The implemented limit is 255. *)
Theorem C64_limit_255_partial : forall st bytes,
  (N.of_nat (length bytes) <= 255 -> write_transaction st bytes = Some (st, bytes)) /\
  (255 < N.of_nat (length bytes) -> write_transaction st bytes = None).
Proof.
  intros st bytes. unfold write_transaction.
  destruct (N.ltb_spec (N.of_nat (length bytes)) 256); split; intros; easy || lia.
Qed.
Print Assumptions C64_limit_255_partial.
Example C64_case : write_transaction 5 (repeat 1 255) = Some (5, repeat 1 255).
Proof. vm_compute. reflexivity. Qed.

(** * Initialisation *)

(** The buffer starts with [boot]. *)
Definition starts_with (m : N -> N) (a : N) (boot : list N) : Prop :=
  bytes_at m a (N.of_nat (length boot)) = boot.
(** Byte [i] of a little-endian word. *)
Definition byte (v i : N) : N := v / 256 ^ i mod 256.
Definition in_range (a n x : N) : Prop := a <= x /\ x < a + n.

Lemma match_boot_spec m boot : forall a,
  (starts_with m a boot /\ match_boot m a boot = (a + N.of_nat (length boot), 0)) \/
  (~ starts_with m a boot /\ exists b c, match_boot m a boot = (b, c) /\ c <> 0).
Proof.
  unfold starts_with. induction boot as [|b r IH]; intros a.
  - left. split; [easy|]. simpl. now rewrite N.add_0_r.
  - replace (N.of_nat (length (b :: r))) with (1 + N.of_nat (length r)) by (simpl length; lia).
    rewrite bytes_at_add. cbn [match_boot].
    replace (bytes_at m a 1) with [m a] by (unfold bytes_at; simpl; now rewrite N.add_0_r).
    destruct (N.eqb_spec (m a) b) as [->|Hne].
    + destruct (IH (a + 1)) as [[H1 H2]|[H1 (x & y & H2 & H3)]].
      * left. split; [simpl; now rewrite H1|]. rewrite H2. f_equal. lia.
      * right. split; [|eauto]. intros C. injection C as C. easy.
    + right. split; [intros C; injection C as C1 C2; easy|]. eexists _, _. split; [reflexivity|].
      simpl length. lia.
Qed.

(** [boot] is the bootstrap sequence, not starting with a zero byte; the global
    runtime lies elsewhere.  Initialisation adopts the runtime structures found
    behind the sequence exactly when the sequence is complete, and then a second
    initialisation does not adopt them again; otherwise it resets everything; and in
    both cases nothing else changes. *)
Theorem C59_init : forall boot m rt g size gl,
  boot <> [] -> hd 0 boot <> 0 -> size < 2 ^ 32 ->
  (g + 4 <= rt \/ rt + 12 + N.of_nat (length boot) + 16 <= g) ->
  let m' := stream_init boot m rt g size gl in
  (starts_with m (rt + 12) boot ->
     (forall i, i < 12 -> m' (rt + i) = m (rt + 12 + N.of_nat (length boot) + i)) /\
     (forall i, i < 4 -> m' (g + i) =
        if gl then m (rt + 12 + N.of_nat (length boot) + 12 + i) else m (g + i)) /\
     ~ starts_with m' (rt + 12) boot /\
     (forall x, ~ in_range rt 13 x -> ~ in_range g 4 x -> m' x = m x)) /\
  (~ starts_with m (rt + 12) boot ->
     (forall i, i < 4 -> m' (rt + i) = byte size i /\ m' (rt + 4 + i) = 0 /\ m' (rt + 8 + i) = 0) /\
     (forall i, i < 4 -> m' (g + i) = if gl then 0 else m (g + i)) /\
     (forall x, ~ in_range rt 12 x -> ~ in_range g 4 x -> m' x = m x)).
Proof.
  intros boot m rt g size gl Hb Hh Hs Hg m'. unfold m', stream_init, runtime_size, global_size.
  set (L := N.of_nat (length boot)) in *.
  assert (HL : 1 <= L) by (unfold L; destruct boot; [easy|simpl length; lia]).
  destruct (match_boot_spec m boot (rt + 12)) as [[H1 H2]|[H1 (x & y & H2 & H3)]]; rewrite H2; split; try easy; intros _.
  - fold L. rewrite N.eqb_refl.
    assert (Hz : forall f, ~ starts_with (bput f (rt + 12) 0) (rt + 12) boot).
    { intros f C. unfold starts_with in C. destruct boot as [|b r]; [easy|]. simpl in Hh.
      replace (N.of_nat (length (b :: r))) with (1 + N.of_nat (length r)) in C by (simpl length; lia).
      rewrite bytes_at_add in C.
      replace (bytes_at (bput f (rt + 12) 0) (rt + 12) 1) with [0] in C
        by (unfold bytes_at; simpl; now rewrite N.add_0_r, bput_same).
      simpl in C. congruence. }
    assert (Hc1 : forall i, i < 12 -> copy m (rt + 12 + L) rt 12 (rt + i) = m (rt + 12 + L + i)).
    { intros i Hi. unfold copy. destruct (N.leb_spec rt (rt + i)); [|lia].
      destruct (N.ltb_spec (rt + i) (rt + 12)); [|lia]. simpl. f_equal. lia. }
    assert (Hc2 : forall z, ~ in_range rt 12 z -> copy m (rt + 12 + L) rt 12 z = m z).
    { intros z Hz2. unfold copy, in_range in *. destruct (N.leb_spec rt z); [|easy].
      destruct (N.ltb_spec z (rt + 12)); [|easy]. lia. }
    destruct gl.
    + split; [|split; [|split; [apply Hz|]]].
      * intros i Hi. rewrite bput_other by lia. unfold copy at 1.
        destruct (N.leb_spec g (rt + i)); [|now apply Hc1].
        destruct (N.ltb_spec (rt + i) (g + 4)); [lia|]. now apply Hc1.
      * intros i Hi. rewrite bput_other by lia. unfold copy at 1.
        destruct (N.leb_spec g (g + i)); [|lia]. destruct (N.ltb_spec (g + i) (g + 4)); [|lia].
        simpl. rewrite Hc2 by (unfold in_range; lia). f_equal. lia.
      * intros z Z1 Z2. unfold in_range in *. rewrite bput_other by lia. unfold copy at 1.
        destruct (N.leb_spec g z); [destruct (N.ltb_spec z (g + 4))|]; simpl; try lia;
          apply Hc2; unfold in_range; lia.
    + split; [|split; [|split; [apply Hz|]]].
      * intros i Hi. rewrite bput_other by lia. now apply Hc1.
      * intros i Hi. rewrite bput_other by lia. apply Hc2. unfold in_range. lia.
      * intros z Z1 Z2. unfold in_range in *. rewrite bput_other by lia. apply Hc2. unfold in_range. lia.
  - destruct (N.eqb_spec y 0); [easy|].
    assert (Hp : forall f a v i, i < 4 -> put32 f a v (a + i) = byte v i).
    { intros f a v i Hi. unfold put32, byte. destruct (N.leb_spec a (a + i)); [|lia].
      destruct (N.ltb_spec (a + i) (a + 4)); [|lia]. cbn [andb]. rewrite N.shiftr_div_pow2.
      replace (a + i - a) with i by lia. now rewrite N.pow_mul_r. }
    assert (Hq : forall f a v z, ~ in_range a 4 z -> put32 f a v z = f z).
    { intros f a v z Hz. unfold put32, in_range in *. destruct (N.leb_spec a z); [|easy].
      destruct (N.ltb_spec z (a + 4)); [|easy]. lia. }
    assert (B0 : forall i, byte 0 i = 0).
    { intros i. unfold byte. rewrite N.div_0_l; [easy|]. apply N.pow_nonzero. lia. }
    split; [|split].
    + intros i Hi. rewrite Hp by easy. split; [|split; [|apply B0]].
      * rewrite !Hq by (unfold in_range; lia). now apply Hp.
      * rewrite Hq by (unfold in_range; lia). rewrite Hp by easy. apply B0.
    + intros i Hi. rewrite !Hq by (unfold in_range; lia). destruct gl; [|easy].
      unfold fill. destruct (N.leb_spec g (g + i)); [|lia]. destruct (N.ltb_spec (g + i) (g + 4)); [easy|lia].
    + intros z Z1 Z2. unfold in_range in *. rewrite !Hq by (unfold in_range; lia). destruct gl; [|easy].
      unfold fill. destruct (N.leb_spec g z); [|easy]. destruct (N.ltb_spec z (g + 4)); [lia|easy].
Qed.
Print Assumptions C59_init.

(** A three-byte sequence at 112; the runtime at 100, the global one at 10. *)
Definition boot3 : list N := [66; 77; 88].
Definition mem3 (x : N) : N :=
  if x =? 112 then 66 else if x =? 113 then 77 else if x =? 114 then 88 else x.
Example C59_case :
  starts_with mem3 112 boot3 /\
  map (stream_init boot3 mem3 100 10 4096 true) [100; 111; 112; 10; 13; 113] = [115; 126; 0; 127; 130; 77] /\
  map (stream_init boot3 (fun x => x) 100 10 4096 true) [100; 101; 104; 111; 112; 10; 13] =
    [0; 16; 0; 0; 112; 0; 0] /\
  boot3 <> [] /\ hd 0 boot3 <> 0.
Proof. vm_compute. repeat split; discriminate. Qed.
