(** Properties of the panic and allocation error handlers (C97), and of a printing context whose probe
    keeps reading (C49). *)
Require Import NArith Arith List Bool Lia.
From Verif Require Import Stream StreamSpec StreamProofs PrintSpec Print PrintProofs Panic PanicProofs P27_Print.
Import ListNotations.
Open Scope N_scope.

(** The messages: a panic displays its information, a failed allocation its size, each on a line.
    [a ++ ends true k]: no line end if displaying the information fails. *)
Definition panic_msg (info : list bytes * bool) : bytes := concat (fst info) ++ ends true (snd info).
Definition alloc_msg (size : list bytes) : bytes :=
  (* "memory allocation of " *)
  [109; 101; 109; 111; 114; 121; 32; 97; 108; 108; 111; 99; 97; 116; 105; 111; 110; 32; 111; 102; 32] ++
  concat size ++
  (* " bytes failed\n" *)
  [32; 98; 121; 116; 101; 115; 32; 102; 97; 105; 108; 101; 100; 10].
Inductive handles : stmt -> bytes -> Prop :=
| h_panic info : handles (begin_panic info) (panic_msg info)
| h_alloc size : handles (alloc_error_handler size) (alloc_msg size).

Lemma handles_prims st msg : handles st msg -> exists cs, expand st = Some [MPrint Stderr cs] /\ concat cs = msg.
Proof.
  intros [info|size].
  - rewrite panic_prims. eexists. split; [reflexivity|]. unfold panic_msg, ends.
    rewrite concat_app. now destruct info as [a []].
  - rewrite alloc_prims. eexists. split; [reflexivity|]. rewrite !concat_app. reflexivity.
Qed.

Lemma start buf size mask ps ls p st msg s' : 0 < size < 2 ^ 32 ->
  let s := prun (pinit buf size mask ps) ls in
  swp (pm s) = WIdle -> handles st msg -> panic s p st = Some s' ->
  exists cs, concat cs = msg /\ okp s' p /\ pend s' p = [] /\ prog s' p = [MPrint Stderr cs] /\
    ssize (smem (pm s')) = size /\ told s p Stderr cs s' /\ forall read, held s p read s'.
Proof.
  intros Hs s Hw Hh Hp. destruct (handles_prims st msg Hh) as (cs & E & Ec). exists cs.
  unfold panic in Hp. rewrite E in Hp. injection Hp as <-.
  pose proof (pinv_run buf size mask ps ls _ (pinv_init buf size mask ps)) as V. fold s in V.
  destruct (pi_ran _ _ _ _ _ V) as (ls' & tr & Er & _).
  destruct (sinv_run ls' _ _ (sinv_init buf size Hs)) as (un & I & _ & _ & Z). rewrite Er in I, Z. cbn [fst] in I, Z.
  unfold okp, told, held. cbn [pm pmask prog pend pcur plog]. rewrite !upd_same, Hw.
  split; [exact Ec|]. split; [split; [reflexivity|eauto]|]. split; [reflexivity|]. split; [reflexivity|].
  split; [exact Z|]. split.
  - split; [discriminate|]. split; [reflexivity|]. split; [intros f []|].
    exists []. rewrite app_nil_r. split; [reflexivity|]. left. auto.
  - intros read. exists [], un. rewrite app_nil_r. split; [reflexivity|]. split; [exact I|].
    split; [reflexivity|]. split; [intros f []|]. intros _. cbn. apply N.le_0_l.
Qed.

(** ** C97 A panic prints its message and resets the system *)

(** If the buffer has room for a transaction (64 bytes and a header) and the probe goes on reading, then
    the context gets to its reset, having written the message, in full, if stderr is enabled. *)
Theorem C97_resets_partial : forall buf size mask ps ls p st msg s' sched, 66 < size < 2 ^ 32 ->
  let s := prun (pinit buf size mask ps) ls in
  swp (pm s) = WIdle -> handles st msg -> panic s p st = Some s' -> fair sched ->
  exists n l, let x := after p s' sched n in
    reset x p = true /\ plog x = plog s ++ l /\ calls_of p l = [N.testbit (pmask s) 1] /\
    tagged (frames_of p l) = if N.testbit (pmask s) 1 then map (pair 1) msg else [].
Proof.
  intros buf size mask ps ls p st msg s' sched Hs s Hw Hh Hp F.
  assert (Hs' : 0 < size < 2 ^ 32) by lia.
  destruct (start buf size mask ps ls p st msg s' Hs' Hw Hh Hp) as (cs & Ec & O & Pe & Pr & Z & T & _).
  destruct (all_prims p _ s' O Pr) with (sched := sched) as (n & R); auto.
  { now rewrite Z. }
  { rewrite Pe. constructor. }
  exists n. pose proof (told_after s p Stderr cs s' sched n T) as (_ & _ & _ & l & El & C). exists l. cbv zeta.
  split; [exact R|]. split; [exact El|]. unfold reset, own in R.
  destruct C as [(P1 & P2 & _)|(P1 & C1 & C2)].
  - rewrite P1, P2 in R. discriminate.
  - destruct (pend (after p s' sched n) p); [|discriminate]. rewrite app_nil_r in C2.
    rewrite <- enabled_testbit. split; [exact C1|]. rewrite C2. change (stream_of Stderr) with 1. 
    destruct (is_enabled (pmask s) 1); [|reflexivity].
    rewrite call_frames_tagged. cbn. now rewrite app_nil_r, Ec.
Qed.
Print Assumptions C97_resets_partial.

(** With stderr disabled nothing is written and the probe is not needed. *)
Theorem C97_disabled_partial : forall buf size mask ps ls p st msg s' sched, 0 < size < 2 ^ 32 ->
  let s := prun (pinit buf size mask ps) ls in
  swp (pm s) = WIdle -> handles st msg -> panic s p st = Some s' ->
  N.testbit (pmask s) 1 = false -> (exists k, sched k = Ctx) ->
  exists n, reset (after p s' sched n) p = true.
Proof.
  intros buf size mask ps ls p st msg s' sched Hs s Hw Hh Hp D (k & K).
  destruct (start buf size mask ps ls p st msg s' Hs Hw Hh Hp) as (cs & Ec & O & Pe & Pr & Z & T & _).
  pose proof (told_after s p Stderr cs s' sched k T) as (_ & M & _ & l & El & C).
  change (stream_of Stderr) with 1 in C. rewrite enabled_testbit, D in C.
  destruct C as [(P1 & P2 & _)|(P1 & C1 & C2)].
  - exists (S k). cbn [after]. rewrite K. cbn [turn]. unfold own. rewrite P1, P2. cbn [pstep]. rewrite P1, P2.
    unfold reset, own. cbn [pend prog]. rewrite !upd_same, M. change (stream_of Stderr) with 1.
    now rewrite enabled_testbit, D.
  - exists k. apply app_eq_nil in C2. destruct C2 as [_ C2]. unfold reset, own. now rewrite C2, P1.
Qed.
Print Assumptions C97_disabled_partial.

(** A probe that stopped reading keeps the system from resetting, if the message is as long as the
    buffer. *)
Lemma total_tagged fs : (length (tagged fs) <= N.to_nat (total fs))%nat.
Proof.
  induction fs as [|f r IH]; [cbn; lia|]. change (tagged (f :: r)) with (map (pair (fst f)) (snd f) ++ tagged r).
  change (total (f :: r)) with (elen f + total r). rewrite app_length, map_length.
  pose proof (elen_eq f) as E. unfold flen in E. rewrite N2Nat.inj_add. apply Nat.add_le_mono; [|exact IH].
  rewrite E, N2Nat.inj_add, Nat2N.id. exact (Nat.le_add_r _ _).
Qed.

Theorem C97_unread_never_resets : forall buf size mask ps ls p st msg s' sched n, 0 < size < 2 ^ 32 ->
  let s := prun (pinit buf size mask ps) ls in
  swp (pm s) = WIdle -> handles st msg -> panic s p st = Some s' ->
  N.testbit (pmask s) 1 = true -> size <= N.of_nat (length msg) -> (forall k, sched k = Ctx) ->
  reset (after p s' sched n) p = false.
Proof.
  intros buf size mask ps ls p st msg s' sched n Hs s Hw Hh Hp D L A.
  destruct (start buf size mask ps ls p st msg s' Hs Hw Hh Hp) as (cs & Ec & O & Pe & Pr & Z & T & H).
  destruct (reset _ p) eqn:R; [|reflexivity]. exfalso.
  pose proof (told_after s p Stderr cs s' sched n T) as (_ & M & _ & l & El & C).
  destruct (held_after s p Stderr cs false s' sched) with (n := n) as (l' & un & El' & I & Z' & _ & Q); auto.
  { intros k E. rewrite A in E. discriminate. }
  rewrite El in El'. apply app_inv_head in El'. subst l'. specialize (Q eq_refl).
  unfold reset, own in R. destruct C as [(P1 & P2 & _)|(P1 & C1 & C2)].
  - rewrite P1, P2 in R. discriminate.
  - destruct (pend (after p s' sched n) p); [|discriminate]. rewrite app_nil_r in C2.
    change (stream_of Stderr) with 1 in C2. rewrite enabled_testbit, D in C2.
    pose proof (f_equal (fun x => length (tagged x)) C2) as G. cbn beta in G. rewrite call_frames_tagged in G.
    cbn in G. rewrite app_nil_r, map_length, Ec in G.
    pose proof (total_tagged (frames_of p l)) as G1.
    pose proof (sinv_total _ _ I) as G2.
    assert (E : ssize (smem (pm s)) = size).
    { rewrite <- Z. unfold panic in Hp. destruct (expand st); [|discriminate]. injection Hp as <-. reflexivity. }
    rewrite Z', E in G2.
    assert (N.of_nat (length msg) <= total (frames_of p l)) by (apply N.leb_le; apply N.leb_le; lia).
    assert (total (frames_of p l) < size) by (eapply N.le_lt_trans; eassumption). lia.
Qed.
Print Assumptions C97_unread_never_resets.

(** A buffer too small for one of the strings displayed keeps the system from resetting, whatever the
    probe does. *)
Theorem C97_small_never_resets : forall buf size mask ps ls p info c s' sched n, 0 < size < 2 ^ 32 ->
  let s := prun (pinit buf size mask ps) ls in
  swp (pm s) = WIdle -> panic s p (begin_panic info) = Some s' ->
  N.testbit (pmask s) 1 = true -> In c (fst info) -> size - 2 <= N.of_nat (length c) <= 64 -> c <> [] ->
  reset (after p s' sched n) p = false.
Proof.
  intros buf size mask ps ls p info c s' sched n Hs s Hw Hp D Ic L Nc.
  destruct (start buf size mask ps ls p _ _ s' Hs Hw (h_panic info) Hp) as (cs & Ec & O & Pe & Pr & Z & T & H).
  destruct (reset _ p) eqn:R; [|reflexivity]. exfalso.
  assert (Ecs : cs = fst info ++ (if snd info then [[newline]] else [])).
  { unfold panic in Hp. rewrite panic_prims in Hp. injection Hp as <-. cbn [prog] in Pr. rewrite upd_same in Pr.
    now injection Pr as <-. }
  pose proof (told_after s p Stderr cs s' sched n T) as (_ & M & _ & l & El & C).
  destruct (held_after s p Stderr cs true s' sched) with (n := n) as (l' & un & El' & I & Z' & S & _); auto.
  rewrite El in El'. apply app_inv_head in El'. subst l'.
  assert (E : ssize (smem (pm s)) = size).
  { rewrite <- Z. unfold panic in Hp. rewrite panic_prims in Hp. injection Hp as <-. reflexivity. }
  unfold reset, own in R. destruct C as [(P1 & P2 & _)|(P1 & C1 & C2)].
  - rewrite P1, P2 in R. discriminate.
  - destruct (pend (after p s' sched n) p); [|discriminate]. rewrite app_nil_r in C2.
    change (stream_of Stderr) with 1 in C2. rewrite enabled_testbit, D in C2.
    assert (If : In (1, c) (frames_of p l)).
    { rewrite C2. apply in_flat_map. exists c. split; [rewrite Ecs; apply in_or_app; now left|].
      change (stream_of Stderr) with 1. rewrite (proj2 (proj2 (chunk_frames_spec 1 c))); [now left|].
      destruct c; [congruence|]. cbn [length] in *. lia. }
    specialize (S _ If). rewrite E, elen_eq in S. unfold flen in S. cbn [snd] in S. lia.
Qed.
Print Assumptions C97_small_never_resets.

(** Both at work: "xxxxxxxx" panics into a buffer of eight bytes. *)
Definition bang : list bytes * bool := ([repeat 120 8], true).
Theorem C97_resets_refuted : exists buf size mask ps p info s',
  0 < size < 2 ^ 32 /\ panic (pinit buf size mask ps) p (begin_panic info) = Some s' /\
  (forall sched n, reset (after p s' sched n) p = false).
Proof.
  exists (fun _ => 0), 8, 2, (fun _ => []), 0, bang. eexists.
  split; [easy|]. split; [reflexivity|]. intros sched n.
  apply (C97_small_never_resets (fun _ => 0) 8 2 (fun _ => []) [] 0 bang (repeat 120 8)); try easy. now left.
Qed.
Print Assumptions C97_resets_refuted.

Definition long : list bytes * bool := ([repeat 120 60; repeat 121 60], true).
Theorem C97_unread_refuted : exists buf size mask ps p info s',
  66 < size < 2 ^ 32 /\ panic (pinit buf size mask ps) p (begin_panic info) = Some s' /\
  (forall sched n, (forall k, sched k = Ctx) -> reset (after p s' sched n) p = false).
Proof.
  exists (fun _ => 0), 100, 2, (fun _ => []), 0, long. eexists.
  split; [easy|]. split; [reflexivity|]. intros sched n A.
  apply (C97_unread_never_resets (fun _ => 0) 100 2 (fun _ => []) [] 0 (begin_panic long) (panic_msg long)); try easy.
  constructor.
Qed.
Print Assumptions C97_unread_refuted.

(** The system can be reset before the probe has read the message. *)
Theorem C97_read_refuted : exists buf size mask ps p info s' sched n,
  66 < size < 2 ^ 32 /\ panic (pinit buf size mask ps) p (begin_panic info) = Some s' /\
  let x := after p s' sched n in
  reset x p = true /\ all_wrote (plog x) <> [] /\ all_read (plog x) = [].
Proof.
  exists (fun _ => 0), 100, 2, (fun _ => []), 0, bang. eexists. exists (fun _ => Ctx), 50%nat.
  split; [easy|]. split; [reflexivity|]. vm_compute. repeat split; discriminate.
Qed.
Print Assumptions C97_read_refuted.

(** ** C49 A transaction completes *)

(** Whatever has been printed before, a context gets through the rest of its program if it and the probe
    both go on; nothing is assumed about when the probe reads. *)
Theorem C49_fair_probe : forall buf size mask ps ls p sched, 66 < size < 2 ^ 32 ->
  let s := prun (pinit buf size mask ps) ls in
  swp (pm s) = WIdle -> fair sched ->
  exists n, let x := after p s sched n in prog x p = [] /\ pend x p = [].
Proof.
  intros buf size mask ps ls p sched Hs s Hw F.
  pose proof (pinv_run buf size mask ps ls _ (pinv_init buf size mask ps)) as V. fold s in V.
  destruct (pi_ran _ _ _ _ _ V) as (ls' & tr & Er & _).
  assert (Hs' : 0 < size < 2 ^ 32) by lia.
  destruct (sinv_run ls' _ _ (sinv_init buf size Hs')) as (un & I & _ & _ & Z). rewrite Er in I, Z. cbn [fst] in I, Z.
  cbn [sinit smem ssize] in Z.
  destruct (all_prims p (prog s p) s) with (sched := sched) as (n & R); auto.
  - split; [now rewrite Hw|eauto].
  - rewrite Z. lia.
  - apply Forall_forall. intros f If. split; [exact (pi_ok _ _ _ _ _ V p f If)|].
    assert (L : In f (sent (prints (ps p)) (calls_of p (plog s)))).
    { rewrite <- (pi_due _ _ _ _ _ V p). apply in_or_app. now right. }
    assert (flen f <= 64); [|rewrite elen_eq, Z; lia].
    clear -L. revert L. generalize (calls_of p (plog s)). generalize (prints (ps p)).
    induction l as [|[t o] ms IH]; intros [|b on] L; try (destruct L; fail).
    cbn in L. destruct b.
    + apply in_app_or in L. destruct L as [L|L]; [|eapply IH; eassumption].
      apply in_flat_map in L. destruct L as (c & _ & L). apply (proj1 (proj2 (chunk_frames_spec _ _)) f L).
    + eapply IH; eassumption.
  - exists n. unfold reset, own in R. cbv zeta. destruct (pend _ p); [|discriminate].
    destruct (prog _ p); [auto|discriminate].
Qed.
Print Assumptions C49_fair_probe.

(** * Cases *)

Definition turns (n : nat) : who := if Nat.even n then Ctx else Probe.
Lemma turns_fair : fair turns.
Proof.
  intros w n. exists (2 * n + match w with Ctx => 0 | Probe => 1 end)%nat. split; [lia|]. unfold turns.
  destruct w; [|rewrite Nat.add_1_r, Nat.even_succ, Nat.odd_mul; reflexivity].
  rewrite Nat.add_0_r, Nat.even_mul. reflexivity.
Qed.

(** A context has printed; another panics; the buffer is nearly full when it does. *)
Example C97_case :
  let ps := fun c => if c =? 0 then [MPrint Stdout [repeat 97 60]] else [] in
  let s := prun (pinit (fun _ => 0) 70 3 ps) (PStep 0 :: PTry 0 :: repeat PWrite 70) in
  swp (pm s) = WIdle /\ length (all_wrote (plog s)) = 1%nat /\
  handles (alloc_error_handler [[57]]) (alloc_msg [[57]]) /\
  match panic s 1 (alloc_error_handler [[57]]) with
  | Some s' =>
      reset s' 1 = false /\
      let x := after 1 s' turns 400 in
      reset x 1 = true /\ all_read (plog x) <> [] /\
      frames_of 1 (plog x) = [(1, firstn 21 alloc_text); (1, [57]); (1, skipn 23 alloc_text ++ [10])]
  | None => False
  end.
Proof. split; [vm_compute; reflexivity|]. split; [vm_compute; reflexivity|]. split; [constructor|]. vm_compute. repeat split; discriminate. Qed.

Example C97_disabled_case :
  match panic (pinit (fun _ => 0) 70 1 (fun _ => [])) 1 (begin_panic bang) with
  | Some s' => N.testbit (pmask s') 1 = false /\ reset s' 1 = false /\ reset (after 1 s' (fun _ => Ctx) 1) 1 = true
  | None => False
  end.
Proof. vm_compute. auto. Qed.

Example C49_fair_case :
  let ps := fun c => if c =? 0 then [MPrint Stdout [repeat 97 60; repeat 98 60]] else [] in
  let s := prun (pinit (fun _ => 0) 70 1 ps) [PStep 0] in
  swp (pm s) = WIdle /\ length (pend s 0) = 2%nat /\ pend (after 0 s turns 500) 0 = [].
Proof. vm_compute. auto. Qed.
