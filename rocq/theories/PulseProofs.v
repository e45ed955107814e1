(** Invariant of the pulse channel and its preservation by every step. *)
Require Import NArith List Bool Lia.
Require Import Verif.Spsc Verif.SpscProofs Verif.Pulse Verif.PulseSpec.
Import ListNotations.
Open Scope N_scope.

(** All observers at once. *)
Record obs := Obs { on : counter; ov : vals; ok : rwake; oc : cwake; ox : over }.
Definition obs0 := Obs counter0 vals0 rwake0 cwake0 over0.
Definition ostep (cap : N) (b : obs) (e : pev) : obs :=
  Obs (nstep cap (on b) e) (vstep (ov b) e) (kstep (ok b) e) (cstep (oc b) e) (xstep (ox b) e).

Lemma ostep_acc cap b s : ostep cap b (EAcc s) = b.
Proof. now destruct b as [[] [] [] [] []]. Qed.
Lemma ostep_fold cap l b : fold_left (ostep cap) l b =
  Obs (fold_left (nstep cap) l (on b)) (fold_left vstep l (ov b)) (fold_left kstep l (ok b))
      (fold_left cstep l (oc b)) (fold_left xstep l (ox b)).
Proof.
  revert b. induction l as [|e l IH]; intros [n a k c x]; [reflexivity|]. cbn [fold_left]. rewrite IH. reflexivity.
Qed.

(** ** The state word. *)
Definition b2n (b : bool) (n : N) : N := if b then n else 0.
Definition flags (t r d c h : bool) : N := b2n t 1 + b2n r 2 + b2n d 4 + b2n c 8 + b2n h 16.
Definition enc (t r d c h : bool) (n : N) : N := flags t r d c h + 32 * n.

Lemma land_low n e b : e < 32 -> N.land b 31 = b -> N.land (e + 32 * n) b = N.land e b.
Proof.
  intros He Hb. rewrite <- Hb at 1. rewrite (N.land_comm b 31), N.land_assoc.
  change 31 with (N.ones 5). rewrite N.land_ones. change (2 ^ 5) with 32.
  rewrite (N.mul_comm 32 n), N.mod_add by lia. now rewrite N.mod_small.
Qed.
Lemma lor_low n e b : e < 32 -> N.land b 31 = b -> N.lor (e + 32 * n) b = N.lor e b + 32 * n.
Proof.
  intros He Hb.
  assert (B : b < 32). { rewrite <- Hb. change 31 with (N.ones 5). rewrite N.land_ones. apply N.mod_lt. discriminate. }
  assert (E : forall x, x < 32 -> x / 32 = 0) by (intros; now apply N.div_small).
  assert (D : N.lor (e + 32 * n) b / 32 = n).
  { change 32 with (2 ^ 5). rewrite <- N.shiftr_div_pow2, N.shiftr_lor, !N.shiftr_div_pow2. change (2 ^ 5) with 32.
    rewrite (E b B), N.lor_0_r, (N.mul_comm 32 n), N.div_add by lia. now rewrite (E e He). }
  assert (M : N.lor (e + 32 * n) b mod 32 = N.lor e b).
  { change 32 with (2 ^ 5). rewrite <- N.land_ones, N.land_lor_distr_l, !N.land_ones. change (2 ^ 5) with 32.
    rewrite (N.mul_comm 32 n), N.mod_add by lia. now rewrite !N.mod_small. }
  rewrite (N.div_mod (N.lor (e + 32 * n) b) 32) by discriminate. rewrite D, M. lia.
Qed.
Lemma has_TXW t r d c h n : has (enc t r d c h n) TXW = t.
Proof. unfold has, enc. rewrite land_low by (destruct t, r, d, c, h; reflexivity || reflexivity). now destruct t, r, d, c, h. Qed.
Lemma has_RXW t r d c h n : has (enc t r d c h n) RXW = r.
Proof. unfold has, enc. rewrite land_low by (destruct t, r, d, c, h; reflexivity || reflexivity). now destruct t, r, d, c, h. Qed.
Lemma has_ERR t r d c h n : has (enc t r d c h n) ERR = d.
Proof. unfold has, enc. rewrite land_low by (destruct t, r, d, c, h; reflexivity || reflexivity). now destruct t, r, d, c, h. Qed.
Lemma has_CLOSED t r d c h n : has (enc t r d c h n) CLOSED = c.
Proof. unfold has, enc. rewrite land_low by (destruct t, r, d, c, h; reflexivity || reflexivity). now destruct t, r, d, c, h. Qed.
Lemma has_HALF t r d c h n : has (enc t r d c h n) HALF = h.
Proof. unfold has, enc. rewrite land_low by (destruct t, r, d, c, h; reflexivity || reflexivity). now destruct t, r, d, c, h. Qed.
Lemma or_TXW t r d c h n : N.lor (enc t r d c h n) TXW = enc true r d c h n.
Proof. unfold enc. rewrite lor_low by (destruct t, r, d, c, h; reflexivity || reflexivity). now destruct t, r, d, c, h. Qed.
Lemma or_RXW t r d c h n : N.lor (enc t r d c h n) RXW = enc t true d c h n.
Proof. unfold enc. rewrite lor_low by (destruct t, r, d, c, h; reflexivity || reflexivity). now destruct t, r, d, c, h. Qed.
Lemma or_ERR t r d c h n : N.lor (enc t r d c h n) ERR = enc t r true c h n.
Proof. unfold enc. rewrite lor_low by (destruct t, r, d, c, h; reflexivity || reflexivity). now destruct t, r, d, c, h. Qed.
Lemma or_CLOSED t r d c h n : N.lor (enc t r d c h n) CLOSED = enc t r d true h n.
Proof. unfold enc. rewrite lor_low by (destruct t, r, d, c, h; reflexivity || reflexivity). now destruct t, r, d, c, h. Qed.
Lemma or_HALF t r d c h n : N.lor (enc t r d c h n) HALF = enc t r d c true n.
Proof. unfold enc. rewrite lor_low by (destruct t, r, d, c, h; reflexivity || reflexivity). now destruct t, r, d, c, h. Qed.
Lemma or_0 t r d c h n : N.lor (enc t r d c h n) 0 = enc t r d c h n.
Proof. apply N.lor_0_r. Qed.
Lemma params_enc t r d c h n : params (enc t r d c h n) = enc t r false c h 0.
Proof. unfold params, enc. rewrite land_low by (destruct t, r, d, c, h; reflexivity || reflexivity). now destruct t, r, d, c, h. Qed.
Lemma count_enc t r d c h n : count (enc t r d c h n) = n.
Proof. unfold count, enc. rewrite N.shiftr_div_pow2. symmetry. apply (N.div_unique _ _ _ (flags t r d c h)); [destruct t, r, d, c, h; reflexivity|]. change (2 ^ PARAM_BITS) with 32. lia. Qed.
#[global] Hint Rewrite has_TXW has_RXW has_ERR has_CLOSED has_HALF or_TXW or_RXW or_ERR or_0 or_CLOSED or_HALF params_enc count_enc : enc.

Section Add.
  Variable w : N.
  Hypothesis Hw : 5 < w.
  Lemma word_cap : 2 ^ w = 32 * CAPACITY w.
  Proof. unfold CAPACITY, PARAM_BITS. change 32 with (2 ^ 5). rewrite <- N.pow_add_r. f_equal. lia. Qed.
  Lemma cap_pos : 1 < CAPACITY w.
  Proof. unfold CAPACITY, PARAM_BITS. apply N.pow_gt_1; lia. Qed.
  Lemma checked_enc t r d c h n p :
    checked_add w (enc t r d c h n) (N.shiftl p PARAM_BITS) =
    if n + p <? CAPACITY w then Some (enc t r d c h (n + p)) else None.
  Proof.
    unfold checked_add, enc. rewrite N.shiftl_mul_pow2, word_cap. change (2 ^ PARAM_BITS) with 32.
    assert (flags t r d c h < 32) by (destruct t, r, d, c, h; reflexivity).
    destruct (N.ltb_spec (n + p) (CAPACITY w)), (N.ltb_spec (flags t r d c h + 32 * n + p * 32) (32 * CAPACITY w));
      try reflexivity; try lia. f_equal. lia.
  Qed.
  Lemma saturate_enc t r d c h n : n < CAPACITY w ->
    N.lor (enc t r d c h n) (N.shiftl (CAPACITY w - 1) PARAM_BITS) = enc t r d c h (CAPACITY w - 1).
  Proof.
    intros Hn. unfold enc. rewrite N.lor_comm.
    assert (F : flags t r d c h < 32) by (destruct t, r, d, c, h; reflexivity).
    assert (E : forall x, N.shiftl x PARAM_BITS = 32 * x).
    { intros x. rewrite N.shiftl_mul_pow2. change (2 ^ PARAM_BITS) with 32. lia. }
    replace (flags t r d c h + 32 * n) with (N.lor (N.shiftl n PARAM_BITS) (flags t r d c h)).
    2: { rewrite E. change (32 * n) with (0 + 32 * n). rewrite lor_low; [|reflexivity|].
         - rewrite N.lor_0_l. reflexivity.
         - change 31 with (N.ones 5). rewrite N.land_ones. now apply N.mod_small. }
    rewrite N.lor_assoc, <- N.shiftl_lor.
    replace (N.lor (CAPACITY w - 1) n) with (CAPACITY w - 1).
    - rewrite E. change (32 * (CAPACITY w - 1)) with (0 + 32 * (CAPACITY w - 1)). rewrite lor_low; [|reflexivity|].
      + now rewrite N.lor_0_l.
      + change 31 with (N.ones 5). rewrite N.land_ones. now apply N.mod_small.
    - unfold CAPACITY in *. rewrite <- N.pred_sub, <- N.ones_equiv. symmetry. rewrite N.lor_comm.
      apply N.lor_ones_low. destruct (N.eq_0_gt_0_cases n) as [->|Hp]; [unfold PARAM_BITS; change (N.log2 0) with 0; lia|]. now apply N.log2_lt_pow2.
  Qed.
End Add.
#[global] Opaque enc.


(** ** Ghost state. *)
(** The registration of a half's waker. *)
Inductive wst :=
| WNone               (* nothing registered *)
| WWritten (w : N)    (* in the cell, flag not set yet *)
| WStored (w : N)     (* handed over *)
| WBack (w : N)       (* flag set too late: to be taken back *)
| WDone.              (* taken back *)
Definition wbit (x : wst) : bool := match x with WNone | WWritten _ => false | _ => true end.

(** What the other half's end (or close) still has to do with the registered waker. *)
Inductive todo := TkNo | TkWake | TkDrop.
Definition tk (x : todo) : bool := match x with TkNo => false | _ => true end.

(** The error in the hands of the sender. *)
Inductive tdat := DNo | DTake (v : N) | DHold (v : N) | DBack (v : N).

Inductive tphase :=
| TAlive
| TWr (v : N)
| TTail (t : todo) (wk : option N) (d : tdat) (fr : bool).

(** A send that has found a registered waker. *)
Inductive spk := SpNo | SpPeek | SpWake (w : N).

Definition spb (x : spk) : bool := match x with SpNo => false | _ => true end.

Record TG := mkT {
  tw : wst; tp : tphase; tsec : bool; tv : option N; tsent : option N; tok : bool;
  tpnd : bool; tnl : bool; tcz : bool; tpw : option N; tdone : bool; tcons : bool;
  tnew : bool; ttx : txs; tsp : spk }.

Definition th (g : TG) : bool := match tp g with TTail _ _ _ _ => true | _ => false end.
Definition ttk (g : TG) : todo := match tp g with TTail t _ _ _ => t | _ => TkNo end.
Definition twk (g : TG) : option N := match tp g with TTail _ w _ _ => w | _ => None end.
Definition tfr (g : TG) : bool := match tp g with TTail _ _ _ f => f | _ => false end.
Definition tda (g : TG) : tdat := match tp g with TTail _ _ d _ => d | _ => DNo end.

(** The receiver's claim on the error; [RdHide]: the flag is cleared but will be set
    again, pulses being delivered first. *)
Inductive rdat := RdNo | RdHide | RdClaim | RdHold (v : N) | RdGot (v : N) | RdDClaim | RdDHold (v : N) | RdDead (v : N).

Record RG := mkR {
  rw : wst; rclosed : bool; rhalf : bool; rd : rdat; rsec : bool; rtk : todo; rwk : option N; rfr : bool;
  rpnd : bool; rnl : bool; rcz : bool; rnd : bool; rpw : option N; rclsd : bool; rcons : bool;
  rtm : bool; rcb : bool; rrx : bool; rtn : N }.

Definition dbit (g : TG) (h : RG) : bool :=
  match tsent g with
  | None => false
  | Some _ => match rd h with RdNo | RdDClaim | RdDHold _ | RdDead _ => true | _ => false end
  end.
Definition dcell (g : TG) (h : RG) : option N :=
  match tp g with
  | TWr v => Some v
  | _ => match tda g with
         | DTake v => Some v
         | _ => match tsent g with
                | None => None
                | Some v => match rd h with RdNo | RdHide | RdClaim | RdDClaim => Some v | _ => None end
                end
         end
  end.
Definition wcell (x : wst) (ended : bool) (t : todo) : option N :=
  match x with
  | WNone | WDone => None
  | WWritten w | WBack w => Some w
  | WStored w => if ended then (if tk t then Some w else None) else Some w
  end.

Definition o2l (o : option N) : list N := match o with Some v => [v] | None => [] end.

Record J (cap : N) (m : mem) (b : obs) (g : TG) (h : RG) : Prop := mkJ {
  j_st : st m = enc (wbit (tw g)) (wbit (rw h)) (dbit g h) (rclosed h) (th g || rhalf h) (n_pend (on b));
  j_tx : cells m CTxW = wcell (tw g) (rclosed h) (rtk h);
  j_rx : cells m CRxW = wcell (rw h) (th g) (ttk g);
  j_da : cells m CErr = dcell g h;
  j_bad : bad m = false;
  j_fr : freed m = (tsec g && negb (tfr g)) || (rsec h && negb (rfr h));
  (* who is second *)
  j_s1 : tsec g = true -> rhalf h = true /\ th g = true;
  j_s2 : rsec h = true -> th g = true /\ rhalf h = true;
  j_s3 : tsec g = true -> rsec h = true -> False;
  j_s4 : th g = true -> rhalf h = true -> tsec g = true \/ rsec h = true;
  j_s5 : tfr g = true -> tsec g = true;
  j_s6 : rfr h = true -> rsec h = true;
  j_rh : rhalf h = true -> rclosed h = true;
  (* wakers *)
  j_tt : match rw h with WStored _ => True | _ => tk (ttk g) = false end;
  j_rt : match tw g with WStored _ => True | _ => tk (rtk h) = false end;
  j_rt' : tk (rtk h) = true -> rclosed h = true;
  j_tb : match tw g with WBack _ | WDone => rclosed h = true | _ => True end;
  j_rb : match rw h with WBack _ | WDone => th g = true | _ => True end;
  j_wk1 : match twk g with Some w => rw h = WStored w | None => True end;
  j_wk2 : match rwk h with Some w => tw g = WStored w | None => True end;
  (* counter *)
  j_n1 : n_pend (on b) < cap;
  j_n2 : n_tx (on b) = ttx g;
  j_n3 : n_rx (on b) = rrx h;
  j_n4 : n_taken (on b) = rtn h;
  j_n5 : n_bad (on b) = false;
  j_n6 : n_begun (on b) = c_begun (oc b);
  j_n7 : match rd h with RdHide | RdClaim | RdHold _ | RdGot _ => n_pend (on b) = 0 | _ => True end;
  j_n8 : th g = true -> ttx g = TxNo;
  j_n9 : match tsp g with SpNo => True | SpPeek => match rw h with WStored _ => True | _ => False end | SpWake w => rw h = WStored w end;
  j_n10 : spb (tsp g) = true -> th g = false;
  (* error *)
  j_d1 : match tsent g with Some v => tv g = Some v /\ th g = true /\ tda g = DNo | None => True end;
  j_d2 : match rd h with RdNo => True | _ => tsent g <> None end;
  j_d3 : match rd h with RdHold v | RdGot v | RdDHold v | RdDead v => tsent g = Some v | _ => True end;
  j_d4 : rhalf h = true -> tsent g <> None -> rd h <> RdNo;
  j_d5 : match tp g with
         | TWr v | TTail _ _ (DTake v | DHold v | DBack v) _ => tv g = Some v /\ tsent g = None
         | _ => True end;
  j_d6 : tok g = true -> tsent g <> None;
  (* observers *)
  j_v1 : v_sent (ov b) = o2l (tv g);
  j_v2 : v_got (ov b) = match rd h with RdGot v => [v] | _ => [] end;
  j_v3 : v_back (ov b) = match tda g with DBack v => [v] | _ => [] end;
  j_v4 : v_dead (ov b) = match rd h with RdDead v => [v] | _ => [] end;
  j_v5 : v_ok (ov b) = tok g;
  j_v6 : v_due (ov b) = true -> tok g = true /\ match rd h with RdNo | RdHide | RdClaim | RdHold _ => True | _ => False end;
  j_v7 : rnd h = true -> v_due (ov b) = false;
  j_v8 : v_miss (ov b) = false;
  j_v9 : v_end (ov b) = true -> rtm h = true;
  j_v10 : rtm h = true -> th g = true /\ n_pend (on b) = 0 /\ rtn h = 0 /\ match tsent g with
          | None => True
          | Some _ => match rd h with RdGot _ => True | _ => False end end;
  j_v11 : v_after (ov b) = false;
  j_v12 : rclosed h = true -> rhalf h = false -> v_begun (ov b) = true;
  j_v13 : rcb h = true -> rcons h = false -> rhalf h = false -> v_begun (ov b) = true;
  j_k1 : k_done (ok b) = tdone g;
  j_k2 : tdone g = true -> th g = true /\ ttk g = TkNo /\ twk g = None /\ tfr g = false;
  j_k3 : match rw h with
         | WStored w | WWritten w | WBack w => existsb (N.eqb w) (k_ws (ok b)) = true
         | _ => True end;
  j_k4 : match rpw h with Some w => existsb (N.eqb w) (k_ws (ok b)) = true | None => True end;
  j_k5 : k_pend (ok b) = true -> rpnd h = true;
  j_k6 : rpnd h = true -> rclosed h = false /\
         match rw h with
         | WStored w =>
             (th g = false \/ ttk g = TkWake \/ twk g = Some w \/ k_woken (ok b) = true) /\
             (n_pend (on b) = 0 \/ spb (tsp g) = true \/ k_woken (ok b) = true)
         | _ => False end;
  j_k7 : k_late (ok b) = true -> tdone g = true \/ rclosed h = true;
  j_k13 : k_closed (ok b) = true -> rclosed h = true;
  j_k8 : rnl h = true -> k_late (ok b) = false;
  j_k9 : k_badp (ok b) = false;
  j_k10 : tcons g = true \/ th g = true \/ rclosed h = true /\ rhalf h = false -> k_begun (ok b) = true;
  j_k11 : rcz h = true -> k_begun (ok b) = true;
  j_k12 : k_spur (ok b) = false;
  j_c1 : c_closed (oc b) = rclsd h;
  j_c2 : rclsd h = true -> rclosed h = true /\ rtk h = TkNo /\ rwk h = None;
  j_c3 : c_pw (oc b) = tpw g;
  j_c4 : match tw g with
         | WStored w => if tnew g then c_reg (oc b) = None /\ tpw g = Some w else c_reg (oc b) = Some w
         | _ => c_reg (oc b) = None end;
  j_c5 : c_pend (oc b) = true -> tpnd g = true;
  j_c6 : tpnd g = true -> th g = false /\
         match tw g with
         | WStored w => rclosed h = false \/ rtk h = TkWake \/ rwk h = Some w \/ c_woken (oc b) = true
         | _ => False end;
  j_c7 : c_late (oc b) = true -> rclsd h = true;
  j_c8 : tnl g = true -> c_late (oc b) = false;
  j_c9 : c_bad (oc b) = false;
  j_c10 : rclosed h = true -> c_begun (oc b) = true;
  j_c13 : rcb h = true -> c_begun (oc b) = true;
  j_c11 : tcz g = true -> c_begun (oc b) = true;
  j_c12 : c_spur (oc b) = false;
  j_x1 : x_tx (ox b) = tcons g;
  j_x2 : x_rx (ox b) = rcons h;
  j_x3 : tcons g = true -> rcons h = true -> x_over (ox b) = true;
  j_x4 : tcons g = true -> rsec h = true -> x_over (ox b) = true;
  j_x5 : rcons h = true -> tsec g = true -> x_over (ox b) = true;
  j_x7 : uaf m = true -> x_over (ox b) = true
}.

Definition tidle (gone : bool) (g : TG) : Prop :=
  tpw g = None /\ tnew g = false /\ tcons g = false /\ ttx g = TxNo /\ tsp g = SpNo /\
  match tw g with WWritten _ | WBack _ => False | _ => True end /\
  if gone then
    tdone g = true /\ (tda g = DNo /\ tsent g = tv g /\ tok g = match tsent g with Some _ => true | None => false end \/ exists v, tda g = DBack v)
  else tp g = TAlive /\ tv g = None /\ tsent g = None /\ tok g = false /\ tdone g = false /\ tsec g = false.
Definition ridle (gone : bool) (h : RG) : Prop :=
  rnd h = true /\ rpw h = None /\ rcons h = false /\ rrx h = false /\ rtn h = 0 /\
  match rw h with WWritten _ | WBack _ => False | _ => True end /\
  rtk h = TkNo /\ rwk h = None /\ rfr h = false /\
  match rd h with RdNo | RdGot _ | RdDead _ => True | _ => False end /\
  if gone then rhalf h = true /\ rclsd h = true else rhalf h = false /\ rsec h = false /\ match rd h with RdDead _ => False | _ => True end.

#[global] Arguments N.add : simpl never.
#[global] Arguments N.sub : simpl never.
#[global] Arguments N.min : simpl never.
#[global] Arguments N.ltb : simpl never.
#[global] Arguments N.leb : simpl never.
#[global] Arguments count : simpl never.
#[global] Arguments params : simpl never.
#[global] Arguments has : simpl never.

Definition Keep (P : Prop) : Prop := P.
Ltac clr :=
  repeat match goal with
  | H : ?T |- _ => lazymatch T with Keep _ => fail | _ => clear H end
  end.

Ltac fwd :=
  repeat match goal with
  | H : _ /\ _ |- _ => destruct H
  | H : exists _, _ |- _ => destruct H
  | H : false = true -> _ |- _ => clear H
  | H : true = false -> _ |- _ => clear H
  | H : ?x = ?x -> _ |- _ => specialize (H eq_refl)
  | H : ?A -> _, H' : ?A |- _ => match type of A with Prop => specialize (H H') end
  | H : _ || _ = true |- _ => apply orb_true_iff in H
  | H : _ && _ = true |- _ => apply andb_true_iff in H
  end.
Ltac fin1 := intros; fwd; subst; cbn in *; try discriminate; try contradiction;
   try (match goal with |- context [first ?a _] => first [match goal with H : (if ?x then _ else _) |- _ => is_var x; destruct x; fwd end | idtac]; subst; cbn; rewrite ?N.eqb_refl, ?orb_true_r end);
   try (match goal with H : existsb _ _ = true |- context [existsb _ _] => rewrite H, ?orb_true_r end);
   first [ assumption | congruence | solve [auto 6] | solve [repeat split; auto 6; congruence] | idtac ].
Ltac dj := match goal with H : _ \/ _ |- _ => destruct H; try discriminate end.
Ltac db := match goal with |- context [andb ?x _] => is_var x; destruct x; cbn in * end.
Ltac db1 := match goal with |- ?x = false => is_var x; destruct x; [exfalso|reflexivity] | |- ?x = true => is_var x; destruct x; [reflexivity|exfalso] end.
Ltac mc := match goal with |- context [match ?x with _ => _ end] => is_var x; destruct x; cbn in * end.
Ltac fin2 := fin1; try solve [repeat (dj; fin1)]; try solve [repeat (db; fin1)]; try solve [db1; fin1; repeat (dj; fin1)];
  try solve [mc; fin1; repeat (dj; fin1)];
  try solve [match goal with x : tphase |- _ => destruct x end; cbn in *; fin1; try mc; fin1; repeat (dj; fin1)].
Ltac quick := first [ assumption | reflexivity | solve [intros; discriminate]
  | solve [intros; repeat split; reflexivity] | solve [intros; exfalso; auto 2] ].
Ltac fin := first [ quick | fin2 ].
Ltac jopen :=
  let b := fresh "b" in let h := fresh "h" in let HJ := fresh "HJ" in
  intros [st_ ce_ fr_ ua_ ba_] b h HJ;
  destruct b as [[np_ nt_ nr_ nk_ ng_ nb_] [vs_ vg_ vb_ vd_ vk_ vu_ vm_ vbg_ ve_ va_] [kd_ kws_ kn_ kw_ kl_ kb_ kg_ ks_ kc_]
                 [cd_ cp_ cr_ cn_ cw_ cl_ cb_ cg_ cs_] [x1_ x2_ x3_]];
  destruct h as [rw_ rcl_ rh_ rd_ rs_ rt_ rk_ rf_ rp_ rnl_ rcz_ rnd_ rpw_ rcd_ rc_ rtm_ rcb_ rrx_ rtn_];
  destruct HJ; cbn in *; subst.
Ltac dbg := match goal with |- ?G => idtac "UNSOLVED:" G end.
Ltac wr1_ := match goal with H : ?ce ?c = _ |- context [match ?ce ?c with _ => _ end] => rewrite H; cbn; fin end.
Ltac wr_ := first [ solve [intros; fwd; subst; lia] | wr1_ ].
Ltac jj := constructor; [cbn; autorewrite with enc; fin | cbn; fin ..]; try wr_; dbg; fail.
Ltac next g := exists g; split; [jj | autorewrite with enc; cbn [wp]; clr].
Ltac absurd_ := try (exfalso; cbn in *; fwd; congruence).
Ltac tk_ := unfold take; cbn; match goal with H : ?ce ?c = _ |- context [match ?ce ?c with _ => _ end] => rewrite H; cbn end.
