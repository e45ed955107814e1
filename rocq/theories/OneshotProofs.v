(** Invariant of the oneshot channel and its preservation by every step. *)
Require Import NArith List Bool Lia.
Require Import Verif.Spsc Verif.SpscProofs Verif.Oneshot Verif.OneshotSpec.
Import ListNotations.
Open Scope N_scope.

(** All observers at once. *)
Record obs := Obs { ov : vals; ok : rwake; oc : cwake; ox : over }.
Definition obs0 := Obs vals0 rwake0 cwake0 over0.
Definition ostep (b : obs) (e : oev) : obs :=
  Obs (vstep (ov b) e) (kstep (ok b) e) (cstep (oc b) e) (xstep (ox b) e).

Lemma ostep_acc b s : ostep b (EAcc s) = b.
Proof. now destruct b as [[] [] [] []]. Qed.
Lemma ostep_fold l b : fold_left ostep l b =
  Obs (fold_left vstep l (ov b)) (fold_left kstep l (ok b)) (fold_left cstep l (oc b)) (fold_left xstep l (ox b)).
Proof.
  revert b. induction l as [|e l IH]; intros [a k c x]; [reflexivity|]. cbn [fold_left]. rewrite IH. reflexivity.
Qed.

(** ** The state word. *)
Definition b2n (b : bool) (n : N) : N := if b then n else 0.
Definition enc (t r d c h : bool) : N := b2n t 1 + b2n r 2 + b2n d 4 + b2n c 8 + b2n h 16.

Lemma has_TXW t r d c h : has (enc t r d c h) TXW = t. Proof. now destruct t, r, d, c, h. Qed.
Lemma has_RXW t r d c h : has (enc t r d c h) RXW = r. Proof. now destruct t, r, d, c, h. Qed.
Lemma has_DATA t r d c h : has (enc t r d c h) DATA = d. Proof. now destruct t, r, d, c, h. Qed.
Lemma has_CLOSED t r d c h : has (enc t r d c h) CLOSED = c. Proof. now destruct t, r, d, c, h. Qed.
Lemma has_HALF t r d c h : has (enc t r d c h) HALF = h. Proof. now destruct t, r, d, c, h. Qed.
Lemma or_TXW t r d c h : N.lor (enc t r d c h) TXW = enc true r d c h. Proof. now destruct t, r, d, c, h. Qed.
Lemma or_RXW t r d c h : N.lor (enc t r d c h) RXW = enc t true d c h. Proof. now destruct t, r, d, c, h. Qed.
Lemma or_DATA t r d c h : N.lor (enc t r d c h) DATA = enc t r true c h. Proof. now destruct t, r, d, c, h. Qed.
Lemma or_0 t r d c h : N.lor (enc t r d c h) 0 = enc t r d c h. Proof. now destruct t, r, d, c, h. Qed.
Lemma or_CLOSED t r d c h : N.lor (enc t r d c h) CLOSED = enc t r d true h. Proof. now destruct t, r, d, c, h. Qed.
Lemma or_HALF t r d c h : N.lor (enc t r d c h) HALF = enc t r d c true. Proof. now destruct t, r, d, c, h. Qed.
Lemma diff_DATA t r d c h : N.ldiff (enc t r d c h) DATA = enc t r false c h. Proof. now destruct t, r, d, c, h. Qed.
#[global] Hint Rewrite has_TXW has_RXW has_DATA has_CLOSED has_HALF or_TXW or_RXW or_DATA or_0 or_CLOSED or_HALF diff_DATA : enc.
#[global] Opaque enc.

(** ** Ghost state. *)
(** The registration of a half's waker. *)
Inductive wst :=
| WNone               (* nothing registered *)
| WWritten (w : N)    (* in the cell, flag not set yet *)
| WStored (w : N)     (* handed over *)
| WBack (w : N)       (* flag set too late: to be taken back *)
| WDone.              (* taken back *)
Definition wbit (x : wst) : bool := match x with WNone | WWritten _ => false | _ => true end.

(** What the other half's end (or close) still has to do with the registered waker. *)
Inductive todo := TkNo | TkWake | TkDrop.
Definition tk (x : todo) : bool := match x with TkNo => false | _ => true end.

(** Data in the hands of the sender. *)
Inductive tdat := DNo | DTake (v : N) | DHold (v : N) | DBack (v : N).

Inductive tphase :=
| TAlive
| TWr (v : N)
| TTail (t : todo) (wk : option N) (d : tdat) (fr : bool).

Record TG := mkT {
  tw : wst; tp : tphase; tsec : bool; tv : option N; tsent : option N; tok : bool;
  tpnd : bool; tnl : bool; tcz : bool; tpw : option N; tdone : bool; tcons : bool;
  tnew : bool (* registered by the call in progress *) }.

Definition th (g : TG) : bool := match tp g with TTail _ _ _ _ => true | _ => false end.
Definition ttk (g : TG) : todo := match tp g with TTail t _ _ _ => t | _ => TkNo end.
Definition twk (g : TG) : option N := match tp g with TTail _ w _ _ => w | _ => None end.
Definition tfr (g : TG) : bool := match tp g with TTail _ _ _ f => f | _ => false end.
Definition tda (g : TG) : tdat := match tp g with TTail _ _ d _ => d | _ => DNo end.

(** The receiver's claim on the data. *)
Inductive rdat := RdNo | RdClaim | RdHold (v : N) | RdGot (v : N) | RdDClaim | RdDHold (v : N) | RdDead (v : N).

Record RG := mkR {
  rw : wst; rclosed : bool; rhalf : bool; rd : rdat; rsec : bool; rtk : todo; rwk : option N; rfr : bool;
  rpnd : bool; rnl : bool; rcz : bool; rnd : bool; rpw : option N; rclsd : bool; rcons : bool;
  rnew : bool; rtm : bool; rcb : bool }.

Definition dbit (g : TG) (h : RG) : bool :=
  match tsent g with
  | None => false
  | Some _ => match rd h with RdNo | RdDClaim | RdDHold _ | RdDead _ => true | _ => false end
  end.
Definition dcell (g : TG) (h : RG) : option N :=
  match tp g with
  | TWr v => Some v
  | _ => match tda g with
         | DTake v => Some v
         | _ => match tsent g with
                | None => None
                | Some v => match rd h with RdNo | RdClaim | RdDClaim => Some v | _ => None end
                end
         end
  end.
Definition wcell (x : wst) (ended : bool) (t : todo) : option N :=
  match x with
  | WNone | WDone => None
  | WWritten w | WBack w => Some w
  | WStored w => if ended then (if tk t then Some w else None) else Some w
  end.

Definition o2l (o : option N) : list N := match o with Some v => [v] | None => [] end.

Record J (m : mem) (b : obs) (g : TG) (h : RG) : Prop := mkJ {
  j_st : st m = enc (wbit (tw g)) (wbit (rw h)) (dbit g h) (rclosed h) (th g || rhalf h);
  j_tx : cells m CTxW = wcell (tw g) (rclosed h) (rtk h);
  j_rx : cells m CRxW = wcell (rw h) (th g) (ttk g);
  j_da : cells m (CBuf 0) = dcell g h;
  j_bad : bad m = false;
  j_fr : freed m = (tsec g && negb (tfr g)) || (rsec h && negb (rfr h));
  (* who is second *)
  j_s1 : tsec g = true -> rhalf h = true /\ th g = true;
  j_s2 : rsec h = true -> th g = true /\ rhalf h = true;
  j_s3 : tsec g = true -> rsec h = true -> False;
  j_s4 : th g = true -> rhalf h = true -> tsec g = true \/ rsec h = true;
  j_s5 : tfr g = true -> tsec g = true;
  j_s6 : rfr h = true -> rsec h = true;
  j_rh : rhalf h = true -> rclosed h = true;
  (* wakers *)
  j_tt : match rw h with WStored _ => True | _ => tk (ttk g) = false end;
  j_rt : match tw g with WStored _ => True | _ => tk (rtk h) = false end;
  j_rt' : tk (rtk h) = true -> rclosed h = true;
  j_tb : match tw g with WBack _ | WDone => rclosed h = true | _ => True end;
  j_rb : match rw h with WBack _ | WDone => th g = true | _ => True end;
  j_wk1 : match twk g with Some w => rw h = WStored w | None => True end;
  j_wk2 : match rwk h with Some w => tw g = WStored w | None => True end;
  (* data *)
  j_d1 : match tsent g with Some v => tv g = Some v /\ th g = true /\ tda g = DNo | None => True end;
  j_d2 : match rd h with RdNo => True | _ => tsent g <> None end;
  j_d3 : match rd h with RdHold v | RdGot v | RdDHold v | RdDead v => tsent g = Some v | _ => True end;
  j_d4 : rhalf h = true -> tsent g <> None -> rd h <> RdNo;
  j_d5 : match tp g with
         | TWr v | TTail _ _ (DTake v | DHold v | DBack v) _ => tv g = Some v /\ tsent g = None
         | _ => True end;
  j_d6 : tok g = true -> tsent g <> None;
  (* observers *)
  j_v1 : v_sent (ov b) = o2l (tv g);
  j_v2 : v_got (ov b) = match rd h with RdGot v => [v] | _ => [] end;
  j_v3 : v_back (ov b) = match tda g with DBack v => [v] | _ => [] end;
  j_v4 : v_dead (ov b) = match rd h with RdDead v => [v] | _ => [] end;
  j_v5 : v_ok (ov b) = tok g;
  j_v6 : v_due (ov b) = true -> tok g = true /\ match rd h with RdNo | RdClaim | RdHold _ => True | _ => False end;
  j_v7 : rnd h = true -> v_due (ov b) = false;
  j_v9 : v_term (ov b) = true -> rtm h = true;
  j_v10 : rtm h = true -> match tsent g with
          | None => th g || rclosed h = true
          | Some _ => match rd h with RdGot _ => True | _ => False end end;
  j_v11 : v_after (ov b) = false;
  j_v8 : v_miss (ov b) = false;
  j_k1 : k_done (ok b) = tdone g;
  j_k2 : tdone g = true -> th g = true /\ ttk g = TkNo /\ twk g = None /\ tfr g = false;
  j_k3 : k_pw (ok b) = rpw h;
  j_k4 : match rw h with
         | WStored w => if rnew h then k_reg (ok b) = None /\ rpw h = Some w else k_reg (ok b) = Some w
         | _ => k_reg (ok b) = None end;
  j_k5 : k_pend (ok b) = true -> rpnd h = true;
  j_k6 : rpnd h = true -> rclosed h = false /\
         match rw h with
         | WStored w => th g = false \/ ttk g = TkWake \/ twk g = Some w \/ k_woken (ok b) = true
         | _ => False end;
  j_k7 : k_late (ok b) = true -> tdone g = true \/ rclosed h = true;
  j_k13 : k_closed (ok b) = true -> rclosed h = true;
  j_k8 : rnl h = true -> k_late (ok b) = false;
  j_k9 : k_badp (ok b) = false;
  j_k10 : rclosed h = true -> rhalf h = false -> k_begun (ok b) = true;
  j_k10b : tv g = None -> tcons g = true -> k_begun (ok b) = true;
  j_k10c : match rd h with RdGot _ => k_begun (ok b) = true | _ => True end;
  j_k10d : th g = true -> tsent g = None -> rhalf h = false -> k_begun (ok b) = true;
  j_k11 : rcz h = true -> k_begun (ok b) = true;
  j_k12 : k_spur (ok b) = false;
  j_c1 : c_closed (oc b) = rclsd h;
  j_c2 : rclsd h = true -> rclosed h = true /\ rtk h = TkNo /\ rwk h = None;
  j_c3 : c_pw (oc b) = tpw g;
  j_c4 : match tw g with
         | WStored w => if tnew g then c_reg (oc b) = None /\ tpw g = Some w else c_reg (oc b) = Some w
         | _ => c_reg (oc b) = None end;
  j_c5 : c_pend (oc b) = true -> tpnd g = true;
  j_c6 : tpnd g = true -> th g = false /\
         match tw g with
         | WStored w => rclosed h = false \/ rtk h = TkWake \/ rwk h = Some w \/ c_woken (oc b) = true
         | _ => False end;
  j_c7 : c_late (oc b) = true -> rclsd h = true;
  j_c8 : tnl g = true -> c_late (oc b) = false;
  j_c9 : c_bad (oc b) = false;
  j_c10 : rclosed h = true -> c_begun (oc b) = true;
  j_c13 : rcb h = true -> c_begun (oc b) = true;
  j_c11 : tcz g = true -> c_begun (oc b) = true;
  j_c12 : c_spur (oc b) = false;
  j_x1 : x_tx (ox b) = tcons g;
  j_x2 : x_rx (ox b) = rcons h;
  j_x3 : tcons g = true -> rcons h = true -> x_over (ox b) = true;
  j_x4 : tcons g = true -> rsec h = true -> x_over (ox b) = true;
  j_x5 : rcons h = true -> tsec g = true -> x_over (ox b) = true;
  j_x7 : uaf m = true -> x_over (ox b) = true
}.

Definition tidle (gone : bool) (g : TG) : Prop :=
  tpw g = None /\ tnew g = false /\ tcons g = false /\ match tw g with WWritten _ | WBack _ => False | _ => True end /\
  if gone then
    tdone g = true /\ (tda g = DNo /\ tsent g = tv g /\ tok g = match tsent g with Some _ => true | None => false end \/ exists v, tda g = DBack v)
  else tp g = TAlive /\ tv g = None /\ tsent g = None /\ tok g = false /\ tdone g = false /\ tsec g = false.
Definition ridle (gone : bool) (h : RG) : Prop :=
  rnd h = true /\ rpw h = None /\ rnew h = false /\ rcons h = false /\ match rw h with WWritten _ | WBack _ => False | _ => True end /\
  rtk h = TkNo /\ rwk h = None /\ rfr h = false /\
  match rd h with RdNo | RdGot _ | RdDead _ => True | _ => False end /\
  if gone then rhalf h = true /\ rclsd h = true else rhalf h = false /\ rsec h = false /\ match rd h with RdDead _ => False | _ => True end.

Definition Keep (P : Prop) : Prop := P.
Ltac clr :=
  repeat match goal with
  | H : ?T |- _ => lazymatch T with Keep _ => fail | _ => clear H end
  end.

Ltac fwd :=
  repeat match goal with
  | H : _ /\ _ |- _ => destruct H
  | H : exists _, _ |- _ => destruct H
  | H : false = true -> _ |- _ => clear H
  | H : true = false -> _ |- _ => clear H
  | H : ?x = ?x -> _ |- _ => specialize (H eq_refl)
  | H : ?A -> _, H' : ?A |- _ => match type of A with Prop => specialize (H H') end
  | H : _ || _ = true |- _ => apply orb_true_iff in H
  | H : _ && _ = true |- _ => apply andb_true_iff in H
  end.
Ltac fin1 := intros; fwd; subst; cbn in *; try discriminate; try contradiction;
   try (match goal with |- context [first ?a _] => first [match goal with H : (if ?x then _ else _) |- _ => is_var x; destruct x; fwd end | idtac]; subst; cbn; rewrite ?N.eqb_refl, ?orb_true_r end);
   first [ assumption | congruence | solve [auto 6] | solve [repeat split; auto 6; congruence] | idtac ].
Ltac dj := match goal with H : _ \/ _ |- _ => destruct H; try discriminate end.
Ltac db := match goal with |- context [andb ?x _] => is_var x; destruct x; cbn in * end.
Ltac db1 := match goal with |- ?x = false => is_var x; destruct x; [exfalso|reflexivity] | |- ?x = true => is_var x; destruct x; [reflexivity|exfalso] end.
Ltac mc := match goal with |- context [match ?x with _ => _ end] => is_var x; destruct x; cbn in * end.
Ltac fin2 := fin1; try solve [repeat (dj; fin1)]; try solve [repeat (db; fin1)]; try solve [db1; fin1; repeat (dj; fin1)];
  try solve [mc; fin1; repeat (dj; fin1)];
  try solve [match goal with x : tphase |- _ => destruct x end; cbn in *; fin1; try mc; fin1; repeat (dj; fin1)].
Ltac quick := first [ assumption | reflexivity | solve [intros; discriminate]
  | solve [intros; repeat split; reflexivity] | solve [intros; exfalso; auto 2] ].
Ltac fin := first [ quick | fin2 ].
Ltac jopen :=
  let b := fresh "b" in let h := fresh "h" in let HJ := fresh "HJ" in
  intros [st_ ce_ fr_ ua_ ba_] b h HJ;
  destruct b as [[vs_ vg_ vb_ vd_ vk_ vu_ vm_ vt_ va_] [kd_ kp_ kr_ kn_ kw_ kl_ kb_ kg_ ks_ kc_]
                 [cd_ cp_ cr_ cn_ cw_ cl_ cb_ cg_ cs_] [x1_ x2_ x3_]];
  destruct h as [rw_ rcl_ rh_ rd_ rs_ rt_ rk_ rf_ rp_ rnl_ rcz_ rnd_ rpw_ rcd_ rc_ rnew_ rtm_ rcb_];
  destruct HJ; cbn in *; subst.
Ltac dbg := match goal with |- ?G => idtac "UNSOLVED:" G end.
Ltac wr_ := match goal with H : ?ce ?c = _ |- context [match ?ce ?c with _ => _ end] => rewrite H; cbn; fin end.
Ltac jj := constructor; [cbn; autorewrite with enc; fin | cbn; fin ..]; try wr_; dbg; fail.
Ltac next g := exists g; split; [jj | autorewrite with enc; cbn [wp]; clr].
Ltac absurd_ := try (exfalso; cbn in *; fwd; congruence).
Ltac tk_ := unfold take; cbn; match goal with H : ?ce ?c = _ |- context [match ?ce ?c with _ => _ end] => rewrite H; cbn end.
