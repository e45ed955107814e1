(** The receiver's methods preserve the invariant of [OneshotProofs]. *)
Require Import NArith List Bool Lia.
Require Import Verif.Spsc Verif.SpscProofs Verif.Oneshot Verif.OneshotSpec Verif.OneshotProofs.
Import ListNotations.
Open Scope N_scope.


Definition Jr (m : mem) (b : obs) (h : RG) (g : TG) : Prop := J m b g h.
Ltac ropen :=
  let b := fresh "b" in let g := fresh "g" in let HJ := fresh "HJ" in
  unfold Jr at 1; intros [st_ ce_ fr_ ua_ ba_] b g HJ;
  destruct b as [[vs_ vg_ vb_ vd_ vk_ vu_ vm_ vt_ va_] [kd_ kp_ kr_ kn_ kw_ kl_ kb_ kg_ ks_ kc_]
                 [cd_ cp_ cr_ cn_ cw_ cl_ cb_ cg_ cs_] [x1_ x2_ x3_]];
  destruct g as [tw_ tp_ ts_ tv_ tt_ to_ tn_ tnl_ tz_ tpw_ td_ tc_ tnew_];
  destruct HJ; cbn in *; subst.
Ltac rj := unfold Jr; jj.
Ltac rnext h := exists h; split; [rj | autorewrite with enc; cbn [wp]; clr].
Ltac rstart :=
  match goal with h : RG |- _ => destruct h as [w cl hf d sc tk1 wk1 fr1 pn nl cz nd pw cd cn n1 tm rcb0] end;
  intros Hi; unfold ridle in Hi; cbn in *; fwd;
  repeat (match goal with H : match ?x with _ => _ end |- _ => let T := type of H in change (Keep T) in H end);
  subst; clr; cbn [wp].
Ltac rdone_ := unfold ridle; cbn; unfold Keep in *; repeat split; auto.
Notation wpr := (wp RX oconsuming ostep Jr ridle).

(* fields: rw closed half rd sec tk wk fr | pnd nl cz nd pw clsd cons new *)
Lemma wp_is_terminated h : ridle false h -> wpr IsTerminated is_terminated h.
Proof.
  rstart. ropen. autorewrite with enc.
  match goal with |- context [RBool ?x] => remember x as tb end.
  exists (mkR w cl false d false TkNo None false pn nl cz true None cd false false (tm || tb) rcb0).
  split. { destruct tt_, d, tp_, tm, cl; rj. }
  clr. ropen.
  exists (mkR w cl false d false TkNo None false pn nl cz true None cd false false (tm || tb) rcb0).
  split; [destruct tb; [rewrite orb_true_r in *|rewrite orb_false_r in *]; rj|rdone_].
Qed.

Lemma wp_close h : ridle false h ->
  wpr Close close (mkR (rw h) (rclosed h) false (rd h) false TkNo None false false (rnl h) true true None (rclsd h) false false (rtm h) true).
Proof.
  rstart. split; [ropen; rj|]. ropen. autorewrite with enc.
  destruct cl; cbn [negb andb].
  { rnext (mkR w true false d false TkNo None false false nl true true None cd false false tm true). ropen.
    exists (mkR w true false d false TkNo None false false nl true true None true false false tm true). split; [rj|rdone_]. }
  exists (mkR w true false d false (if wbit tw_ then (if th (mkT tw_ tp_ ts_ tv_ tt_ to_ tn_ tnl_ tz_ tpw_ td_ tc_ tnew_) then TkDrop else TkWake) else TkNo) None false false nl true true None cd false false tm true).
  split. { destruct tw_, tp_; cbn [wbit th tp]; absurd_; rj. }
  destruct (wbit tw_), tp_; cbn [th tp]; clr; cbn [wp orb negb]; ropen.
  1,2,3: destruct tw_; absurd_; cbn in *; tk_.
  1,2: rnext (mkR w true false d false TkNo (Some w0) false false nl true true None cd false false tm true); ropen;
       rnext (mkR w true false d false TkNo None false false nl true true None cd false false tm true); ropen.
  3: rnext (mkR w true false d false TkNo None false false nl true true None cd false false tm true); ropen;
       rnext (mkR w true false d false TkNo None false false nl true true None cd false false tm true); ropen.
  all: exists (mkR w true false d false TkNo None false false nl true true None true false false tm true); (split; [rj|rdone_]).
Qed.

Ltac kabs := try (match goal with K : Keep _ |- _ => exfalso; red in K; exact K end).
Lemma wp_try_recv h : ridle false h ->
  wpr TryRecv try_recv (mkR (rw h) (rclosed h) false (rd h) false TkNo None false (rpnd h) false (rcz h) false None (rclsd h) false false (rtm h) (rcb h)).
Proof.
  rstart. split; [ropen; rj|]. ropen. autorewrite with enc.
  destruct tt_ as [v|]; cbn [dbit tsent rd]; [destruct d; kabs|].
  - (* data *)
    rnext (mkR w cl false RdClaim false TkNo None false pn false cz false None cd false false tm rcb0).
    ropen. destruct tt_ as [v|]; absurd_. cbn in *. destruct tp_ as [|v1|t1 k1 [| | |] f1]; absurd_; cbn in *; fwd; subst; tk_.
    rnext (mkR w cl false (RdHold v) false TkNo None false pn false cz false None cd false false tm rcb0).
    ropen. exists (mkR w cl false (RdGot v) false TkNo None false pn false cz true None cd false false tm rcb0).
    split; [rj|rdone_].
  - (* already received *)
    destruct tp_; absurd_. cbn [th tp orb].
    rnext (mkR w cl false (RdGot v0) false TkNo None false pn false true true None cd false false tm rcb0).
    ropen. exists (mkR w cl false (RdGot v0) false TkNo None false pn false true true None cd false false tm rcb0).
    split; [rj|rdone_].
  - destruct d; kabs; absurd_.
    destruct tp_, cl; cbn [th tp orb].
    1,3,5: rnext (mkR w true false RdNo false TkNo None false pn false true true None cd false false tm rcb0); ropen;
      exists (mkR w true false RdNo false TkNo None false pn false true true None cd false false tm rcb0);
      (split; [rj|rdone_]).
    1,2: rnext (mkR w false false RdNo false TkNo None false pn true cz true None cd false false tm rcb0); ropen;
      exists (mkR w false false RdNo false TkNo None false pn true cz true None cd false false tm rcb0);
      (split; [rj|rdone_]).
    rnext (mkR w false false RdNo false TkNo None false pn false true true None cd false false tm rcb0); ropen;
      exists (mkR w false false RdNo false TkNo None false pn false true true None cd false false tm rcb0);
      (split; [rj|rdone_]).
Qed.

Ltac get_data a b :=
  destruct a as [v|]; absurd_; cbn in *;
  destruct b as [|v1|t1 k1 [| | |] f1]; absurd_; cbn in *; fwd; subst; tk_.

Lemma wp_poll p h : ridle false h ->
  wpr (Poll p) (poll p) (mkR (rw h) (rclosed h) false (rd h) false TkNo None false false false (rcz h) false (Some p) (rclsd h) false false (rtm h) (rcb h)).
Proof.
  rstart. split; [ropen; rj|]. ropen. autorewrite with enc.
  destruct tt_ as [v|]; cbn [dbit tsent rd]; [destruct d; kabs|].
  - (* data *)
    rnext (mkR w cl false RdClaim false TkNo None false false false cz false (Some p) cd false false tm rcb0).
    ropen. get_data tt_ tp_.
    rnext (mkR w cl false (RdHold v) false TkNo None false false false cz false (Some p) cd false false tm rcb0).
    ropen. exists (mkR w cl false (RdGot v) false TkNo None false false false cz true None cd false false tm rcb0).
    split; [rj|rdone_].
  - (* already received *)
    destruct tp_; absurd_. cbn [th tp orb].
    rnext (mkR w cl false (RdGot v0) false TkNo None false false false true true (Some p) cd false false tm rcb0).
    ropen. exists (mkR w cl false (RdGot v0) false TkNo None false false false true true None cd false false tm rcb0).
    split; [rj|rdone_].
  - destruct d; kabs; absurd_.
    destruct tp_, cl; cbn [th tp orb].
    1,3,5: rnext (mkR w true false RdNo false TkNo None false false false true true (Some p) cd false false tm rcb0); ropen;
      exists (mkR w true false RdNo false TkNo None false false false true true None cd false false tm rcb0);
      (split; [rj|rdone_]).
    3: rnext (mkR w false false RdNo false TkNo None false false false true true (Some p) cd false false tm rcb0); ropen;
      exists (mkR w false false RdNo false TkNo None false false false true true None cd false false tm rcb0);
      (split; [rj|rdone_]).
    all: destruct w as [|w|w|w|]; cbn [wbit negb]; kabs; absurd_.
    2,4: rnext (mkR (WStored w) false false RdNo false TkNo None false true true cz true (Some p) cd false false tm rcb0); ropen;
      exists (mkR (WStored w) false false RdNo false TkNo None false true true cz true None cd false false tm rcb0);
      (split; [rj|rdone_]).
    all: rnext (mkR WNone false false RdNo false TkNo None false false true cz true (Some p) cd false false tm rcb0); ropen;
      rnext (mkR (WWritten p) false false RdNo false TkNo None false false true cz true (Some p) cd false false tm rcb0);
      (split; [ropen; rj|]); ropen; autorewrite with enc; rewrite ?orb_false_r.
    all: destruct tt_ as [v|], tp_; absurd_; cbn [dbit tsent rd th tp].
    2,3,6,7: rnext (mkR (WStored p) false false RdNo false TkNo None false true true cz true (Some p) cd false true tm rcb0); ropen;
      exists (mkR (WStored p) false false RdNo false TkNo None false true true cz true None cd false false tm rcb0);
      (split; [rj|rdone_]).
    2,4: rnext (mkR (WBack p) false false RdNo false TkNo None false false true true true (Some p) cd false false tm rcb0); ropen; tk_;
      rnext (mkR WDone false false RdNo false TkNo None false false true true true (Some p) cd false false tm rcb0); ropen;
      rnext (mkR WDone false false RdNo false TkNo None false false true true true (Some p) cd false false tm rcb0); ropen;
      exists (mkR WDone false false RdNo false TkNo None false false true true true None cd false false tm rcb0);
      (split; [rj|rdone_]).
    all: rnext (mkR (WBack p) false false RdClaim false TkNo None false false true cz false (Some p) cd false false tm rcb0); ropen; tk_;
      rnext (mkR WDone false false RdClaim false TkNo None false false true cz false (Some p) cd false false tm rcb0); ropen;
      rnext (mkR WDone false false RdClaim false TkNo None false false true cz false (Some p) cd false false tm rcb0); ropen;
      get_data tt_ tp_;
      rnext (mkR WDone false false (RdHold v) false TkNo None false false true cz false (Some p) cd false false tm rcb0); ropen;
      exists (mkR WDone false false (RdGot v) false TkNo None false false true cz true None cd false false tm rcb0);
      (split; [rj|rdone_]).
Qed.

Lemma wp_drop_rx_free w d (b : bool) nl cz cd tm :
  Keep (match w with WWritten _ | WBack _ => False | _ => True end) ->
  Keep (match d with RdNo | RdGot _ | RdDead _ => True | _ => False end) ->
  wpr DropRx (if b then Free (Done RUnit) else Done RUnit)
       (mkR w true true d b TkNo None b false nl cz true None cd true false tm true).
Proof.
  intros H1 H2. destruct b; cbn [wp].
  - ropen. rnext (mkR w true true d true TkNo None false false nl cz true None cd true false tm true).
    ropen. exists (mkR w true true d true TkNo None false false nl cz true None true false false tm true).
    split; [rj|rdone_].
  - ropen. exists (mkR w true true d false TkNo None false false nl cz true None true false false tm true).
    split; [rj|rdone_].
Qed.

Lemma wp_drop_rx_tail w d (b : bool) nl cz cd tm :
  Keep (match w with WWritten _ | WBack _ => False | _ => True end) ->
  Keep (match d with RdNo | RdGot _ | RdDead _ => True | _ => False end) ->
  wpr DropRx (Take CTxW (fun w1 =>
        if negb b then Wake w1 (Done RUnit) else DropW w1 (if b then Free (Done RUnit) else Done RUnit)))
       (mkR w true true d b (if b then TkDrop else TkWake) None b false nl cz true None cd true false tm true).
Proof.
  intros H1 H2.
  destruct b; cbn [wp negb]; ropen; destruct tw_; absurd_; cbn in *; tk_.
  - rnext (mkR w true true d true TkNo None true false nl cz true None cd true false tm true).
    ropen. exists (mkR w true true d true TkNo None true false nl cz true None cd true false tm true).
    split; [rj|exact (wp_drop_rx_free w d true nl cz cd tm H1 H2)].
  - rnext (mkR w true true d false TkNo (Some w0) false false nl cz true None cd true false tm true).
    ropen. exists (mkR w true true d false TkNo None false false nl cz true None cd true false tm true).
    split; [rj|exact (wp_drop_rx_free w d false nl cz cd tm H1 H2)].
Qed.

Lemma wp_drop_rx h : ridle false h ->
  wpr DropRx drop_rx (mkR (rw h) (rclosed h) false (rd h) false TkNo None false false (rnl h) (rcz h) true None (rclsd h) true false (rtm h) true).
Proof.
  rstart. split; [ropen; rj|]. ropen. autorewrite with enc. rewrite ?orb_false_r.
  set (b := th {| tw := tw_; tp := tp_; tsec := ts_; tv := tv_; tsent := tt_; tok := to_; tpnd := tn_; tnl := tnl_; tcz := tz_; tpw := tpw_; tdone := td_; tcons := tc_; tnew := tnew_ |}). 
  set (t := if negb cl && wbit tw_ then (if b then TkDrop else TkWake) else TkNo).
  destruct (dbit (mkT tw_ tp_ ts_ tv_ tt_ to_ tn_ tnl_ tz_ tpw_ td_ tc_ tnew_) 
     (mkR w cl false d false TkNo None false false nl cz true None cd true false tm true)) eqn:Ed.
  - exists (mkR w true true RdDClaim b t None b false nl cz true None cd true false tm true).
    split. { subst t. destruct tt_ as [v|]; [|discriminate Ed]. destruct d; kabs; try discriminate Ed; destruct tp_; absurd_; destruct tw_, cl; subst; absurd_; subst b; cbn; rj. }
    subst t. clearbody b. destruct (negb cl && wbit tw_); clr; cbn [wp].
    + ropen. destruct tt_ as [v|]; absurd_; cbn in *; destruct tp_ as [|v1|t1 k1 [| | |] f1]; absurd_; cbn in *; fwd; subst; tk_.
      rnext (mkR w true true (RdDHold v) b (if b then TkDrop else TkWake) None b false nl cz true None cd true false tm true).
      ropen. exists (mkR w true true (RdDead v) b (if b then TkDrop else TkWake) None b false nl cz true None cd true false tm true).
      split; [rj|]. apply (wp_drop_rx_tail w (RdDead v) b); [assumption|exact I].
    + ropen. destruct tt_ as [v|]; absurd_; cbn in *; destruct tp_ as [|v1|t1 k1 [| | |] f1]; absurd_; cbn in *; fwd; subst; tk_.
      rnext (mkR w true true (RdDHold v) b TkNo None b false nl cz true None cd true false tm true).
      ropen. exists (mkR w true true (RdDead v) b TkNo None b false nl cz true None cd true false tm true).
      split; [rj|]. apply (wp_drop_rx_free w (RdDead v) b); [assumption|exact I].
  - exists (mkR w true true d b t None b false nl cz true None cd true false tm true).
    split. { subst t. destruct tt_ as [v|], d; kabs; try discriminate Ed; destruct tp_; absurd_; destruct tw_, cl; subst; absurd_; subst b; cbn; rj. }
    subst t. clearbody b. destruct (negb cl && wbit tw_); clr.
    + apply (wp_drop_rx_tail w d b); [assumption|]. destruct d; kabs; exact I.
    + apply (wp_drop_rx_free w d b); [assumption|]. destruct d; kabs; exact I.
Qed.
