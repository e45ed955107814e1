(** The receiver's methods preserve the invariant of [PulseProofs]. *)
Require Import NArith List Bool Lia.
Require Import Verif.Spsc Verif.SpscProofs Verif.Pulse Verif.PulseSpec Verif.PulseProofs.
Import ListNotations.
Open Scope N_scope.


Definition Jr (cap : N) (m : mem) (b : obs) (h : RG) (g : TG) : Prop := J cap m b g h.
Ltac ropen :=
  let b := fresh "b" in let g := fresh "g" in let HJ := fresh "HJ" in
  unfold Jr at 1; intros [st_ ce_ fr_ ua_ ba_] b g HJ;
  destruct b as [[np_ nt_ nr_ nk_ ng_ nb_] [vs_ vg_ vb_ vd_ vk_ vu_ vm_ vbg_ ve_ va_] [kd_ kws_ kn_ kw_ kl_ kb_ kg_ ks_ kc_]
                 [cd_ cp_ cr_ cn_ cw_ cl_ cb_ cg_ cs_] [x1_ x2_ x3_]];
  destruct g as [tw_ tp_ ts_ tv_ tt_ to_ tn_ tnl_ tz_ tpw_ td_ tc_ tnew_ ttx_ tsp_];
  destruct HJ; cbn in *; subst.
Ltac rj := unfold Jr; jj.
Ltac rnext h := exists h; split; [rj | autorewrite with enc; cbn [wp]; clr].
Ltac rstart :=
  match goal with h : RG |- _ => destruct h as [w cl hf d sc tk1 wk1 fr1 pn nl cz nd pw cd cn tm rcb0 rx0 tn0] end;
  intros Hi; unfold ridle in Hi; cbn in *; fwd;
  repeat (match goal with H : match ?x with _ => _ end |- _ => let T := type of H in change (Keep T) in H end);
  subst; clr; cbn [wp].
Ltac rdone_ := unfold ridle; cbn; unfold Keep in *; repeat split; auto.
Ltac kabs := try (match goal with K : Keep _ |- _ => exfalso; red in K; exact K end).
Notation wpr cap := (wp RX pconsuming (ostep cap) (Jr cap) ridle).

(* fields: rw closed half rd sec tk wk fr | pnd nl cz nd pw clsd cons tm cb rx tn *)
Lemma wp_is_terminated cap h : ridle false h -> wpr cap IsTerminated is_terminated h.
Proof.
  rstart. ropen. autorewrite with enc. rewrite ?orb_false_r.
  destruct (th (mkT tw_ tp_ ts_ tv_ tt_ to_ tn_ tnl_ tz_ tpw_ td_ tc_ tnew_ ttx_ tsp_)) eqn:Eh; cbn [orb].
  - match goal with |- context [RBool ?x] => remember x as tb end.
    exists (mkR w cl false d false TkNo None false pn nl cz true None cd false (tm || tb) rcb0 false 0).
    split. { destruct tb; [|rewrite orb_false_r; rj]. symmetry in Heqtb; apply andb_true_iff in Heqtb as [Ed E0]; apply N.eqb_eq in E0.
             destruct tt_, d, tp_, tm; cbn in *; absurd_; kabs; rj. }
    clr. ropen.
    exists (mkR w cl false d false TkNo None false pn nl cz true None cd false (tm || tb) rcb0 false 0).
    split; [destruct tb; [rewrite orb_true_r in *|rewrite orb_false_r in *]; rj|rdone_].
  - match goal with |- context [RBool ?x] => remember x as tb end.
    exists (mkR w cl false d false TkNo None false pn nl cz true None cd false tm rcb0 false 0).
    assert (K : Keep (tb = true -> cl = true)). { intros Et. destruct cl; [reflexivity|cbn in Heqtb; congruence]. }
    split. { rj. }
    clr. ropen.
    exists (mkR w cl false d false TkNo None false pn nl cz true None cd false tm rcb0 false 0).
    split; [destruct tb; [specialize (K eq_refl)|clear K]; rj|rdone_].
Qed.

Lemma wp_close cap h : ridle false h ->
  wpr cap Close close (mkR (rw h) (rclosed h) false (rd h) false TkNo None false false (rnl h) true true None (rclsd h) false (rtm h) true false 0).
Proof.
  rstart. split; [ropen; rj|]. ropen. autorewrite with enc.
  destruct cl; cbn [negb andb].
  { rnext (mkR w true false d false TkNo None false false nl true true None cd false tm true false 0). ropen.
    exists (mkR w true false d false TkNo None false false nl true true None true false tm true false 0). split; [rj|rdone_]. }
  exists (mkR w true false d false (if wbit tw_ then (if th (mkT tw_ tp_ ts_ tv_ tt_ to_ tn_ tnl_ tz_ tpw_ td_ tc_ tnew_ ttx_ tsp_) then TkDrop else TkWake) else TkNo) None false false nl true true None cd false tm true false 0).
  split. { destruct tw_, tp_; cbn [wbit th tp]; absurd_; rj. }
  destruct (wbit tw_), tp_; cbn [th tp]; clr; cbn [wp orb negb]; ropen.
  1,2,3: destruct tw_; absurd_; cbn in *; tk_.
  1,2: rnext (mkR w true false d false TkNo (Some w0) false false nl true true None cd false tm true false 0); ropen;
       rnext (mkR w true false d false TkNo None false false nl true true None cd false tm true false 0); ropen.
  3: rnext (mkR w true false d false TkNo None false false nl true true None cd false tm true false 0); ropen;
       rnext (mkR w true false d false TkNo None false false nl true true None cd false tm true false 0); ropen.
  all: exists (mkR w true false d false TkNo None false false nl true true None true false tm true false 0); (split; [rj|rdone_]).
Qed.

Ltac rjn := unfold Jr; constructor;
  (cbn; rewrite ?N.add_0_l, ?N.add_0_r, ?N.eqb_refl;
   try (match goal with K : Keep ((?n =? 0) = false) |- context [?n =? 0] => rewrite K end); cbn; autorewrite with enc; fin); try wr_; dbg; fail.
Ltac rnextn h := exists h; split; [rjn | autorewrite with enc; cbn [wp]; clr].

Lemma wp_pulses cap o w cl d t r c h n (e : bool) pn nl cz nd pw cd rcb0 :
  Keep (match w with WWritten _ | WBack _ => False | _ => True end) ->
  Keep (match d with RdNo | RdGot _ => True | _ => False end) ->
  Keep ((n =? 0) = false) ->
  Keep (exists k, o = TryNext \/ o = PollNext k) ->
  wpr cap o (pulses (enc t r e c h n))
    (mkR w cl false (if e then RdHide else d) false TkNo None false pn nl cz nd pw cd false false rcb0 true n).
Proof.
  intros H1 H2 H3 [k H4]. unfold pulses. autorewrite with enc.
  assert (H5 : Keep (o = TryNext \/ o = PollNext k)) by exact H4. clear H4.
  destruct e; cbn [wp].
  - split; [ropen; rj|]. ropen. destruct tt_ as [v|]; absurd_.
    rnextn (mkR w cl false RdNo false TkNo None false pn nl cz nd pw cd false false rcb0 true n).
    ropen. exists (mkR w cl false RdNo false TkNo None false pn nl cz true None cd false false rcb0 false 0).
    destruct H5 as [-> | ->]; (split; [rjn|rdone_]).
  - ropen. exists (mkR w cl false d false TkNo None false pn nl cz true None cd false false rcb0 false 0).
    destruct d; try (exfalso; exact H2); destruct H5 as [-> | ->]; (split; [rjn|rdone_]).
Qed.

Ltac get_data a b :=
  destruct a as [v|]; absurd_; cbn in *;
  destruct b as [|v1|t1 k1 [| | |] f1]; absurd_; cbn in *; fwd; subst; tk_.

Lemma wp_try_next cap h : ridle false h ->
  wpr cap TryNext try_next (mkR (rw h) (rclosed h) false (rd h) false TkNo None false (rpnd h) false (rcz h) false None (rclsd h) false (rtm h) (rcb h) true 0).
Proof.
  rstart. split; [ropen; rj|]. ropen. autorewrite with enc.
  destruct (np_ =? 0) eqn:En; cbn [negb].
  2: { assert (tm = false) as ->. { destruct tm; [|reflexivity]. destruct (j_v10 eq_refl) as (_ & E & _). now rewrite E in En. }
    exists (mkR w cl false (if dbit (mkT tw_ tp_ ts_ tv_ tt_ to_ tn_ tnl_ tz_ tpw_ td_ tc_ tnew_ ttx_ tsp_) (mkR w cl false d false TkNo None false pn false cz false None cd false false rcb0 true 0) then RdHide else d) false TkNo None false pn false cz false None cd false false rcb0 true np_).
    split.
    - destruct tt_ as [v|], d; kabs; cbn [dbit tsent rd]; rjn.
    - apply wp_pulses; try assumption; [|exists 0; auto]. destruct d; kabs; exact I. }
  apply N.eqb_eq in En. subst np_.
  destruct tt_ as [v|]; cbn [dbit tsent rd]; [destruct d; kabs|].
  - (* error *)
    rnextn (mkR w cl false RdClaim false TkNo None false pn false cz false None cd false tm rcb0 true 0).
    ropen. get_data tt_ tp_.
    rnextn (mkR w cl false (RdHold v) false TkNo None false pn false cz false None cd false tm rcb0 true 0).
    ropen. exists (mkR w cl false (RdGot v) false TkNo None false pn false cz true None cd false true rcb0 false 0).
    split; [rjn|rdone_].
  - (* already received *)
    destruct tp_; absurd_. cbn [th tp orb].
    rnextn (mkR w cl false (RdGot v0) false TkNo None false pn false true true None cd false true rcb0 true 0).
    ropen. exists (mkR w cl false (RdGot v0) false TkNo None false pn false true true None cd false true rcb0 false 0).
    split; [rjn|rdone_].
  - destruct d; kabs; absurd_.
    destruct tp_, cl; cbn [th tp orb].
    1,3: rnextn (mkR w true false RdNo false TkNo None false pn false true true None cd false tm rcb0 true 0); ropen;
      exists (mkR w true false RdNo false TkNo None false pn false true true None cd false tm rcb0 false 0);
      (split; [rjn|rdone_]).
    1,2: rnextn (mkR w false false RdNo false TkNo None false pn true cz true None cd false tm rcb0 true 0); ropen;
      exists (mkR w false false RdNo false TkNo None false pn true cz true None cd false tm rcb0 false 0);
      (split; [rjn|rdone_]).
    1: rnextn (mkR w true false RdNo false TkNo None false pn false true true None cd false true rcb0 true 0); ropen;
      exists (mkR w true false RdNo false TkNo None false pn false true true None cd false true rcb0 false 0);
      (split; [rjn|rdone_]).
    rnextn (mkR w false false RdNo false TkNo None false pn false true true None cd false true rcb0 true 0); ropen;
      exists (mkR w false false RdNo false TkNo None false pn false true true None cd false true rcb0 false 0);
      (split; [rjn|rdone_]).
Qed.

Lemma wp_back_pulses cap p t r (e : bool) c h n nl cz nd cd rcb0 :
  Keep ((n =? 0) = false) ->
  wpr cap (PollNext p) (Take CRxW (fun k => DropW k (pulses (enc t r e c h n))))
    (mkR (WBack p) false false (if e then RdHide else RdNo) false TkNo None false false nl cz nd (Some p) cd false false rcb0 true n).
Proof.
  intros Hn. cbn [wp]. destruct e; ropen; tk_.
  1: exists (mkR WDone false false RdHide false TkNo None false false nl cz nd (Some p) cd false false rcb0 true n).
  2: exists (mkR WDone false false RdNo false TkNo None false false nl cz nd (Some p) cd false false rcb0 true n).
  all: (split; [rjn|]); clr; ropen.
  1: exists (mkR WDone false false RdHide false TkNo None false false nl cz nd (Some p) cd false false rcb0 true n).
  2: exists (mkR WDone false false RdNo false TkNo None false false nl cz nd (Some p) cd false false rcb0 true n).
  all: split; [rjn|].
  1: apply (wp_pulses cap (PollNext p) WDone false RdNo t r c h n true).
  5: apply (wp_pulses cap (PollNext p) WDone false RdNo t r c h n false).
  all: try exact I; try assumption; red; eauto.
Qed.

Lemma wp_poll_reg cap p s cz cd rcb0 :
  wpr cap (PollNext p) (Write CRxW p (Rmw Acquire AcqRel (Some s) (fun s => N.lor (params s) RXW) (fun s =>
          let rest :=
            if negb (count s =? 0) then pulses s
            else if has s HALF then
              if has s ERR then Take CErr (fun v => Done (RError v)) else Done REnd
            else Done RPending in
          if has s HALF then Take CRxW (fun k => DropW k rest) else rest)))
   (mkR WNone false false RdNo false TkNo None false false true cz true (Some p) cd false false rcb0 true 0).
Proof.
  cbn [wp]. ropen.
  rnextn (mkR (WWritten p) false false RdNo false TkNo None false false true cz true (Some p) cd false false rcb0 true 0).
  split; [ropen; rj|]. ropen. autorewrite with enc; rewrite ?orb_false_r.
  destruct (np_ =? 0) eqn:En; cbn [negb].
  - apply N.eqb_eq in En. subst np_.
    destruct tt_ as [v|], tp_; absurd_; cbn [dbit tsent rd th tp].
    + rnextn (mkR (WBack p) false false RdClaim false TkNo None false false true cz false (Some p) cd false false rcb0 true 0). ropen. tk_.
      rnextn (mkR WDone false false RdClaim false TkNo None false false true cz false (Some p) cd false false rcb0 true 0). ropen.
      rnextn (mkR WDone false false RdClaim false TkNo None false false true cz false (Some p) cd false false rcb0 true 0). ropen.
      get_data tt_ tp_.
      rnextn (mkR WDone false false (RdHold v) false TkNo None false false true cz false (Some p) cd false false rcb0 true 0). ropen.
      exists (mkR WDone false false (RdGot v) false TkNo None false false true cz true None cd false true rcb0 false 0).
      split; [rjn|rdone_].
    + rnextn (mkR (WStored p) false false RdNo false TkNo None false true true cz true (Some p) cd false false rcb0 true 0). ropen.
      exists (mkR (WStored p) false false RdNo false TkNo None false true true cz true None cd false false rcb0 false 0).
      split; [rjn|rdone_].
    + rnextn (mkR (WStored p) false false RdNo false TkNo None false true true cz true (Some p) cd false false rcb0 true 0). ropen.
      exists (mkR (WStored p) false false RdNo false TkNo None false true true cz true None cd false false rcb0 false 0).
      split; [rjn|rdone_].
    + rnextn (mkR (WBack p) false false RdNo false TkNo None false false true true true (Some p) cd false true rcb0 true 0). ropen. tk_.
      rnextn (mkR WDone false false RdNo false TkNo None false false true true true (Some p) cd false true rcb0 true 0). ropen.
      rnextn (mkR WDone false false RdNo false TkNo None false false true true true (Some p) cd false true rcb0 true 0). ropen.
      exists (mkR WDone false false RdNo false TkNo None false false true true true None cd false true rcb0 false 0).
      split; [rjn|rdone_].
  - assert (Kn : Keep ((np_ =? 0) = false)) by exact En.
    destruct tt_ as [v|], tp_; absurd_; cbn [dbit tsent rd th tp].
    + exists (mkR (WBack p) false false RdHide false TkNo None false false true cz false (Some p) cd false false rcb0 true np_).
      split; [rjn|]. now apply (wp_back_pulses cap p _ _ true).
    + exists (mkR (WStored p) false false RdNo false TkNo None false false true cz true (Some p) cd false false rcb0 true np_).
      split; [rjn|]. apply (wp_pulses cap (PollNext p) (WStored p) false RdNo _ _ _ _ np_ false); try exact I; try assumption; red; eauto.
    + exists (mkR (WStored p) false false RdNo false TkNo None false false true cz true (Some p) cd false false rcb0 true np_).
      split; [rjn|]. apply (wp_pulses cap (PollNext p) (WStored p) false RdNo _ _ _ _ np_ false); try exact I; try assumption; red; eauto.
    + exists (mkR (WBack p) false false RdNo false TkNo None false false true cz true (Some p) cd false false rcb0 true np_).
      split; [rjn|]. now apply (wp_back_pulses cap p _ _ false).
Qed.

Lemma wp_poll_next cap p h : ridle false h ->
  wpr cap (PollNext p) (poll_next p) (mkR (rw h) (rclosed h) false (rd h) false TkNo None false false false (rcz h) false (Some p) (rclsd h) false (rtm h) (rcb h) true 0).
Proof.
  rstart. split; [ropen; rj|]. ropen. autorewrite with enc.
  destruct (np_ =? 0) eqn:En; cbn [negb].
  2: { assert (tm = false) as ->. { destruct tm; [|reflexivity]. destruct (j_v10 eq_refl) as (_ & E & _). now rewrite E in En. }
    exists (mkR w cl false (if dbit (mkT tw_ tp_ ts_ tv_ tt_ to_ tn_ tnl_ tz_ tpw_ td_ tc_ tnew_ ttx_ tsp_) (mkR w cl false d false TkNo None false false false cz false (Some p) cd false false rcb0 true 0) then RdHide else d) false TkNo None false false false cz false (Some p) cd false false rcb0 true np_).
    split.
    - destruct tt_ as [v|], d; kabs; cbn [dbit tsent rd]; rjn.
    - apply wp_pulses; try assumption; [|exists p; auto]. destruct d; kabs; exact I. }
  apply N.eqb_eq in En. subst np_.
  destruct tt_ as [v|]; cbn [dbit tsent rd]; [destruct d; kabs|].
  - (* error *)
    rnextn (mkR w cl false RdClaim false TkNo None false false false cz false (Some p) cd false tm rcb0 true 0).
    ropen. get_data tt_ tp_.
    rnextn (mkR w cl false (RdHold v) false TkNo None false false false cz false (Some p) cd false tm rcb0 true 0).
    ropen. exists (mkR w cl false (RdGot v) false TkNo None false false false cz true None cd false true rcb0 false 0).
    split; [rjn|rdone_].
  - (* already received *)
    destruct tp_; absurd_. cbn [th tp orb].
    rnextn (mkR w cl false (RdGot v0) false TkNo None false false false true true (Some p) cd false true rcb0 true 0).
    ropen. exists (mkR w cl false (RdGot v0) false TkNo None false false false true true None cd false true rcb0 false 0).
    split; [rjn|rdone_].
  - destruct d; kabs; absurd_.
    destruct tp_, cl; cbn [th tp orb].
    1,3: rnextn (mkR w true false RdNo false TkNo None false false false true true (Some p) cd false tm rcb0 true 0); ropen;
      exists (mkR w true false RdNo false TkNo None false false false true true None cd false tm rcb0 false 0);
      (split; [rjn|rdone_]).
    3: rnextn (mkR w true false RdNo false TkNo None false false false true true (Some p) cd false true rcb0 true 0); ropen;
      exists (mkR w true false RdNo false TkNo None false false false true true None cd false true rcb0 false 0);
      (split; [rjn|rdone_]).
    3: rnextn (mkR w false false RdNo false TkNo None false false false true true (Some p) cd false true rcb0 true 0); ropen;
      exists (mkR w false false RdNo false TkNo None false false false true true None cd false true rcb0 false 0);
      (split; [rjn|rdone_]).
    all: destruct w as [|w|w|w|]; cbn [wbit negb]; kabs; absurd_.
    2,4: rnextn (mkR (WStored w) false false RdNo false TkNo None false true true cz true (Some p) cd false tm rcb0 true 0); ropen;
      exists (mkR (WStored w) false false RdNo false TkNo None false true true cz true None cd false tm rcb0 false 0);
      (split; [rjn|rdone_]).
    all: assert (tm = false) as -> by (destruct tm; [destruct (j_v10 eq_refl); discriminate|reflexivity]).
    all: exists (mkR WNone false false RdNo false TkNo None false false true cz true (Some p) cd false false rcb0 true 0);
      (split; [rjn | apply wp_poll_reg]).
Qed.

Lemma wp_drop_rx_free cap w d (b : bool) nl cz cd tm :
  Keep (match w with WWritten _ | WBack _ => False | _ => True end) ->
  Keep (match d with RdNo | RdGot _ | RdDead _ => True | _ => False end) ->
  wpr cap DropRx (if b then Free (Done RUnit) else Done RUnit)
       (mkR w true true d b TkNo None b false nl cz true None cd true tm true false 0).
Proof.
  intros H1 H2. destruct b; cbn [wp].
  - ropen. rnext (mkR w true true d true TkNo None false false nl cz true None cd true tm true false 0).
    ropen. exists (mkR w true true d true TkNo None false false nl cz true None true false tm true false 0).
    split; [rj|rdone_].
  - ropen. exists (mkR w true true d false TkNo None false false nl cz true None true false tm true false 0).
    split; [rj|rdone_].
Qed.

Lemma wp_drop_rx_tail cap w d (b : bool) nl cz cd tm :
  Keep (match w with WWritten _ | WBack _ => False | _ => True end) ->
  Keep (match d with RdNo | RdGot _ | RdDead _ => True | _ => False end) ->
  wpr cap DropRx (Take CTxW (fun w1 =>
        if negb b then Wake w1 (Done RUnit) else DropW w1 (if b then Free (Done RUnit) else Done RUnit)))
       (mkR w true true d b (if b then TkDrop else TkWake) None b false nl cz true None cd true tm true false 0).
Proof.
  intros H1 H2.
  destruct b; cbn [wp negb]; ropen; destruct tw_; absurd_; cbn in *; tk_.
  - rnext (mkR w true true d true TkNo None true false nl cz true None cd true tm true false 0).
    ropen. exists (mkR w true true d true TkNo None true false nl cz true None cd true tm true false 0).
    split; [rj|exact (wp_drop_rx_free cap w d true nl cz cd tm H1 H2)].
  - rnext (mkR w true true d false TkNo (Some w0) false false nl cz true None cd true tm true false 0).
    ropen. exists (mkR w true true d false TkNo None false false nl cz true None cd true tm true false 0).
    split; [rj|exact (wp_drop_rx_free cap w d false nl cz cd tm H1 H2)].
Qed.

Lemma wp_drop_rx cap h : ridle false h ->
  wpr cap DropRx drop_rx (mkR (rw h) (rclosed h) false (rd h) false TkNo None false false (rnl h) (rcz h) true None (rclsd h) true (rtm h) true false 0).
Proof.
  rstart. split; [ropen; rj|]. ropen. autorewrite with enc. rewrite ?orb_false_r.
  set (b := th {| tw := tw_; tp := tp_; tsec := ts_; tv := tv_; tsent := tt_; tok := to_; tpnd := tn_; tnl := tnl_; tcz := tz_; tpw := tpw_; tdone := td_; tcons := tc_; tnew := tnew_; ttx := ttx_; tsp := tsp_ |}). 
  set (t := if negb cl && wbit tw_ then (if b then TkDrop else TkWake) else TkNo).
  destruct (dbit (mkT tw_ tp_ ts_ tv_ tt_ to_ tn_ tnl_ tz_ tpw_ td_ tc_ tnew_ ttx_ tsp_) 
     (mkR w cl false d false TkNo None false false nl cz true None cd true tm true false 0)) eqn:Ed.
  - exists (mkR w true true RdDClaim b t None b false nl cz true None cd true tm true false 0).
    split. { subst t. destruct tt_ as [v|]; [|discriminate Ed]. destruct d; kabs; try discriminate Ed; destruct tp_; absurd_; destruct tw_, cl; subst; absurd_; subst b; cbn; rj. }
    subst t. clearbody b. destruct (negb cl && wbit tw_); clr; cbn [wp].
    + ropen. destruct tt_ as [v|]; absurd_; cbn in *; destruct tp_ as [|v1|t1 k1 [| | |] f1]; absurd_; cbn in *; fwd; subst; tk_.
      rnext (mkR w true true (RdDHold v) b (if b then TkDrop else TkWake) None b false nl cz true None cd true tm true false 0).
      ropen. exists (mkR w true true (RdDead v) b (if b then TkDrop else TkWake) None b false nl cz true None cd true tm true false 0).
      split; [rj|]. apply (wp_drop_rx_tail cap w (RdDead v) b); [assumption|exact I].
    + ropen. destruct tt_ as [v|]; absurd_; cbn in *; destruct tp_ as [|v1|t1 k1 [| | |] f1]; absurd_; cbn in *; fwd; subst; tk_.
      rnext (mkR w true true (RdDHold v) b TkNo None b false nl cz true None cd true tm true false 0).
      ropen. exists (mkR w true true (RdDead v) b TkNo None b false nl cz true None cd true tm true false 0).
      split; [rj|]. apply (wp_drop_rx_free cap w (RdDead v) b); [assumption|exact I].
  - exists (mkR w true true d b t None b false nl cz true None cd true tm true false 0).
    split. { subst t. destruct tt_ as [v|], d; kabs; try discriminate Ed; destruct tp_; absurd_; destruct tw_, cl; subst; absurd_; subst b; cbn; rj. }
    subst t. clearbody b. destruct (negb cl && wbit tw_); clr.
    + apply (wp_drop_rx_tail cap w d b); [assumption|]. destruct d; kabs; exact I.
    + apply (wp_drop_rx_free cap w d b); [assumption|]. destruct d; kabs; exact I.
Qed.
