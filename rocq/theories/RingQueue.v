(** First invariant of the ring channel: the buffer, the error and the queue they
    represent ([qstep]). *)
Require Import NArith List Bool Lia.
Require Import Verif.Spsc Verif.SpscWp Verif.Ring Verif.RingWord Verif.RingSpec.
Import ListNotations.
Open Scope N_scope.

#[global] Arguments N.add : simpl never.
#[global] Arguments N.sub : simpl never.
#[global] Arguments N.mul : simpl never.
#[global] Arguments N.ltb : simpl never.
#[global] Arguments N.leb : simpl never.
#[global] Arguments N.eqb : simpl never.
#[global] Arguments N.to_nat : simpl never.
#[global] Arguments N.lor : simpl never.
#[global] Arguments N.ldiff : simpl never.
#[global] Arguments N.modulo : simpl never.
#[global] Arguments N.pow : simpl never.
#[global] Arguments has : simpl never.
#[global] Arguments len : simpl never.
#[global] Arguments COUNT_BITS : simpl never.
#[global] Arguments MAX_CAPACITY : simpl never.
#[global] Arguments get_length : simpl never.
#[global] Arguments get_cursor : simpl never.
#[global] Arguments add_cursor : simpl never.
#[global] Arguments add_length : simpl never.
#[global] Arguments claim_next_if_full : simpl never.
#[global] Arguments next_claim : simpl never.
#[global] Arguments encv : simpl never.
#[global] Arguments LB : simpl never.

(** ** Circular buffers. *)
Section Buffer.
  Variable cap : N.
  Hypothesis Hcap : 1 < cap.
  Notation ix := (fun c k => add_cursor c k cap).

  Lemma ix_lt c k : c < cap -> k <= cap -> add_cursor c k cap < cap.
  Proof. unfold add_cursor. intros. destruct (N.leb_spec cap (c + k)); lia. Qed.
  Lemma ix_0 c : c < cap -> add_cursor c 0 cap = c.
  Proof. unfold add_cursor. intros. destruct (N.leb_spec cap (c + 0)); lia. Qed.
  Lemma ix_add c a b : c < cap -> a + b <= cap -> add_cursor (add_cursor c a cap) b cap = add_cursor c (a + b) cap.
  Proof.
    unfold add_cursor. intros.
    destruct (N.leb_spec cap (c + a)), (N.leb_spec cap (c + (a + b))).
    - destruct (N.leb_spec cap (c + a - cap + b)); lia.
    - lia.
    - destruct (N.leb_spec cap (c + a + b)); lia.
    - destruct (N.leb_spec cap (c + a + b)); lia.
  Qed.
  Lemma ix_cap c : c < cap -> add_cursor c cap cap = c.
  Proof. unfold add_cursor. intros. destruct (N.leb_spec cap (c + cap)); lia. Qed.
  Lemma ix_inj c a b : c < cap -> a < cap -> b < cap -> add_cursor c a cap = add_cursor c b cap -> a = b.
  Proof.
    unfold add_cursor. intros ? ? ?.
    destruct (N.leb_spec cap (c + a)), (N.leb_spec cap (c + b)); lia.
  Qed.

  (** The cells from position [c] on hold [l]; the others are empty. *)
  Definition buf (ce : cell -> option N) (c : N) (l : list N) : Prop :=
    forall k, k < cap -> ce (CBuf (add_cursor c k cap)) = nth_error l (N.to_nat k).

  Lemma buf_ext ce ce' c l : (forall i, ce' (CBuf i) = ce (CBuf i)) -> buf ce c l -> buf ce' c l.
  Proof. intros E B k Hk. rewrite E. now apply B. Qed.

  Lemma upd_buf ce i x j : upd ce (CBuf i) x (CBuf j) = if j =? i then x else ce (CBuf j).
  Proof. reflexivity. Qed.

  Lemma buf_write ce c l x : c < cap -> len l < cap -> buf ce c l ->
    buf (upd ce (CBuf (add_cursor c (len l) cap)) (Some x)) c (l ++ [x]).
  Proof.
    intros Hc Hl B k Hk. rewrite upd_buf. destruct (N.eqb_spec (add_cursor c k cap) (add_cursor c (len l) cap)) as [E|E].
    - apply ix_inj in E; try assumption. subst k. unfold len. rewrite Nnat.Nat2N.id, nth_error_app2 by lia.
      now rewrite PeanoNat.Nat.sub_diag.
    - rewrite B by assumption. unfold len in *. destruct (PeanoNat.Nat.lt_ge_cases (N.to_nat k) (length l)).
      + now rewrite nth_error_app1.
      + assert (k <> N.of_nat (length l)) by (intros ->; now apply E).
        rewrite (proj2 (nth_error_None _ _)) by lia. symmetry. apply nth_error_None. rewrite app_length. cbn. lia.
  Qed.
  Lemma buf_free ce c l : c < cap -> len l < cap -> buf ce c l -> ce (CBuf (add_cursor c (len l) cap)) = None.
  Proof.
    intros Hc Hl B. rewrite B by assumption. apply nth_error_None. unfold len. lia.
  Qed.
  Lemma buf_last ce c l x : c < cap -> len l < cap -> buf ce c (l ++ [x]) ->
    ce (CBuf (add_cursor c (len l) cap)) = Some x.
  Proof.
    intros Hc Hl B. rewrite B by assumption. unfold len. rewrite Nnat.Nat2N.id, nth_error_app2 by lia.
    now rewrite PeanoNat.Nat.sub_diag.
  Qed.
  Lemma buf_unwrite ce c l x : c < cap -> len l < cap -> buf ce c (l ++ [x]) ->
    buf (upd ce (CBuf (add_cursor c (len l) cap)) None) c l.
  Proof.
    intros Hc Hl B k Hk. rewrite upd_buf. destruct (N.eqb_spec (add_cursor c k cap) (add_cursor c (len l) cap)) as [E|E].
    - apply ix_inj in E; try assumption. subst k. symmetry. apply nth_error_None. unfold len. lia.
    - rewrite B by assumption. unfold len in *. destruct (PeanoNat.Nat.lt_ge_cases (N.to_nat k) (length l)).
      + now rewrite nth_error_app1.
      + assert (k <> N.of_nat (length l)) by (intros ->; now apply E).
        rewrite (proj2 (nth_error_None l _)) by lia. apply nth_error_None. rewrite app_length. cbn. lia.
  Qed.
  Lemma buf_head ce c x l : c < cap -> buf ce c (x :: l) -> ce (CBuf c) = Some x.
  Proof. intros Hc B. specialize (B 0 ltac:(lia)). rewrite ix_0 in B by assumption. exact B. Qed.
  Lemma buf_shift c k : c < cap -> k < cap ->
    add_cursor (add_cursor c 1 cap) k cap = if k + 1 =? cap then c else add_cursor c (k + 1) cap.
  Proof.
    intros. rewrite ix_add by lia. destruct (N.eqb_spec (k + 1) cap) as [E|E].
    - replace (1 + k) with cap by lia. now apply ix_cap.
    - f_equal. lia.
  Qed.
  Lemma buf_take ce c x l : c < cap -> len (x :: l) <= cap -> buf ce c (x :: l) ->
    buf (upd ce (CBuf c) None) (add_cursor c 1 cap) l.
  Proof.
    intros Hc Hl B k Hk. rewrite buf_shift by assumption. rewrite upd_buf.
    unfold len in Hl. cbn [length] in Hl.
    destruct (N.eqb_spec (k + 1) cap) as [E|E].
    - rewrite N.eqb_refl. symmetry. apply nth_error_None. lia.
    - destruct (N.eqb_spec (add_cursor c (k + 1) cap) c) as [F|F].
      + rewrite <- (ix_0 c) in F at 2 by assumption. apply ix_inj in F; lia.
      + rewrite B by lia. replace (N.to_nat (k + 1)) with (S (N.to_nat k)) by lia. reflexivity.
  Qed.
  Lemma buf_rotate ce c x l : c < cap -> len (x :: l) = cap -> buf ce c (x :: l) ->
    buf ce (add_cursor c 1 cap) (l ++ [x]).
  Proof.
    intros Hc Hl B k Hk. rewrite buf_shift by assumption.
    unfold len in Hl. cbn [length] in Hl.
    destruct (N.eqb_spec (k + 1) cap) as [E|E].
    - rewrite (buf_head _ _ _ _ Hc B), nth_error_app2 by lia.
      replace (N.to_nat k - length l)%nat with O by lia. reflexivity.
    - rewrite B by lia. replace (N.to_nat (k + 1)) with (S (N.to_nat k)) by lia.
      rewrite nth_error_app1 by lia. reflexivity.
  Qed.
  Lemma buf_empty ce c c' : c < cap -> c' < cap -> buf ce c [] -> buf ce c' [].
  Proof.
    intros Hc Hc' B k Hk.
    assert (forall i, i < cap -> ce (CBuf i) = None) as K.
    { intros i Hi. specialize (B (if i <? c then i + cap - c else i - c)).
      destruct (N.ltb_spec i c).
      - assert (E : add_cursor c (i + cap - c) cap = i).
        { unfold add_cursor. destruct (N.leb_spec cap (c + (i + cap - c))); lia. }
        rewrite E in B. rewrite B by lia. now destruct (N.to_nat _).
      - assert (E : add_cursor c (i - c) cap = i).
        { unfold add_cursor. destruct (N.leb_spec cap (c + (i - c))); lia. }
        rewrite E in B. rewrite B by lia. now destruct (N.to_nat _). }
    rewrite K by (apply ix_lt; lia). now destruct (N.to_nat k).
  Qed.
End Buffer.

Lemma len_app a b : len (a ++ b) = len a + len b.
Proof. unfold len. rewrite app_length. lia. Qed.
Lemma len_cons x l : len (x :: l) = len l + 1.
Proof. unfold len. cbn [length]. lia. Qed.
Lemma len_nil : len [] = 0.
Proof. reflexivity. Qed.
Lemma len_0 l : len l = 0 -> l = [].
Proof. destruct l; [reflexivity|]. rewrite len_cons. lia. Qed.

(** ** The invariant. *)
Record TG := mkT {
  tq : tph;
  tlk : option N;     (* the slot the sender is going to use *)
  tv : option N;      (* its contents *)
  te : option N;      (* the sender's own error in the error cell *)
  th : bool }.
Record RG := mkR {
  rq : rph;
  rc : list N;        (* claimed values still in the buffer *)
  rcx : N;            (* position of the first one *)
  rd : option N;      (* claimed error still in its cell *)
  rhide : bool;       (* the error flag is cleared for a moment *)
  rcl : bool;
  rh : bool }.
Definition o2l (o : option N) : list N := match o with Some v => [v] | None => [] end.

Definition safe1 (m : mem) (a : acc) : Prop :=
  match a with
  | AWrite (CBuf _ as c) | AWrite (CErr as c) => cells m c = None
  | ATake (CBuf _ as c) | ATake (CErr as c) | APeek (CBuf _ as c) | APeek (CErr as c) => cells m c <> None
  | _ => True
  end.
Definition ok1 (q : ring) : bool := negb (q_racy q).

Record Jq (cap : N) (v : view) (c : N) (ce : cell -> option N) (q : ring) (g : TG) (h : RG) : Prop := mkJq {
  a_len : vlen v = len (q_pend q);
  a_err : rh h = false -> ve v = is_some (q_err q) && negb (rhide h);
  a_cls : vc v = q_closed q;
  a_half : vh v = q_txend q || q_rxend q;
  a_tx : q_tx q = tq g;
  a_rx : q_rx q = rq h;
  a_bad : q_bad q = false;
  a_te : q_txend q = th g;
  a_re : q_rxend q = rh h;
  a_cl : q_closed q = rcl h;
  a_gone : rh h = true -> rcl h = true /\ q_pend q = [] /\ q_err q = None;
  a_rhq : rh h = true -> match rq h with RDrop _ _ | RNo => True | _ => False end;
  e_cell : ce CErr = match te g with
                     | Some e => Some e
                     | None => match q_err q with Some e => Some e | None => rd h end
                     end;
  e_tx : te g <> None -> q_err q = None /\ rd h = None;
  e_th : q_err q <> None -> th g = true;
  e_rth : rd h <> None -> th g = true;
  e_rd : q_err q <> None -> rd h = None;
  e_hide : rhide h = true -> q_err q <> None;
  b_c : c < cap;
  b_buf : buf cap ce c ((rc h ++ q_pend q) ++ o2l (tv g));
  b_len : len (rc h ++ q_pend q) <= cap;
  b_rcx : rc h <> [] -> rcx h = c;
  b_cur : rh h = false -> vcur v = add_cursor c (len (rc h)) cap;
  b_lk : match tlk g with
         | Some i => i = add_cursor c (len (rc h ++ q_pend q)) cap /\ len (rc h ++ q_pend q) < cap
         | None => tv g = None end;
  b_hold : match rq h with
           | RRet (RVal _) => len (rc h) <= 1
           | RDrop (_ :: _) _ => True
           | _ => rc h = [] end }.

Definition tsettled (t : tph) : Prop :=
  match t with TSend _ _ | TOver _ | TPoll _ | TIs => False | _ => True end.
Definition rsettled (r : rph) : Prop := match r with RTerm => False | _ => True end.

Definition tidle (gone : bool) (g : TG) : Prop :=
  tq g = TNo /\ tlk g = None /\ tv g = None /\ te g = None /\ th g = gone.
Definition ridle (gone : bool) (h : RG) : Prop :=
  rq h = RNo /\ rc h = [] /\ rd h = None /\ rhide h = false /\ rh h = gone.

Section Queue.
  Variables bits cap : N.
  Hypothesis Hbits : 6 <= bits.
  Hypothesis Hcap0 : 1 < cap.
  Hypothesis Hcap : cap < MAX_CAPACITY bits.
  Hypothesis Heven : COUNT_BITS bits = LB bits.

  Lemma Hcap' : cap <= MAX_CAPACITY bits. Proof. lia. Qed.
  Notation enc := (encv bits).
  Notation wok := (vok bits cap).

  Definition J (m : mem) (q : ring) (g : TG) (h : RG) : Prop :=
    exists v c, st m = enc v /\ wok v /\ Jq cap v c (cells m) q g h.
  Definition Jr (m : mem) (q : ring) (h : RG) (g : TG) : Prop := J m q g h.

  Notation wpt := (wp TX rconsuming (qstep cap) ok1 safe1 J tidle).
  Notation wpr := (wp RX rconsuming (qstep cap) ok1 safe1 Jr ridle).

  Lemma J_frame m m' q g h : J m q g h ->
    st m' = st m -> (forall i, cells m' (CBuf i) = cells m (CBuf i)) -> cells m' CErr = cells m CErr ->
    J m' q g h.
  Proof.
    intros (v & c & E & Hv & HJ) E1 E2 E3. exists v, c. split; [congruence|]. split; [exact Hv|].
    destruct HJ. constructor; auto.
    - congruence.
    - now apply (buf_ext _ (cells m)).
  Qed.

  Lemma tacc_settled q g : q_tx q = tq g -> tsettled (tq g) -> qstep cap q (EAcc TX) = q.
  Proof. cbn. unfold tacc. intros ->. now destruct (tq g). Qed.
  Lemma racc_settled q h : q_rx q = rq h -> rsettled (rq h) -> qstep cap q (EAcc RX) = q.
  Proof. cbn. unfold racc. intros ->. now destruct (rq h). Qed.
  Lemma J_tx m q g h : J m q g h -> q_tx q = tq g.
  Proof. intros (v & c & _ & _ & []). assumption. Qed.
  Lemma J_rx m q g h : J m q g h -> q_rx q = rq h.
  Proof. intros (v & c & _ & _ & []). assumption. Qed.

  Definition waker (c : cell) : Prop := match c with CRxW | CTxW => True | _ => False end.
  Lemma safe_write m c : waker c -> safe1 m (AWrite c). Proof. now destruct c. Qed.
  Lemma safe_take m c : waker c -> safe1 m (ATake c). Proof. now destruct c. Qed.
  Lemma safe_peek m c : waker c -> safe1 m (APeek c). Proof. now destruct c. Qed.

  Ltac frame HJ := apply (J_frame _ _ _ _ _ HJ); auto.
  Lemma take_st m c : st (fst (take m c)) = st m. Proof. unfold take. cbn. now destruct (cells m c). Qed.
  Lemma peek_st m c : st (fst (peek m c)) = st m. Proof. unfold peek. cbn. now destruct (cells m c). Qed.
  Lemma peek_cells m c : cells (fst (peek m c)) = cells m. Proof. unfold peek. cbn. now destruct (cells m c). Qed.
  Lemma J_write m q g h c w : waker c -> J m q g h -> J (write m c w) q g h.
  Proof. intros W HJ. frame HJ; destruct c; try contradiction; reflexivity. Qed.
  Lemma J_take m q g h c : waker c -> J m q g h -> J (fst (take m c)) q g h.
  Proof.
    intros W HJ. frame HJ; [apply take_st| |]; unfold take; cbn; destruct (cells m c); auto;
      destruct c; try contradiction; reflexivity.
  Qed.
  Lemma J_peek m q g h c : J m q g h -> J (fst (peek m c)) q g h.
  Proof. intros HJ. frame HJ; [apply peek_st|intros; now rewrite peek_cells|now rewrite peek_cells]. Qed.
  Lemma J_touch m q g h : J m q g h -> J (touch m) q g h.
  Proof. intros HJ. frame HJ. Qed.
  Lemma J_free m q g h : J m q g h -> J (free m) q g h.
  Proof. intros HJ. frame HJ. Qed.

  (** Accesses that do not matter here. *)
  Lemma t_write o c w k g : waker c -> tsettled (tq g) -> wpt o k g -> wpt o (Write c w k) g.
  Proof.
    intros W S K m q h HJ. split; [now apply safe_write|]. intros _. exists g. split; [|exact K].
    rewrite (tacc_settled _ _ (J_tx _ _ _ _ HJ) S). now apply J_write.
  Qed.
  Lemma t_take o c k g : waker c -> tsettled (tq g) -> (forall w, wpt o (k w) g) -> wpt o (Take c k) g.
  Proof.
    intros W S K m q h HJ. split; [now apply safe_take|]. intros _. exists g. split; [|apply K].
    rewrite (tacc_settled _ _ (J_tx _ _ _ _ HJ) S). now apply J_take.
  Qed.
  Lemma t_peek o c k g : waker c -> tsettled (tq g) -> (forall w, wpt o (k w) g) -> wpt o (Peek c k) g.
  Proof.
    intros W S K m q h HJ. split; [now apply safe_peek|]. intros _. exists g. split; [|apply K].
    rewrite (tacc_settled _ _ (J_tx _ _ _ _ HJ) S). now apply J_peek.
  Qed.
  Lemma t_wake o w k g : wpt o k g -> wpt o (Wake w k) g.
  Proof. intros K m q h HJ _. now exists g. Qed.
  Lemma t_dropw o w k g : wpt o k g -> wpt o (DropW w k) g.
  Proof. intros K m q h HJ _. now exists g. Qed.
  Lemma t_free o k g : wpt o k g -> wpt o (Free k) g.
  Proof. intros K m q h HJ. split; [exact I|]. exists g. split; [now apply J_free|exact K]. Qed.
  Lemma t_rmw {oa oc} o old f k g : tsettled (tq g) ->
    (forall m q h, J m q g h -> nxt (qstep cap) ok1 q (ESync TX) (fun q =>
       exists g', J (set_st (touch m) (f (st m))) q g' h /\ wpt o (k (st m)) g')) ->
    wpt o (Rmw oa oc old f k) g.
  Proof.
    intros S K. cbn [wp]. split; [|exact K]. intros m q h HJ. split; [exact I|]. intros _.
    rewrite (tacc_settled _ _ (J_tx _ _ _ _ HJ) S). now apply J_touch.
  Qed.

  Lemma r_write o c w k g : waker c -> rsettled (rq g) -> wpr o k g -> wpr o (Write c w k) g.
  Proof.
    intros W S K m q h HJ. split; [now apply safe_write|]. intros _. exists g. split; [|exact K].
    rewrite (racc_settled _ _ (J_rx _ _ _ _ HJ) S). now apply J_write.
  Qed.
  Lemma r_take o c k g : waker c -> rsettled (rq g) -> (forall w, wpr o (k w) g) -> wpr o (Take c k) g.
  Proof.
    intros W S K m q h HJ. split; [now apply safe_take|]. intros _. exists g. split; [|apply K].
    rewrite (racc_settled _ _ (J_rx _ _ _ _ HJ) S). now apply J_take.
  Qed.
  Lemma r_peek o c k g : waker c -> rsettled (rq g) -> (forall w, wpr o (k w) g) -> wpr o (Peek c k) g.
  Proof.
    intros W S K m q h HJ. split; [now apply safe_peek|]. intros _. exists g. split; [|apply K].
    rewrite (racc_settled _ _ (J_rx _ _ _ _ HJ) S). now apply J_peek.
  Qed.
  Lemma r_wake o w k g : wpr o k g -> wpr o (Wake w k) g.
  Proof. intros K m q h HJ _. now exists g. Qed.
  Lemma r_dropw o w k g : wpr o k g -> wpr o (DropW w k) g.
  Proof. intros K m q h HJ _. now exists g. Qed.
  Lemma r_free o k g : wpr o k g -> wpr o (Free k) g.
  Proof. intros K m q h HJ. split; [exact I|]. exists g. split; [now apply J_free|exact K]. Qed.
  Lemma r_rmw {oa oc} o old f k g : rsettled (rq g) ->
    (forall m q h, Jr m q g h -> nxt (qstep cap) ok1 q (ESync RX) (fun q =>
       exists g', Jr (set_st (touch m) (f (st m))) q g' h /\ wpr o (k (st m)) g')) ->
    wpr o (Rmw oa oc old f k) g.
  Proof.
    intros S K. cbn [wp]. split; [|exact K]. intros m q h HJ. split; [exact I|]. intros _.
    rewrite (racc_settled _ _ (J_rx _ _ _ _ HJ) S). now apply J_touch.
  Qed.

  Lemma wlen v : wok v -> get_length bits (enc v) = vlen v.
  Proof. apply len_encv; auto using Hcap'. Qed.
  Lemma wcur v : wok v -> get_cursor bits (enc v) = vcur v.
  Proof. apply cur_encv; auto using Hcap'. Qed.
  Lemma wadd v : wok v -> add_length bits (enc v) 1 = enc (addv bits v).
  Proof. apply (add_encv bits cap); auto using Hcap'. Qed.
  Lemma wadd_ok v : wok v -> wok (addv bits v).
  Proof. apply addv_ok. Qed.
  Lemma wfull v : wok v -> claim_next_if_full bits cap (enc v) = enc (claim_full cap v).
  Proof. apply claim_full_encv; auto using Hcap'. Qed.
  Lemma wnext v : wok v -> next_claim bits cap (enc v) = enc (nextv cap v).
  Proof. apply next_encv; auto using Hcap'. Qed.
  Lemma wdrop v : wok v ->
    N.lor (N.lor (N.shiftr (N.shiftl (enc v) (COUNT_BITS bits) mod 2 ^ bits) (COUNT_BITS bits)) CLOSED) HALF = enc (dropv v).
  Proof. intros. apply (drop_encv bits cap); auto using Hcap'. Qed.
  Lemma wclaim_ok v : wok v -> wok (claimv cap v).
  Proof. apply claimv_ok; auto using Hcap'. Qed.
  Lemma cap_LB : cap < 2 ^ LB bits.
  Proof. pose proof (max_LB bits cap Hbits Hcap0 Hcap'). lia. Qed.

  Ltac topen := let v := fresh "v" in intros m q h (v & c & Est & Hv & HJ); destruct m as [st_ ce fr ua ba]; cbn [st cells] in *; subst st_;
    destruct q as [pd er cl te_ re_ tx rx bd ra]; destruct h as [hq hc hx hd hh hcl hr]; destruct HJ; cbn in *; subst.
  Ltac words := rewrite ?wlen, ?wcur, ?has_READY, ?has_FLUSH, ?has_RXW, ?has_ERR, ?has_CLOSED, ?has_HALF by assumption.
  (** Everything that is unchanged. *)
  Ltac same := constructor; cbn; auto; try congruence.

  Definition at_ (t : tph) : TG := mkT t None None None false.
  Definition full_of (sink : bool) (v : N) : tph := if sink then TRet RSinkFull [v] else TRet (RFull v) [].
  Definition closed_of (sink : bool) (v : N) : tph := if sink then TRet RSinkClosed [v] else TRet (RClosed v) [].

  (** The sender's slot. *)
  Definition lk (t : tph) (i : N) (x : option N) : TG := mkT t (Some i) x None false.

  Lemma racy_room rx pd hc : racy cap (Ring pd None false false false TNo rx false false) = false ->
    match rx with RRet (RVal _) => len hc <= 1 | RDrop (_ :: _) _ => True | _ => hc = [] end ->
    len pd < cap -> len (hc ++ pd) < cap.
  Proof.
    unfold racy. cbn. intros R H L. rewrite len_app.
    destruct rx as [| | | | | |[|? ?] ?|[]]; subst; cbn in *; rewrite ?len_nil; try lia; try discriminate.
    apply N.leb_gt in R. lia.
  Qed.

  (** A look that finds a free slot. *)
  Lemma J_look m pd er cl te_ re_ tx rx bd ra t t' h v c :
    let q := Ring pd er cl te_ re_ tx rx bd ra in
    st m = enc v -> wok v -> Jq cap v c (cells m) q (at_ t) h -> len pd < cap ->
    ok1 (look cap q t') = true ->
    J m (look cap q t') (lk t' (add_cursor (vcur v) (vlen v) cap) None) h.
  Proof.
    intros q Est Hv HJ L Ok. destruct HJ. cbn in *. unfold ok1 in Ok. cbn in Ok.
    apply negb_true_iff, orb_false_iff in Ok as [_ R].
    assert (len (rc h ++ pd) < cap) as L'.
    { apply (racy_room rx); auto. now rewrite a_rx0. }
    destruct (rh h) eqn:Erh.
    - (* the receiver is gone *)
      destruct (a_gone0 eq_refl) as (Ecl & Epd & Eer). subst.
      assert (rc h = []) as Erc.
      { unfold racy in R. cbn in R. specialize (a_rhq0 eq_refl).
        destruct (rq h) as [| | | | | |[|? ?] ?|[]]; auto; try discriminate; contradiction. }
      rewrite Erc in *. cbn in *.
      exists v, (vcur v). split; [exact Est|]. split; [exact Hv|]. constructor; cbn; rewrite ?Erh, ?Erc; auto; try congruence.
      + destruct Hv. assumption.
      + cbn. apply buf_empty with c; auto. destruct Hv. assumption.
      + rewrite a_len0. split; [reflexivity|exact L].
    - exists v, c. split; [exact Est|]. split; [exact Hv|]. constructor; cbn; rewrite ?Erh; auto; try congruence.
      split; [|assumption].
      rewrite b_cur0, a_len0, len_app by reflexivity. rewrite len_app in L'. apply ix_add; auto. lia.
  Qed.

  (** Storing the value. *)
  Lemma t_store o t i x k : tsettled t -> wpt o k (lk t i (Some x)) -> wpt o (Write (CBuf i) x k) (lk t i None).
  Proof.
    intros S K. cbn [wp]. intros m q h HJ. pose proof (J_tx _ _ _ _ HJ) as Et. unfold nxt.
    rewrite (tacc_settled _ _ Et S). revert m q h HJ Et. topen. intros _. destruct b_lk0 as [-> L]. rewrite app_nil_r in *. split.
    - apply buf_free; auto.
    - intros _. eexists; split; [|exact K].
      exists v, c. split; [reflexivity|]. split; [exact Hv|]. same.
      now apply buf_write.
  Qed.
  (** Taking it back. *)
  Lemma t_unstore o t i x k : tsettled t -> wpt o (k x) (at_ t) -> wpt o (Take (CBuf i) k) (lk t i (Some x)).
  Proof.
    intros S K. cbn [wp]. intros m q h HJ. pose proof (J_tx _ _ _ _ HJ) as Et. unfold nxt.
    rewrite (tacc_settled _ _ Et S). revert m q h HJ Et. topen. intros _. destruct b_lk0 as [-> L].
    assert (ce (CBuf (add_cursor c (len (hc ++ pd)) cap)) = Some x) as E by (now apply buf_last).
    split; [congruence|]. intros _.
    unfold take. cbn. rewrite E. cbn. eexists; split; [|exact K].
    exists v, c. split; [reflexivity|]. split; [exact Hv|]. same.
    cbn. rewrite app_nil_r. now apply buf_unwrite with x.
  Qed.

  (** Publishing it. *)
  Lemma t_publish {oa oc} o t t1 t2 i x (k1 : prog rres) k2 old :
    tsettled t -> tsettled t2 ->
    (forall q, q_tx q = t -> tsync cap q =
       if q_closed q then with_tx q t1 else with_tx (set_pend q (q_pend q ++ [x])) t2) ->
    wpt o k1 (lk t1 i (Some x)) -> wpt o k2 (at_ t2) ->
    wpt o (Rmw oa oc old (fun s => add_length bits s 1) (fun s =>
       if has s CLOSED then k1 else if has s RXW then Peek CRxW (fun w => Wake w k2) else k2)) (lk t i (Some x)).
  Proof.
    intros S S2 Q K1 K2. apply t_rmw; [exact S|]. intros m q h HJ. pose proof (J_tx _ _ _ _ HJ) as Et. cbn in Et.
    unfold nxt. change (qstep cap q (ESync TX)) with (tsync cap q). rewrite (Q q Et). revert m q h HJ Et. topen. intros _ _.
    rewrite wadd by assumption. words. unfold addv. destruct (vc v) eqn:Evc.
    - eexists; split; [|exact K1]. exists v, c. split; [reflexivity|]. split; [exact Hv|]. same.
    - exists (at_ t2). destruct b_lk0 as [-> L]. split.
      + exists (V (vr v) (vf v) (vw v) (ve v) (vc v) (vh v) (vcur v) ((vlen v + 1) mod 2 ^ LB bits)), c.
        assert (vlen v + 1 < 2 ^ LB bits).
        { pose proof cap_LB. rewrite a_len0. rewrite len_app in L. lia. }
        rewrite (N.mod_small (vlen v + 1)) by assumption.
        split; [cbn; now rewrite Evc|]. split; [split; [apply Hv|assumption]|].
        constructor; cbn; auto.
        * rewrite len_app, len_cons, len_nil. lia.
        * intros E. destruct (a_gone0 E) as (E' & _). discriminate.
        * rewrite app_nil_r. now rewrite app_assoc in *.
        * rewrite app_assoc, len_app, len_cons, len_nil. lia.
      + destruct (vw v); [|exact K2]. apply t_peek; [exact I| |].
        * exact S2.
        * intros w. apply t_wake, K2.
  Qed.

  Lemma rres_refl r : rres_eqb r r = true.
  Proof.
    assert (forall o, onb o o = true) as E by (intros []; cbn; auto using N.eqb_refl).
    destruct r; cbn; rewrite ?N.eqb_refl, ?E; auto. now destruct b.
  Qed.

  Lemma t_done o r g : rside o = TX -> tq g = TRet r [] -> tlk g = None -> tv g = None -> te g = None ->
    th g = rconsuming o -> wpt o (Done r) g.
  Proof.
    intros S E1 E2 E3 E4 E5. cbn [wp]. intros m q h HJ. pose proof (J_tx _ _ _ _ HJ) as Et. unfold nxt. cbn [qstep].
    rewrite S, Et, E1, rres_refl. intros _. destruct g as [t lk_ v e th_]. cbn in *. subst.
    exists (mkT TNo None None None (rconsuming o)). split; [|now repeat split].
    revert m q h HJ Et. topen. intros _. exists v, c. split; [reflexivity|]. split; [exact Hv|]. same.
  Qed.

  Lemma wp_send o sink v k :
    wpt o (k (RFull v)) (at_ (full_of sink v)) -> wpt o (k (RClosed v)) (at_ (closed_of sink v)) ->
    wpt o (k ROk) (at_ (TRet ROk [])) ->
    wpt o (try_send_then bits cap v k) (at_ (TSend sink v)).
  Proof.
    intros K1 K2 K3. unfold try_send_then. cbn [wp]. intros m q h HJ. split; [exact I|].
    pose proof (J_tx _ _ _ _ HJ) as Et. destruct HJ as (v_ & c & Est & Hv & HJ). unfold nxt. cbn [qstep].
    unfold tacc. rewrite Et. cbn [tq at_]. rewrite Est. words. rewrite (a_len _ _ _ _ _ _ _ HJ).
    destruct (N.eqb_spec (len (q_pend q)) cap) as [E|E]; intros Ok.
    - exists (at_ (full_of sink v)). split; [|exact K1].
      exists v_, c. split; [exact Est|]. split; [exact Hv|]. destruct HJ. destruct q; cbn in *. same.
    - pose proof (b_len _ _ _ _ _ _ _ HJ) as L. rewrite len_app in L.
      pose proof (a_len _ _ _ _ _ _ _ HJ) as EL.
      rewrite <- EL. eexists. split.
      + destruct q. apply J_touch. apply (J_look m _ _ _ _ _ _ _ _ _ (TSend sink v) _ h v_ c); auto. cbn in *. lia.
      + apply t_store; [exact I|].
        apply t_publish with (t1 := closed_of sink v) (t2 := TRet ROk []) (k1 := Take (CBuf _) (fun v => k (RClosed v))); try exact I; auto.
        * intros q' E'. unfold tsync. rewrite E'. reflexivity.
        * apply t_unstore; [destruct sink; exact I|]. exact K2.
  Qed.

  Lemma wp_try_send v : wpt (TrySend v) (try_send bits cap v) (at_ (TSend false v)).
  Proof. apply wp_send; apply t_done; reflexivity. Qed.

  Lemma t_dropv o v r d k : wpt o k (at_ (TRet r d)) -> wpt o (DropV v k) (at_ (TRet r (v :: d))).
  Proof.
    intros K. cbn [wp]. intros m q h HJ. pose proof (J_tx _ _ _ _ HJ) as Et. unfold nxt. cbn [qstep].
    rewrite Et. cbn [at_ tq]. rewrite N.eqb_refl. intros _. exists (at_ (TRet r d)). split; [|exact K].
    revert m q h HJ Et. topen. intros _. exists v0, c. split; [reflexivity|]. split; [exact Hv|]. same.
  Qed.

  Lemma wp_start_send v : wpt (StartSend v) (start_send bits cap v) (at_ (TSend true v)).
  Proof.
    apply wp_send.
    - apply t_dropv, t_done; reflexivity.
    - apply t_dropv, t_done; reflexivity.
    - apply t_done; reflexivity.
  Qed.

  Lemma wp_over_store v i r s :
    wpt (SendOver v) (over_store bits v i r s) (lk (TOverLook v r) i None).
  Proof.
    unfold over_store. apply t_store; [exact I|].
    apply t_publish with (t1 := TRet (RNot v r) []) (t2 := TRet (ROver r) [])
      (k1 := Take (CBuf _) (fun v => Done (RNot v r))); try exact I.
    - intros q' E'. unfold tsync. now rewrite E'.
    - apply t_unstore; [exact I|]. apply t_done; reflexivity.
    - apply t_done; reflexivity.
  Qed.

  Lemma t_grab o t i x k : tsettled t -> wpt o (k x) (lk t i None) -> wpt o (Take (CBuf i) k) (lk t i (Some x)).
  Proof.
    intros S K. cbn [wp]. intros m q h HJ. pose proof (J_tx _ _ _ _ HJ) as Et. unfold nxt.
    rewrite (tacc_settled _ _ Et S). revert m q h HJ Et. topen. intros _. destruct b_lk0 as [-> L].
    assert (ce (CBuf (add_cursor c (len (hc ++ pd)) cap)) = Some x) as E by (now apply buf_last).
    split; [congruence|]. intros _.
    unfold take. cbn. rewrite E. cbn. eexists; split; [|exact K].
    exists v, c. split; [reflexivity|]. split; [exact Hv|]. same.
    cbn. rewrite app_nil_r. now apply buf_unwrite with x.
  Qed.

  Lemma wp_over v : wpt (SendOver v) (send_overwrite bits cap v) (at_ (TOver v)).
  Proof.
    unfold send_overwrite. cbn [wp]. intros m q h HJ. split; [exact I|].
    pose proof (J_tx _ _ _ _ HJ) as Et. destruct HJ as (v_ & c & Est & Hv & HJ). unfold nxt. cbn [qstep].
    unfold tacc. rewrite Et. cbn [tq at_]. rewrite Est. words. pose proof (a_len _ _ _ _ _ _ _ HJ) as EL. rewrite EL.
    pose proof (b_len _ _ _ _ _ _ _ HJ) as L. rewrite len_app in L.
    destruct (N.eqb_spec (len (q_pend q)) cap) as [E|E]; intros Ok.
    - exists (at_ (TOverFull v)). split.
      { exists v_, c. split; [exact Est|]. split; [exact Hv|]. destruct HJ. destruct q; cbn in *. same. }
      generalize (enc v_). intros s. clear - Hbits Hcap0 Hcap Heven. apply t_rmw; [exact I|].
      intros m q h HJ. pose proof (J_tx _ _ _ _ HJ) as Et. destruct HJ as (v_ & c & Est & Hv & HJ).
      unfold nxt. cbn [qstep]. unfold tsync. rewrite Et. cbn [tq at_]. rewrite Est, wfull by assumption.
      unfold over_claimed, claim_full. words.
      rewrite (a_len _ _ _ _ _ _ _ HJ), (a_cls _ _ _ _ _ _ _ HJ).
      pose proof (b_len _ _ _ _ _ _ _ HJ) as L. rewrite len_app in L.
      destruct (q_closed q) eqn:Ecl; cbn [negb andb].
      + intros _. exists (at_ (TRet (RNot v None) [])). split; [|apply t_done; reflexivity].
        exists v_, c. split; [reflexivity|]. split; [exact Hv|]. destruct HJ. destruct q; cbn in *. same.
      + destruct (N.eqb_spec (len (q_pend q)) cap) as [E|E]; intros Ok.
        * destruct HJ. destruct q as [pd er cl te_ re_ tx rx bd ra]. cbn in * |-.
          cbn [q_pend q_err q_closed q_txend q_rxend q_tx q_rx q_bad q_racy]. subst.
          destruct pd as [|x l]; [rewrite len_nil in *; lia|].
          assert (rc h = []) as Erc by (apply len_0; lia). rewrite Erc in *. cbn in * |-.
          destruct (rh h) eqn:Erh; [destruct (a_gone0 eq_refl) as (? & ? & ?); congruence|].
          specialize (b_cur0 eq_refl). rewrite len_nil, ix_0 in b_cur0 by assumption. rewrite app_nil_r in *.
          exists (lk (TOverLook v (Some x)) (vcur v_) (Some x)). split.
          -- exists (claimv cap v_), (add_cursor c 1 cap). split; [reflexivity|]. split; [now apply wclaim_ok|].
             constructor; cbn; rewrite ?Erh, ?Erc; auto; try congruence.
             ++ rewrite a_len0, len_cons. lia.
             ++ apply ix_lt; lia.
             ++ apply buf_rotate; auto.
             ++ rewrite len_cons in *. cbn. lia.
             ++ intros _. rewrite len_nil, ix_0 by (first [lia|apply ix_lt; lia]). now rewrite b_cur0.
             ++ rewrite len_cons in E. cbn [app]. split; [|lia].
                rewrite ix_add by lia. replace (1 + len l) with cap by lia. rewrite ix_cap; auto.
          -- apply t_grab; [exact I|]. apply wp_over_store.
        * eexists. split.
          -- destruct q. apply (J_look (set_st (touch m) (enc v_)) _ _ _ _ _ _ _ _ _ (TOverFull v) _ h v_ c); auto. cbn in *. lia.
          -- rewrite (a_len _ _ _ _ _ _ _ HJ). apply wp_over_store.
    - unfold over_claimed. words. rewrite (a_cls _ _ _ _ _ _ _ HJ), EL. destruct (q_closed q) eqn:Ecl.
      + exists (at_ (TRet (RNot v None) [])). split; [|apply t_done; reflexivity].
        exists v_, c. split; [exact Est|]. split; [exact Hv|]. destruct HJ. destruct q; cbn in *. same.
      + destruct (N.eqb_spec (len (q_pend q)) cap); [contradiction|]. rewrite <- EL. eexists. split.
        * destruct q. apply J_touch. apply (J_look m _ _ _ _ _ _ _ _ _ (TOver v) _ h v_ c); auto. cbn in *. lia.
        * apply wp_over_store.
  Qed.

  (** Changes of the waker flags of the sender. *)
  Lemma J_flags m q g h v c r f w : wok v -> Jq cap v c (cells m) q g h ->
    J (set_st (touch m) (enc (V r f w (ve v) (vc v) (vh v) (vcur v) (vlen v)))) q g h.
  Proof.
    intros Hv []. exists (V r f w (ve v) (vc v) (vh v) (vcur v) (vlen v)), c.
    split; [reflexivity|]. split; [exact Hv|]. constructor; auto.
  Qed.

  Lemma Jq_tx v c ce q g h t : Jq cap v c ce q g h ->
    Jq cap v c ce (with_tx q t) (mkT t (tlk g) (tv g) (te g) (th g)) h.
  Proof. intros []. constructor; auto. Qed.
  Lemma Jq_rx v c ce q g h r : Jq cap v c ce q g h ->
    match r with RRet (RVal _) | RDrop (_ :: _) _ => False | _ => rc h = [] end ->
    (rh h = true -> match r with RDrop _ _ | RNo => True | _ => False end) ->
    Jq cap v c ce (with_rx q r) g (mkR r (rc h) (rcx h) (rd h) (rhide h) (rcl h) (rh h)).
  Proof.
    intros [] E E'. constructor; auto. cbn. destruct r as [| | | | | |[|? ?] ?|[]]; auto; contradiction.
  Qed.

  Definition vready (k : kind) (v : view) : bool :=
    match k with KReady => vlen v <? cap | KFlush => vlen v =? 0 | KClose => false end.
  Lemma is_nil_len l : is_nil l = (len l =? 0).
  Proof. destruct l; [reflexivity|]. rewrite len_cons. cbn. symmetry. apply N.eqb_neq. lia. Qed.
  Lemma vready_ok v c ce q g h k : Jq cap v c ce q g h -> vready k v = is_ready cap q k.
  Proof. intros []. destruct k; cbn; rewrite ?is_nil_len, ?a_len0; reflexivity. Qed.

  Lemma wp_register o k w s mark ready : rside o = TX -> rconsuming o = false ->
    (forall v, wok v -> exists r f, mark (enc v) = enc (V r f (vw v) (ve v) (vc v) (vh v) (vcur v) (vlen v))) ->
    (forall v, wok v -> ready (enc v) = vready k v) ->
    wpt o (register w s mark (canceled_of k) ready) (at_ (TWait k)).
  Proof.
    intros So Co Hm Hr.
    assert (forall b : bool, wpt o (Rmw Relaxed Release (Some s) mark (fun s =>
        if has s CLOSED then if b then Take CTxW (fun w => DropW w (Done (canceled_of k))) else Done (canceled_of k)
        else if ready s then Done RReady else Done RPending)) (at_ (TWait k))) as K.
    { intros b. apply t_rmw; [exact I|]. intros m q h HJ. pose proof (J_tx _ _ _ _ HJ) as Et.
      destruct HJ as (v & c & Est & Hv & HJ). unfold nxt. cbn [qstep]. unfold tsync. rewrite Et. cbn [at_ tq].
      rewrite Est. destruct (Hm v Hv) as (r & f & ->). words. rewrite (Hr v Hv), (vready_ok _ _ _ _ _ _ _ HJ).
      intros _. unfold poll_at. rewrite <- (a_cls _ _ _ _ _ _ _ HJ).
      exists (at_ (if vc v then TRet (canceled_of k) [] else if is_ready cap q k then TRet RReady [] else TRet RPending [])).
      split; [apply J_flags with c; [exact Hv|]; apply (Jq_tx _ _ _ _ _ _ _ HJ)|].
      destruct (vc v).
      - destruct b; [|apply t_done; auto]. apply t_take; [exact I|exact I|]. intros w'. apply t_dropw, t_done; auto.
      - destruct (is_ready cap q k); apply t_done; auto. }
    unfold register. destruct (negb (has_waker s)); [|exact (K false)]. apply t_write; [exact I|exact I|]. exact (K true).
  Qed.

  Lemma t_pending o k : rside o = TX -> rconsuming o = false -> wpt o (Done RPending) (at_ (TWait k)).
  Proof.
    intros So Co. cbn [wp]. intros m q h HJ. pose proof (J_tx _ _ _ _ HJ) as Et. unfold nxt. cbn [qstep].
    rewrite So, Et. cbn. intros _. exists (at_ TNo). split; [|rewrite Co; now repeat split].
    destruct HJ as (v & c & Est & Hv & HJ). exists v, c. split; [exact Est|]. split; [exact Hv|].
    apply (Jq_tx _ _ _ _ _ _ _ HJ).
  Qed.

  (** A poll, up to the registration. *)
  Lemma wp_poll {oa} o k p : rside o = TX -> rconsuming o = false ->
    (forall v, wok v -> vc v = true -> p (enc v) = Done (canceled_of k)) ->
    (forall v, wok v -> vc v = false -> vready k v = true -> p (enc v) = Done RReady) ->
    (forall v, wok v -> vc v = false -> vready k v = false -> wpt o (p (enc v)) (at_ (TWait k))) ->
    wpt o (Load oa p) (at_ (TPoll k)).
  Proof.
    intros So Co P1 P2 P3. cbn [wp]. intros m q h HJ. split; [exact I|].
    pose proof (J_tx _ _ _ _ HJ) as Et. destruct HJ as (v & c & Est & Hv & HJ). unfold nxt. cbn [qstep].
    unfold tacc. rewrite Et. cbn [at_ tq]. intros _. unfold poll_at.
    rewrite Est. specialize (P1 v Hv). specialize (P2 v Hv). specialize (P3 v Hv).
    rewrite (vready_ok _ _ _ _ _ _ _ HJ), (a_cls _ _ _ _ _ _ _ HJ) in *.
    eexists. split; [exists v, c; split; [exact Est|]; split; [exact Hv|]; apply (Jq_tx _ _ _ _ _ _ _ HJ)|].
    destruct (q_closed q); [rewrite P1 by reflexivity; apply t_done; auto|].
    destruct (is_ready cap q k); [rewrite P2 by reflexivity; apply t_done; auto|].
    now apply P3.
  Qed.

  Lemma wp_poll_ready w : wpt (PollReady w) (poll_ready bits cap w) (at_ (TPoll KReady)).
  Proof.
    apply wp_poll; try reflexivity; intros v Hv Ec; words; rewrite Ec.
    - reflexivity.
    - unfold vready. now intros ->.
    - unfold vready. intros ->. destruct (negb _); [|now apply t_pending].
      apply (wp_register _ KReady); try reflexivity.
      + intros u Hu. unfold set_ready_waker. rewrite no_FLUSH, or_READY. now eexists _, _.
      + intros u Hu. now words.
  Qed.
  Lemma wp_poll_flush w : wpt (PollFlush w) (poll_flush bits w) (at_ (TPoll KFlush)).
  Proof.
    apply wp_poll; try reflexivity; intros v Hv Ec; words; rewrite Ec.
    - reflexivity.
    - unfold vready. now intros ->.
    - unfold vready. intros ->. destruct (negb _); [|now apply t_pending].
      apply (wp_register _ KFlush); try reflexivity.
      + intros u Hu. unfold set_flush_waker. rewrite no_READY, or_FLUSH. now eexists _, _.
      + intros u Hu. now words.
  Qed.
  Lemma wp_poll_close w : wpt (PollClose w) (poll_close w) (at_ (TPoll KClose)).
  Proof.
    apply wp_poll; try reflexivity; intros v Hv Ec; words; rewrite Ec.
    - reflexivity.
    - discriminate.
    - intros _. destruct (negb _); [|now apply t_pending].
      apply (wp_register _ KClose); try reflexivity.
      intros u Hu. unfold set_close_waker. rewrite or_READY, or_FLUSH. now eexists _, _.
  Qed.

  Lemma wp_is_canceled : wpt IsCanceled is_canceled (at_ TIs).
  Proof.
    unfold is_canceled. cbn [wp]. intros m q h HJ. split; [exact I|].
    pose proof (J_tx _ _ _ _ HJ) as Et. destruct HJ as (v & c & Est & Hv & HJ). unfold nxt. cbn [qstep].
    unfold tacc. rewrite Et. cbn [at_ tq]. intros _. rewrite Est. words. rewrite (a_cls _ _ _ _ _ _ _ HJ).
    eexists. split; [exists v, c; split; [exact Est|]; split; [exact Hv|]; apply (Jq_tx _ _ _ _ _ _ _ HJ)|].
    now apply t_done.
  Qed.

  Definition ended (r : rres) (e : option N) : TG := mkT (TRet r []) None None e true.

  Lemma t_err o x k : wpt o k (mkT (TErr x) None None (Some x) false) -> wpt o (Write CErr x k) (at_ (TErr x)).
  Proof.
    intros K. cbn [wp]. intros m q h HJ. unfold nxt.
    rewrite (tacc_settled _ _ (J_tx _ _ _ _ HJ) I). revert m q h HJ. topen.
    assert (er = None) as -> by (destruct er; [specialize (e_th0 ltac:(discriminate)); discriminate|reflexivity]).
    assert (hd = None) as -> by (destruct hd; [specialize (e_rth0 ltac:(discriminate)); discriminate|reflexivity]).
    split; [assumption|]. intros _. exists (mkT (TErr x) None None (Some x) false). split; [|exact K].
    exists v, c. split; [reflexivity|]. split; [exact Hv|]. same.
  Qed.

  Lemma wp_send_err x : wpt (SendErr x) (send_err x) (at_ (TErr x)).
  Proof.
    unfold send_err. apply t_err.
    apply t_rmw; [exact I|].
    intros m q h HJ. pose proof (J_tx _ _ _ _ HJ) as Et.
    unfold nxt. cbn [qstep]. unfold tsync. rewrite Et. cbn [tq].
    destruct HJ as (v & c & Est & Hv & HJ). rewrite Est. words. pose proof (a_cls _ _ _ _ _ _ _ HJ) as Ec.
    intros _. exists (ended (if q_closed q then RBack x else ROk) (if q_closed q then Some x else None)). split.
    - replace (N.lor (N.lor (enc v) (if negb (vc v) then ERR else 0)) HALF)
        with (enc (V (vr v) (vf v) (vw v) (ve v || negb (vc v)) (vc v) true (vcur v) (vlen v))).
      2: { destruct v as [r1 f1 w1 e1 c1 h1 u1 l1]; cbn; destruct c1, e1; cbn [negb orb]; rewrite ?or_0, ?or_ERR, or_HALF; reflexivity. }
      exists (V (vr v) (vf v) (vw v) (ve v || negb (vc v)) (vc v) true (vcur v) (vlen v)), c.
      split; [reflexivity|]. split; [exact Hv|]. destruct HJ. destruct q as [pd er cl te_ re_ tx rx bd ra].
      destruct h as [hq hc hx hd hh hcl hr]. cbn in *. subst.
      destruct e_tx0 as [-> ->]; [discriminate|]. cbn in *.
      assert (hh = false) as -> by (destruct hh; [now destruct e_hide0|reflexivity]).
      constructor; cbn; auto; rewrite ?Ec.
      + intros E. rewrite (a_err0 E). now destruct (vc v).
      + intros E. destruct (a_gone0 E) as (E1 & E2 & _). rewrite E1. auto.
      + now destruct (vc v).
      + destruct (vc v); [auto|]. intros []. reflexivity.
      + discriminate.
    - rewrite <- Ec. generalize (vc v) (vh v) (vw v). clear - Hbits Hcap0 Hcap Heven. intros cl hf rw.
      assert (wpt (SendErr x) (if cl then Take CErr (fun v => if hf then Free (Done (RBack v)) else Done (RBack v)) else Done ROk)
               (ended (if cl then RBack x else ROk) (if cl then Some x else None))) as K.
      { destruct cl; [|now apply t_done].
        cbn [wp]. intros m q h HJ. unfold nxt. rewrite (tacc_settled _ _ (J_tx _ _ _ _ HJ) I). revert m q h HJ. topen.
        split; [congruence|]. intros _. unfold take. cbn [touch cells]. rewrite e_cell0. cbn [fst snd].
        destruct e_tx0 as [-> ->]; [discriminate|]. cbn in * |-. exists (ended (RBack x) None). split.
        - exists v, c. split; [reflexivity|]. split; [exact Hv|]. same.
        - destruct hf; [apply t_free|]; now apply t_done. }
      destruct rw; [|exact K]. apply t_take; [exact I|exact I|]. intros w.
      destruct cl; [apply t_dropw|apply t_wake]; exact K.
  Qed.

  Lemma wp_drop_tx : wpt DropTx drop_tx (at_ TEnd).
  Proof.
    unfold drop_tx. apply t_rmw; [exact I|].
    intros m q h HJ. pose proof (J_tx _ _ _ _ HJ) as Et.
    unfold nxt. cbn [qstep]. unfold tsync. rewrite Et. cbn [tq at_].
    destruct HJ as (v & c & Est & Hv & HJ). rewrite Est. words. rewrite or_HALF.
    intros _. exists (ended RUnit None). split.
    - exists (with_h v true), c. split; [reflexivity|]. split; [exact Hv|].
      destruct HJ. destruct q as [pd er cl te_ re_ tx rx bd ra]. cbn in *. subst. constructor; cbn; auto; congruence.
    - assert (wpt DropTx (if vh v then Free (Done RUnit) else Done RUnit) (ended RUnit None)) as K.
      { destruct (vh v); [apply t_free|]; now apply t_done. }
      destruct (vw v); [|exact K]. apply t_take; [exact I|exact I|]. intros w.
      destruct (vh v); cbn [negb]; [apply t_dropw; exact K|apply t_wake]. now apply t_done.
  Qed.

  (** ** The receiver. *)
  Definition rat (r : rph) (x : N) (cl : bool) : RG := mkR r [] x None false cl false.
  Ltac ropen := let v := fresh "v" in let Hv := fresh "Hv" in let c := fresh "c" in intros m q h (v & c & Est & Hv & HJ); destruct m as [st_ ce fr ua ba]; cbn [st cells] in *; subst st_;
    destruct q as [pd er cl_ te_ re_ tx rx bd ra]; destruct h as [gq gl gv ge gh]; destruct HJ; cbn in * |-; subst.

  Lemma r_done o r h : rside o = RX -> rq h = RRet r -> rc h = [] -> rd h = None -> rhide h = false ->
    rh h = rconsuming o -> wpr o (Done r) h.
  Proof.
    intros S E1 E2 E3 E4 E5. cbn [wp]. intros m q g HJ. pose proof (J_rx _ _ _ _ HJ) as Et. unfold nxt. cbn [qstep].
    rewrite S, Et, E1, rres_refl. intros _.
    exists (mkR RNo [] (rcx h) None false (rcl h) (rh h)). split; [|now repeat split].
    destruct HJ as (v & c & Est & Hv & HJ). exists v, c. split; [exact Est|]. split; [exact Hv|].
    assert (h = mkR (RRet r) [] (rcx h) None false (rcl h) (rh h)) as E by (destruct h; cbn in *; congruence).
    rewrite E in HJ. apply (Jq_rx _ _ _ _ _ _ RNo) in HJ; auto.
  Qed.
  Lemma r_pending o x cl : rside o = RX -> rconsuming o = false -> wpr o (Done RPending) (rat RWaiting x cl).
  Proof.
    intros S Co. cbn [wp]. intros m q g HJ. pose proof (J_rx _ _ _ _ HJ) as Et. unfold nxt. cbn [qstep].
    rewrite S, Et. cbn. intros _.
    exists (rat RNo x cl). split; [|rewrite Co; now repeat split].
    destruct HJ as (v & c & Est & Hv & HJ). exists v, c. split; [exact Est|]. split; [exact Hv|].
    apply (Jq_rx _ _ _ _ _ _ RNo) in HJ; auto.
  Qed.

  Lemma wp_close x cl : wpr Close close (rat RClosing x cl).
  Proof.
    unfold close. apply r_rmw; [exact I|]. intros m q g HJ. pose proof (J_rx _ _ _ _ HJ) as Et.
    unfold nxt. cbn [qstep]. unfold rsync. rewrite Et. cbn [rq rat].
    destruct HJ as (v & c & Est & Hv & HJ). rewrite Est. rewrite or_CLOSED. words.
    intros _. exists (rat (RRet RUnit) x true). split.
    - exists (with_c v true), c. split; [reflexivity|]. split; [exact Hv|].
      destruct HJ. destruct q as [pd er cl_ te_ re_ tx rx bd ra]. cbn in *. subst.
      constructor; cbn; auto; try congruence; try discriminate.
    - destruct (negb (vc v) && _); [|now apply r_done]. apply r_take; [exact I|exact I|]. intros w.
      destruct (negb (vh v)); [apply r_wake|apply r_dropw]; now apply r_done.
  Qed.

  Lemma wp_is_terminated x cl : wpr IsTerminated (is_terminated bits) (rat RTerm x cl).
  Proof.
    unfold is_terminated. cbn [wp]. intros m q g HJ. split; [exact I|].
    pose proof (J_rx _ _ _ _ HJ) as Et. unfold nxt. cbn [qstep]. unfold racc. rewrite Et. cbn [rq rat].
    destruct HJ as (v & c & Est & Hv & HJ). rewrite Est. words. intros _.
    exists (rat (RRet (RBool ((vh v || vc v) && negb (ve v) && (vlen v =? 0)))) x cl). split; [|now apply r_done].
    exists v, c. split; [exact Est|]. split; [exact Hv|].
    pose proof (Jq_rx _ _ _ _ _ _ (RRet (RBool ((vh v || vc v) && negb (ve v) && (vlen v =? 0)))) HJ eq_refl) as K.
    cbn in K. specialize (K ltac:(discriminate)).
    destruct HJ. cbn in *. rewrite a_half0, a_cls0, (a_err0 eq_refl), a_len0, is_nil_len, a_re0, orb_false_r, andb_true_r in *.
    exact K.
  Qed.

  (** Reading a claimed value. *)
  Lemma r_read o y i cl : rside o = RX -> rconsuming o = false ->
    wpr o (Take (CBuf i) (fun v => Done (RVal v))) (mkR (RRet (RVal y)) [y] i None false cl false).
  Proof.
    intros So Co.
    assert (wpr o (Done (RVal y)) (rat (RRet (RVal y)) 0 cl)) as K by (now apply r_done).
    cbn [wp] in K |- *. intros m q g HJ. unfold nxt.
    rewrite (racc_settled _ _ (J_rx _ _ _ _ HJ) I). revert m q g HJ. ropen.
    specialize (b_rcx0 ltac:(discriminate)). subst i.
    assert (ce (CBuf c) = Some y) as E by (now apply buf_head in b_buf0).
    cbn [safe1 cells]. split; [congruence|]. intros _. unfold take. cbn [touch cells]. rewrite E. cbn [fst snd].
    eexists. split; [|exact K].
    exists v, (add_cursor c 1 cap). split; [reflexivity|]. split; [exact Hv|].
    cbn [app] in *. rewrite len_cons in *.
    constructor; cbn; auto; try congruence.
    - apply ix_lt; lia.
    - apply buf_take with y; auto. rewrite len_cons, len_app.
      destruct gl; [destruct b_lk0; destruct gv; cbn in *; rewrite ?len_cons, ?len_nil; lia|]. subst gv. cbn. rewrite len_nil. lia.
    - lia.
    - intros _. rewrite len_nil, ix_0 by (first [lia|apply ix_lt; lia]). rewrite b_cur0 by reflexivity. now rewrite len_nil.
    - destruct gl; [|assumption]. destruct b_lk0 as [-> L]. split; [|lia].
      rewrite ix_add by lia. f_equal. lia.
    - rewrite len_nil. lia.
  Qed.

  Lemma wp_take_value o y v cl : rside o = RX -> rconsuming o = false -> wok v ->
    wpr o (take_value bits cap (enc v) (vlen v)) (mkR (RRet (RVal y)) [y] (vcur v) None (ve v) cl false).
  Proof.
    intros So Co Hv. unfold take_value. words.
    set (sw := if has_ready_waker (enc v) then vlen v =? cap else if has_flush_waker (enc v) then vlen v =? 1 else false).
    clearbody sw. rewrite flags_0.
    assert (forall s, wpr o (if sw && negb (has s HALF) then Peek CTxW (fun w => Wake w (Take (CBuf (vcur v)) (fun v => Done (RVal v)))) else Take (CBuf (vcur v)) (fun v => Done (RVal v)))
       (mkR (RRet (RVal y)) [y] (vcur v) None false cl false)) as K.
    { intros s. destruct (sw && _); [|now apply r_read]. apply r_peek; [exact I|exact I|]. intros w.
      apply r_wake. now apply r_read. }
    destruct (ve v) eqn:Ev; [|destruct sw]; cbn [negb orb]; rewrite ?orb_true_r; cbn [negb]; [| |exact (K 0)].
    all: apply r_rmw; [exact I|]; intros m q g HJ; unfold nxt; cbn [qstep]; unfold rsync; rewrite (J_rx _ _ _ _ HJ); cbn [rq];
      intros _; (eexists; split; [|apply K]); revert m q g HJ; ropen; cbn [st touch set_st].
    - change ERR with (if true then ERR else 0) at 1. rewrite or_flags.
      exists (V (vr v0 || sw) (vf v0 || sw) (vw v0) (ve v0 || true) (vc v0) (vh v0) (vcur v0) (vlen v0)), c.
      split; [reflexivity|]. split; [exact Hv0|]. constructor; cbn; auto; try discriminate.
      destruct er; [|now destruct e_hide0]. now rewrite orb_true_r.
    - change 0 with (if false then ERR else 0) at 1. change (N.lor READY FLUSH) with (if true then N.lor READY FLUSH else 0). rewrite or_flags.
      exists (V (vr v0 || true) (vf v0 || true) (vw v0) (ve v0 || false) (vc v0) (vh v0) (vcur v0) (vlen v0)), c.
      split; [reflexivity|]. split; [exact Hv0|]. constructor; cbn; auto. now rewrite orb_false_r.
  Qed.

  Lemma r_err o e x cl : rside o = RX -> rconsuming o = false ->
    wpr o (Take CErr (fun v => Done (RError v))) (mkR (RRet (RError e)) [] x (Some e) false cl false).
  Proof.
    intros So Co.
    assert (wpr o (Done (RError e)) (rat (RRet (RError e)) x cl)) as K by (now apply r_done).
    cbn [wp] in K |- *. intros m q g HJ. unfold nxt.
    rewrite (racc_settled _ _ (J_rx _ _ _ _ HJ) I). revert m q g HJ. ropen.
    assert (ge = None) as -> by (destruct ge; [destruct e_tx0; discriminate|reflexivity]).
    assert (er = None) as -> by (destruct er; [specialize (e_rd0 ltac:(discriminate)); discriminate|reflexivity]).
    cbn [safe1 cells]. split; [congruence|]. intros _. unfold take. cbn [touch cells]. rewrite e_cell0. cbn [fst snd].
    eexists. split; [|exact K].
    exists v, c. split; [reflexivity|]. split; [exact Hv|].
    constructor; cbn; auto; try congruence.
  Qed.

  Lemma wnext_ok v w : wok v -> wok (with_w (nextv cap v) w).
  Proof.
    intros Hv. unfold nextv, claim_unless. pose proof (wclaim_ok v Hv). destruct (0 <? vlen v); assumption.
  Qed.

  (** Receiving. *)
  Lemma r_recv {oa oc} o t wait old f k x cl : rside o = RX -> rconsuming o = false -> rsettled t ->
    (forall q, q_rx q = t -> rsync q = recv q wait) ->
    match wait with RRet (RVal _) | RDrop _ _ => False | _ => True end ->
    (forall v, wok v -> exists w, f (enc v) = enc (with_w (nextv cap v) w)) ->
    (forall v y, wok v -> 0 <? vlen v = true ->
       wpr o (k (enc v)) (mkR (RRet (RVal y)) [y] (vcur v) None (ve v) cl false)) ->
    (forall v e, wok v -> 0 <? vlen v = false -> ve v = true -> vh v = true ->
       wpr o (k (enc v)) (mkR (RRet (RError e)) [] x (Some e) false cl false)) ->
    (forall v, wok v -> 0 <? vlen v = false -> ve v = false -> vh v || vc v = true -> vc v = cl ->
       wpr o (k (enc v)) (rat (RRet REnd) x cl)) ->
    (forall v, wok v -> 0 <? vlen v = false -> ve v = false -> vh v || vc v = false -> vc v = cl ->
       wpr o (k (enc v)) (rat wait x cl)) ->
    wpr o (Rmw oa oc old f k) (rat t x cl).
  Proof.
    intros So Co Ht Q Hw F K1 K2 K3 K4. apply r_rmw; [exact Ht|]. intros m q g HJ.
    unfold nxt. cbn [qstep]. rewrite (Q q (J_rx _ _ _ _ HJ)).
    destruct HJ as (v & c & Est & Hv & HJ). rewrite Est. destruct (F v Hv) as [w ->].
    specialize (K1 v). specialize (K2 v). specialize (K3 v Hv). specialize (K4 v Hv).
    intros _. destruct HJ. destruct q as [pd er cl_ te_ re_ tx rx bd ra]. destruct g as [gq gl gv ge gh].
    cbn in * |-. subst. unfold recv. cbn [q_pend q_err].
    specialize (a_err0 eq_refl). rewrite orb_false_r in *. rewrite andb_true_r in *. cbn [app] in *. specialize (b_cur0 eq_refl).
    change (len []) with 0 in b_cur0. rewrite ix_0 in b_cur0 by assumption. subst c.
    destruct pd as [|y l]; [destruct er as [e|]|].
    - (* error *)
      assert (0 <? vlen v = false) as E by (rewrite a_len0; reflexivity).
      exists (mkR (RRet (RError e)) [] x (Some e) false (vc v) false). rewrite e_th0 in * by discriminate.
      assert (ge = None) as -> by (destruct ge; [destruct e_tx0; discriminate|reflexivity]).
      split; [|apply K2; auto].
      exists (with_w (nextv cap v) w), (vcur v). split; [reflexivity|]. split; [now apply wnext_ok|].
      unfold nextv, claim_unless. rewrite E.
      constructor; cbn; auto; try congruence; try discriminate.
      intros _. change (len []) with 0. now rewrite ix_0.
    - (* nothing *)
      assert (0 <? vlen v = false) as E by (rewrite a_len0; reflexivity). cbn in a_err0.
      exists (rat (if gh || vc v then RRet REnd else wait) x (vc v)). split.
      + exists (with_w (nextv cap v) w), (vcur v). split; [reflexivity|]. split; [now apply wnext_ok|].
        unfold nextv, claim_unless. rewrite E.
        constructor; cbn; auto; try congruence; try discriminate.
        * now rewrite orb_false_r.
        * intros _. change (len []) with 0. now rewrite ix_0.
        * destruct (gh || vc v); [reflexivity|]. destruct wait as [| | | | | |[|? ?] ?|[]]; auto; contradiction.
      + destruct (gh || vc v) eqn:Eg; [apply K3|apply K4]; auto; now rewrite a_half0.
    - (* a value *)
      assert (0 <? vlen v = true) as E by (rewrite a_len0, len_cons; apply N.ltb_lt; lia).
      exists (mkR (RRet (RVal y)) [y] (vcur v) None (ve v) (vc v) false). split; [|apply K1; auto].
      exists (with_w (nextv cap v) w), (vcur v). split; [reflexivity|]. split; [now apply wnext_ok|].
      unfold nextv, claim_unless. rewrite E.
      constructor; cbn; auto; try congruence; try discriminate.
      + rewrite a_len0, len_cons. lia.
      + rewrite a_err0. now destruct er.
      + now rewrite orb_false_r.
      + rewrite a_err0. destruct er; discriminate.
  Qed.

  Lemma wp_try_next x cl : wpr TryNext (try_next bits cap) (rat (RRecv false) x cl).
  Proof.
    unfold try_next. apply (r_recv _ _ (RRet REmpty)); try exact I; try reflexivity.
    - intros q E. unfold rsync. now rewrite E.
    - intros v Hv. exists (vw v). rewrite wnext by assumption. f_equal. unfold nextv, claim_unless. now destruct (0 <? vlen v).
    - intros v y Hv E. cbn zeta. words. rewrite E. now apply wp_take_value.
    - intros v e Hv E1 E2 E3. cbn zeta. words. rewrite E1, E2. now apply r_err.
    - intros v Hv E1 E2 E3 E4. cbn zeta. words. rewrite E1, E2, E3. now apply r_done.
    - intros v Hv E1 E2 E3 E4. cbn zeta. words. rewrite E1, E2, E3. now apply r_done.
  Qed.

  Lemma wp_poll_next w x cl : wpr (PollNext w) (poll_next bits cap w) (rat (RRecv true) x cl).
  Proof.
    unfold poll_next. apply (r_recv _ _ RWaiting); try exact I; try reflexivity.
    - intros q E. unfold rsync. now rewrite E.
    - intros v Hv. exists (vw v). rewrite wnext by assumption. f_equal. unfold nextv, claim_unless. now destruct (0 <? vlen v).
    - intros v y Hv E. cbn zeta. words. rewrite E. now apply wp_take_value.
    - intros v e Hv E1 E2 E3. cbn zeta. words. rewrite E1, E2. now apply r_err.
    - intros v Hv E1 E2 E3 E4. cbn zeta. words. rewrite E1, E2, E3. now apply r_done.
    - intros v Hv E1 E2 E3 E4. cbn zeta. words. rewrite E1, E2, E3. destruct (negb (vw v)); [|now apply r_pending].
      assert (cl = false) as -> by (destruct (vh v), (vc v); cbn in E3; congruence).
      apply r_write; [exact I|exact I|]. clear - Hbits Hcap0 Hcap Heven.
      apply (r_recv _ _ (RRet RPending)); try exact I; try reflexivity.
      + intros q E. unfold rsync. now rewrite E.
      + intros u Hu. exists true. rewrite wnext by assumption. now rewrite or_RXW.
      + intros u y Hu E. cbn zeta. words. rewrite E.
        destruct (vh u); [|now apply wp_take_value]. apply r_take; [exact I|exact I|]. intros w'. apply r_dropw. now apply wp_take_value.
      + intros u e Hu E1 E2 E3. cbn zeta. words. rewrite E1, E2, E3. apply r_take; [exact I|exact I|]. intros w'. apply r_dropw.
        now apply r_err.
      + intros u Hu E1 E2 E3 E4. cbn zeta. words. rewrite E1, E2. rewrite E4, orb_false_r in E3. rewrite E3.
        apply r_take; [exact I|exact I|]. intros w'. apply r_dropw. now apply r_done.
      + intros u Hu E1 E2 E3 E4. cbn zeta. words. rewrite E1, E2. rewrite E4, orb_false_r in E3. rewrite E3. now apply r_done.
  Qed.

  (** ** The receiver's destructor. *)
  Definition gone (l : list N) (e : option N) (l' : list N) (x : N) (e' : option N) : RG :=
    mkR (RDrop l e) l' x e' false true true.

  Lemma wp_drop_values o e k cur : forall l i, i + len l <= cap -> cur < cap ->
    (forall x, wpr o k (gone [] e [] x e)) ->
    wpr o (drop_values cap (length l) cur i k) (gone l e l (add_cursor cur i cap) e).
  Proof.
    induction l as [|y l IH]; intros i Hi Hcur K; cbn [length drop_values]; [apply K|].
    rewrite len_cons in Hi.
    assert (wpr o (drop_values cap (length l) cur (i + 1) k) (gone l e l (add_cursor cur (i + 1) cap) e)) as K'.
    { apply IH; auto. lia. }
    assert (wpr o (DropV y (drop_values cap (length l) cur (i + 1) k)) (gone (y :: l) e l (add_cursor cur (i + 1) cap) e)) as K2.
    { clear IH K. cbn [wp]. intros m q g HJ. pose proof (J_rx _ _ _ _ HJ) as Et. unfold nxt. cbn [qstep]. rewrite Et.
      cbn [rq gone]. rewrite N.eqb_refl. intros _. eexists. split; [|exact K'].
      revert m q g HJ Et. ropen. intros _. exists v, c. split; [reflexivity|]. split; [exact Hv|].
      constructor; cbn; auto. destruct l; [reflexivity|exact I]. }
    clear IH K K'. revert K2. generalize (drop_values cap (length l) cur (i + 1) k). intros k' K2.
    cbn [wp] in K2 |- *. intros m q g HJ. unfold nxt at 1. rewrite (racc_settled _ _ (J_rx _ _ _ _ HJ) I).
    revert m q g HJ. ropen. specialize (b_rcx0 ltac:(discriminate)). subst c.
    assert (ce (CBuf (add_cursor cur i cap)) = Some y) as E by (now apply buf_head in b_buf0).
    cbn [safe1 cells]. split; [congruence|]. intros _. unfold take. cbn [touch cells]. rewrite E. cbn [fst snd].
    eexists. split; [|exact K2].
    exists v, (add_cursor cur (i + 1) cap). split; [reflexivity|]. split; [exact Hv|].
    cbn [app] in *. rewrite len_cons in *. rewrite <- ix_add in * by lia.
    constructor; cbn; auto; try congruence.
    - apply ix_lt; lia.
    - apply buf_take with y; auto. rewrite len_cons, len_app.
      destruct gl; [destruct b_lk0; destruct gv; cbn in *; rewrite ?len_cons, ?len_nil; lia|]. subst gv. cbn. rewrite len_nil. lia.
    - lia.
    - destruct gl; [|assumption]. destruct b_lk0 as [-> L]. split; [|lia].
      rewrite !(ix_add _ Hcap0 (add_cursor cur i cap)) by lia. f_equal. lia.
  Qed.

  Lemma r_dead o r e k : rside o = RX -> rconsuming o = true -> r = RUnit -> e = @None N ->
    k = Done r -> forall x, wpr o k (gone [] e [] x None).
  Proof.
    intros So Co -> -> -> x. cbn [wp]. intros m q g HJ. pose proof (J_rx _ _ _ _ HJ) as Et. unfold nxt. cbn [qstep].
    rewrite So, Et. cbn. intros _. exists (mkR RNo [] x None false true true). split; [|rewrite Co; now repeat split].
    destruct HJ as (v & c & Est & Hv & HJ). exists v, c. split; [exact Est|]. split; [exact Hv|].
    apply (Jq_rx _ _ _ _ _ _ RNo) in HJ; auto.
  Qed.

  Lemma r_drop_err o e k x : wpr o k (gone [] None [] x None) ->
    wpr o (Take CErr (fun v => DropV v k)) (gone [] (Some e) [] x (Some e)).
  Proof.
    intros K.
    assert (wpr o (DropV e k) (gone [] (Some e) [] x None)) as K2.
    { cbn [wp]. intros m q g HJ. pose proof (J_rx _ _ _ _ HJ) as Et. unfold nxt. cbn [qstep]. rewrite Et.
      cbn [rq gone]. rewrite N.eqb_refl. intros _. eexists. split; [|exact K].
      revert m q g HJ Et. ropen. intros _. exists v, c. split; [reflexivity|]. split; [exact Hv|].
      constructor; cbn; auto. }
    clear K. cbn [wp] in K2 |- *. intros m q g HJ. unfold nxt at 1. rewrite (racc_settled _ _ (J_rx _ _ _ _ HJ) I).
    revert m q g HJ. ropen.
    assert (ge = None) as -> by (destruct ge; [destruct e_tx0; discriminate|reflexivity]).
    assert (er = None) as -> by (destruct er; [specialize (e_rd0 ltac:(discriminate)); discriminate|reflexivity]).
    cbn [safe1 cells]. split; [congruence|]. intros _. unfold take. cbn [touch cells]. rewrite e_cell0. cbn [fst snd].
    eexists. split; [|exact K2].
    exists v, c. split; [reflexivity|]. split; [exact Hv|].
    constructor; cbn; auto; try congruence.
  Qed.

  Lemma wp_drop_rx x cl : wpr DropRx (drop_rx bits cap) (rat RDropping x cl).
  Proof.
    unfold drop_rx. apply r_rmw; [exact I|]. intros m q g HJ. unfold nxt. cbn [qstep]. unfold rsync.
    rewrite (J_rx _ _ _ _ HJ). cbn [rq rat].
    destruct HJ as (v & c & Est & Hv & HJ). rewrite Est, wdrop by assumption. words. intros _.
    exists (gone (q_pend q) (q_err q) (q_pend q) (vcur v) (q_err q)).
    pose proof (b_len _ _ _ _ _ _ _ HJ) as HL. pose proof (a_err _ _ _ _ _ _ _ HJ) as HE. pose proof (a_len _ _ _ _ _ _ _ HJ) as EL.
    cbn [rc rat app rhide rh negb] in HL, HE. specialize (HE eq_refl). rewrite andb_true_r in HE. split.
    - exists (dropv v), c. split; [reflexivity|]. split; [now apply dropv_ok|].
      destruct HJ. destruct q as [pd er cl_ te_ re_ tx rx bd ra]. cbn in *. subst.
      specialize (b_cur0 eq_refl). change (len []) with 0 in b_cur0. rewrite ix_0 in b_cur0 by assumption.
      constructor; cbn; auto; try congruence; try discriminate.
      all: rewrite ?app_nil_r; auto.
      + now rewrite orb_true_r.
      + rewrite e_cell0. destruct (te g); [reflexivity|]. now destruct er.
      + intros E. now destruct (e_tx0 E).
      + now destruct pd.
    - replace (N.to_nat (vlen v)) with (length (q_pend q)) by (rewrite EL; unfold len; lia).
      rewrite <- (ix_0 cap Hcap0 (vcur v)) at 2 by apply Hv.
      apply wp_drop_values; [lia|apply Hv|]. intros y.
      assert (wpr DropRx (if negb (vc v) && has_waker (enc v)
          then Take CTxW (fun w => if negb (vh v) then Wake w (Done RUnit) else DropW w (if vh v then Free (Done RUnit) else Done RUnit))
          else if vh v then Free (Done RUnit) else Done RUnit) (gone [] None [] y None)) as K.
      { assert (wpr DropRx (Done RUnit) (gone [] None [] y None)) as K0 by (now apply (r_dead _ RUnit)).
        assert (wpr DropRx (if vh v then Free (Done RUnit) else Done RUnit) (gone [] None [] y None)) as K1
          by (destruct (vh v); [apply r_free|]; assumption).
        destruct (negb (vc v) && has_waker (enc v)); [|assumption].
        apply r_take; [exact I|exact I|]. intros w. destruct (negb (vh v)); [apply r_wake|apply r_dropw]; assumption. }
      rewrite HE. destruct (q_err q) as [e|]; cbn [is_some]; [|exact K].
      now apply r_drop_err.
  Qed.

  Lemma wp_rcode_t o : rside o = TX -> wpt o (rcode bits cap o) (at_ (tbegin o)).
  Proof.
    destruct o; intros S; try discriminate; cbn [rcode tbegin].
    - apply wp_try_send.
    - apply wp_start_send.
    - apply wp_over.
    - apply wp_send_err.
    - apply wp_is_canceled.
    - apply wp_poll_ready.
    - apply wp_poll_flush.
    - apply wp_poll_close.
    - apply wp_drop_tx.
  Qed.
  Lemma wp_rcode_r o x cl : rside o = RX -> wpr o (rcode bits cap o) (rat (rbegin o) x cl).
  Proof.
    destruct o; intros S; try discriminate; cbn [rcode rbegin].
    - apply wp_close.
    - apply wp_try_next.
    - apply wp_poll_next.
    - apply wp_is_terminated.
    - apply wp_drop_rx.
  Qed.

  Definition tg0 : TG := mkT TNo None None None false.
  Definition rg0 : RG := rat RNo 0 false.

  Lemma J_0 : J mem0 ring0 tg0 rg0.
  Proof.
    exists (V false false false false false false 0 0), 0. split; [now rewrite encv_0|]. split.
    { split; cbn; [lia|]. apply N.neq_0_lt_0, N.pow_nonzero. lia. }
    constructor; cbn; auto; try discriminate; try congruence.
    - lia.
    - intros k Hk. cbn. now destruct (N.to_nat k).
    - change (len []) with 0. lia.
    - intros _. change (len []) with 0. symmetry. apply ix_0; lia.
  Qed.

  Lemma ok1_sticky q e : ok1 (qstep cap q e) = true -> ok1 q = true.
  Proof.
    unfold ok1. intros K. apply negb_true_iff in K. apply negb_true_iff.
    destruct q as [pd er cl te_ re_ tx rx bd ra]. cbn [q_racy]. destruct ra; [|reflexivity]. exfalso. revert K.
    destruct e as [o|o r|s w|s w|s w|s|s]; cbn; try discriminate.
    - destruct (rside o), tx, rx; discriminate.
    - destruct (rside o); [destruct tx as [| | | | | | | | | | |r' [|x d]]; cbn; try discriminate;
         destruct (rres_eqb _ _); discriminate|].
      destruct rx as [| | | | | |[|x d] [x'|]|]; cbn; try discriminate; destruct (rres_eqb _ _); discriminate.
    - destruct s; [destruct tx as [| | | | | | | | | | |r' [|x d]]; cbn; try discriminate; destruct (x =? w); discriminate|].
      destruct rx as [| | | | | |[|x d] [x'|]|]; cbn; try discriminate; destruct (_ =? w); discriminate.
    - destruct s; unfold tsync, rsync, recv, poll_at; cbn.
      + destruct tx; cbn; try discriminate; try (destruct cl; cbn; try discriminate);
          try destruct sink; try discriminate; try destruct (_ =? _); try destruct pd; discriminate.
      + destruct rx; cbn; try discriminate; destruct pd, er; discriminate.
    - destruct s; unfold tacc, racc, poll_at; cbn.
      + destruct tx; cbn; try discriminate; try (destruct (_ =? _); cbn; try discriminate);
          try destruct sink; try discriminate; destruct cl; discriminate.
      + destruct rx; discriminate.
  Qed.

  Theorem sys_queue atomics sched :
    sys_ok rconsuming ring0 (qstep cap) ok1 safe1 J tidle ridle (rrun bits cap atomics sched).
  Proof.
    unfold rrun. apply sys_ok_run with (g0 := tg0) (h0 := rg0).
    - apply ok1_sticky.
    - apply J_0.
    - now repeat split.
    - now repeat split.
    - intros o S m q g h HJ Hi. unfold nxt. destruct g as [tq_ tl tv_ te_ th_].
      destruct Hi as (E1 & E2 & E3 & E4 & E5). cbn in E1, E2, E3, E4, E5. subst.
      cbn [qstep]. rewrite S, (J_tx _ _ _ _ HJ). cbn [tq]. intros _.
      exists (at_ (tbegin o)). split; [|now apply wp_rcode_t].
      destruct HJ as (v & c & Est & Hv & HJ). exists v, c. split; [exact Est|]. split; [exact Hv|].
      apply (Jq_tx _ _ _ _ _ _ (tbegin o)) in HJ. exact HJ.
    - intros o S m q g h HJ Hi. unfold nxt. destruct h as [rq_ rc_ rx_ rd_ rhi cl rh_].
      destruct Hi as (E1 & E2 & E3 & E4 & E5). cbn in E1, E2, E3, E4, E5. subst.
      cbn [qstep]. rewrite S, (J_rx _ _ _ _ HJ). cbn [rq]. intros _.
      exists (rat (rbegin o) rx_ cl). split; [|now apply wp_rcode_r].
      destruct HJ as (v & c & Est & Hv & HJ). exists v, c. split; [exact Est|]. split; [exact Hv|].
      apply (Jq_rx _ _ _ _ _ _ (rbegin o)) in HJ; [exact HJ|now destruct o|discriminate].
  Qed.
End Queue.
