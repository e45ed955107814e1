(** What the users of a ring channel can rely on, in terms of calls, results, wakeups
    and destroyed values.  Each observer below is a fold over the history; nothing here
    refers to the shared state of the channel. *)
Require Import NArith List Bool.
Require Import Verif.Spsc Verif.Ring.
Import ListNotations.
Open Scope N_scope.

Notation rev_ := (ev rop rres).

Definition onb (a b : option N) : bool :=
  match a, b with Some x, Some y => x =? y | None, None => true | _, _ => false end.
Definition rres_eqb (a b : rres) : bool :=
  match a, b with
  | ROk, ROk | RSinkFull, RSinkFull | RSinkClosed, RSinkClosed | RUnit, RUnit
  | RPending, RPending | RReady, RReady | REmpty, REmpty | REnd, REnd => true
  | RFull v, RFull w | RClosed v, RClosed w | RBack v, RBack w | RVal v, RVal w
  | RError v, RError w => v =? w
  | ROver o, ROver p => onb o p
  | RNot v o, RNot w p => (v =? w) && onb o p
  | RBool a, RBool b => eqb a b
  | _, _ => false
  end.

(** What a poll of the sender waits for. *)
Inductive kind := KReady | KFlush | KClose.

(** ** A bounded queue with a final error.

    Every call takes effect at one moment between its start and its return.  The moments
    are accesses of the call: its first look at the channel, or a successful
    read-modify-write. *)
Inductive tph :=
| TNo                                  (* no call in progress *)
| TSend (sink : bool) (v : N)          (* try_send ([sink]: start_send), nothing decided *)
| TLook (sink : bool) (v : N)          (* it has seen a free slot *)
| TOver (v : N)                        (* send_overwrite, nothing decided *)
| TOverFull (v : N)                    (* it has seen a full queue *)
| TOverLook (v : N) (o : option N)     (* it has seen a free slot, or removed [o] *)
| TErr (v : N)                         (* send_err *)
| TPoll (k : kind)                     (* nothing decided *)
| TWait (k : kind)                     (* it has seen that it has to wait *)
| TIs                                  (* is_canceled *)
| TEnd                                 (* the destructor *)
| TRet (r : rres) (d : list N).        (* what is left is to destroy [d] and return [r] *)

Inductive rph :=
| RNo
| RClosing
| RRecv (poll : bool)
| RWaiting                             (* poll_next has seen nothing *)
| RTerm
| RDropping
| RDrop (l : list N) (e : option N)    (* what is left is to destroy these *)
| RRet (r : rres).

Record ring := Ring {
  q_pend : list N;      (* pending values, oldest first *)
  q_err : option N;     (* pending error *)
  q_closed : bool;      (* the receiver is closed or gone *)
  q_txend : bool;       (* the sender is gone *)
  q_rxend : bool;       (* the receiver is gone *)
  q_tx : tph;
  q_rx : rph;
  q_bad : bool;         (* something does not fit *)
  q_racy : bool         (* the sender has counted a slot as free that the receiver might
                           still be reading *)
}.
Definition ring0 := Ring [] None false false false TNo RNo false false.

Definition len (l : list N) : N := N.of_nat (length l).
Definition is_some (o : option N) : bool := match o with Some _ => true | None => false end.
Definition is_nil (l : list N) : bool := match l with [] => true | _ => false end.

Definition with_tx (q : ring) (t : tph) : ring :=
  Ring (q_pend q) (q_err q) (q_closed q) (q_txend q) (q_rxend q) t (q_rx q) (q_bad q) (q_racy q).
Definition with_rx (q : ring) (r : rph) : ring :=
  Ring (q_pend q) (q_err q) (q_closed q) (q_txend q) (q_rxend q) (q_tx q) r (q_bad q) (q_racy q).
Definition fail (q : ring) : ring :=
  Ring (q_pend q) (q_err q) (q_closed q) (q_txend q) (q_rxend q) (q_tx q) (q_rx q) true (q_racy q).
Definition set_pend (q : ring) (l : list N) : ring :=
  Ring l (q_err q) (q_closed q) (q_txend q) (q_rxend q) (q_tx q) (q_rx q) (q_bad q) (q_racy q).

Definition tbegin (o : rop) : tph :=
  match o with
  | TrySend v => TSend false v
  | StartSend v => TSend true v
  | SendOver v => TOver v
  | SendErr v => TErr v
  | IsCanceled => TIs
  | PollReady _ => TPoll KReady
  | PollFlush _ => TPoll KFlush
  | PollClose _ => TPoll KClose
  | DropTx => TEnd
  | _ => TNo
  end.
Definition rbegin (o : rop) : rph :=
  match o with
  | Close => RClosing
  | TryNext => RRecv false
  | PollNext _ => RRecv true
  | IsTerminated => RTerm
  | DropRx => RDropping
  | _ => RNo
  end.

(** A value delivered by the receiving call in progress, or values being destroyed by
    the receiver's destructor, may still be in the buffer. *)
Definition racy (cap : N) (q : ring) : bool :=
  match q_rx q with
  | RRet (RVal _) => cap <=? len (q_pend q) + 1
  | RDrop (_ :: _) _ => true
  | _ => false
  end.
Definition look (cap : N) (q : ring) (t : tph) : ring :=
  Ring (q_pend q) (q_err q) (q_closed q) (q_txend q) (q_rxend q) t (q_rx q) (q_bad q)
    (q_racy q || racy cap q).

Definition canceled_of (k : kind) : rres := match k with KClose => RReady | _ => RSinkClosed end.
Definition is_ready (cap : N) (q : ring) (k : kind) : bool :=
  match k with KReady => len (q_pend q) <? cap | KFlush => is_nil (q_pend q) | KClose => false end.
(** The outcome of a poll of the sender. *)
Definition poll_at (cap : N) (q : ring) (k : kind) (wait : tph) : ring :=
  with_tx q (if q_closed q then TRet (canceled_of k) []
             else if is_ready cap q k then TRet RReady [] else wait).

(** First look at the channel. *)
Definition tacc (cap : N) (q : ring) : ring :=
  match q_tx q with
  | TSend sink v =>
      if len (q_pend q) =? cap then
        with_tx q (if sink then TRet RSinkFull [v] else TRet (RFull v) [])
      else look cap q (TLook sink v)
  | TOver v =>
      if len (q_pend q) =? cap then with_tx q (TOverFull v)
      else if q_closed q then with_tx q (TRet (RNot v None) [])
      else look cap q (TOverLook v None)
  | TPoll k => poll_at cap q k (TWait k)
  | TIs => with_tx q (TRet (RBool (q_closed q)) [])
  | _ => q
  end.

Definition tsync (cap : N) (q : ring) : ring :=
  match q_tx q with
  | TLook sink v =>
      if q_closed q then
        with_tx q (if sink then TRet RSinkClosed [v] else TRet (RClosed v) [])
      else with_tx (set_pend q (q_pend q ++ [v])) (TRet ROk [])
  | TOverFull v =>
      if q_closed q then with_tx q (TRet (RNot v None) [])
      else if len (q_pend q) =? cap then
        match q_pend q with
        | o :: l => with_tx (set_pend q l) (TOverLook v (Some o))
        | [] => fail q
        end
      else look cap q (TOverLook v None)
  | TOverLook v o =>
      if q_closed q then with_tx q (TRet (RNot v o) [])
      else with_tx (set_pend q (q_pend q ++ [v])) (TRet (ROver o) [])
  | TErr v =>
      Ring (q_pend q) (if q_closed q then q_err q else Some v) (q_closed q) true (q_rxend q)
        (TRet (if q_closed q then RBack v else ROk) []) (q_rx q) (q_bad q) (q_racy q)
  | TEnd =>
      Ring (q_pend q) (q_err q) (q_closed q) true (q_rxend q) (TRet RUnit []) (q_rx q) (q_bad q) (q_racy q)
  | TWait k => poll_at cap q k (TRet RPending [])
  | _ => q
  end.

Definition racc (q : ring) : ring :=
  match q_rx q with
  | RTerm => with_rx q (RRet (RBool ((q_txend q || q_closed q) && negb (is_some (q_err q)) && is_nil (q_pend q))))
  | _ => q
  end.

(** A receiving call takes effect; [wait] if there is nothing. *)
Definition recv (q : ring) (wait : rph) : ring :=
  match q_pend q, q_err q with
  | v :: l, _ => with_rx (set_pend q l) (RRet (RVal v))
  | [], Some e =>
      Ring [] None (q_closed q) (q_txend q) (q_rxend q) (q_tx q) (RRet (RError e)) (q_bad q) (q_racy q)
  | [], None => with_rx q (if q_txend q || q_closed q then RRet REnd else wait)
  end.
Definition rsync (q : ring) : ring :=
  match q_rx q with
  | RRecv poll => recv q (if poll then RWaiting else RRet REmpty)
  | RWaiting => recv q (RRet RPending)
  | RClosing =>
      Ring (q_pend q) (q_err q) true (q_txend q) (q_rxend q) (q_tx q) (RRet RUnit) (q_bad q) (q_racy q)
  | RDropping =>
      Ring [] None true (q_txend q) true (q_tx q) (RDrop (q_pend q) (q_err q)) (q_bad q) (q_racy q)
  | _ => q
  end.

Definition qstep (cap : N) (q : ring) (e : rev_) : ring :=
  match e with
  | EInv o =>
      match rside o with
      | TX => match q_tx q with TNo => with_tx q (tbegin o) | _ => fail q end
      | RX => match q_rx q with RNo => with_rx q (rbegin o) | _ => fail q end
      end
  | EAcc TX => tacc cap q
  | EAcc RX => racc q
  | ESync TX => tsync cap q
  | ESync RX => rsync q
  | EDropV TX v =>
      match q_tx q with
      | TRet r (x :: d) => if x =? v then with_tx q (TRet r d) else fail q
      | _ => fail q
      end
  | EDropV RX v =>
      match q_rx q with
      | RDrop (x :: l) e => if x =? v then with_rx q (RDrop l e) else fail q
      | RDrop [] (Some x) => if x =? v then with_rx q (RDrop [] None) else fail q
      | _ => fail q
      end
  | ERet o r =>
      match rside o with
      | TX =>
          match q_tx q with
          | TRet r' [] => if rres_eqb r r' then with_tx q TNo else fail q
          | TWait _ => if rres_eqb r RPending then with_tx q TNo else fail q
          | _ => fail q
          end
      | RX =>
          match q_rx q with
          | RRet r' => if rres_eqb r r' then with_rx q RNo else fail q
          | RWaiting => if rres_eqb r RPending then with_rx q RNo else fail q
          | RDrop [] None => if rres_eqb r RUnit then with_rx q RNo else fail q
          | _ => fail q
          end
      end
  | EWake _ _ | EDropW _ _ => q
  end.

(** ** Waking the receiver. *)
Record rwake := Rwake {
  k_ws : list N;         (* the wakers passed to poll_next so far *)
  k_pend : bool;         (* the last poll_next returned Pending; not closed or dropped since *)
  k_woken : bool         (* one of [k_ws] was woken since the last poll_next started *)
}.
Definition rwake0 := Rwake [] false false.
Definition kstep (b : rwake) (e : rev_) : rwake :=
  match e with
  | EInv (PollNext w) => Rwake (w :: k_ws b) false false
  | EInv Close | EInv DropRx => Rwake (k_ws b) false (k_woken b)
  | ERet (PollNext w) RPending => Rwake (k_ws b) true (k_woken b)
  | EWake TX w => Rwake (k_ws b) (k_pend b) (k_woken b || existsb (N.eqb w) (k_ws b))
  | _ => b
  end.

(** ** Waking the sender. *)
Record swake := Swake {
  s_ws : list N;         (* the wakers passed to the sender's polls so far *)
  s_pend : option kind;  (* the last poll of the sender returned Pending, and the sender
                            has not called send_overwrite, send_err or its destructor since *)
  s_woken : bool;        (* one of [s_ws] was woken since that poll started *)
  s_closed : bool;       (* close has returned *)
  s_polled : bool;       (* a poll of the sender has been called before that *)
  s_stale : bool         (* then a value was asked for *)
}.
Definition swake0 := Swake [] None false false false false.
Definition spoll (b : swake) (w : N) : swake :=
  Swake (w :: s_ws b) None false (s_closed b) (s_polled b || negb (s_closed b)) (s_stale b).
Definition sstep (b : swake) (e : rev_) : swake :=
  match e with
  | EInv (PollReady w) | EInv (PollFlush w) | EInv (PollClose w) => spoll b w
  | EInv (SendOver _) | EInv (SendErr _) | EInv DropTx =>
      Swake (s_ws b) None (s_woken b) (s_closed b) (s_polled b) (s_stale b)
  | ERet (PollReady _) RPending => Swake (s_ws b) (Some KReady) (s_woken b) (s_closed b) (s_polled b) (s_stale b)
  | ERet (PollFlush _) RPending => Swake (s_ws b) (Some KFlush) (s_woken b) (s_closed b) (s_polled b) (s_stale b)
  | ERet (PollClose _) RPending => Swake (s_ws b) (Some KClose) (s_woken b) (s_closed b) (s_polled b) (s_stale b)
  | EWake RX w => Swake (s_ws b) (s_pend b) (s_woken b || existsb (N.eqb w) (s_ws b)) (s_closed b) (s_polled b) (s_stale b)
  | ERet Close _ => Swake (s_ws b) (s_pend b) (s_woken b) true (s_polled b) (s_stale b)
  | EInv TryNext | EInv (PollNext _) =>
      Swake (s_ws b) (s_pend b) (s_woken b) (s_closed b) (s_polled b) (s_stale b || s_closed b && s_polled b)
  | _ => b
  end.

(** ** Overlap of the calls that consume the two halves. *)
Record over := Over { x_tx : bool; x_rx : bool; x_over : bool }.
Definition over0 := Over false false false.
Definition xstep (b : over) (e : rev_) : over :=
  match e with
  | EInv (SendErr _) | EInv DropTx => Over true (x_rx b) (x_over b || x_rx b)
  | EInv DropRx => Over (x_tx b) true (x_over b || x_tx b)
  | ERet (SendErr _) _ | ERet DropTx _ => Over false (x_rx b) (x_over b)
  | ERet DropRx _ => Over (x_tx b) false (x_over b)
  | _ => b
  end.

Definition queue (cap : N) (l : list rev_) : ring := fold_left (qstep cap) l ring0.
Definition receiver_wakeups (l : list rev_) : rwake := fold_left kstep l rwake0.
Definition sender_wakeups (l : list rev_) : swake := fold_left sstep l swake0.
Definition ends_overlap (l : list rev_) : bool := x_over (fold_left xstep l over0).

(** ** Calls that do not overlap: a sequential queue.

    The same behaviour as a function from a state and a call to the result, the values
    the call destroys, and the next state. *)
Record qs := Qs { z_pend : list N; z_err : option N; z_closed : bool; z_txend : bool; z_rxend : bool }.
Definition qs0 := Qs [] None false false false.

Definition seq_send (s : qs) (v : N) : option qs :=
  if z_closed s then None
  else Some (Qs (z_pend s ++ [v]) (z_err s) (z_closed s) (z_txend s) (z_rxend s)).
Definition seq_recv (s : qs) (empty : rres) : rres * list N * qs :=
  match z_pend s, z_err s with
  | v :: l, e => (RVal v, [], Qs l e (z_closed s) (z_txend s) (z_rxend s))
  | [], Some e => (RError e, [], Qs [] None (z_closed s) (z_txend s) (z_rxend s))
  | [], None => ((if z_txend s || z_closed s then REnd else empty), [], s)
  end.
Definition seq_poll (s : qs) (canceled : rres) (ready : bool) : rres * list N * qs :=
  ((if z_closed s then canceled else if ready then RReady else RPending), [], s).

Definition seq_call (cap : N) (s : qs) (o : rop) : rres * list N * qs :=
  let full := len (z_pend s) =? cap in
  match o with
  | TrySend v =>
      if full then (RFull v, [], s)
      else match seq_send s v with Some s' => (ROk, [], s') | None => (RClosed v, [], s) end
  | StartSend v =>
      if full then (RSinkFull, [v], s)
      else match seq_send s v with Some s' => (ROk, [], s') | None => (RSinkClosed, [v], s) end
  | SendOver v =>
      if z_closed s then (RNot v None, [], s)
      else
        match z_pend s with
        | o :: l =>
            if full then (ROver (Some o), [], Qs (l ++ [v]) (z_err s) false (z_txend s) (z_rxend s))
            else (ROver None, [], Qs (z_pend s ++ [v]) (z_err s) false (z_txend s) (z_rxend s))
        | [] => (ROver None, [], Qs [v] (z_err s) false (z_txend s) (z_rxend s))
        end
  | SendErr v =>
      if z_closed s then (RBack v, [], Qs (z_pend s) (z_err s) true true (z_rxend s))
      else (ROk, [], Qs (z_pend s) (Some v) false true (z_rxend s))
  | IsCanceled => (RBool (z_closed s), [], s)
  | PollReady _ => seq_poll s RSinkClosed (len (z_pend s) <? cap)
  | PollFlush _ => seq_poll s RSinkClosed (is_nil (z_pend s))
  | PollClose _ => seq_poll s RReady false
  | DropTx => (RUnit, [], Qs (z_pend s) (z_err s) (z_closed s) true (z_rxend s))
  | Close => (RUnit, [], Qs (z_pend s) (z_err s) true (z_txend s) (z_rxend s))
  | TryNext => seq_recv s REmpty
  | PollNext _ => seq_recv s RPending
  | IsTerminated => (RBool ((z_txend s || z_closed s) && negb (is_some (z_err s)) && is_nil (z_pend s)), [], s)
  | DropRx => (RUnit, z_pend s ++ (match z_err s with Some e => [e] | None => [] end), Qs [] None true (z_txend s) true)
  end.

(** A history is explained by the sequential queue if every call returns, and has
    destroyed, what [seq_call] says. *)
Record seqst := Seq { f_st : qs; f_drop : list N; f_bad : bool }.
Definition seq0 := Seq qs0 [] false.
Fixpoint list_eqb (a b : list N) : bool :=
  match a, b with
  | [], [] => true
  | x :: a, y :: b => (x =? y) && list_eqb a b
  | _, _ => false
  end.
Definition fstep (cap : N) (s : seqst) (e : rev_) : seqst :=
  match e with
  | EInv _ => Seq (f_st s) [] (f_bad s)
  | EDropV _ v => Seq (f_st s) (f_drop s ++ [v]) (f_bad s)
  | ERet o r =>
      let '(r', d, st') := seq_call cap (f_st s) o in
      Seq st' [] (f_bad s || negb (rres_eqb r r' && list_eqb (f_drop s) d))
  | _ => s
  end.
Definition sequential_queue (cap : N) (l : list rev_) : seqst := fold_left (fstep cap) l seq0.

(** Which halves have a call in progress. *)
Record busy := Busy {
  u_tx : bool; u_rx : bool;
  u_both : bool;           (* calls have overlapped *)
  u_pre : bool }.          (* the sender has accessed the channel during a call of the receiver *)
Definition busy0 := Busy false false false false.
Definition ustep (b : busy) (e : rev_) : busy :=
  match e with
  | EInv o => match rside o with
              | TX => Busy true (u_rx b) (u_both b || u_rx b) (u_pre b)
              | RX => Busy (u_tx b) true (u_both b || u_tx b) (u_pre b) end
  | ERet o _ => match rside o with
                | TX => Busy false (u_rx b) (u_both b) (u_pre b)
                | RX => Busy (u_tx b) false (u_both b) (u_pre b) end
  | EAcc TX | ESync TX => Busy (u_tx b) (u_rx b) (u_both b) (u_pre b || u_rx b)
  | _ => b
  end.
Definition calls (l : list rev_) : busy := fold_left ustep l busy0.

(** ** What goes in and what comes out. *)
(** Accepted values, and the accepted error. *)
Definition incoming (l : list rev_) : list N :=
  flat_map (fun e => match e with
    | ERet (TrySend v) ROk | ERet (StartSend v) ROk | ERet (SendErr v) ROk
    | ERet (SendOver v) (ROver _) => [v]
    | _ => [] end) l.
(** What the receiver got, or destroyed. *)
Definition outgoing (l : list rev_) : list N :=
  flat_map (fun e => match e with
    | ERet TryNext (RVal v) | ERet (PollNext _) (RVal v)
    | ERet TryNext (RError v) | ERet (PollNext _) (RError v) | EDropV RX v => [v]
    | _ => [] end) l.
(** Overwritten values, returned to the sender. *)
Definition overwritten (l : list rev_) : list N :=
  flat_map (fun e => match e with
    | ERet (SendOver _) (ROver (Some o)) | ERet (SendOver _) (RNot _ (Some o)) => [o]
    | _ => [] end) l.
(** What the sending call in progress might have added already. *)
Definition sending (l : list rev_) : list N :=
  fold_left (fun a e => match e with
    | EInv (TrySend v) | EInv (StartSend v) | EInv (SendErr v) | EInv (SendOver v) => [v]
    | ERet o _ => match rside o with TX => [] | RX => a end
    | _ => a end) l [].

(** [c] is a shuffle of [a] and [b]: both in their own order. *)
Inductive shuffle : list N -> list N -> list N -> Prop :=
| sh_nil : shuffle [] [] []
| sh_l a b c x : shuffle a b c -> shuffle (a ++ [x]) b (c ++ [x])
| sh_r a b c x : shuffle a b c -> shuffle a (b ++ [x]) (c ++ [x]).

(** ** The error. *)
Record errst := Errst {
  r_sent : option N;     (* send_err was called with it *)
  r_acc : bool;          (* and has returned Ok *)
  r_got : bool;          (* it was received *)
  r_bad : bool }.        (* received twice, or not what was sent, or followed by
                            something else than the end *)
Definition errst0 := Errst None false false false.
Definition rstep (b : errst) (e : rev_) : errst :=
  match e with
  | EInv (SendErr v) => Errst (Some v) false (r_got b) (r_bad b)
  | ERet (SendErr v) ROk => Errst (r_sent b) true (r_got b) (r_bad b || negb (onb (r_sent b) (Some v)))
  | ERet (SendErr v) (RBack w) => Errst None false (r_got b) (r_bad b || r_got b || negb (v =? w))
  | ERet (SendErr v) _ => Errst None false (r_got b) true
  | ERet TryNext r | ERet (PollNext _) r =>
      match r with
      | RError v => Errst (r_sent b) (r_acc b) true (r_bad b || r_got b || negb (onb (r_sent b) (Some v)))
      | REnd => Errst (r_sent b) (r_acc b) (r_got b) (r_bad b || r_acc b && negb (r_got b))
      | _ => Errst (r_sent b) (r_acc b) (r_got b) (r_bad b || r_got b)
      end
  | _ => b
  end.
Definition ring_error (l : list rev_) : errst := fold_left rstep l errst0.
