(** What the users of a command loop can rely on, in terms of the calls of [Sess::cmd],
    what its fiber and its request handler are given and answer, and what the future
    resolves with. *)
Require Import List Bool.
Import ListNotations.

Section Types.
Context {Cmd CmdRes Req ReqRes Err : Type}.

(** What the fiber is resumed with: [In] is an untagged union; the tag is kept to state
    what was stored. *)
Inductive pin := ICmd (c : Cmd) | IRes (r : ReqRes).
Inductive pout := OReq (q : Req) | ORes (x : CmdRes).

Inductive pev :=
| ECmd (c : Cmd)                  (* a command is issued *)
| EIn (i : pin)                   (* the fiber is resumed *)
| EOut (o : pout)                 (* it yields *)
| EAsk (q : Req)                  (* run_req is called *)
| EAns (a : ReqRes + Err)         (* its future resolves *)
| ERet (r : CmdRes + Err)         (* the future of the command resolves *)
| EDrop.                          (* it is dropped before that *)

(** One command. *)
Record sess := Sess {
  s_cmd : option Cmd;
  s_in : list pin;
  s_out : list pout;
  s_ask : list Req;
  s_ans : list (ReqRes + Err);
  s_ret : option (CmdRes + Err);
  s_drop : bool
}.
Definition fresh (c : option Cmd) : sess := Sess c [] [] [] [] None false.
Definition add (b : sess) (e : pev) : sess :=
  let 'Sess c i o q a r d := b in
  match e with
  | EIn x => Sess c (i ++ [x]) o q a r d
  | EOut x => Sess c i (o ++ [x]) q a r d
  | EAsk x => Sess c i o (q ++ [x]) a r d
  | EAns x => Sess c i o q (a ++ [x]) r d
  | ERet x => Sess c i o q a (Some x) d
  | EDrop => Sess c i o q a r true
  | ECmd _ => b
  end.
(** The commands of a history, the latest first; the last one is what happened before
    the first command. *)
Definition sessions (l : list pev) : list sess :=
  fold_left (fun acc e =>
    match e, acc with
    | ECmd c, _ => fresh (Some c) :: acc
    | _, b :: r => add b e :: r
    | _, [] => []
    end) l [fresh None].

(** A command that ended with a result: the fiber got the command and then the results
    of its requests, each of which was handled once, and then yielded the result. *)
Definition succeeded (b : sess) (c : Cmd) (x : CmdRes) : Prop := exists rs,
  s_in b = ICmd c :: map IRes rs /\ s_out b = map OReq (s_ask b) ++ [ORes x] /\
  s_ans b = map inl rs /\ length (s_ask b) = length rs.
(** A command that ended with an error: the fiber was not resumed after it. *)
Definition failed (b : sess) (c : Cmd) (e : Err) : Prop := exists rs,
  s_in b = ICmd c :: map IRes rs /\ s_out b = map OReq (s_ask b) /\
  s_ans b = map inl rs ++ [inr e] /\ length (s_ask b) = S (length rs).
(** A command in progress or dropped: the fiber has not been resumed, or the results of
    all its requests but possibly the last one are known. *)
Definition unfinished (b : sess) (c : Cmd) : Prop :=
  s_in b = [] /\ s_out b = [] /\ s_ask b = [] /\ s_ans b = [] \/
  exists rs, s_in b = ICmd c :: map IRes rs /\ s_out b = map OReq (s_ask b) /\
    s_ans b = map inl rs /\ (length (s_ask b) = length rs \/ length (s_ask b) = S (length rs)).

Definition good (b : sess) : Prop :=
  match s_cmd b, s_ret b, s_drop b with
  | Some c, Some (inl x), false => succeeded b c x
  | Some c, Some (inr e), false => failed b c e
  | Some c, None, _ => unfinished b c
  | None, None, false => s_in b = [] /\ s_out b = [] /\ s_ask b = [] /\ s_ans b = []
  | _, _, _ => False
  end.

(** ** How the fiber reads its input.

    The loop in the fiber reads its input as a command at first and after it has
    yielded a command result, and as a request result after it has yielded a request. *)
Definition wants_res (l : list pev) : bool :=
  fold_left (fun b e => match e with EOut (OReq _) => true | EOut (ORes _) => false | _ => b end) l false.
Definition is_res (i : pin) : bool := match i with IRes _ => true | ICmd _ => false end.
(** Every input is read as what it is. *)
Definition inputs_match (l : list pev) : Prop :=
  forall a i b, l = a ++ EIn i :: b -> is_res i = wants_res a.

(** Every command issued so far, except the latest, has returned a result. *)
Definition all_succeeded (l : list pev) : Prop :=
  Forall (fun b => match s_ret b with Some (inl _) => True | _ => s_in b = [] end) (tl (sessions l)).
End Types.
Arguments pin : clear implicits.
Arguments pout : clear implicits.
Arguments pev : clear implicits.
Arguments sess : clear implicits.
