(** Model of the command loop.

    Source: /repo/src/proc_loop.rs.

    The fiber and the request handler are arbitrary: what they answer is given by the
    schedule. *)
Require Import List.
From Verif Require Import ProcLoopSpec.
Import ListNotations.

Section Loop.
Context {Cmd CmdRes Req ReqRes Err : Type}.
Notation pin := (pin Cmd ReqRes).
Notation pout := (pout CmdRes Req).
Notation pev := (pev Cmd CmdRes Req ReqRes Err).

(** The future returned by [cmd] (lines 87-101); it borrows the session, so there is at
    most one. *)
Inductive ppos :=
| PNone                      (* there is none *)
| PStart (input : pin)       (* created (line 91), not polled yet *)
| PFib                       (* line 94: in [resume] *)
| PReq                       (* line 96: polling the future of [run_req] *)
| PWait.                     (* suspended there *)

Record pst := Pst { pp : ppos; plog : list pev }.
Definition pgo (s : pst) (p : ppos) (e : list pev) : pst := Pst p (plog s ++ e).

Inductive pact :=
| ACmd (c : Cmd)                        (* the session's user calls [cmd] *)
| APoll                                 (* the future is polled *)
| AFib (o : pout)                       (* the fiber yields; it never completes *)
| AReq (a : option (ReqRes + Err))      (* the request's future is pending or ready *)
| ADrop.                                (* the future is dropped *)

(** Lines 123-168: [In::from_cmd] and [In::from_req_res] store into the union. *)
Definition from_cmd (c : Cmd) : pin := ICmd c.
Definition from_req_res (r : ReqRes) : pin := IRes r.

Definition ploopstep (s : pst) (a : pact) : pst :=
  match pp s, a with
  | PNone, ACmd c => pgo s (PStart (from_cmd c)) [ECmd c]
  | PStart i, APoll => pgo s PFib [EIn i]
  | PStart _, ADrop => pgo s PNone [EDrop]
  | PFib, AFib (OReq q) => pgo s PReq [EOut (OReq q); EAsk q]
  | PFib, AFib (ORes x) => pgo s PNone [EOut (ORes x); ERet (inl x)]
  | PReq, AReq None => pgo s PWait []
  | PReq, AReq (Some (inl r)) => pgo s PFib [EAns (inl r); EIn (from_req_res r)]
  | PReq, AReq (Some (inr e)) => pgo s PNone [EAns (inr e); ERet (inr e)]
  | PWait, APoll => pgo s PReq []
  | PWait, ADrop => pgo s PNone [EDrop]
  | _, _ => s
  end.
Definition plooprun (l : list pact) : pst := fold_left ploopstep l (Pst PNone []).
End Loop.
Arguments pact : clear implicits.
Arguments pst : clear implicits.
