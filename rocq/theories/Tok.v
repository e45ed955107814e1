(** Model of the token macros, and of the safe code that owns tokens.

    Source: /repo/macros/src/{simple_token,simple_tokens,static_tokens,thr_pool}.rs,
    /repo/src/token.rs.  The functions below give, for each generated struct, its public fields, whether
    it also has a private one (then only the macro's own code can write a literal of it), whether it is
    [Copy], and the static its [get] refers to. *)
Require Import NArith List Bool.
From Verif Require Import TokSpec.
Import ListNotations.
Open Scope N_scope.

Record tdef := Tdef { fields : list N; priv : bool; copy : bool; target : option N }.

(** simple_token.rs lines 28-46. *)
Definition simple_token : tdef := Tdef [] true false None.
(** simple_tokens.rs lines 52-85: the group. *)
Definition simple_tokens (fs : list N) : tdef := Tdef fs true false None.
(** static_tokens.rs lines 55-85: the token of static [i]; a tuple struct with a private field. *)
Definition static_token (i : N) : tdef := Tdef [] true false (Some i).
(** static_tokens.rs lines 86-115: the group. *)
Definition static_tokens (fs : list N) : tdef := Tdef fs true false None.
(** thr_pool.rs lines 345-370: the token of a thread.  Its private field is in the module of the macro
    call, not in one of its own, so that code there can write literals. *)
Definition thr_token : tdef := Tdef [] false true None.
(** thr_pool.rs lines 308-335: the index; no private field. *)
Definition thr_index (fs : list N) : tdef := Tdef fs false false None.

Inductive made : tdef -> Prop :=
| m_simple : made simple_token | m_simples fs : made (simple_tokens fs)
| m_static i : made (static_token i) | m_statics fs : made (static_tokens fs)
| m_thr : made thr_token | m_index fs : made (thr_index fs).

(** [take] of a type: the tokens of its fields are taken in turn; fields are declared before. *)
Fixpoint take (fuel : nat) (D : N -> tdef) (t : N) : val :=
  match fuel with
  | O => Tok t []
  | S fuel => Tok t (map (take fuel D) (fields (D t)))
  end.

(** What safe code can do with the values it owns. *)
Inductive action :=
| AFront (k : nat)            (* bring the [k]-th value to the front *)
| ASplit                      (* move the fields out of the first value *)
| ABuild (c t : N)            (* context [c] writes a literal of type [t] from the first values *)
| ACopy                       (* copy the first value *)
| ASend (c : N)               (* hand the first value over to context [c] *)
| AGet                        (* StaticToken::get, then an access *)
| AInto                       (* StaticToken::into_static *)
| AUse                        (* an access through a reference *)
| ADrop.

Definition kind (v : val) : option N := match v with Tok t _ => Some t | Ref _ => None end.
Definition all_of (c : N) (fs : list N) (l : list (N * val)) : bool :=
  forallb (fun x => (fst x =? c)) l &&
  (fix same fs l := match fs, l with
   | [], [] => true
   | t :: fs, x :: l => match kind (snd x) with Some u => u =? t | None => false end && same fs l
   | _, _ => false
   end) fs l.

(** The statics a value gives access to. *)
Fixpoint reach (D : N -> tdef) (v : val) : list N :=
  match v with
  | Tok t kids => (match target (D t) with Some i => [i] | None => [] end) ++ flat_map (reach D) kids
  | Ref i => [i]
  end.

(** [send i]: whether the type of static [i] is [Send].  A token always is (src/token.rs line 177); a
    reference is if what it refers to is. *)
Definition may_send (send : N -> bool) (v : val) : bool := match v with Tok _ _ => true | Ref i => send i end.

Definition state := list (N * val).
Definition tstep (D : N -> tdef) (send : N -> bool) (s : state) (a : action) : state * list tev :=
  match a, s with
  | AFront k, _ =>
      match nth_error s k with Some x => (x :: firstn k s ++ skipn (S k) s, []) | None => (s, []) end
  | ASplit, (c, Tok t kids) :: r => (map (pair c) kids ++ r, [])
  | ABuild c t, _ =>
      let n := length (fields (D t)) in
      if negb (priv (D t)) && all_of c (fields (D t)) (firstn n s)
      then ((c, Tok t (map snd (firstn n s))) :: skipn n s, []) else (s, [])
  | ACopy, (c, Tok t kids) :: r => if copy (D t) then ((c, Tok t kids) :: s, []) else (s, [])
  | ASend c', (c, v) :: r => if may_send send v then ((c', v) :: r, [EvSend c c' (reach D v)]) else (s, [])
  | AGet, (c, Tok t _) :: _ => match target (D t) with Some i => (s, [EvGet c i]) | None => (s, []) end
  | AInto, (c, Tok t _) :: r => match target (D t) with Some i => ((c, Ref i) :: r, []) | None => (s, []) end
  | AUse, (c, Ref i) :: _ => (s, [EvGet c i])
  | ADrop, _ :: r => (r, [])
  | _, _ => (s, [])
  end.
Fixpoint trun (D : N -> tdef) (send : N -> bool) (s : state) (l : list action) : state * list tev :=
  match l with
  | [] => (s, [])
  | a :: l => let (s1, e1) := tstep D send s a in let (s2, e2) := trun D send s1 l in (s2, e1 ++ e2)
  end.
