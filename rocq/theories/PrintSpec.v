(** What the printing macros promise: format strings, messages, and histories of several contexts that
    print while a debug probe reads.  Strings are lists of UTF-8 bytes. *)
Require Import NArith List Bool.
Import ListNotations.
Open Scope N_scope.

Definition bytes := list N.
Definition lbrace : N := 123.
Definition rbrace : N := 125.
Definition newline : N := 10.

(** What the argument of the [k]-th placeholder, with the given text between its braces, displays: the
    strings it writes, and whether it reports success. *)
Definition display := nat -> bytes -> list bytes * bool.
Definition no_braces (t : bytes) : Prop := forall b, In b t -> b <> lbrace /\ b <> rbrace.

(** The meaning of format strings (the syntax of [format!], core::fmt): output, and whether all
    arguments reported success; output ends where one does not.  Braces as fill characters of a
    placeholder are left out. *)
Inductive formats (D : display) : nat -> bytes -> bytes -> bool -> Prop :=
| f_end n : formats D n [] [] true
| f_char n b s o k : b <> lbrace -> b <> rbrace -> formats D n s o k -> formats D n (b :: s) (b :: o) k
| f_open n s o k : formats D n s o k -> formats D n (lbrace :: lbrace :: s) (lbrace :: o) k
| f_close n s o k : formats D n s o k -> formats D n (rbrace :: rbrace :: s) (rbrace :: o) k
| f_arg n t s o k : no_braces t -> snd (D n t) = true -> formats D (S n) s o k ->
    formats D n (lbrace :: t ++ rbrace :: s) (concat (fst (D n t)) ++ o) k
| f_fail n t s o k : no_braces t -> snd (D n t) = false -> formats D (S n) s o k ->
    formats D n (lbrace :: t ++ rbrace :: s) (concat (fst (D n t))) false.

(** Statements of a program.  [ILit s D]: one literal, [D] displaying the variables it names;
    [IVar s]: one expression that is not a literal, of value [s]; [IFmt s D]: a literal followed by
    a comma, and maybe arguments. *)
Inductive target := Stdout | Stderr.
Definition stream_of (t : target) : N := match t with Stdout => 0 | Stderr => 1 end.
Inductive input := INone | ILit (s : bytes) (D : display) | IVar (s : bytes) | IFmt (s : bytes) (D : display).
Record dval := Dval { dexpr : nat; dtext : bytes; dshow : list bytes * bool }.
Inductive stmt :=
| SPrint (nl : bool) (t : target) (i : input)         (* print!, println!, eprint!, eprintln! *)
| SDbg (file line : bytes) (vals : list dval).        (* dbg! *)

Definition ends (nl k : bool) : bytes := if nl && k then [newline] else [].

(** The messages of a statement. *)
Inductive says : stmt -> list (target * bytes) -> Prop :=
| says_none t : says (SPrint true t INone) [(t, [newline])]
| says_lit nl t s D o k : formats D 0 s o k -> says (SPrint nl t (ILit s D)) [(t, o ++ ends nl k)]
| says_var t s : says (SPrint false t (IVar s)) [(t, s)]
| says_fmt nl t s D o k : formats D 0 s o k -> says (SPrint nl t (IFmt s D)) [(t, o ++ ends nl k)]
| says_here file line : says (SDbg file line []) [(Stderr, [91] ++ file ++ [58] ++ line ++ [93; newline])]
| says_dbg file line v vals : says (SDbg file line (v :: vals))
    (map (fun v => (Stderr, [91] ++ file ++ [58] ++ line ++ [93; 32] ++ dtext v ++ [32; 61; 32] ++
       concat (fst (dshow v)) ++ ends true (snd (dshow v)))) (v :: vals)).

Inductive says_all : list stmt -> list (target * bytes) -> Prop :=
| sa_nil : says_all [] []
| sa_cons s l ms ns : says s ms -> says_all l ns -> says_all (s :: l) (ms ++ ns).

(** The statements to which the repository's literal arm does justice. *)
Definition plain (s : stmt) : Prop :=
  match s with SPrint _ _ (ILit s _) => no_braces s | _ => True end.

(** Histories: the probe sets the enable mask; a context evaluates an expression, makes a call and finds
    the stream enabled or not, gets a frame written; the probe reads a frame. *)
Inductive pev :=
| EvMask (m : N) | EvEval (c : N) (e : nat) | EvCall (c st : N) (on : bool)
| EvWrote (c : N) (f : N * bytes) | EvRead (f : N * bytes).

Fixpoint calls_of (c : N) (l : list pev) : list bool :=
  match l with
  | [] => []
  | EvCall d _ on :: l => if d =? c then on :: calls_of c l else calls_of c l
  | _ :: l => calls_of c l
  end.
Fixpoint frames_of (c : N) (l : list pev) : list (N * bytes) :=
  match l with
  | [] => []
  | EvWrote d f :: l => if d =? c then f :: frames_of c l else frames_of c l
  | _ :: l => frames_of c l
  end.
Fixpoint all_wrote (l : list pev) : list (N * bytes) :=
  match l with [] => [] | EvWrote _ f :: l => f :: all_wrote l | _ :: l => all_wrote l end.
Fixpoint all_read (l : list pev) : list (N * bytes) :=
  match l with [] => [] | EvRead f :: l => f :: all_read l | _ :: l => all_read l end.
Fixpoint mask_of (m : N) (l : list pev) : N :=
  match l with [] => m | EvMask m :: l => mask_of m l | _ :: l => mask_of m l end.

(** Bytes, each with its stream. *)
Definition tagged (fs : list (N * bytes)) : list (N * N) :=
  flat_map (fun f => map (pair (fst f)) (snd f)) fs.
(** What the first messages come to, given which of them found their stream enabled. *)
Fixpoint due (ms : list (target * bytes)) (on : list bool) : list (N * bytes) :=
  match ms, on with
  | (t, o) :: ms, b :: on => if b then (stream_of t, o) :: due ms on else due ms on
  | _, _ => []
  end.

(** The messages that do not come out empty, as frames. *)
Definition nonempty (fs : list (N * bytes)) : list (N * bytes) :=
  filter (fun f => match snd f with [] => false | _ => true end) fs.
(** Statements with one string of at most 64 bytes to write. *)
Definition short (s : stmt) : Prop :=
  match s with
  | SPrint true _ INone => True
  | SPrint nl _ (ILit s _) | SPrint nl _ (IVar s) => (length s + (if nl then 1 else 0) <= 64)%nat
  | _ => False
  end.

(** What a context does, in order: evaluations of expressions and calls that print to a stream. *)
Inductive act := AEval (e : nat) | ACall (st : N).
Fixpoint acts_of (c : N) (l : list pev) : list act :=
  match l with
  | [] => []
  | EvEval d e :: l => if d =? c then AEval e :: acts_of c l else acts_of c l
  | EvCall d st _ :: l => if d =? c then ACall st :: acts_of c l else acts_of c l
  | _ :: l => acts_of c l
  end.
Definition acts (s : stmt) : list act :=
  match s with
  | SPrint _ t _ => [ACall (stream_of t)]
  | SDbg _ _ [] => [ACall 1]
  | SDbg _ _ vals => flat_map (fun v => [AEval (dexpr v); ACall 1]) vals
  end.
