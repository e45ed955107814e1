(** The tokens of one register, and the accesses that can be made with them.

    Source: /repo/src/reg/tag.rs, /repo/src/reg/mod.rs lines 432-466, 680-790,
    /repo/src/reg/field.rs lines 38-75, 223-300, /repo/src/reg/atomic.rs lines 88-150,
    /repo/src/reg/soft_atomic.rs lines 86-140, /repo/macros/src/reg.rs lines 167-498.

    The program around is arbitrary safe code: it may convert, copy, take apart, put together, drop
    and send tokens as their types allow.  A token may be used by any context (tokens are [Send]
    and [Sync]); what Rust's borrowing forbids is not possible: a token that is mutably borrowed is
    absent meanwhile, and one that is borrowed cannot be moved.

    Simplifications: one register; a value is an [N]; the variants of a register share its address;
    sequentially consistent memory; reads without a write are left out. *)
Require Import NArith List Bool Arith.
From Verif Require Import RegTokSpec.
Import ListNotations.
Open Scope nat_scope.

(** reg/tag.rs lines 22-59. *)
Inductive tag := Urt | Srt | Crt.
(** reg/tag.rs lines 28, 41: [RegOwned]; 42, 52: [RegAtomic]. *)
Definition owned (t : tag) : bool := match t with Crt => false | _ => true end.
Definition atomic (t : tag) : bool := match t with Urt => false | _ => true end.

(** macros/src/reg.rs lines 201-202, 376-378: the token of variant [v] of the register, with a
    token for each of its fields in public fields. *)
Inductive tok := Whole (v : nat) (t : tag) | Fld (v i : nat) (t : tag).
Definition tag_of (x : tok) : tag := match x with Whole _ t => t | Fld _ _ t => t end.
Definition tag_eqb (a b : tag) : bool :=
  match a, b with Urt, Urt => true | Srt, Srt => true | Crt, Crt => true | _, _ => false end.
Definition tok_eqb (a b : tok) : bool :=
  match a, b with
  | Whole v t, Whole w u => (v =? w) && tag_eqb t u
  | Fld v i t, Fld w j u => (v =? w) && (i =? j) && tag_eqb t u
  | _, _ => false
  end.

(** A [modify] under way: by which context, through which token, the closure, the value read. *)
Record mop := Mop { m_c : nat; m_tok : tok; m_f : N -> N; m_old : N }.

Record rsys := Rsys { toks : list tok; ops : list mop; reg : N; rlog : list wev }.

(** The register: the number of fields of each variant, which variants are write-only (traits [WoReg])
    instead of read-write ([RReg WReg]), and the build. *)
Record rdef := Rdef { fields : nat -> nat; wo : nat -> bool; hw : bool }.

Inductive ract :=
| RConv (k : nat) (t : tag)                (* into_unsync, into_sync, into_copy *)
| RVariant (k v : nat)                     (* into_..., between variants *)
| RSplit (k : nat)                         (* moving the fields out *)
| RJoin (v : nat) (t : tag)                (* a struct literal *)
| RDrop (k : nat)
| RStore (c k : nat) (w : N)
| RBegin (c k : nat) (f : N -> N)          (* modify: the register is read *)
| REnd (c : nat) (spur : bool).            (* its closure has returned *)

Definition remove_at {A} (k : nat) (l : list A) : list A := firstn k l ++ skipn (S k) l.
Fixpoint remove_tok (x : tok) (l : list tok) : option (list tok) :=
  match l with
  | [] => None
  | y :: r => if tok_eqb y x then Some r else option_map (cons y) (remove_tok x r)
  end.
Definition borrowed (o : list mop) (x : tok) : bool := existsb (fun m => tok_eqb (m_tok m) x) o.
(** Using the token by value: it is gone, unless it is [Copy] (macros/src/reg.rs lines 202, 376). *)
Definition spend (k : nat) (x : tok) (l : list tok) : list tok := if owned (tag_of x) then remove_at k l else l.
Definition movable (o : list mop) (x : tok) : bool := negb (owned (tag_of x)) || negb (borrowed o x).

(** A context cannot run while another one has the interrupts paused (reg/soft_atomic.rs). *)
Definition masked (d : rdef) (o : list mop) (c : nat) : bool :=
  negb (hw d) && existsb (fun m => atomic (tag_of (m_tok m)) && negb (m_c m =? c)) o.

(** All field tokens of the variant, taken out of the list. *)
Fixpoint gather (v : nat) (t : tag) (n : nat) (o : list mop) (l : list tok) : option (list tok) :=
  match n with
  | 0 => Some l
  | S n => if movable o (Fld v n t) then
             match remove_tok (Fld v n t) l with
             | Some r => gather v t n o (if owned t then r else l)
             | None => None
             end
           else None
  end.

Definition may_store (d : rdef) (x : tok) : bool :=
  match x with Whole _ _ => true | Fld v _ _ => wo d v end.
Definition may_modify (d : rdef) (x : tok) : bool :=
  match x with Whole v _ => negb (wo d v) | Fld v _ t => negb (wo d v) && atomic t end.

(** The innermost [modify] of context [c], and the others. *)
Fixpoint innermost (c : nat) (o : list mop) : option (mop * list mop) :=
  match o with
  | [] => None
  | m :: r => if m_c m =? c then Some (m, r) else option_map (fun p => (fst p, m :: snd p)) (innermost c r)
  end.

Definition rstep (d : rdef) (s : rsys) (a : ract) : rsys :=
  let 'Rsys tk o r lg := s in
  match a with
  | RConv k t =>
      match nth_error tk k with
      | Some (Whole v u) =>
          (* reg/mod.rs lines 435-455 *)
          if movable o (Whole v u) && (owned u || negb (owned t)) then Rsys (Whole v t :: spend k (Whole v u) tk) o r lg else s
      | Some (Fld v i u) =>
          (* reg/field.rs lines 40-65 *)
          if movable o (Fld v i u) && (tag_eqb t u || (atomic u && tag_eqb t Crt)) then
            Rsys (Fld v i t :: spend k (Fld v i u) tk) o r lg
          else s
      | None => s
      end
  | RVariant k v' =>
      match nth_error tk k with
      | Some (Whole v u) =>
          (* macros/src/reg.rs lines 484-490 *)
          if movable o (Whole v u) then Rsys (Whole v' u :: spend k (Whole v u) tk) o r lg else s
      | _ => s
      end
  | RSplit k =>
      match nth_error tk k with
      | Some (Whole v u) =>
          if movable o (Whole v u) then Rsys (map (fun i => Fld v i u) (seq 0 (fields d v)) ++ spend k (Whole v u) tk) o r lg else s
      | _ => s
      end
  | RJoin v t =>
      (* macros/src/reg.rs lines 200-203, 349-355, 376-378: all fields of the structure are public *)
      match gather v t (fields d v) o tk with
      | Some l => Rsys (Whole v t :: l) o r lg
      | None => s
      end
  | RDrop k =>
      match nth_error tk k with
      | Some x => if owned (tag_of x) && movable o x then Rsys (remove_at k tk) o r lg else s
      | None => s
      end
  | RStore c k w =>
      match nth_error tk k with
      | Some x =>
          (* reg/mod.rs lines 714-716, 755-757, reg/field.rs lines 236-243 *)
          if may_store d x && negb (masked d o c) then Rsys tk o w (lg ++ [EStore w]) else s
      | None => s
      end
  | RBegin c k f =>
      match nth_error tk k with
      | Some x =>
          if may_modify d x && negb (masked d o c) then
            if atomic (tag_of x) then Rsys tk (Mop c x f r :: o) r lg
            else (* reg/mod.rs lines 770-790: [&mut self] *)
              Rsys (remove_at k tk) (Mop c x f r :: o) r lg
          else s
      | None => s
      end
  | REnd c spur =>
      if masked d o c then s
      else
        match innermost c o with
        | Some (Mop _ x f old, o') =>
            if atomic (tag_of x) then
              if hw d then
                (* reg/atomic.rs lines 98-107, 115-124, 139-148 *)
                if spur || negb (N.eqb r old) then Rsys tk (Mop c x f r :: o') r lg
                else Rsys tk o' (f old) (lg ++ [EUpd f])
              else (* reg/soft_atomic.rs lines 96-98, 106-110 *)
                Rsys tk o' (f old) (lg ++ [EUpd f])
            else Rsys (x :: tk) o' (f old) (lg ++ [EUpd f])
        | None => s
        end
  end.

(** macros/src/reg_tokens_inner.rs lines 66-77: the index holds one [Srt] token. *)
Definition rsys0 (v : nat) (r : N) : rsys := Rsys [Whole v Srt] [] r [].
Definition rrun (d : rdef) (v : nat) (r : N) (l : list ract) : rsys := fold_left (rstep d) l (rsys0 v r).
