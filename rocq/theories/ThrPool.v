(** The macros that make a pool of threads.

    Source: /repo/macros/src/thr_pool.rs ([thr::pool!]) and /repo/macros/src/thr_soft.rs ([thr::soft!]);
    what the items mean: /repo/src/thr/mod.rs lines 85-195.

    Names are numbers.  [camel] is [to_upper_camel_case] of the crate heck, which is not part of /repo.  Of the
    attributes only the conditions ([cfg]) are kept.  An initialiser is a function of [index]; values are
    numbers.  The module with the call has no other items of the generated names.  Left out: visibility, types of fields
    (other than tokens), raw identifiers, the names [__priv]. *)
Require Import NArith List Bool.
From Verif Require Import Soft.
Import ListNotations.
Open Scope N_scope.

(** thr_pool.rs lines 10-54. *)
Record field := Field { f_cfgs : list nat; f_name : N; f_init : N -> N }.
Record body := Body { b_cfgs : list nat; b_name : N; b_fields : list field }.
Record decl := Decl { d_cfgs : list nat; d_name : N }.
Record input := Input { i_thr : body; i_local : body; i_index : decl; i_threads : list decl; i_resume : option N }.

(** ** Parsing: lines 56-112; a key with attributes has [attrs = true] *)
Inductive section :=
| SThread (b : body) | SLocal (b : body) | SIndex (d : decl)
| SThreads (attrs : bool) (l : list decl) | SResume (attrs : bool) (path : N).

Record found := Found { o_thr : option body; o_local : option body; o_index : option decl; o_threads : option (list decl); o_resume : option N }.
(** Lines 63-98; [None]: an error. *)
Definition section_step (o : option found) (s : section) : option found :=
  match o with
  | None => None
  | Some (Found t l i h r) =>
      match s with
      | SThread b => match t with None => Some (Found (Some b) l i h r) | Some _ => None end
      | SLocal b => match l with None => Some (Found t (Some b) i h r) | Some _ => None end
      | SIndex d => match i with None => Some (Found t l (Some d) h r) | Some _ => None end
      | SThreads false x => match h with None => Some (Found t l i (Some x) r) | Some _ => None end
      | SResume false p => match r with None => Some (Found t l i h (Some p)) | Some _ => None end
      | SThreads true _ | SResume true _ => None
      end
  end.
(** Lines 57-111. *)
Definition parse_pool (l : list section) : option input :=
  match fold_left section_step l (Some (Found None None None None None)) with
  | Some (Found (Some t) (Some l) (Some i) (Some h) r) => Some (Input t l i h r)
  | _ => None
  end.

(** ** What the macro makes *)

(** A value in a struct expression. *)
Inductive cexp :=
| CChain                        (* Chain::new() *)
| CLocal (ty : N)               (* LocalOpaque::new(ty::new(index)) *)
| CInit (init : N -> N)         (* the initialiser *)
| CTake (ty : N).               (* Token::take() of the type of the field *)

Inductive item :=
| IStruct (cfgs : list nat) (name : N) (fields : list (list nat * N))
| INew (ty : N) (ctor : list (N * cexp))                 (* impl ty { fn new(index) } *)
| IThread (ty : N) (count : N) (elems : list (N * N))    (* impl Thread for ty; [elems]: type::new(index) *)
| ITake (ty : N) (ctor : list (N * cexp))                (* impl Token for ty *)
| IThrToken (ty thr idx : N)                             (* impl ThrToken for ty *)
| ISoft (ty : N).                                        (* impl SoftThread for ty *)

(** Names of the fields that the macros add (lines 234-235; thr_soft.rs line 175). *)
Definition FIB_CHAIN : N := 0.
Definition LOCAL : N := 1.
Definition PRIORITY : N := 2.

(** [0..n]. *)
Definition indices {A} (l : list A) : list N := map N.of_nat (seq 0 (length l)).

(** Lines 201-281. *)
Definition def_thr (thr : body) (threads : list decl) (local : body) : list item :=
  [IStruct (b_cfgs thr) (b_name thr)
     (([], FIB_CHAIN) :: ([], LOCAL) :: map (fun f => (f_cfgs f, f_name f)) (b_fields thr));
   INew (b_name thr)
     ((FIB_CHAIN, CChain) :: (LOCAL, CLocal (b_name local)) :: map (fun f => (f_name f, CInit (f_init f))) (b_fields thr));
   IThread (b_name thr) (N.of_nat (length threads)) (map (fun i => (b_name thr, i)) (indices threads))].
(** Lines 283-306. *)
Definition def_local (local : body) : list item :=
  [IStruct (b_cfgs local) (b_name local) (map (fun f => (f_cfgs f, f_name f)) (b_fields local));
   INew (b_name local) (map (fun f => (f_name f, CInit (f_init f))) (b_fields local))].

Section Camel.
Variable camel : N -> N.

(** Lines 338-381. *)
Definition def_thr_token (thr : body) (x : N * decl) : list item :=
  let ty := camel (d_name (snd x)) in
  [IStruct (d_cfgs (snd x)) ty []; ITake ty []; IThrToken ty (b_name thr) (fst x)].
(** Lines 308-336. *)
Definition def_index (thr : body) (index : decl) (threads : list decl) : list item :=
  IStruct (d_cfgs index) (d_name index) (map (fun d => (d_cfgs d, d_name d)) threads)
  :: ITake (d_name index) (map (fun d => (d_name d, CTake (camel (d_name d)))) threads)
  :: flat_map (def_thr_token thr) (combine (indices threads) threads).
(** Lines 187-199. *)
Definition pool_items (i : input) : list item :=
  def_thr (i_thr i) (i_threads i) (i_local i) ++ def_local (i_local i) ++ def_index (i_thr i) (i_index i) (i_threads i).

(** thr_soft.rs lines 157-195: the pool has one more field in each thread. *)
Definition with_priority (i : input) : input :=
  Input (Body (b_cfgs (i_thr i)) (b_name (i_thr i)) (Field [] PRIORITY (fun _ => 0) :: b_fields (i_thr i)))
        (i_local i) (i_index i) (i_threads i) (i_resume i).
(** thr_soft.rs lines 145-155, 197-228. *)
Definition soft_items (i : input) : list item := pool_items (with_priority i) ++ [ISoft (b_name (i_thr i))].
End Camel.

(** ** What the compiler accepts *)
Section Compiler.
Variable on : nat -> bool.       (* which conditions hold *)
Variable items : list item.

Definition holds (cfgs : list nat) : bool := forallb on cfgs.
(** The structs that are there, with the fields that are there. *)
Definition structs : list (N * list N) :=
  flat_map (fun i => match i with
    | IStruct cfgs name fields => if holds cfgs then [(name, map snd (filter (fun f => holds (fst f)) fields))] else []
    | _ => [] end) items.
Definition fields_of (ty : N) : option (list N) := option_map snd (find (fun s => fst s =? ty) structs).

Definition mem (x : N) (l : list N) : bool := existsb (N.eqb x) l.
Fixpoint nodupb (l : list N) : bool :=
  match l with [] => true | x :: r => negb (mem x r) && nodupb r end.

(** A struct expression names each field of the struct once. *)
Definition ctor_ok (ty : N) (ctor : list (N * cexp)) : bool :=
  match fields_of ty with
  | None => false
  | Some fs => nodupb (map fst ctor) && forallb (fun c => mem (fst c) fs) ctor && forallb (fun f => mem f (map fst ctor)) fs
  end.
Definition known (ty : N) : bool := match fields_of ty with Some _ => true | None => false end.
Definition exp_ok (e : cexp) : bool :=
  match e with CLocal ty | CTake ty => known ty | CChain | CInit _ => true end.
(** Literals of type [u16]: one that is too large is an error. *)
Definition lit_ok (n : N) : bool := n <? 2 ^ 16.
Definition item_ok (i : item) : bool :=
  match i with
  | IStruct cfgs _ fields => negb (holds cfgs) || nodupb (map snd (filter (fun f => holds (fst f)) fields))
  | INew ty ctor | ITake ty ctor => ctor_ok ty ctor && forallb (fun c => exp_ok (snd c)) ctor
  | IThread ty count elems =>
      known ty && lit_ok count && forallb (fun e => known (fst e) && lit_ok (snd e)) elems && (N.of_nat (length elems) =? count)
  | IThrToken ty thr idx => known ty && known thr && lit_ok idx
  | ISoft ty => match fields_of ty with Some fs => mem PRIORITY fs | None => false end
  end.
(** At most one implementation of each kind for a type. *)
Definition news : list N := flat_map (fun i => match i with INew ty _ => [ty] | _ => [] end) items.
Definition takes : list N := flat_map (fun i => match i with ITake ty _ => [ty] | _ => [] end) items.
Definition tokens : list N := flat_map (fun i => match i with IThrToken ty _ _ => [ty] | _ => [] end) items.
Definition threads_ : list N := flat_map (fun i => match i with IThread ty _ _ => [ty] | _ => [] end) items.
Definition accepted : bool :=
  nodupb (map fst structs) && forallb item_ok items
  && nodupb news && nodupb takes && nodupb tokens && nodupb threads_.
End Compiler.

(** ** What the program does *)
Section Run.
Variable items : list item.

Definition new_of (ty : N) : list (N * cexp) :=
  match find (fun i => match i with INew t _ => t =? ty | _ => false end) items with
  | Some (INew _ ctor) => ctor
  | _ => []
  end.
(** The storage of a thread: the fields with initialisers. *)
Definition inits (ctor : list (N * cexp)) (index : N) : list (N * N) :=
  flat_map (fun c => match snd c with CInit f => [(fst c, f index)] | _ => [] end) ctor.
(** [thr::new(index)]: the fields of the thread, and those of its thread-local storage. *)
Record object := Object { own : list (N * N); local_ : list (N * N) }.
Definition new (ty index : N) : object :=
  let ctor := new_of ty in
  Object (inits ctor index)
         (flat_map (fun c => match snd c with CLocal l => inits (new_of l) index | _ => [] end) ctor).

(** [Thread::COUNT], [Thread::pool] (mod.rs lines 93, 99). *)
Definition thread_impl (ty : N) : option (N * list (N * N)) :=
  match find (fun i => match i with IThread t _ _ => t =? ty | _ => false end) items with
  | Some (IThread _ c e) => Some (c, e)
  | _ => None
  end.
Definition count (ty : N) : option N := option_map fst (thread_impl ty).
Definition pool (ty : N) : list object :=
  match thread_impl ty with Some (_, e) => map (fun x => new (fst x) (snd x)) e | None => [] end.
(** [ThrToken]: the thread type and the index (mod.rs lines 182-186). *)
Definition token_impl (ty : N) : option (N * N) :=
  match find (fun i => match i with IThrToken t _ _ => t =? ty | _ => false end) items with
  | Some (IThrToken _ t i) => Some (t, i)
  | _ => None
  end.
(** mod.rs lines 189-192. *)
Definition to_thr (ty : N) : option object :=
  match token_impl ty with Some (t, i) => nth_error (pool t) (N.to_nat i) | None => None end.
(** [Token::take] of the index: its fields, with the types of the tokens. *)
Definition take (ty : N) : list (N * N) :=
  match find (fun i => match i with ITake t _ => t =? ty | _ => false end) items with
  | Some (ITake _ ctor) => flat_map (fun c => match snd c with CTake t => [(fst c, t)] | _ => [] end) ctor
  | _ => []
  end.
(** thr_soft.rs lines 211-218: the initial contents of [SoftThread::pending]. *)
Definition pending (ty : N) : option (list N) :=
  if existsb (fun i => match i with ISoft t => t =? ty | _ => false end) items
  then option_map (fun c => repeat 0 (N.to_nat (pending_size c))) (count ty) else None.
End Run.
