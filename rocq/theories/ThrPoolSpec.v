(** When the macros for pools of threads should accept a declaration, and what it should make. *)
Require Import NArith List Bool.
From Verif Require Import ThrPool.
Import ListNotations.
Open Scope N_scope.

(** All conditions hold. *)
Definition conditions (i : input) : list nat :=
  b_cfgs (i_thr i) ++ b_cfgs (i_local i) ++ d_cfgs (i_index i)
  ++ flat_map f_cfgs (b_fields (i_thr i)) ++ flat_map f_cfgs (b_fields (i_local i)) ++ flat_map d_cfgs (i_threads i).
Definition all_on (on : nat -> bool) (i : input) : Prop := forall c, In c (conditions i) -> on c = true.

(** The names of the types. *)
Definition types (camel : N -> N) (i : input) : list N :=
  b_name (i_thr i) :: b_name (i_local i) :: d_name (i_index i) :: map (fun d => camel (d_name d)) (i_threads i).
(** The names of the fields, with those that the macros add. *)
Definition fields_apart (added : list N) (i : input) : Prop :=
  NoDup (added ++ map f_name (b_fields (i_thr i))) /\ NoDup (map f_name (b_fields (i_local i))).

(** The declaration without the parts whose conditions do not hold. *)
Definition on_fields (on : nat -> bool) (l : list field) : list field := filter (fun f => forallb on (f_cfgs f)) l.
Definition configured (on : nat -> bool) (i : input) : input :=
  Input (Body (b_cfgs (i_thr i)) (b_name (i_thr i)) (on_fields on (b_fields (i_thr i))))
        (Body (b_cfgs (i_local i)) (b_name (i_local i)) (on_fields on (b_fields (i_local i))))
        (i_index i) (filter (fun d => forallb on (d_cfgs d)) (i_threads i)) (i_resume i).

(** What the fields are at the beginning in the thread number [index]. *)
Definition initial (l : list field) (index : N) : list (N * N) := map (fun f => (f_name f, f_init f index)) l.

(** The program [items] has the pool that is declared: as many threads as declared; the token of each refers to
    the thread at its position, which and whose storage were made with that index; different threads have
    different tokens; the index has all the tokens. *)
Definition the_pool (camel : N -> N) (i : input) (added : list (N * N)) (items : list item) : Prop :=
  let n := length (i_threads i) in
  count items (b_name (i_thr i)) = Some (N.of_nat n) /\
  length (pool items (b_name (i_thr i))) = n /\
  (forall k d, nth_error (i_threads i) k = Some d ->
     token_impl items (camel (d_name d)) = Some (b_name (i_thr i), N.of_nat k) /\
     to_thr items (camel (d_name d)) =
       Some (Object (added ++ initial (b_fields (i_thr i)) (N.of_nat k)) (initial (b_fields (i_local i)) (N.of_nat k)))) /\
  (forall k k' d d', nth_error (i_threads i) k = Some d -> nth_error (i_threads i) k' = Some d' ->
     camel (d_name d) = camel (d_name d') -> k = k') /\
  take items (d_name (i_index i)) = map (fun d => (d_name d, camel (d_name d))) (i_threads i).
