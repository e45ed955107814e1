(** C108: a pool of threads consists of the threads it is declared with. *)
Require Import NArith List Bool Lia Permutation.
From Verif Require Import Soft ThrPool ThrPoolSpec ThrPoolProofs.
Import ListNotations.
Open Scope N_scope.

(** The full statement: when the parts of a declaration whose conditions hold can be had, then the
    declaration is accepted and makes them. *)
Definition C108_statement (camel : N -> N) (items : (N -> N) -> input -> list item) (added : list (N * N)) : Prop :=
  forall on i, accepted on (items camel (configured on i)) = true ->
  accepted on (items camel i) = true /\ the_pool camel (configured on i) added (items camel i).

(** A pool that is accepted is the declared one: [COUNT] is the number of threads, each token refers to the thread
    at its position, which was made with that index, and so on ([the_pool]).
    Missing: declarations with a condition that does not hold, which are refused (below). *)
Theorem C108_pool_partial camel on i : accepted on (pool_items camel i) = true -> the_pool camel i [] (pool_items camel i).
Proof. apply accepted_made. Qed.
Print Assumptions C108_pool_partial.

(** A software-managed pool as well; the priorities begin with 0, and the state array has the size that
    the scheduler relies on and begins with zeros. *)
Theorem C108_soft_partial camel on i : accepted on (soft_items camel i) = true ->
  the_pool camel i [(PRIORITY, 0)] (soft_items camel i) /\
  pending (soft_items camel i) (b_name (i_thr i)) = Some (repeat 0 (N.to_nat (pending_size (N.of_nat (length (i_threads i)))))).
Proof. apply soft_made. Qed.
Print Assumptions C108_soft_partial.

(** Declarations with distinct types are accepted exactly when all conditions hold, the fields have
    names of their own and there are fewer than 2^16 threads. *)
Theorem C108_accepted camel on i : NoDup (types camel i) ->
  (accepted on (pool_items camel i) = true <->
   all_on on i /\ fields_apart [FIB_CHAIN; LOCAL] i /\ N.of_nat (length (i_threads i)) < 2 ^ 16) /\
  (accepted on (soft_items camel i) = true <->
   all_on on i /\ fields_apart [FIB_CHAIN; LOCAL; PRIORITY] i /\ N.of_nat (length (i_threads i)) < 2 ^ 16).
Proof. intros T. split; [apply (accepted_iff camel on i T)|apply (soft_iff camel on i T)]. Qed.
Print Assumptions C108_accepted.

(** Two threads whose names have the same camel case are refused. *)
Theorem C108_names camel on i : all_on on i -> accepted on (pool_items camel i) = true -> NoDup (types camel i).
Proof. apply accepted_types. Qed.
Print Assumptions C108_names.

(** The order of the sections is irrelevant. *)
Theorem C108_order l l' : Permutation l l' -> parse_pool l = parse_pool l'.
Proof. apply parse_order. Qed.
Print Assumptions C108_order.

(** The example of the documentation (src/thr/mod.rs lines 20-50). *)
Definition up (n : N) : N := n + 100.
Definition doc : input :=
  Input (Body [] 10 [Field [] 11 (fun _ => 0)]) (Body [] 12 [Field [] 13 (fun index => index)])
        (Decl [] 14) [Decl [] 15; Decl [] 16] None.
Example C108_case :
  parse_pool [SThread (i_thr doc); SLocal (i_local doc); SIndex (i_index doc); SThreads false (i_threads doc)] = Some doc /\
  parse_pool [SThreads false (i_threads doc); SIndex (i_index doc); SLocal (i_local doc); SThread (i_thr doc)] = Some doc /\
  parse_pool [SThread (i_thr doc); SLocal (i_local doc); SIndex (i_index doc)] = None /\
  parse_pool [SThread (i_thr doc); SLocal (i_local doc); SIndex (i_index doc); SThreads false []; SThreads false (i_threads doc)] = None /\
  parse_pool [SThread (i_thr doc); SLocal (i_local doc); SIndex (i_index doc); SThreads true (i_threads doc)] = None /\
  accepted (fun _ => false) (pool_items up doc) = true /\
  to_thr (pool_items up doc) 116 = Some (Object [(11, 0)] [(13, 1)]) /\
  take (pool_items up doc) 14 = [(15, 115); (16, 116)] /\
  accepted (fun _ => false) (soft_items up doc) = true /\
  to_thr (soft_items up doc) 116 = Some (Object [(2, 0); (11, 0)] [(13, 1)]) /\
  option_map (@length N) (pending (soft_items up doc) 10) = Some 28%nat.
Proof. vm_compute. repeat split. Qed.
Example C108_case_accepted : NoDup (types up doc) /\ all_on (fun _ => false) doc /\ fields_apart [FIB_CHAIN; LOCAL; PRIORITY] doc.
Proof.
  split; [|split].
  - repeat constructor; simpl; intuition discriminate.
  - intros c [].
  - split; repeat constructor; simpl; intuition discriminate.
Qed.
(** Names that collide: a field [local], a field [priority], threads with the same camel case. *)
Example C108_case_names :
  let with_field n := Input (Body [] 10 [Field [] n (fun _ => 0)]) (i_local doc) (i_index doc) (i_threads doc) None in
  accepted (fun _ => true) (pool_items up (with_field LOCAL)) = false /\
  accepted (fun _ => true) (pool_items up (with_field PRIORITY)) = true /\
  accepted (fun _ => true) (soft_items up (with_field PRIORITY)) = false /\
  accepted (fun _ => true) (pool_items (fun _ => 100) doc) = false.
Proof. vm_compute. repeat split. Qed.

(** C108 is false: a thread, or a field of a thread or of its storage, whose condition does not hold makes the whole
    declaration fail; so does a condition on the whole pool. *)
Definition off (n : nat) : bool := negb (Nat.eqb n 0).
Definition hidden_thread : input := Input (i_thr doc) (i_local doc) (i_index doc) [Decl [] 15; Decl [0%nat] 16; Decl [1%nat] 17] None.
Definition hidden_field : input := Input (Body [] 10 [Field [0%nat] 11 (fun _ => 0)]) (i_local doc) (i_index doc) (i_threads doc) None.
Definition hidden_local : input := Input (i_thr doc) (Body [] 12 [Field [0%nat] 13 (fun i => i)]) (i_index doc) (i_threads doc) None.

Theorem C108_conditions_refuted : exists camel on i,
  accepted on (pool_items camel (configured on i)) = true /\ accepted on (soft_items camel (configured on i)) = true /\
  i_thr i = i_thr doc /\ i_local i = i_local doc /\
  accepted on (pool_items camel i) = false /\ accepted on (soft_items camel i) = false.
Proof. exists up, off, hidden_thread. vm_compute. repeat split. Qed.
Print Assumptions C108_conditions_refuted.
Theorem C108_fields_refuted : exists camel on i j,
  accepted on (pool_items camel (configured on i)) = true /\ accepted on (pool_items camel i) = false /\
  accepted on (pool_items camel (configured on j)) = true /\ accepted on (pool_items camel j) = false /\
  i_threads i = i_threads doc /\ i_local i = i_local doc /\ i_threads j = i_threads doc /\ i_thr j = i_thr doc.
Proof. exists up, off, hidden_field, hidden_local. vm_compute. repeat split. Qed.
Print Assumptions C108_fields_refuted.
Theorem C108_statement_refuted : ~ C108_statement up pool_items [] /\ ~ C108_statement up soft_items [(PRIORITY, 0)].
Proof.
  split; intros H; destruct (H off hidden_thread) as [A _]; vm_compute in *; congruence.
Qed.
Print Assumptions C108_statement_refuted.
