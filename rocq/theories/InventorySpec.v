(** What the users of an inventory can rely on, as a function of what has happened to
    it. *)
Require Import NArith List Bool.
Import ListNotations.
Open Scope N_scope.

(** Inventories and tokens of one item type are numbered. *)
Inductive iev :=
| ENew (j : N)                       (* an inventory is created *)
| ESetup (j : N)                     (* the driver activates the item *)
| EShare (j : N) (ts : list N)       (* tokens are given out *)
| EMerge (j : N) (ts : list N)       (* tokens are taken back *)
| ERef (j : N)                       (* a reference to a token is given out *)
| EDown (j : N)                      (* [Item::teardown] is called *)
| EFree (j : N)                      (* the item is taken out *)
| EGuard (j : N)                     (* a guard is created *)
| EUnguard (j : N)                   (* and dropped *)
| ELeak (j : N).                     (* or leaked *)

Definition member (t : N) (l : list N) : bool := existsb (N.eqb t) l.
(** The tokens shared by inventory [j] that have not been merged into it. *)
Definition outstanding (j : N) (l : list iev) : list N :=
  fold_left (fun o e => match e with
    | EShare j' ts => if j' =? j then o ++ ts else o
    | EMerge j' ts => if j' =? j then filter (fun t => negb (member t ts)) o else o
    | _ => o end) l [].
(** Whether the item of [j] has been activated and not torn down since. *)
Definition is_active (j : N) (l : list iev) : bool :=
  fold_left (fun b e => match e with
    | ESetup j' => if j' =? j then true else b
    | EDown j' => if j' =? j then false else b
    | _ => b end) l false.
Definition guarded (j : N) (l : list iev) : bool :=
  fold_left (fun b e => match e with
    | EGuard j' => if j' =? j then true else b
    | EUnguard j' | ELeak j' => if j' =? j then false else b
    | _ => b end) l false.
(** How often the item of [j] has been torn down since the guard in existence was
    created. *)
Definition guard_downs (j : N) (l : list iev) : option nat :=
  fold_left (fun b e => match e with
    | EGuard j' => if j' =? j then Some O else b
    | EDown j' => if j' =? j then match b with Some n => Some (S n) | None => None end else b
    | EUnguard j' | ELeak j' => if j' =? j then None else b
    | _ => b end) l None.

Definition always (P : list iev -> iev -> Prop) (l : list iev) : Prop :=
  forall a e b, l = a ++ e :: b -> P a e.

(** An item is torn down or taken out only when all tokens are back. *)
Definition all_back (a : list iev) (e : iev) : Prop :=
  match e with EDown j | EFree j => outstanding j a = [] | _ => True end.
(** Tokens are merged into the inventory that shared them. *)
Definition own_tokens (a : list iev) (e : iev) : Prop :=
  match e with EMerge j ts => incl ts (outstanding j a) | _ => True end.
(** Tokens and guards are given out while the item is active. *)
Definition given_active (a : list iev) (e : iev) : Prop :=
  match e with EShare j _ | EGuard j => is_active j a = true | _ => True end.
(** The same for references to a token. *)
Definition ref_active (a : list iev) (e : iev) : Prop :=
  match e with ERef j => is_active j a = true | _ => True end.
(** Dropping a guard tears the item down once, not less and not more. *)
Definition down_once (a : list iev) (e : iev) : Prop :=
  match e with EUnguard j => guard_downs j a = Some 1%nat | _ => True end.
