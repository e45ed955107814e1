(** What draining a list with a filter means when elements are added at any time.
    Independent of the code: an acceptor for sequences of observable events. *)
Require Import NArith List Bool.
Import ListNotations.
Open Scope N_scope.

Inductive devent :=
| EAdd (x : N)                (* [x] is added to the list *)
| EStart                      (* a drain starts *)
| EVisit (x : N) (b : bool)   (* the filter is called on [x] and answers [b] *)
| EOut (x : N)                (* [x] leaves the list and is handed out / destroyed *)
| EEnd.                       (* the drain reports its end *)

(** [QRun f k t]: a drain is in progress; [f] was added since its start, [k] has
    been visited and kept, [t] is still to be visited, in list order.  [QOut]: the
    filter has just accepted [x]. *)
Inductive dspec :=
| QIdle (l : list N)
| QRun (f k t : list N)
| QOut (f k : list N) (x : N) (t : list N).

Definition daccept (q : dspec) (e : devent) : option dspec :=
  match e with
  | EAdd x =>
      Some match q with
           | QIdle l => QIdle (x :: l)
           | QRun f k t => QRun (x :: f) k t
           | QOut f k y t => QOut (x :: f) k y t
           end
  | EStart => match q with QIdle l => Some (QRun [] [] l) | _ => None end
  | EVisit x b =>
      match q with
      | QRun f k (y :: t) =>
          if x =? y then Some (if b then QOut f k x t else QRun f (k ++ [x]) t) else None
      | _ => None
      end
  | EOut x =>
      match q with QOut f k y t => if x =? y then Some (QRun f k t) else None | _ => None end
  | EEnd => match q with QRun f k [] => Some (QIdle (f ++ k)) | _ => None end
  end.

Fixpoint daccepts (q : dspec) (tr : list devent) : option dspec :=
  match tr with
  | [] => Some q
  | e :: r => match daccept q e with Some q' => daccepts q' r | None => None end
  end.

(** The elements of the list. *)
Definition dcontents (q : dspec) : list N :=
  match q with
  | QIdle l => l
  | QRun f k t => f ++ k ++ t
  | QOut f k x t => f ++ k ++ t
  end.
