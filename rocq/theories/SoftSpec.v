(** What users of software-managed threads can rely on, as functions of the history.

    Independent of the code.  Threads are numbers, priorities are numbers; a higher
    number is a higher priority. *)
Require Import NArith List Bool.
Import ListNotations.
Open Scope N_scope.

Inductive sev :=
| EWake (i : N)          (* a call that wakes thread [i] begins *)
| EPend (i p : N)        (* inside of it: [i] is set pending with priority [p] *)
| EMark (i p : N)        (* inside of it: the scheduler is told about priority [p] *)
| EWoken (i : N)         (* set_pending returns *)
| EWill (i : N) (b : bool)      (* will_preempt returns [b] *)
| ESel (p : N)           (* preempt starts with the threads of priority [p] *)
| ENext (p : N)          (* it goes on with those of priority [p] *)
| EBack                  (* it goes back to what it has preempted *)
| ETake (i p : N)        (* thread [i] is chosen to run next *)
| EResume (i p : N)      (* the body of [i] starts; it was chosen with priority [p] *)
| EDone (i : N)          (* the body returns *)
| EClear (i p : N)       (* clear_pending of a thread whose priority is [p] *)
| EIs (i p : N) (b : bool)      (* is_pending returns [b]; the thread's priority is [p] *)
| EPrio (i p : N).       (* set_priority *)

Definition is_ (i p i' p' : N) : bool := (i =? i') && (p =? p').

(** The priority of thread [i]. *)
Definition prio (i : N) (l : list sev) : N :=
  fold_left (fun q e => match e with EPrio i' p => if i' =? i then p else q | _ => q end) l 0.

(** The threads that have started and not returned, the latest first, with the
    priorities they were chosen with. *)
Definition running (l : list sev) : list (N * N) :=
  fold_left (fun r e => match e with EResume i p => (i, p) :: r | EDone _ => tl r | _ => r end) l [].

(** The threads that have been chosen and not started, the latest first. *)
Definition chosen (l : list sev) : list (N * N) :=
  fold_left (fun r e => match e with ETake i p => (i, p) :: r | EResume _ _ => tl r | _ => r end) l [].

(** The priorities whose threads are being run, the latest first. *)
Definition levels (l : list sev) : list N :=
  fold_left (fun r e => match e with
    | ESel p => p :: r
    | ENext p => p :: tl r
    | EBack => tl r
    | _ => r end) l [].

(** The wakeups of thread [i] with priority [p], and its runs. *)
Definition wakeups (i p : N) (l : list sev) : nat :=
  length (filter (fun e => match e with EPend i' p' => is_ i p i' p' | _ => false end) l).
Definition runs (i p : N) (l : list sev) : nat :=
  length (filter (fun e => match e with EResume i' p' => is_ i p i' p' | _ => false end) l).

(** Whether [i] waits to be run with priority [p]: it was set pending and has not been
    started since ([WSet]), and the scheduler has been told so ([WTold]). *)
Inductive wait := WNo | WSet | WTold.
Definition wstep (i p : N) (w : wait) (e : sev) : wait :=
  match e with
  | EPend i' p' => if is_ i p i' p' then match w with WNo => WSet | _ => w end else w
  | EMark i' p' => if is_ i p i' p' then match w with WSet => WTold | _ => w end else w
  | EResume i' p' | EClear i' p' => if is_ i p i' p' then WNo else w
  | _ => w
  end.
Definition waits (i p : N) (l : list sev) : wait := fold_left (wstep i p) l WNo.

(** Whether [i] is pending with priority [p]: it was set pending and has neither been
    chosen nor cleared since. *)
Definition pending (i p : N) (l : list sev) : bool :=
  fold_left (fun b e => match e with
    | EPend i' p' => b || is_ i p i' p'
    | ETake i' p' | EClear i' p' => b && negb (is_ i p i' p')
    | _ => b end) l false.

(** Whether the wakeups of [i] with priority [p] were cleared while no thread of that
    priority was being run, and it was not set pending since. *)
Record clr := Clr { x_levels : list N; x_clear : bool }.
Definition xstep (i p : N) (x : clr) (e : sev) : clr :=
  match e with
  | ESel q => Clr (q :: x_levels x) (x_clear x)
  | ENext q => Clr (q :: tl (x_levels x)) (x_clear x)
  | EBack => Clr (tl (x_levels x)) (x_clear x)
  | EPend i' p' => Clr (x_levels x) (x_clear x && negb (is_ i p i' p'))
  | EClear i' p' => Clr (x_levels x) (x_clear x || (is_ i p i' p' && negb (existsb (N.eqb p) (x_levels x))))
  | _ => x
  end.
Definition cleared (i p : N) (l : list sev) : bool := x_clear (fold_left (xstep i p) l (Clr [] false)).

(** ** Conditions on histories *)

(** [y_stuck]: the scheduler was told about priority [p] while threads of priority [p]
    were being run, and has not chosen that priority since.  [y_will]: will_preempt
    returned [true] and no preempt has started to run threads since. *)
Record cond := Cond { y_levels : list N; y_stuck : bool; y_will : bool }.
Definition ystep (p : N) (y : cond) (e : sev) : cond :=
  match e with
  | ESel q => Cond (q :: y_levels y) (y_stuck y && negb (q =? p)) false
  | ENext q => Cond (q :: tl (y_levels y)) (y_stuck y && negb (q =? p)) (y_will y)
  | EBack => Cond (tl (y_levels y)) (y_stuck y) (y_will y)
  | EMark _ q => Cond (y_levels y) (y_stuck y || ((q =? p) && existsb (N.eqb p) (y_levels y))) (y_will y)
  | EWill _ b => Cond (y_levels y) (y_stuck y) (y_will y || b)
  | _ => y
  end.
Definition conds (p : N) (l : list sev) : cond := fold_left (ystep p) l (Cond [] false false).
(** Whether the threads of priority [p] are bound to be run without a further call. *)
Definition sure (p : N) (l : list sev) : Prop := y_stuck (conds p l) = false /\ y_will (conds p l) = false.

(** [m_call]: the calls in progress that wake thread [i]; [m_set]: it was woken since it
    was last chosen; [m_run]: how often it is running; [m_bad]: its priority was changed
    while one of these. *)
Record moves := Moves { m_call : nat; m_set : bool; m_run : nat; m_bad : bool }.
Definition mvstep (i : N) (m : moves) (e : sev) : moves :=
  match e with
  | EWake j => if j =? i then Moves (S (m_call m)) true (m_run m) (m_bad m) else m
  | EWoken j | EWill j _ => if j =? i then Moves (pred (m_call m)) (m_set m) (m_run m) (m_bad m) else m
  | ETake j _ =>
      if j =? i then Moves (m_call m) (negb (Nat.eqb (m_call m) 0)) (S (m_run m)) (m_bad m) else m
  | EDone j => if j =? i then Moves (m_call m) (m_set m) (pred (m_run m)) (m_bad m) else m
  | EPrio j _ =>
      if j =? i then
        Moves (m_call m) (m_set m) (m_run m) (m_bad m || m_set m || negb (Nat.eqb (m_call m + m_run m) 0))
      else m
  | _ => m
  end.
Definition moved (i : N) (l : list sev) : moves := fold_left (mvstep i) l (Moves 0 false 0 false).
