(** Which steps of the machine with waiting task bodies synchronise, and the order this creates
    (C70).  Definitions only.

    As HbModel does for [SchedModel.step], every step of [PauseModel.ystep] is labelled with the
    shared objects it acquires and releases.  What is new against HbModel:

    - a body that waits is left by one thread and taken up again by another, so that the steps
      of one body are not steps of one thread any more;
    - [sg_pause] assigns the counter of the pre event ([pre_event.state = 1], task/property/graph.hpp:133 from
      execute.cpp:42).  An assignment ends the release sequences of the counter: who reads it
      afterwards synchronises with the assignment and what followed it, not with what was before.

    Nothing is assumed of the mutex around [yield_cont] (task_base.hpp:46, 56, 84): the results
    are about the accesses to the continuation without it. *)
From Coq Require Import Bool List Arith NArith ZArith Lia.
From Verif Require Import AccessModel UserModel SchedModel SchedSpec HbModel HbSpec PauseModel PauseSpec.
Import ListNotations.

(** Objects acquired.  [YF]: as in HbModel.  Otherwise: is_reached on the result (event.cpp:71),
    the increments (event.cpp:75, execute.cpp:44 with event.cpp:57-60) and [fetch_sub]s
    (event.cpp:108) of the counter of the pre event. *)
Definition yacq (P : prog) (y : ystate) (g : yframe) : list obj :=
  match g with
  | YF f => acq P (yst y) f
  | YCheck t c => [OCtr (ERSet c)]
  | YInc t c => [OCtr (EPre t)]
  | YUp t c p => [OCtr (EPre t)]
  | YNote t => [OCtr (EPre t)]
  | YRes t => [OCtr (EPre t)]
  | YStore _ _ | YPush _ _ | YNote2 _ _ | YBack _ | YTwice _ => []
  end.

(** Objects released: the same read-modify-writes; the assignment; the task enters the ready
    queue (event.cpp:149, worker.hpp:98-102). *)
Definition yrel (P : prog) (y : ystate) (g : yframe) : list obj :=
  match g with
  | YF f => rel P (yst y) f
  | YStore t c => [OCtr (EPre t)]
  | YInc t c => [OCtr (EPre t)]
  | YUp t c p => [OCtr (EPre t)]
  | YNote t => [OCtr (EPre t)]
  | YNote2 t st => if (st =? 1)%Z then [ORdy t] else []
  | YRes t => [OCtr (EPre t)]
  | YCheck _ _ | YPush _ _ | YBack _ | YTwice _ => []
  end.

(** Objects assigned: sg_pause, graph.hpp:131-135 *)
Definition yset (g : yframe) : list obj :=
  match g with YStore t c => [OCtr (EPre t)] | _ => [] end.

(** Accesses to the continuation of a task: [yield] writes [event] and [yield_cont], and the
    caller assigns [resume_cont] (task_base.hpp:75-82, 63); a later call reads it
    (task_base.hpp:41, 63). *)
Inductive turn := TPause (t : nat) | TResume (t : nat).
Definition turn_of (x : turn) : nat := match x with TPause t | TResume t => t end.
Definition yturn (y : ystate) (g : yframe) : option turn :=
  match g with
  | YF (FBody (Some t) (IGet c :: is)) => if (ctr (yst y) (ERSet c) =? 0)%Z then None else Some (TPause t)
  | YBack t => Some (TResume t)
  | _ => None
  end.

(** ** Histories with labels, oldest step first (the steps of PauseModel, lines there; execute.cpp:27-51 for the turns) *)
Record yrec := mkYRec { y_rec : rec; y_set : list obj; y_turn : option turn }.

(** [r_log]: what the step adds to the log (lines: PauseModel, event.cpp:67-178) *)
Definition ymkrec (P : prog) (y : ystate) (i : nat) (c : pick) (y' : ystate) : yrec :=
  let new := firstn (length (log (yst y')) - length (log (yst y))) (log (yst y')) in
  match nth_error (ythr y) i with
  | Some (g :: _) => mkYRec (mkRec i (yacq P y g) (yrel P y g) new) (yset g) (yturn y g)
  | _ => mkYRec (mkRec i (acq_idle (yst y) c) [] new) [] None
  end.

(** [yreach] with the history (no code of its own; execute.cpp:27-51) *)
Inductive yhist (P : prog) (ms : list (list instr)) (n : nat) (a : bool) : ystate -> list yrec -> Prop :=
| yhist_init : yhist P ms n a (yinit P ms n) []
| yhist_step y tr i c y' : yhist P ms n a y tr ->
    yend_ok P y i -> visit_ok y i -> (a = true -> take_ok y i) -> ystep P y i c = Some y' ->
    yhist P ms n a y' (tr ++ [ymkrec P y i c y']).

(** ** Happens-before, with assignments: a step that releases an object is before a later step
    that acquires it unless the object was assigned in between. *)
Inductive yhb (tr : list yrec) : nat -> nat -> Prop :=
| yhb_po m n a b : nth_error tr m = Some a -> nth_error tr n = Some b -> m < n -> r_who (y_rec a) = r_who (y_rec b) -> yhb tr m n
| yhb_sw m n a b x : nth_error tr m = Some a -> nth_error tr n = Some b -> m < n ->
    In x (r_rel (y_rec a)) -> In x (r_acq (y_rec b)) ->
    (forall q r, m < q < n -> nth_error tr q = Some r -> ~ In x (y_set r)) -> yhb tr m n
| yhb_trans l m n : yhb tr l m -> yhb tr m n -> yhb tr l n.

(** step [m] of the history does [l] *)
Definition ydoes (tr : list yrec) (m : nat) (l : lev) : Prop :=
  exists a, nth_error tr m = Some a /\ In l (r_log (y_rec a)).
(** step [m] of the history leaves or takes up the body of [t] *)
Definition yturns (tr : list yrec) (m : nat) (t : nat) : Prop :=
  exists a x, nth_error tr m = Some a /\ y_turn a = Some x /\ turn_of x = t.
(** step [m] of the history belongs to the body of [t]: the body does something, is left, or is
    taken up *)
Definition of_body (P : prog) (tr : list yrec) (m : nat) (t : nat) : Prop :=
  yturns tr m t \/ exists l, ydoes tr m l /\ made_by P l = Some t.
