(** Which steps of the runtime machine synchronise, and the order this creates.

    SchedModel interleaves the steps of all threads.  On the hardware a write made by one
    task is guaranteed to be seen by another only if the first happens before the second
    in the sense of the C++ memory model.  Here every step of [SchedModel.step] is labelled
    with the shared objects it acquires and releases:

    - [Event::state] is a [std::atomic_uint16_t] (event.hpp:94) that after construction is
      only changed by [++] and [fetch_sub] (event.cpp:57-65, 75, 108) and read by [==]
      (event.cpp:47-55), all with the default order seq_cst.  So every change heads a
      release sequence that later changes and reads of the same counter acquire.
    - [ResourceBase::users_mutex] is a [SpinLock] (resource.hpp:53; acquire and release in
      spinlock.hpp:34, 49), taken in graph.cpp:52 and graph.cpp:91.
    - The queues of the workers are [moodycamel::ConcurrentQueue]s (queue.hpp:122): what the
      enqueuing thread did before [enqueue] happens before what the dequeuing thread does
      after [try_dequeue] returned that element (promise of that library, trusted).
    - [removal_countdown] (task.hpp:45, event.cpp:171) and [task_count] (task_space.hpp:26,
      task_space.cpp:46, 53, 76) are atomics used with the default order.

    Nothing is assumed of the condition variables of the workers, of the user lists and
    follower lists (ChunkedList), of [waker_id], nor of the thread outside the runtime
    that notifies an external event: their steps have no labels for those objects. *)
From Coq Require Import Bool List Arith NArith ZArith Lia.
From Verif Require Import AccessModel UserModel SchedModel SchedSpec.
Import ListNotations.

Inductive obj :=
| OCtr (e : ev)              (* Event::state *)
| OLck (r : nat)             (* ResourceBase::users_mutex *)
| OEmp (t : nat)             (* the element [t] of an emplacement queue *)
| ORdy (t : nat)             (* the element [t] of a ready queue *)
| OCdn (t : nat)             (* Task::removal_countdown *)
| OTcn (o : option nat).     (* TaskSpace::task_count *)

(** unlocking at the end of the search of one user list (graph.cpp:52 scope, 63, 69-70) *)
Definition unlocks (P : prog) (p r : nat) : list obj := if sync_on P p r then [OLck r] else [].

(** Objects acquired by a step of this frame:
    submit's [++task_count] (task_space.cpp:76); get() and barrier() read what they wait for
    (future.hpp:56, redGrapes.cpp:140, 167); make_event counts up the post event
    (graph.cpp:27); init_dependencies' [up()] (worker.cpp:210); the lock (graph.cpp:52, 91);
    is_reached (graph.cpp:108, event.cpp:71); add_follower's increment
    (event.cpp:75); [fetch_sub] of notify (event.cpp:108), of removal_countdown
    (event.cpp:171) and of task_count (task_space.cpp:53). *)
Definition acq (P : prog) (s : state) (f : frame) : list obj :=
  match f with
  | FBody o (ISpawn c :: _) => [OTcn o]
  | FBody _ (IGet c :: _) => [OCtr (ERSet c)]
  | FBody (Some t) (IEvent e :: _) => [OCtr (EPost t)]
  | FBody _ (IBarrier :: _) => [OTcn None]
  | FInitUp t => [OCtr (EPre t)]
  | FInit t (r :: rs) => [OLck r]
  | FDep1 t p r it rs | FDep2 t p r it rs => [OCtr (EPost p)]
  | FDep4 t p r it rs => [OCtr (EPre t)]
  | FPar1 t q => [OCtr (EPost t)]
  | FPar3 t q => [OCtr (EPost q)]
  | FNotify e k => [OCtr e]
  | FDelete t (r :: rs) => [OLck r]
  | FRemove t => if (cdn s t =? 1)%Z then [OCdn t; OTcn (parent P t)] else [OCdn t]
  | _ => []
  end.

(** Objects released: the same read-modify-writes; the end of submit enters the queue
    (task_space.cpp:86, worker.hpp:91-96); a task made ready enters the ready queue
    (event.cpp:149, worker.hpp:98-102); unlocking. *)
Definition rel (P : prog) (s : state) (f : frame) : list obj :=
  match f with
  | FBody o (ISpawn c :: _) => [OTcn o]
  | FBody (Some t) (IEvent e :: _) => [OCtr (EPost t)]
  | FSub o c [] is => [OEmp c]
  | FInitUp t => [OCtr (EPre t)]
  | FIter t r [] rs => [OLck r]
  | FIter t r ((p, _) :: it) rs => if onat_eqb (Some p) (parent P t) then [OLck r] else []
  | FDep1 t p r it rs | FDep2 t p r it rs => if (ctr s (EPost p) =? 0)%Z then unlocks P p r else []
  | FDep4 t p r it rs => OCtr (EPre t) :: unlocks P p r
  | FPar3 t q => [OCtr (EPost q)]
  | FNotify e k => [OCtr e]
  | FNotify2 (EPre t) st k => match k with NInit => [] | _ => if (st =? 1)%Z then [ORdy t] else [] end
  | FDelete t (r :: rs) => [OLck r]
  | FRemove t => if (cdn s t =? 1)%Z then [OCdn t; OTcn (parent P t)] else [OCdn t]
  | _ => []
  end.

(** an idle worker takes an element of a queue (worker.cpp:167, 206); nothing is assumed
    of the handing over of external events *)
Definition acq_idle (s : state) (c : pick) : list obj :=
  match c with
  | PReady k => match nth_error (rdy s) k with Some t => [ORdy t] | None => [] end
  | PNew k => match nth_error (emp s) k with Some t => [OEmp t] | None => [] end
  | PExt k => []
  end.

(** ** Histories with labels, oldest step first
    (one step of the code of SchedModel (lines there), what it acquires and releases (event.cpp:67-178, spinlock.hpp:28-53)). *)
Record rec := mkRec { r_who : nat; r_acq : list obj; r_rel : list obj; r_log : list lev }.

(** the record of a step; the lines are those of SchedModel (worker.cpp:138-155 for the loop) *)
Definition mkrec (P : prog) (s : state) (i : nat) (c : pick) (s' : state) : rec :=
  let new := firstn (length (log s') - length (log s)) (log s') in
  match nth_error (thr s) i with
  | Some (f :: _) => mkRec i (acq P s f) (rel P s f) new
  | _ => mkRec i (acq_idle s c) [] new
  end.

(** [mreach] with the history (no code of its own: SchedModel, lines there, worker.cpp:138-155 for the loop) *)
Inductive hreach (P : prog) (U : front) (n : nat) : state -> list rec -> Prop :=
| hreach_init : hreach P U n (init_many P (mains U) n) []
| hreach_step s tr i c s' : hreach P U n s tr -> end_ok P s i -> push_ok P U s i -> step P s i c = Some s' ->
    hreach P U n s' (tr ++ [mkrec P s i c s']).

(** executable, for examples (no code of its own: SchedModel, lines there, worker.cpp:138-155 for the loop) *)
Fixpoint hrun (P : prog) (s : state) (tr : list rec) (l : list (nat * pick)) : option (state * list rec) :=
  match l with
  | [] => Some (s, tr)
  | (i, c) :: l => match step P s i c with Some s' => hrun P s' (tr ++ [mkrec P s i c s']) l | None => None end
  end.
