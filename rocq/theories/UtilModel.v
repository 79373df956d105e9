(** The test WorkerUtilization: as many tasks as workers, none with a resource.
    Definitions only. *)
From Coq Require Import Bool List Arith NArith ZArith.
From Verif Require Import AccessModel AccessSpec UserModel SchedModel SchedSpec PoolModel AppModel.
Import ListNotations.

(** One task of test/scheduler.cpp:28-34: no arguments, its future is dropped at once.
    [count++] is on a std::atomic outside of the runtime: [count] is the number of
    bodies that have begun.  The 300 ms of sleep are the time until the body ends. *)
Definition count_task : job := mkJob [] [] false.

(** test/scheduler.cpp:19-45 with [k] tasks.  The loop over [count == n_workers] does
    nothing to the runtime and is left out; finalize() begins with barrier(). *)
Definition util (k : nat) : prog := app (repeat count_task k) false.

(** redGrapes.hpp:178-192 with default_scheduler.cpp:36-38: [place t] is the thread
    (worker id + 1) into whose queue task [t] goes when it is submitted *)
Definition placed (place : nat -> nat) (c : pool) (mv : move) : Prop :=
  match mv with
  | MStep i w => forall o t is fs, nth_error (thr (core c)) i = Some (FSub o t [] is :: fs) -> w = place t
  | _ => True
  end.

(** executions of the pool in which new tasks go where [place] says
    (redGrapes.hpp:178-192, default_scheduler.cpp:33-38; no code of its own) *)
Inductive usteps (P : prog) (n m : nat) (place : nat -> nat) : nat -> pool -> Prop :=
| usteps_init : usteps P n m place 0 (pinit P n m)
| usteps_step k c mv c' : usteps P n m place k c -> placed place c mv -> pstep P n m c mv = Some c' -> usteps P n m place (S k) c'.

(** the counter next_worker is [v] before the first call (redGrapes.hpp:183-190) and does
    not pass its end *)
Definition round_robin (n v t : nat) : nat := S ((v + t) mod n).
