(** finalize() beside threads that are still releasing tasks.  Model.
    Sources (under /repo/redGrapes): redGrapes.cpp 134-154, task/task_space.cpp
    44-68, dispatch/thread/worker_pool.cpp 66-72, dispatch/thread/worker.cpp 59-70,
    138-155.  The sleeping of the main thread is C52, that of the workers C43/C44:
    here a thread that waits is one that cannot step. *)
From Coq Require Import Bool List Arith Lia.
Import ListNotations.

Definition upd {A} (f : nat -> A) (i : nat) (x : A) : nat -> A := fun j => if j =? i then x else f j.
Fixpoint put {A} (l : list A) (i : nat) (x : A) : list A :=
  match l, i with [], _ => [] | _ :: l, O => x :: l | y :: l, S i => y :: put l i x end.

(** who executes free_task: the main thread (destructor of a future), a worker, or
    a thread that is neither (it destroys a future or notifies an event) (redGrapes.cpp:136-154, task_space.cpp:50-68) *)
Inductive who := Main | Work (w : nat) | Ext.
(** free_task (task_space.cpp 50-68): [RCount] before line 53, [RFree zero] before
    59, with the result of line 53, [RWake] before 67, [RDone] returned *)
Inductive rpc := RCount | RFree (zero : bool) | RWake | RDone.
(** the main thread: [MRun] user code; [MBarrier] redGrapes.cpp 140; [MStop i] the
    stop flag of worker i (worker_pool.cpp 68-69, worker.cpp 62), [MJoin i]
    worker.cpp 69; [MClear] worker_pool.cpp 71; [MSched] redGrapes.cpp 150, [MRoot]
    151; [MDone] *)
Inductive mpc := MRun | MBarrier | MStop (i : nat) | MJoin (i : nat) | MClear | MSched | MRoot | MDone.

(** [count]: task_count of the root space; [live]: root tasks whose free_task has
    not begun; [rel]: the calls of free_task; [stop], [up]: stop flag of a worker
    and whether it is still in its work_loop; [ub]: something that is gone was used
    (redGrapes.cpp:134-155, task_space.hpp:26). *)
Record st := mkSt { main : mpc; count : nat; live : nat; rel : list (who * rpc); stop : nat -> bool; up : nat -> bool; ub : bool }.

Section Finalize.
Variable n : nat.          (* number of workers *)
Variable ext : bool.       (* may other threads release tasks? *)

(** redGrapes.cpp:115-132: behind init() *)
Definition init : st := mkSt MRun 0 0 [] (fun _ => false) (fun w => w <? n) false.

(** worker_pool.cpp 71: the workers are there; redGrapes.cpp 150: so is the scheduler *)
Definition workers_there (p : mpc) : bool := match p with MSched | MRoot | MDone => false | _ => true end.
Definition sched_there (p : mpc) : bool := match p with MRoot | MDone => false | _ => true end.

Definition who_eqb (a b : who) : bool :=
  match a, b with Main, Main => true | Work v, Work w => v =? w | Ext, Ext => true | _, _ => false end.
(** a call in progress (task_space.cpp:50-68) *)
Definition active (x : who * rpc) : bool := match snd x with RDone => false | _ => true end.
Definition busy (o : who) (s : st) : bool := existsb (fun x => who_eqb (fst x) o && active x) (rel s).

(** which thread moves; the calls are those of redGrapes.cpp:134-155 and task_space.cpp:50-87 *)
Inductive move := VMain | VEmplace | VBegin (o : who) | VRel (i : nat) | VExit (w : nat).

(** only builds a state (redGrapes.cpp:134-155) *)
Definition set_main (s : st) (p : mpc) : st := mkSt p (count s) (live s) (rel s) (stop s) (up s) (ub s).
(** redGrapes.cpp 136-154 *)
Definition main_step (s : st) : option st :=
  match main s with
  | MRun => if busy Main s then None else Some (set_main s MBarrier)
  | MBarrier => if count s =? 0 then Some (set_main s (if n =? 0 then MClear else MStop 0)) else None
  | MStop i => Some (mkSt (MJoin i) (count s) (live s) (rel s) (upd (stop s) i true) (up s) (ub s))
  | MJoin i => if up s i then None else Some (set_main s (if S i =? n then MClear else MStop (S i)))
  | MClear => Some (set_main s MSched)
  | MSched => Some (set_main s MRoot)
  | MRoot => Some (set_main s MDone)
  | MDone => None
  end.

(** the next access of a call of free_task (task_space.cpp:50-68) *)
Definition rel_step (i : nat) (s : st) : option st :=
  match nth_error (rel s) i with
  | Some (o, RCount) => Some (mkSt (main s) (count s - 1) (live s) (put (rel s) i (o, RFree (count s - 1 =? 0))) (stop s) (up s) (ub s))
  | Some (o, RFree z) => Some (mkSt (main s) (count s) (live s) (put (rel s) i (o, if z then RWake else RDone)) (stop s) (up s) (ub s || negb (workers_there (main s))))
  | Some (o, RWake) => Some (mkSt (main s) (count s) (live s) (put (rel s) i (o, RDone)) (stop s) (up s)
                                  (ub s || negb (workers_there (main s) && sched_there (main s))))
  | _ => None
  end.

(** who calls free_task (task_space.cpp:50-68) when: event.cpp:104-178, future.hpp:38-64 *)
Definition may_release (o : who) (s : st) : bool :=
  match o with
  | Main => match main s with MRun => true | _ => false end
  | Work w => up s w
  | Ext => ext
  end.

(** redGrapes.cpp:134-155, task_space.cpp:50-87, worker.cpp:138-155 *)
Definition step (m : move) (s : st) : option st :=
  match m with
  | VMain => main_step s
  (** task_space.cpp 76, called by the main thread *)
  | VEmplace => match main s with MRun => Some (mkSt MRun (S (count s)) (S (live s)) (rel s) (stop s) (up s) (ub s)) | _ => None end
  (** the last reference to a root task is given up: task/task.hpp, event.cpp 171-177 *)
  | VBegin o => if may_release o s && negb (busy o s) then
                  match live s with S k => Some (mkSt (main s) (count s) k (rel s ++ [(o, RCount)]) (stop s) (up s) (ub s)) | O => None end
                else None
  | VRel i => rel_step i s
  (** worker.cpp 141: leaves the loop; it is not inside a task then *)
  | VExit w => if up s w && stop s w && negb (busy (Work w) s) then Some (mkSt (main s) (count s) (live s) (rel s) (stop s) (upd (up s) w false) (ub s)) else None
  end.

Inductive reach : st -> Prop :=
| r0 : reach init
| rs : forall s m s', reach s -> step m s = Some s' -> reach s'.
Fixpoint exec (ms : list move) (s : st) : option st :=
  match ms with [] => Some s | m :: ms => match step m s with Some s' => exec ms s' | None => None end end.
End Finalize.
