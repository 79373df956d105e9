(** The task-graph runtime with task bodies that wait for a future: model.  Definitions only.

    [Future::get] inside a task (future.hpp:53-64) leaves the stack of the task, the worker
    goes on with other tasks, and the task is taken up again when its pre event is ready
    (redGrapes.cpp:157-163, task_base.hpp:37-93, execute.cpp:27-51).

    Everything else is the machine of [SchedModel]: same shared state, same frames ([YF]),
    same steps.  Here [thr] of the embedded state is unused and the stacks are [ythr].

    Simplifications beyond those of [SchedModel]:
    - every task has stack switching enabled (C31 studies the others);
    - a continuation is the list of instructions the body has left; the mutex around
      [yield_cont] is not modelled;
    - waking of workers ([waker_id], execute.cpp:41) is left out, as in [SchedModel];
    - pre events have no followers, so that reaching one again (execute.cpp:34 on a resumed
      task) notifies nobody; the history records the first time only. *)
From Coq Require Import Bool List Arith NArith ZArith Lia.
From Verif Require Import AccessModel AccessSpec UserModel SchedModel.
Import ListNotations.

Inductive yframe :=
(** as in [SchedModel] *)
| YF (f : frame)
(** execute_task, the body of [t] has returned the result event of [c]:
    before [pre_event.state = 1] (execute.cpp:42, graph.hpp:133) *)
| YStore (t c : nat)
(** ... before is_reached in add_follower (graph.hpp:134, event.cpp:71) *)
| YCheck (t c : nat)
(** ... before the push (event.cpp:74) *)
| YPush (t c : nat)
(** ... before the increment (event.cpp:75) *)
| YInc (t c : nat)
(** ... before [pre_event.up()] (execute.cpp:44); [p]: the edge was pushed *)
| YUp (t c : nat) (p : bool)
(** notify on the pre event of a suspended task (execute.cpp:45, or from notify_followers,
    event.cpp:87-93): before fetch_sub (event.cpp:108) *)
| YNote (t : nat)
(** ... with the new state, before the activation (event.cpp:146-150) *)
| YNote2 (t : nat) (st : Z)
(** execute_task on a suspended task, before the pre event is notified (execute.cpp:34) *)
| YRes (t : nat)
(** ... before [resume_cont->resume()] (execute.cpp:37, task_base.hpp:61) *)
| YBack (t : nat)
(** ... a second resume of a continuation that is running already: undefined behaviour *)
| YTwice (t : nat).

(** [ycont]: continuations of the suspended tasks (TaskBase::resume_cont, task_base.hpp:99). *)
Record ystate := mkY { yst : state; ycont : list (nat * list instr); ythr : list (list yframe) }.

Definition yinit (P : prog) (ms : list (list instr)) (n : nat) : ystate :=
  mkY (set_thr (init P n) []) [] (map (fun m => [YF (FBody None m)]) ms ++ repeat [] n).

(** whether [t] is suspended (task_base.hpp:73-93) *)
Definition away (y : ystate) (t : nat) : bool := existsb (fun p => Nat.eqb (fst p) t) (ycont y).
(** take the continuation of [t] (task_base.hpp:37-70) *)
Fixpoint grab (t : nat) (l : list (nat * list instr)) : option (list instr * list (nat * list instr)) :=
  match l with
  | [] => None
  | (q, is) :: l => if Nat.eqb q t then Some (is, l)
                    else match grab t l with Some (js, l') => Some (js, (q, is) :: l') | None => None end
  end.

(** only builds a state, for the code of SchedModel (lines there: event.cpp:67-178, graph.cpp:37-133) *)
Definition ycore (y : ystate) (s : state) : ystate := mkY s (ycont y) (ythr y).

(** ** One step of a frame, as [fstep]
    (lines there; get() and yield: future.hpp:53-64, redGrapes.cpp:157-170, task_base.hpp:73-93, execute.cpp:27-51). *)
Definition yfstep (P : prog) (y : ystate) (g : yframe) : option (ystate * list yframe) :=
  let s := yst y in
  match g with
  | YF (FBody (Some t) (IGet c :: is)) =>
      (* future.hpp:55-57, redGrapes.cpp:159-163: get the value, or yield; the loop tests again
         after the task was resumed *)
      if (ctr s (ERSet c) =? 0)%Z
      then Some (ycore y (add_log s (LGet c)), [YF (FNotify (ERGet c) NCall); YF (FBody (Some t) is)])
      else Some (mkY s ((t, IGet c :: is) :: ycont y) (ythr y), [YStore t c])
  | YF (FFollow (ERSet c) (EPre t :: l)) =>
      (* event.cpp:91-92: a waiting task *)
      Some (y, [YNote t; YF (FFollow (ERSet c) l)])
  | YF f =>
      match fstep P s f with
      | Some (s', fr) => Some (ycore y s', map YF fr)
      | None => None
      end
  | YStore t c => Some (ycore y (set_ctr s (eupd (ctr s) (EPre t) 1%Z)), [YCheck t c])
  | YCheck t c => Some (y, [if (ctr s (ERSet c) =? 0)%Z then YUp t c false else YPush t c])
  | YPush t c => Some (ycore y (set_fol s (eupd (fol s) (ERSet c) (EPre t :: fol s (ERSet c)))), [YInc t c])
  | YInc t c => Some (ycore y (inc P s (EPre t)), [YUp t c true])
  | YUp t c p => Some (ycore y (inc P s (EPre t)), [YNote t])
  | YNote t =>
      let st := wrap P (ctr s (EPre t) - 1) in
      Some (ycore y (set_ctr s (eupd (ctr s) (EPre t) st)), [YNote2 t st])
  | YNote2 t st => Some (ycore y (if (st =? 1)%Z then set_rdy s (t :: rdy s) else s), [])
  | YRes t => Some (ycore y (set_ctr s (eupd (ctr s) (EPre t) (wrap P (ctr s (EPre t) - 1)))), [YBack t])
  | YBack t =>
      match grab t (ycont y) with
      | Some (is, l) => Some (mkY s l (ythr y), [YF (FBody (Some t) is)])
      | None => Some (y, [YTwice t])
      end
  | YTwice t => None
  end.

(** ** What an idle worker may do, as [istep]; a suspended task is resumed (execute.cpp:27-51, task_base.hpp:37-70) *)
Definition yistep (y : ystate) (c : pick) : option (ystate * list yframe) :=
  let s := yst y in
  match c with
  | PReady k => match nth_error (rdy s) k with
                | Some t => Some (ycore y (set_rdy s (remove_nth k (rdy s))), [if away y t then YRes t else YF (FExec t)])
                | None => None
                end
  | _ => match istep s c with
         | Some (s', fr) => Some (ycore y s', map YF fr)
         | None => None
         end
  end.

(** one step of a thread: execute.cpp:27-51, worker.cpp:138-224, redGrapes.cpp:134-170 *)
Definition ystep (P : prog) (y : ystate) (i : nat) (c : pick) : option ystate :=
  match nth_error (ythr y) i with
  | Some (g :: gs) =>
      match yfstep P y g with
      | Some (y', fr) => Some (mkY (yst y') (ycont y') (set_nth i (fr ++ gs) (ythr y)))
      | None => None
      end
  | Some [] =>
      match yistep y c with
      | Some (y', fr) => Some (mkY (yst y') (ycont y') (set_nth i fr (ythr y)))
      | None => None
      end
  | None => None
  end.

(** Executable runs (no code of its own: the steps above (execute.cpp:27-51) one after another) *)
Fixpoint yrun (P : prog) (y : ystate) (l : list (nat * pick)) : option ystate :=
  match l with
  | [] => Some y
  | (i, c) :: l => match ystep P y i c with Some y' => yrun P y' l | None => None end
  end.
