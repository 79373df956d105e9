(** The task-graph runtime as an interleaving machine: model.  Definitions only.

    Threads are stacks of frames, a frame is one activation of a C++ function at
    one program point.  Every step performs at most one access to shared state
    (one atomic operation, one list operation, one queue operation); steps of
    different threads interleave arbitrarily.  The number of threads, tasks and
    resources is unbounded.

    Simplifications (beyond those stated at the definitions):
    - atomics are sequentially consistent;
    - [ChunkedList]s are lists of their live elements, newest first, with atomic
      push/remove (C32-C35 study the container itself);
    - the per-worker queues are two bags, [emp] (all emplacement queues) and [rdy]
      (all ready queues), from which an idle worker may take any element: own
      queue, or stealing (default_scheduler.cpp:95-183);
    - which worker gets a task, sleeping and waking are not part of this machine
      (C43-C45);
    - task bodies that wait with get() keep their thread here; leaving the task is in
      [YieldModel] (C30, C31) and [PauseModel] (C63);
    - access lists are not patched while
      running (C11, C12); the scheduler is DefaultScheduler, for which
      [task_dependency_type] is constantly false (scheduler.hpp). *)
From Coq Require Import Bool List Arith NArith ZArith Lia.
From Verif Require Import AccessModel AccessSpec UserModel.
Import ListNotations.

(** ** Programs *)

(** One memory operation of a task body on a resource (the calls of user code in task.hpp:102-114) *)
Record act := mkAct { ac_res : nat; ac_ty : ty; ac_touch : touch ac_ty; ac_code : Z }.

(** What the main thread and task bodies do, as far as the runtime can see
    (redGrapes.hpp:82-194, redGrapes.cpp:134-170, future.hpp:25-126). *)
Inductive instr :=
| IAct (a : act)       (* user code *)
| ISpawn (c : nat)     (* emplace_task / TaskBuilder::submit *)
| IDrop (c : nat)      (* destroy the future of c without get() *)
| IGet (c : nat)       (* future.get(); in task bodies see PauseModel *)
| IEvent (e : nat)     (* create_event() inside a task *)
| IBarrier.            (* barrier(); in task bodies see C68 *)

(** A task: the task whose body emplaces it ([None]: main thread, root space;
    task_space.hpp [parent]), its access list, its body (task.hpp:36-114) *)
Record tdef := mkTdef { t_parent : option nat; t_user : ruser; t_body : list instr }.

(** [p_wrap]: whether event counters are 16 bit wide as in event.hpp (true) or
    ideal integers (false). *)
Record prog := mkProg { p_main : list instr; p_task : nat -> tdef; p_wrap : bool }.

(** body of the main thread or of a task (task.hpp:102-114) *)
Definition body (P : prog) (o : option nat) : list instr :=
  match o with None => p_main P | Some t => t_body (p_task P t) end.

(** graph.hpp:48-187 (space), resource_user.hpp:31-58 (access_list, unique_resources) *)
Definition parent (P : prog) (t : nat) : option nat := t_parent (p_task P t).
Definition user (P : prog) (t : nat) : ruser := t_user (p_task P t).
Definition uniq (P : prog) (t : nat) : list nat := map r_id (u_uniq (user P t)).

(** ** Events: scheduler/event.hpp:36-44 (tags).  [EExt t e]: the
    external event number [e] created in the body of task [t]. *)
Inductive ev := EPre (t : nat) | EPost (t : nat) | ERSet (t : nat) | ERGet (t : nat) | EExt (t e : nat).

Definition ev_eqb (a b : ev) : bool :=
  match a, b with
  | EPre x, EPre y | EPost x, EPost y | ERSet x, ERSet y | ERGet x, ERGet y => Nat.eqb x y
  | EExt x e, EExt y f => Nat.eqb x y && Nat.eqb e f
  | _, _ => false
  end.

(** Why [notify] is called: from init_dependencies with claimed=true ([NInit],
    worker.cpp:213), from execute_task on the pre event ([NExec],
    execute.cpp:34), at the end of a body ([NBody], execute.cpp:48), otherwise
    [NCall].  Only "is it NInit" (the argument [claimed]) influences behaviour. *)
Inductive nkind := NInit | NExec | NBody | NCall.

(** ** Frames (graph.cpp:37-133, event.cpp:67-178, execute.cpp:27-51, task_space.cpp:44-87; lines at the constructors) *)
Inductive frame :=
(** user code of main ([None]) or of a task, with the instructions left *)
| FBody (o : option nat) (s : list instr)
(** TaskSpace::submit of [c], called from [o], with the resources whose user
    lists are still to be extended (task_space.cpp:81-84) *)
| FSub (o : option nat) (c : nat) (rs : list nat) (s : list instr)
(** init_dependencies before [pre_event.up()] (worker.cpp:210) *)
| FInitUp (t : nat)
(** init_graph, head of the loop over the unique resources (graph.cpp:40) *)
| FInit (t : nat) (rs : list nat)
(** inner loop (graph.cpp:58), lock of [r] held, [it]: entries still ahead *)
| FIter (t r : nat) (it : list (nat * nat)) (rs : list nat)
(** add_dependency on [p]: before the first is_reached (graph.cpp:108), before
    the second (event.cpp:71), before the push (event.cpp:74), before the
    increment (event.cpp:75); lock of [r] held *)
| FDep1 (t p r : nat) (it : list (nat * nat)) (rs : list nat)
| FDep2 (t p r : nat) (it : list (nat * nat)) (rs : list nat)
| FDep3 (t p r : nat) (it : list (nat * nat)) (rs : list nat)
| FDep4 (t p r : nat) (it : list (nat * nat)) (rs : list nat)
(** adding the parent's post event as follower (graph.cpp:77-81, event.cpp:71-75):
    before is_reached, before push, before increment *)
| FPar1 (t q : nat)
| FPar2 (t q : nat)
| FPar3 (t q : nat)
(** EventPtr::notify: before fetch_sub (event.cpp:108) *)
| FNotify (e : ev) (k : nkind)
(** ... with the new state, before the activation (event.cpp:146-150) *)
| FNotify2 (e : ev) (st : Z) (k : nkind)
(** ... in delete_from_resources (graph.cpp:84-96) *)
| FDelete (t : nat) (rs : list nat)
(** ... before reading waker_id (event.cpp:160) *)
| FNotify3 (e : ev) (st : Z) (k : nkind)
(** ... in notify_followers (event.cpp:87-93), followers still to be notified *)
| FFollow (e : ev) (l : list ev)
(** ... before removal_countdown (event.cpp:171) *)
| FRemove (t : nat)
(** Context::execute_task before the pre event is notified (execute.cpp:34) *)
| FExec (t : nat)
(** ... before the body starts (execute.cpp:37) *)
| FRun (t : nat).

(** ** Observable history, newest first
    (lines: submit task_space.cpp:70-87, body execute.cpp:27-51, events event.cpp:104-178, free_task task_space.cpp:50-68). *)
Inductive lev :=
| LSpawn (t : nat)   (* submit called *)
| LSub (t : nat)     (* submit finished: task in a queue *)
| LInit (t : nat)    (* dependencies collected, init notification sent *)
| LExec (t : nat)    (* handed to execute_task *)
| LStart (t : nat)   (* body starts *)
| LAct (t : option nat) (a : act)
| LEnd (t : nat)     (* body ended *)
| LReach (e : ev)    (* event reached: counter went to 0 *)
| LTake (e : ev)     (* notify_followers started *)
| LEvent (t e : nat) (* external event created *)
| LFire (t e : nat)  (* external event notified by its owner *)
| LGet (t : nat)     (* future.get() returned *)
| LDrop (t : nat)    (* future destroyed without get() *)
| LFree (t : nat)    (* task destroyed *)
| LBarrier.          (* barrier() returned *)

(** ** State
    (resource.hpp:44-62 (users, lock), event.hpp:89-116 (counters, followers), task_space.hpp:26 (count), worker.hpp:63-64 (queues)). *)
Record state := mkState {
  users : nat -> list (nat * nat);  (* ResourceBase::users, newest first: (task, which of its entries) *)
  lck : nat -> bool;                (* ResourceBase::users_mutex held *)
  ctr : ev -> Z;                    (* Event::state *)
  fol : ev -> list ev;              (* Event::followers, newest first *)
  emp : list nat;                   (* emplacement queues *)
  rdy : list nat;                   (* ready queues *)
  ext : list (nat * nat);           (* external events created and not yet notified *)
  cdn : nat -> Z;                   (* Task::removal_countdown *)
  tcn : option nat -> Z;            (* TaskSpace::task_count *)
  log : list lev;
  thr : list (list frame)
}.

(** all counters start at 1 (event.cpp:29-31), removal_countdown at 2
    (task.hpp:47); [n] workers and the main thread *)
Definition init (P : prog) (n : nat) : state :=
  mkState (fun _ => []) (fun _ => false) (fun _ => 1%Z) (fun _ => []) [] [] []
          (fun _ => 2%Z) (fun _ => 0%Z) []
          ([FBody None (p_main P)] :: repeat [] n).

(** ** Updates
    (only build states, no functions of the code; the fields are those of event.hpp:89-116, resource.hpp:44-62, task_space.hpp:24-32). *)
Definition upd {A} (f : nat -> A) (x : nat) (v : A) : nat -> A :=
  fun y => if Nat.eqb y x then v else f y.
Definition eupd {A} (f : ev -> A) (x : ev) (v : A) : ev -> A :=
  fun y => if ev_eqb y x then v else f y.
Definition onat_eqb (a b : option nat) : bool :=
  match a, b with
  | None, None => true
  | Some x, Some y => Nat.eqb x y
  | _, _ => false
  end.
Definition oupd {A} (f : option nat -> A) (x : option nat) (v : A) : option nat -> A :=
  fun y => if onat_eqb y x then v else f y.

Definition set_users s v := mkState v (lck s) (ctr s) (fol s) (emp s) (rdy s) (ext s) (cdn s) (tcn s) (log s) (thr s).
Definition set_lck s v := mkState (users s) v (ctr s) (fol s) (emp s) (rdy s) (ext s) (cdn s) (tcn s) (log s) (thr s).
Definition set_ctr s v := mkState (users s) (lck s) v (fol s) (emp s) (rdy s) (ext s) (cdn s) (tcn s) (log s) (thr s).
Definition set_fol s v := mkState (users s) (lck s) (ctr s) v (emp s) (rdy s) (ext s) (cdn s) (tcn s) (log s) (thr s).
Definition set_emp s v := mkState (users s) (lck s) (ctr s) (fol s) v (rdy s) (ext s) (cdn s) (tcn s) (log s) (thr s).
Definition set_rdy s v := mkState (users s) (lck s) (ctr s) (fol s) (emp s) v (ext s) (cdn s) (tcn s) (log s) (thr s).
Definition set_ext s v := mkState (users s) (lck s) (ctr s) (fol s) (emp s) (rdy s) v (cdn s) (tcn s) (log s) (thr s).
Definition set_cdn s v := mkState (users s) (lck s) (ctr s) (fol s) (emp s) (rdy s) (ext s) v (tcn s) (log s) (thr s).
Definition set_tcn s v := mkState (users s) (lck s) (ctr s) (fol s) (emp s) (rdy s) (ext s) (cdn s) v (log s) (thr s).
Definition add_log s v := mkState (users s) (lck s) (ctr s) (fol s) (emp s) (rdy s) (ext s) (cdn s) (tcn s) (v :: log s) (thr s).
Definition set_thr s v := mkState (users s) (lck s) (ctr s) (fol s) (emp s) (rdy s) (ext s) (cdn s) (tcn s) (log s) v.

(** event.hpp: [std::atomic_uint16_t state]; event.cpp:75, 108 *)
Definition wrap (P : prog) (z : Z) : Z := if p_wrap P then (z mod 65536)%Z else z.
Definition inc (P : prog) (s : state) (e : ev) : state := set_ctr s (eupd (ctr s) e (wrap P (ctr s e + 1))).

(** entries older than [x]: where [++it] of the iterator at [x] continues (chunked_list.hpp:471-486) *)
Definition entry_eqb (a b : nat * nat) : bool := Nat.eqb (fst a) (fst b) && Nat.eqb (snd a) (snd b).
Fixpoint older (x : nat * nat) (l : list (nat * nat)) : list (nat * nat) :=
  match l with
  | [] => []
  | y :: l => if entry_eqb y x then l else older x l
  end.
Definition without (x : nat * nat) (l : list (nat * nat)) : list (nat * nat) :=
  filter (fun y => negb (entry_eqb y x)) l.

(** a queue element is taken out, task/queue.hpp:114-145 *)
Fixpoint remove_nth {A} (k : nat) (l : list A) : list A :=
  match k, l with
  | _, [] => []
  | O, _ :: l => l
  | S k, x :: l => x :: remove_nth k l
  end.

(** [preceding_task->has_sync_access(r->resource)] (graph.cpp:69); only the id of
    the resource matters *)
Definition sync_on (P : prog) (p r : nat) : bool := has_sync_access (user P p) (mkRes r 0).

(** graph.cpp:69-70: continue or break after a dependency *)
Definition after_dep (P : prog) (s : state) (t p r : nat) it rs : state * list frame :=
  if sync_on P p r then (set_lck s (upd (lck s) r false), [FInit t rs])
  else (s, [FIter t r it rs]).

(** ** One step of a frame.  [None]: blocked.  Result: new state and the frames
    that replace this one on top of its stack (graph.cpp:37-133, event.cpp:67-178, execute.cpp:27-51,
    task_space.cpp:44-87, redGrapes.cpp:136-170; lines at the cases). *)
Definition fstep (P : prog) (s : state) (f : frame) : option (state * list frame) :=
  match f with
  (* user code *)
  | FBody o (IAct a :: is) => Some (add_log s (LAct o a), [FBody o is])
  | FBody o (ISpawn c :: is) =>
      (* task_space.cpp:73-76 *)
      Some (add_log (set_tcn s (oupd (tcn s) o (tcn s o + 1)%Z)) (LSpawn c),
            [FSub o c (uniq P c) is])
  | FBody o (IDrop c :: is) =>
      (* future.hpp:38-45 *)
      Some (add_log s (LDrop c), [FNotify (ERGet c) NCall; FBody o is])
  | FBody o (IGet c :: is) =>
      (* future.hpp:53-64, 106-114 with redGrapes.cpp:164-169: waits until the
         result is set *)
      if (ctr s (ERSet c) =? 0)%Z
      then Some (add_log s (LGet c), [FNotify (ERGet c) NCall; FBody o is])
      else None
  | FBody o (IEvent e :: is) =>
      (* graph.cpp:24-29 with event.cpp:67-77; the new event is not visible to
         other threads yet.  Without a running task nothing happens
         (redGrapes.cpp:78-84). *)
      match o with
      | Some t => Some (add_log (set_ext (inc P (set_fol s (eupd (fol s) (EExt t e) (EPost t :: fol s (EExt t e)))) (EPost t))
                                         ((t, e) :: ext s)) (LEvent t e),
                        [FBody o is])
      | None => Some (s, [FBody o is])
      end
  | FBody o (IBarrier :: is) =>
      (* redGrapes.cpp:136-142 with task_space.cpp:44-48 *)
      if (tcn s None =? 0)%Z then Some (add_log s LBarrier, [FBody o is]) else None
  | FBody None [] => None
  | FBody (Some t) [] =>
      (* task.hpp:76-80, 94-98 then execute.cpp:48 *)
      Some (add_log s (LEnd t), [FNotify (ERSet t) NCall; FNotify (EPost t) NBody])
  (* submit *)
  | FSub o c (r :: rs) is =>
      (* task_space.cpp:83 *)
      Some (set_users s (upd (users s) r ((c, length rs) :: users s r)), [FSub o c rs is])
  | FSub o c [] is =>
      (* task_space.cpp:86 *)
      Some (add_log (set_emp s (c :: emp s)) (LSub c), [FBody o is])
  (* init_dependencies: worker.cpp:203-224 *)
  | FInitUp t => Some (inc P s (EPre t), [FInit t (uniq P t)])
  | FInit t (r :: rs) =>
      (* graph.cpp:52-57 *)
      if lck s r then None
      else Some (set_lck s (upd (lck s) r true), [FIter t r (older (t, length rs) (users s r)) rs])
  | FInit t [] =>
      match parent P t with
      | None => Some (s, [FNotify (EPre t) NInit])
      | Some q => Some (s, [FPar1 t q])
      end
  | FIter t r [] rs => Some (set_lck s (upd (lck s) r false), [FInit t rs])
  | FIter t r ((p, _) :: it) rs =>
      (* graph.cpp:61-72 *)
      if onat_eqb (Some p) (parent P t) then
        Some (set_lck s (upd (lck s) r false), [FInit t rs])
      else if onat_eqb (parent P p) (parent P t) && user_is_serial (user P p) (user P t) then
        Some (s, [FDep1 t p r it rs])
      else Some (s, [FIter t r it rs])
  | FDep1 t p r it rs =>
      if (ctr s (EPost p) =? 0)%Z then Some (after_dep P s t p r it rs)
      else Some (s, [FDep2 t p r it rs])
  | FDep2 t p r it rs =>
      if (ctr s (EPost p) =? 0)%Z then Some (after_dep P s t p r it rs)
      else Some (s, [FDep3 t p r it rs])
  | FDep3 t p r it rs =>
      Some (set_fol s (eupd (fol s) (EPost p) (EPre t :: fol s (EPost p))), [FDep4 t p r it rs])
  | FDep4 t p r it rs => Some (after_dep P (inc P s (EPre t)) t p r it rs)
  | FPar1 t q =>
      if (ctr s (EPost t) =? 0)%Z then Some (s, [FNotify (EPre t) NInit])
      else Some (s, [FPar2 t q])
  | FPar2 t q =>
      Some (set_fol s (eupd (fol s) (EPost t) (EPost q :: fol s (EPost t))), [FPar3 t q])
  | FPar3 t q => Some (inc P s (EPost q), [FNotify (EPre t) NInit])
  (* EventPtr::notify *)
  | FNotify e k =>
      let st := wrap P (ctr s e - 1) in
      let s1 := set_ctr s (eupd (ctr s) e st) in
      let s2 := if (st =? 0)%Z then add_log s1 (LReach e) else s1 in
      let s3 := match e, k with EPre t, NInit => add_log s2 (LInit t) | _, _ => s2 end in
      Some (s3, [FNotify2 e st k])
  | FNotify2 e st k =>
      match e with
      | EPre t =>
          (* event.cpp:146-150 *)
          match k with
          | NInit => Some (s, [FNotify3 e st k])
          | _ => if (st =? 1)%Z then Some (set_rdy s (t :: rdy s), [FNotify3 e st k])
                 else Some (s, [FNotify3 e st k])
          end
      | EPost t =>
          (* event.cpp:155-156 *)
          if (st =? 0)%Z then Some (s, [FDelete t (uniq P t)]) else Some (s, [FNotify3 e st k])
      | _ => Some (s, [FNotify3 e st k])
      end
  | FDelete t (r :: rs) =>
      (* graph.cpp:87-95; the critical section is one step *)
      if lck s r then None
      else Some (set_users s (upd (users s) r (without (t, length rs) (users s r))), [FDelete t rs])
  | FDelete t [] => Some (s, [FNotify3 (EPost t) 0 NCall])
  | FNotify3 e st k =>
      (* event.cpp:160-166; returning true from notify(claimed) makes the worker
         execute the task (worker.cpp:213-214, 177-179, 148-152) *)
      if (st =? 0)%Z then Some (add_log s (LTake e), [FFollow e (fol s e)])
      else match e, k with
           | EPre t, NInit => if (st =? 1)%Z then Some (s, [FExec t]) else Some (s, [])
           | _, _ => Some (s, [])
           end
  | FFollow e (x :: l) => Some (s, [FNotify x NCall; FFollow e l])
  | FFollow e [] =>
      match e with
      | EPost t | ERGet t => Some (s, [FRemove t])
      | _ => Some (s, [])
      end
  | FRemove t =>
      (* event.cpp:171-172, task_space.cpp:50-68 *)
      let s1 := set_cdn s (upd (cdn s) t (cdn s t - 1)%Z) in
      if (cdn s t =? 1)%Z
      then Some (add_log (set_tcn s1 (oupd (tcn s) (parent P t) (tcn s (parent P t) - 1)%Z)) (LFree t), [])
      else Some (s1, [])
  (* execute_task: execute.cpp:27-51 *)
  | FExec t => Some (add_log s (LExec t), [FNotify (EPre t) NExec; FRun t])
  | FRun t => Some (add_log s (LStart t), [FBody (Some t) (body P (Some t))])
  end.

(** What an idle worker (empty stack) may do: take a ready task
    (worker.cpp:167, default_scheduler.cpp:126-152), take a new task
    (worker.cpp:206, default_scheduler.cpp:95-121); or, standing for a thread
    outside the runtime, notify an external event. *)
Inductive pick := PReady (k : nat) | PNew (k : nat) | PExt (k : nat).

Definition istep (s : state) (c : pick) : option (state * list frame) :=
  match c with
  | PReady k => match nth_error (rdy s) k with
                | Some t => Some (set_rdy s (remove_nth k (rdy s)), [FExec t])
                | None => None
                end
  | PNew k => match nth_error (emp s) k with
              | Some t => Some (set_emp s (remove_nth k (emp s)), [FInitUp t])
              | None => None
              end
  | PExt k => match nth_error (ext s) k with
              | Some (t, e) => Some (add_log (set_ext s (remove_nth k (ext s))) (LFire t e), [FNotify (EExt t e) NCall])
              | None => None
              end
  end.

Fixpoint set_nth {A} (k : nat) (v : A) (l : list A) : list A :=
  match k, l with
  | _, [] => []
  | O, _ :: l => v :: l
  | S k, x :: l => x :: set_nth k v l
  end.

(** One step of the machine: thread [i] moves; [c] is used only if it is idle
    (worker.cpp:138-155, main thread redGrapes.cpp:134-142). *)
Definition step (P : prog) (s : state) (i : nat) (c : pick) : option state :=
  match nth_error (thr s) i with
  | Some (f :: fs) =>
      match fstep P s f with
      | Some (s', fr) => Some (set_thr s' (set_nth i (fr ++ fs) (thr s)))
      | None => None
      end
  | Some [] =>
      match istep s c with
      | Some (s', fr) => Some (set_thr s' (set_nth i fr (thr s)))
      | None => None
      end
  | None => None
  end.

(** Executions (of worker.cpp:138-155 and the calls of the main thread) *)
Inductive reach (P : prog) (n : nat) : state -> Prop :=
| reach_init : reach P n (init P n)
| reach_step s i c s' : reach P n s -> step P s i c = Some s' -> reach P n s'.

(** Executable runs, for examples and counterexamples (the steps above (worker.cpp:138-155) one after another) *)
Fixpoint run (P : prog) (s : state) (l : list (nat * pick)) : option state :=
  match l with
  | [] => Some s
  | (i, c) :: l => match step P s i c with Some s' => run P s' l | None => None end
  end.

(** Memory of which tasks a step of this frame reads or writes (for C26).
    [EventPtr]s carry a pointer and a tag, reading those touches no task;
    [get_event()] does (event_ptr.cpp:19-36).  External events are separate
    objects (graph.cpp:24-29).
    - notify: fetch_sub (event.cpp:108); [activate_task] if the state is 1
      and not claimed (146-150), [delete_from_resources] if the post event is
      reached (155-156); waker_id only if the state is at most 1 (160);
      followers and removal_countdown (165-172);
    - future: result event and result data (future.hpp:38-64);
    - submit and init_graph: the task, its parent (task_space.cpp:70-87,
      graph.cpp:61-81) and the preceding task looked at (graph.cpp:61-69, 98-110). *)
Definition ev_task (e : ev) : list nat :=
  match e with EPre t | EPost t | ERSet t | ERGet t => [t] | EExt _ _ => [] end.
Definition otask (o : option nat) : list nat := match o with Some q => [q] | None => [] end.

Definition touches (f : frame) : list nat :=
  match f with
  | FBody o (ISpawn c :: _) | FBody o (IDrop c :: _) | FBody o (IGet c :: _) => c :: otask o
  | FBody o _ => otask o
  | FSub o c _ _ => c :: otask o
  | FInitUp t | FInit t _ => [t]
  | FIter t _ [] _ => [t]
  | FIter t _ ((p, _) :: _) _ => [t; p]
  | FDep1 t p _ _ _ | FDep2 t p _ _ _ | FDep3 t p _ _ _ | FDep4 t p _ _ _ => [t; p]
  | FPar1 t q | FPar2 t q | FPar3 t q => [t; q]
  | FNotify e _ => ev_task e
  | FNotify2 (EPre t) st k => if (st =? 1)%Z then match k with NInit => [] | _ => [t] end else []
  | FNotify2 (EPost t) st _ => if (st =? 0)%Z then [t] else []
  | FNotify2 _ _ _ => []
  | FDelete t _ => [t]
  | FNotify3 e st _ => if (st <=? 1)%Z then ev_task e else []
  | FFollow e _ => ev_task e
  | FRemove t => [t]
  | FExec t | FRun t => [t]
  end.
