(** The pool of workers: the machine of SchedModel with one pair of queues per
    worker, work stealing, sleeping workers and the calls that wake them.
    Definitions only.

    Thread 0 is the main thread, threads 1..n are the workers (the number is the
    waker id, worker.hpp:78-81), threads n+1..n+m belong to the outside world and
    notify external events.  The frames of SchedModel are executed by its [fstep];
    what they put into the queues is moved to the queue of a worker here.

    Simplifications:
    - a condition variable is one flag, [notify] sets it, [wait] blocks until it is
      set and clears it (C43 and C54 are about its accesses);
    - the marks "available/busy" are left out (they are in MarkModel, C69): a task may
      be given to any worker (default_scheduler.cpp:32-89 chooses one) and a thief may
      look into the queue of any worker, at most n of them (C40, C45);
    - a worker may miss a task in its own queue as long as the thread that put it
      there has not called wake() yet (the queue need not be linearizable);
    - the sleeping of the main thread is C52; stop() is C44 and C57. *)
From Coq Require Import Bool List Arith NArith ZArith.
From Verif Require Import AccessModel UserModel SchedModel SchedSpec.
Import ListNotations.

(** Where a worker goes on when its stack is empty: [WWait] cv.wait()
    (worker.cpp:146), [WReady] its ready queue (worker.cpp:167), [WNew] its
    emplacement queue (worker.cpp:177, 206), [WStealReady k], [WStealNew k]
    steal_ready_task and steal_new_task with [k] workers still to be looked at
    (default_scheduler.cpp:95-152). *)
Inductive wpc := WWait | WReady | WNew | WStealReady (k : nat) | WStealNew (k : nat).

Record pool := mkPool {
  core : state;             (* everything but the queues; [emp] and [rdy] stay empty *)
  rq : nat -> list nat;     (* Worker::ready_queue, worker.hpp:66 *)
  nq : nat -> list nat;     (* Worker::emplacement_queue, worker.hpp:65 *)
  flag : nat -> bool;       (* ! CondVar::should_wait *)
  wp : nat -> wpc;
  due : nat -> list nat     (* per thread: whom it still has to wake() before it goes on *)
}.

(** workers start in work_loop (worker.cpp:138-146), cv.cpp:15-17 *)
Definition pinit (P : prog) (n m : nat) : pool :=
  mkPool (init P (n + m)) (fun _ => []) (fun _ => []) (fun _ => false) (fun _ => WWait) (fun _ => []).

Inductive move :=
| MStep (i w : nat)                (* thread i, next access; [w]: who gets a task that is put into a queue *)
| MWake (i : nat)                  (* thread i, next wake() *)
| MTake (w k : nat)                (* worker w takes from its own queue *)
| MMiss (w : nat)                  (* worker w finds nothing *)
| MSteal (w v k : nat)             (* worker w takes from the queue of v *)
| MFire (i k : nat).               (* outside thread i notifies an event *)

(** the workers, worker_pool.cpp:31-64 *)
Definition is_worker (n w : nat) : bool := (1 <=? w) && (w <=? n).

(** some thread has put something into a queue of [w] (or was going to wake it)
    and has not called wake() yet (default_scheduler.cpp:32-89, 192-200) *)
Definition announced (n m : nat) (c : pool) (w : nat) : bool :=
  existsb (fun i => existsb (Nat.eqb w) (due c i)) (seq 0 (1 + n + m)).

(** [emp], [rdy] of SchedModel replaced (worker.hpp:63-64: each worker has two queues) *)
Definition with_queues (s : state) (e r : list nat) : state :=
  mkState (users s) (lck s) (ctr s) (fol s) e r (ext s) (cdn s) (tcn s) (log s) (thr s).

(** worker.cpp:138-155: the worker begins with this call *)
Definition start (c : pool) (w : nat) (st : list frame) : state :=
  set_thr (core c) (set_nth w st (thr (core c))).

(** Who is woken after a step: worker.hpp:91-102 after emplacement_queue.push,
    default_scheduler.cpp:86-88 after ready_queue.push, task_space.cpp:67 with
    default_scheduler.cpp:203-208 when a task is released. *)
Definition wakes (n : nat) (s : state) (f : frame) (s' : state) (w : nat) : list nat :=
  match emp s', rdy s', f with
  | [], [], FRemove t => if (cdn s t =? 1)%Z then seq 0 (S n) else []
  | [], [], _ => []
  | _, _, _ => [w]
  end.

(** gather_task has found a ready task, which is executed; afterwards it is called
    again (worker.cpp:148-152, 177-179; default_scheduler.cpp:167-182) *)
Definition goes_on (fr : list frame) (p : wpc) : wpc := match fr with [FExec _] => WReady | _ => p end.

Definition pstep (P : prog) (n m : nat) (c : pool) (mv : move) : option pool :=
  match mv with
  | MStep i w =>
      match due c i, nth_error (thr (core c)) i with
      | [], Some (f :: fs) =>
          match fstep P (core c) f with
          | Some (s', fr) =>
              if is_worker n w then
                Some (mkPool (with_queues (set_thr s' (set_nth i (fr ++ fs) (thr (core c)))) [] [])
                             (upd (rq c) w (rdy s' ++ rq c w)) (upd (nq c) w (emp s' ++ nq c w)) (flag c)
                             (upd (wp c) i (goes_on fr (wp c i)))
                             (upd (due c) i (wakes n (core c) f s' w)))
              else None
          | None => None
          end
      | _, _ => None
      end
  | MWake i =>
      (* cv.cpp:40-53 *)
      match due c i with
      | w :: l => Some (mkPool (core c) (rq c) (nq c) (upd (flag c) w true) (wp c) (upd (due c) i l))
      | [] => None
      end
  | MTake w k =>
      match is_worker n w, due c w, nth_error (thr (core c)) w with
      | true, [], Some [] =>
          match wp c w with
          | WWait => if flag c w then Some (mkPool (core c) (rq c) (nq c) (upd (flag c) w false) (upd (wp c) w WReady) (due c)) else None
          | WReady => match nth_error (rq c w) k with
                      | Some t => Some (mkPool (start c w [FExec t]) (upd (rq c) w (remove_nth k (rq c w))) (nq c) (flag c) (wp c) (due c))
                      | None => None
                      end
          | WNew => match nth_error (nq c w) k with
                    | Some t => Some (mkPool (start c w [FInitUp t]) (rq c) (upd (nq c) w (remove_nth k (nq c w))) (flag c) (wp c) (due c))
                    | None => None
                    end
          | _ => None
          end
      | _, _, _ => None
      end
  | MMiss w =>
      match is_worker n w, due c w, nth_error (thr (core c)) w with
      | true, [], Some [] =>
          let go p := Some (mkPool (core c) (rq c) (nq c) (flag c) (upd (wp c) w p) (due c)) in
          match wp c w with
          | WWait => None
          | WReady => match rq c w with
                      | [] => go WNew
                      | _ => if announced n m c w then go WNew else None
                      end
          | WNew => match nq c w with
                    | [] => go (WStealReady n)
                    | _ => if announced n m c w then go (WStealReady n) else None
                    end
          | WStealReady (S k) => go (WStealReady k)
          | WStealReady 0 => go (WStealNew n)
          | WStealNew (S k) => go (WStealNew k)
          | WStealNew 0 => go WWait
          end
      | _, _, _ => None
      end
  | MSteal w v k =>
      match is_worker n w, is_worker n v, due c w, nth_error (thr (core c)) w with
      | true, true, [], Some [] =>
          match wp c w with
          | WStealReady (S _) =>
              match nth_error (rq c v) k with
              | Some t => Some (mkPool (start c w [FExec t]) (upd (rq c) v (remove_nth k (rq c v))) (nq c) (flag c) (upd (wp c) w WReady) (due c))
              | None => None
              end
          | WStealNew (S _) =>
              (* a task found not to be ready ends the search: default_scheduler.cpp:167-182 *)
              match nth_error (nq c v) k with
              | Some t => Some (mkPool (start c w [FInitUp t]) (rq c) (upd (nq c) v (remove_nth k (nq c v))) (flag c) (upd (wp c) w WWait) (due c))
              | None => None
              end
          | _ => None
          end
      | _, _, _, _ => None
      end
  | MFire i k =>
      match (n <? i), due c i, nth_error (thr (core c)) i with
      | true, [], Some [] =>
          match istep (core c) (PExt k) with
          | Some (s', fr) => Some (mkPool (set_thr s' (set_nth i fr (thr (core c)))) (rq c) (nq c) (flag c) (wp c) (due c))
          | None => None
          end
      | _, _, _ => None
      end
  end.

(** Executions with their number of steps.  [g]: only schedules in which children
    are initialised before the body of their parent ends (see SchedSpec)
    (the order of worker.cpp:203-224 and execute.cpp:27-51). *)
Definition children_first (P : prog) (c : pool) (mv : move) : Prop :=
  match mv with
  | MStep i _ =>
      forall q fs, nth_error (thr (core c)) i = Some (FBody (Some q) [] :: fs) ->
      forall x, parent P x = Some q -> In (LSpawn x) (log (core c)) -> In (LInit x) (log (core c))
  | _ => True
  end.

(** executions with their length, no code of their own (worker.cpp:73-224) *)
Inductive psteps (P : prog) (n m : nat) (g : bool) : nat -> pool -> Prop :=
| psteps_init : psteps P n m g 0 (pinit P n m)
| psteps_step k c mv c' : psteps P n m g k c -> (g = true -> children_first P c mv) ->
    pstep P n m c mv = Some c' -> psteps P n m g (S k) c'.

(** executable, for examples (worker.cpp:73-224) *)
Fixpoint prun (P : prog) (n m : nat) (c : pool) (l : list move) : option pool :=
  match l with
  | [] => Some c
  | mv :: l => match pstep P n m c mv with Some c' => prun P n m c' l | None => None end
  end.

(** nothing can move any more (worker.cpp:138-155) *)
Definition pstuck (P : prog) (n m : nat) (c : pool) : Prop := forall mv, pstep P n m c mv = None.

(** executions of SchedModel with their length, guarded or not (lines there: worker.cpp:138-224) *)
Inductive asteps (P : prog) (n : nat) (g : bool) : nat -> state -> Prop :=
| asteps_init : asteps P n g 0 (init P n)
| asteps_step k s i c s' : asteps P n g k s -> (g = true -> end_ok P s i) -> step P s i c = Some s' -> asteps P n g (S k) s'.
