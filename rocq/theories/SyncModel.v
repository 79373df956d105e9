(** Spin lock, condition variable and the worker loop as interleaved machines.
    Sources (under /repo/redGrapes): sync/spinlock.hpp, sync/cv.cpp,
    dispatch/thread/worker.{hpp,cpp}.

    Simplifications: atomics are sequentially consistent (the code uses
    acquire/release/relaxed orderings); [std::mutex] and
    [std::condition_variable] are ideal, with spurious wake-ups. *)
From Coq Require Import Bool List Arith NArith Lia.
Import ListNotations.

(** updates of a list, no function of the code; for the threads of cv.cpp:19-53 *)
Fixpoint upd {A} (l : list A) (i : nat) (x : A) : list A :=
  match l, i with
  | [], _ => []
  | _ :: l, O => x :: l
  | y :: l, S i => y :: upd l i x
  end.

(** ** Spin lock (sync/spinlock.hpp:28-53)

    A thread outside ([SOut]) may call [lock()]; [SCas]: at the
    compare_exchange_weak of line 34; [SSpin]: at the load of line 38; [SIn]:
    between [lock()] and [unlock()]. *)
Inductive spc := SOut | SCas | SSpin | SIn.
Record slock := mkSlock { sl_state : bool; sl_pc : list spc; sl_log : list (nat * bool) }.
(** [sl_log]: (thread, true) when [lock()] returned, (thread, false) for [unlock()] *)

(** spinlock.hpp:20-24: n threads, the lock is free *)
Definition sl_init (n : nat) : slock := mkSlock false (repeat SOut n) [].

(** one access by thread [i]; [weak]: the compare_exchange_weak fails
    spuriously.  spinlock.hpp:28-53 *)
Definition sl_step (i : nat) (weak : bool) (s : slock) : option slock :=
  match nth_error (sl_pc s) i with
  | None => None
  | Some SOut => Some (mkSlock (sl_state s) (upd (sl_pc s) i SCas) (sl_log s))
  | Some SCas =>
      if negb (sl_state s) && negb weak
      then Some (mkSlock true (upd (sl_pc s) i SIn) (sl_log s ++ [(i, true)]))
      else Some (mkSlock (sl_state s) (upd (sl_pc s) i SSpin) (sl_log s))
  | Some SSpin => Some (mkSlock (sl_state s) (upd (sl_pc s) i (if sl_state s then SSpin else SCas)) (sl_log s))
  | Some SIn => Some (mkSlock false (upd (sl_pc s) i SOut) (sl_log s ++ [(i, false)]))
  end.
Inductive sl_reach (n : nat) : slock -> Prop :=
| sl_r0 : sl_reach n (sl_init n)
| sl_rs : forall s i weak s', sl_reach n s -> sl_step i weak s = Some s' -> sl_reach n s'.

(** ** Condition variable and worker loop *)

(** what a notifying thread does before it notifies: push a ready task
    (worker.hpp:98-102, default_scheduler.cpp:86-88), push a new task
    (worker.hpp:89-93), set the stop flag (worker.cpp:59-64), nothing
    (default_scheduler.cpp:192-208) *)
Inductive kind := KReady (t : nat) | KEmpl (t : nat) | KStop | KWake.

(** a thread executing one of these: before its first access, at the
    compare_exchange of cv.cpp:43, at the lock of line 48, at [notify_all]
    (line 49, holding the mutex), at the unlock of line 50, done *)
Inductive ppc := PStart (k : kind) | PCas | PLock | PNotify | PUnlock | PDone.

(** the worker: [LCheck] worker.cpp:141; [W...] inside [cv.wait()] with the value
    of [count] (cv.cpp:19-38): [WSpin] line 22, [WLoad] line 29, [WLock] line 31,
    [WPred] the predicate in line 32 with the mutex held, [WBlock] about to
    release the mutex and sleep (one atomic action), [WAsleep], [WRelock] woken,
    [WUnlock] line 33, [WStore] line 37; [GReady] worker.cpp:168, [GEmpl]
    worker.cpp:178, [GSteal] worker.cpp:198, [WExec] worker.cpp:151, [LEnd] the
    loop was left *)
Inductive wpc :=
| LCheck | WSpin (c : N) | WLoad (c : N) | WLock (c : N) | WPred (c : N) | WBlock (c : N) | WAsleep (c : N)
| WRelock (c : N) | WUnlock (c : N) | WStore | GReady | GEmpl | GSteal | WExec (t : nat) | LEnd.

Inductive hev :=
| HPush (t : nat)          (* put into a queue of the worker *)
| HTake (own : bool) (t : nat)  (* taken by the worker / by another worker *)
| HNotify (first : bool)   (* the compare_exchange of notify; its result *)
| HReturn                  (* wait() returns *)
| HLeave.                  (* the loop is left *)

(** [sw]: [should_wait]; [mtx]: the mutex is held (cv.hpp:23-39, worker.hpp:54-64) *)
Record st := mkSt { sw : bool; mtx : bool; stopf : bool; rq : list nat; eq_ : list nat; pc : wpc; ns : list ppc; hist : list hev }.

(** cv.cpp:15-17, worker.hpp:48 *)
Definition init : st := mkSt true false false [] [] LCheck [] [].

(** the queue is a bag: any element may come out (task/queue.hpp:129-138) *)
Fixpoint take (k : nat) (l : list nat) {struct l} : option (nat * list nat) :=
  match l with
  | [] => None
  | x :: l => match k with
              | O => Some (x, l)
              | S k => match take k l with Some (y, l') => Some (y, x :: l') | None => Some (x, l) end
              end
  end.

(** what steal_task (default_scheduler.cpp:156-183) comes back with: a task from
    elsewhere, one from the own queues, or none; whether a new task found is
    ready *)
Inductive choice := CNone | CForeign (t : nat) | CReady (k : nat) | CEmpl (k : nat) (ready : bool).

Inductive move :=
| MWorker (c : choice)     (* next access of the worker *)
| MSpurious                (* the sleeping worker wakes up without notification *)
| MNew (k : kind)          (* a thread begins push / stop / wake *)
| MNotifier (i : nat)      (* next access of notifying thread i *)
| MThief (from_ready : bool) (k : nat). (* another worker steals *)

(** only builds a state (cv.cpp:19-53) *)
Definition set_pc s p := mkSt (sw s) (mtx s) (stopf s) (rq s) (eq_ s) p (ns s) (hist s).

(** [timeout]: cv.hpp:32; [++count] wraps at 2^32 *)
Definition incr (c : N) : N := ((c + 1) mod 4294967296)%N.

(** worker.cpp:138-201 and cv.cpp:19-38 *)
Definition wstep (timeout : N) (c : choice) (s : st) : option st :=
  match pc s with
  | LCheck => if stopf s then Some (mkSt (sw s) (mtx s) (stopf s) (rq s) (eq_ s) LEnd (ns s) (hist s ++ [HLeave]))
              else Some (set_pc s (WSpin 0))
  | WSpin n => if sw s then (if (timeout <? incr n)%N then Some (set_pc s (WLoad (incr n))) else Some (set_pc s (WSpin (incr n))))
               else Some (set_pc s WStore)
  | WLoad n => Some (set_pc s (if sw s then WLock n else WSpin n))
  | WLock n => if mtx s then None else Some (mkSt (sw s) true (stopf s) (rq s) (eq_ s) (WPred n) (ns s) (hist s))
  | WPred n => Some (set_pc s (if sw s then WBlock n else WUnlock n))
  | WBlock n => Some (mkSt (sw s) false (stopf s) (rq s) (eq_ s) (WAsleep n) (ns s) (hist s))
  | WAsleep n => None
  | WRelock n => if mtx s then None else Some (mkSt (sw s) true (stopf s) (rq s) (eq_ s) (WPred n) (ns s) (hist s))
  | WUnlock n => Some (mkSt (sw s) false (stopf s) (rq s) (eq_ s) (WSpin n) (ns s) (hist s))
  | WStore => Some (mkSt true (mtx s) (stopf s) (rq s) (eq_ s) GReady (ns s) (hist s ++ [HReturn]))
  | GReady =>
      match c with
      | CReady k => match take k (rq s) with
                    | Some (t, q) => Some (mkSt (sw s) (mtx s) (stopf s) q (eq_ s) (WExec t) (ns s) (hist s ++ [HTake true t]))
                    | None => Some (set_pc s GEmpl)
                    end
      | _ => None
      end
  | GEmpl =>
      match c with
      | CEmpl k ready => match take k (eq_ s) with
                    | Some (t, q) => Some (mkSt (sw s) (mtx s) (stopf s) (rq s) q (if ready then WExec t else GEmpl) (ns s) (hist s ++ [HTake true t]))
                    | None => Some (set_pc s GSteal)
                    end
      | _ => None
      end
  | GSteal =>
      match c with
      | CNone => Some (set_pc s LCheck)
      | CForeign t => Some (set_pc s (WExec t))
      | CReady k => match take k (rq s) with
                    | Some (t, q) => Some (mkSt (sw s) (mtx s) (stopf s) q (eq_ s) (WExec t) (ns s) (hist s ++ [HTake true t]))
                    | None => None
                    end
      | CEmpl k ready => match take k (eq_ s) with
                    | Some (t, q) => Some (mkSt (sw s) (mtx s) (stopf s) (rq s) q (if ready then WExec t else LCheck) (ns s) (hist s ++ [HTake true t]))
                    | None => None
                    end
      end
  | WExec t => Some (set_pc s GReady)
  | LEnd => None
  end.

(** cv.cpp:40-53 with what precedes it (worker.hpp:89-102, worker.cpp:59-64) *)
Definition nstep (i : nat) (s : st) : option st :=
  match nth_error (ns s) i with
  | None | Some PDone => None
  | Some (PStart (KReady t)) => Some (mkSt (sw s) (mtx s) (stopf s) (rq s ++ [t]) (eq_ s) (pc s) (upd (ns s) i PCas) (hist s ++ [HPush t]))
  | Some (PStart (KEmpl t)) => Some (mkSt (sw s) (mtx s) (stopf s) (rq s) (eq_ s ++ [t]) (pc s) (upd (ns s) i PCas) (hist s ++ [HPush t]))
  | Some (PStart KStop) => Some (mkSt (sw s) (mtx s) true (rq s) (eq_ s) (pc s) (upd (ns s) i PCas) (hist s))
  | Some (PStart KWake) => Some (mkSt (sw s) (mtx s) (stopf s) (rq s) (eq_ s) (pc s) (upd (ns s) i PCas) (hist s))
  | Some PCas => Some (mkSt false (mtx s) (stopf s) (rq s) (eq_ s) (pc s) (upd (ns s) i PLock) (hist s ++ [HNotify (sw s)]))
  | Some PLock => if mtx s then None else Some (mkSt (sw s) true (stopf s) (rq s) (eq_ s) (pc s) (upd (ns s) i PNotify) (hist s))
  | Some PNotify => Some (mkSt (sw s) (mtx s) (stopf s) (rq s) (eq_ s) (match pc s with WAsleep n => WRelock n | p => p end)
                               (upd (ns s) i PUnlock) (hist s))
  | Some PUnlock => Some (mkSt (sw s) false (stopf s) (rq s) (eq_ s) (pc s) (upd (ns s) i PDone) (hist s))
  end.

Definition step (timeout : N) (m : move) (s : st) : option st :=
  match m with
  | MWorker c => wstep timeout c s
  | MSpurious => match pc s with WAsleep n => Some (set_pc s (WRelock n)) | _ => None end
  | MNew k => Some (mkSt (sw s) (mtx s) (stopf s) (rq s) (eq_ s) (pc s) (ns s ++ [PStart k]) (hist s))
  | MNotifier i => nstep i s
  | MThief true k => match take k (rq s) with
                     | Some (t, q) => Some (mkSt (sw s) (mtx s) (stopf s) q (eq_ s) (pc s) (ns s) (hist s ++ [HTake false t]))
                     | None => None end
  | MThief false k => match take k (eq_ s) with
                     | Some (t, q) => Some (mkSt (sw s) (mtx s) (stopf s) (rq s) q (pc s) (ns s) (hist s ++ [HTake false t]))
                     | None => None end
  end.

Inductive reach (timeout : N) : st -> Prop :=
| r0 : reach timeout init
| rs : forall s m s', reach timeout s -> step timeout m s = Some s' -> reach timeout s'.

Fixpoint exec (timeout : N) (ms : list move) (s : st) : option st :=
  match ms with
  | [] => Some s
  | m :: ms => match step timeout m s with Some s' => exec timeout ms s' | None => None end
  end.
