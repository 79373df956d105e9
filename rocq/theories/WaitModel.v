(** Waiting of a thread that is no worker: [Future::get] and [barrier].  Model.
    Sources (under /repo/redGrapes): redGrapes.cpp (Context::Context, barrier,
    yield), scheduler/default_scheduler.cpp (idle, wake, wake_all),
    scheduler/event.cpp (EventPtr::notify), task/task_space.cpp (submit,
    free_task, empty), sync/cv.cpp.

    One waiting thread, any number of notifying threads, any number of events;
    one step per access to shared memory, all interleavings.

    [tso]: the waiting thread has a store buffer as on x86: its store to the
    plain variable [Event::waker_id] (event.hpp 97) becomes visible to others
    later, at the latest at its next read-modify-write or lock operation.
    With [tso] false all stores are visible at once.
    [own]: the waiting thread is the one that constructed the [Context]; only
    for this thread the [thread_local] function [Context::idle] is set
    (redGrapes.cpp 29, 35-38), calling it elsewhere throws [std::bad_function_call].

    Simplifications: [++count > timeout] with timeout 0 (default_scheduler.cpp 26)
    counts as true (it is false once in 2^32 rounds, which only adds a round);
    [std::mutex] and [std::condition_variable] are ideal, with spurious wake-ups;
    counters do not wrap (C24); the part of wake_all that wakes workers is C44,
    what else notify() does is C16. *)
From Coq Require Import Bool List Arith Lia.
Import ListNotations.

Definition upd {A} (f : nat -> A) (i : nat) (x : A) : nat -> A := fun j => if j =? i then x else f j.
Fixpoint put {A} (l : list A) (i : nat) (x : A) : list A :=
  match l, i with
  | [], _ => []
  | _ :: l, O => x :: l
  | y :: l, S i => y :: put l i x
  end.

(** what is waited for: an event (redGrapes.cpp 167) or the root space (140) *)
Definition wait := option nat.

(** calls of the thread: submit a task to the root space (task_space.cpp 70-87),
    [get()] of a future with result-set event [e] (future.hpp 53-56), [barrier()] *)
Inductive call := CSubmit | CGet (e : nat) | CBarrier.

(** [MRun]: in user code; [MTest]: before the test in redGrapes.cpp 140 or 167;
    then inside cv.wait() as called from idle() (cv.cpp 19-38): [MSpin] line 22,
    [MLoad] 29, [MLock] 31, [MPred] 32 with the mutex held, [MBlock] about to
    release it and sleep, [MAsleep], [MRelock] woken, [MUnlock] 33, [MReset] 37;
    [MThrown]: std::bad_function_call *)
Inductive mpc :=
| MRun | MTest (w : wait) | MSpin (w : wait) | MLoad (w : wait) | MLock (w : wait) | MPred (w : wait) | MBlock (w : wait)
| MAsleep (w : wait) | MRelock (w : wait) | MUnlock (w : wait) | MReset (w : wait) | MThrown.

(** a notifying thread: [NDec e] before the fetch_sub of event.cpp 108, [NWaker e]
    before reading waker_id (160), [NFree] before the fetch_sub of
    task_space.cpp 53; in cv.notify(): [NCas] cv.cpp 43, [NLock] 48, [NNotify] 49,
    [NUnlock] 50; [NDone] *)
Inductive npc := NDec (e : nat) | NWaker (e : nat) | NFree | NCas | NLock | NNotify | NUnlock | NDone.

(** [ctr]: Event::state; [wk e]: waker_id of [e] is 0, in memory; [buf]: events
    whose waker_id is still in the store buffer, oldest first; [cnt]:
    root_space->task_count; [sw], [mtx]: the CondVar of the scheduler;
    [ret]: waits that returned, latest first *)
Record st := mkS { ctr : nat -> nat; wk : nat -> bool; buf : list nat; cnt : nat; sw : bool; mtx : bool;
                   pc : mpc; ns : list npc; ret : list wait }.

(** event.cpp 29-31, task_space.cpp 23-26, cv.cpp 15-17 *)
Definition init : st := mkS (fun _ => 1) (fun _ => false) [] 0 true false MRun [] [].

Definition at_pc (s : st) (p : mpc) : st := mkS (ctr s) (wk s) (buf s) (cnt s) (sw s) (mtx s) p (ns s) (ret s).
Definition at_cv (s : st) (w m : bool) (p : mpc) : st := mkS (ctr s) (wk s) (buf s) (cnt s) w m p (ns s) (ret s).

(** event.cpp 47-50, task_space.cpp 44-48 *)
Definition is_done (s : st) (w : wait) : bool :=
  match w with Some e => ctr s e =? 0 | None => cnt s =? 0 end.

Section Step.
Variables tso own : bool.

(** A call.  [get()] first stores waker_id (redGrapes.cpp 166).  The increment of
    task_count is a read-modify-write: it needs an empty store buffer. *)
Definition call_step (c : call) (s : st) : option st :=
  match pc s with
  | MRun =>
      match c with
      | CSubmit => if length (buf s) =? 0
                   then Some (mkS (ctr s) (wk s) (buf s) (S (cnt s)) (sw s) (mtx s) MRun (ns s) (ret s)) else None
      | CGet e => Some (if tso then mkS (ctr s) (wk s) (buf s ++ [e]) (cnt s) (sw s) (mtx s) (MTest (Some e)) (ns s) (ret s)
                        else mkS (ctr s) (upd (wk s) e true) (buf s) (cnt s) (sw s) (mtx s) (MTest (Some e)) (ns s) (ret s))
      | CBarrier => Some (at_pc s (MTest None))
      end
  | _ => None
  end.

(** the next access of the thread while it waits: redGrapes.cpp 136-142, 164-169,
    default_scheduler.cpp 16-28, cv.cpp 19-38.  Lock operations and the
    sequentially consistent store of line 37 need an empty store buffer. *)
Definition main_step (s : st) : option st :=
  let drained (r : st) := if length (buf s) =? 0 then Some r else None in
  match pc s with
  | MRun | MThrown | MAsleep _ => None
  | MTest w => if is_done s w
               then Some (mkS (ctr s) (wk s) (buf s) (cnt s) (sw s) (mtx s) MRun (ns s) (w :: ret s))
               else Some (at_pc s (if own then MSpin w else MThrown))
  | MSpin w => Some (at_pc s (if sw s then MLoad w else MReset w))
  | MLoad w => Some (at_pc s (if sw s then MLock w else MSpin w))
  | MLock w => if mtx s then None else drained (at_cv s (sw s) true (MPred w))
  | MPred w => Some (at_pc s (if sw s then MBlock w else MUnlock w))
  | MBlock w => Some (at_cv s (sw s) false (MAsleep w))
  | MRelock w => if mtx s then None else drained (at_cv s (sw s) true (MPred w))
  | MUnlock w => Some (at_cv s (sw s) false (MSpin w))
  | MReset w => drained (at_cv s true (mtx s) (MTest w))
  end.

Definition set_n (s : st) (i : nat) (p : npc) : st :=
  mkS (ctr s) (wk s) (buf s) (cnt s) (sw s) (mtx s) (pc s) (put (ns s) i p) (ret s).

(** the next access of notifying thread [i]: event.cpp 104-178 (the wake-up if the
    event is ready or reached and somebody registered, 160-161), task_space.cpp
    50-68, default_scheduler.cpp 192-208, cv.cpp 40-53 *)
Definition note_step (i : nat) (s : st) : option st :=
  match nth_error (ns s) i with
  | None | Some NDone => None
  | Some (NDec e) =>
      match ctr s e with
      | O => None   (* assert, event.cpp 139 *)
      | S k => Some (mkS (upd (ctr s) e k) (wk s) (buf s) (cnt s) (sw s) (mtx s) (pc s)
                         (put (ns s) i (if k <=? 1 then NWaker e else NDone)) (ret s))
      end
  | Some (NWaker e) => Some (set_n s i (if wk s e then NCas else NDone))
  | Some NFree =>
      match cnt s with
      | O => None
      | S k => Some (mkS (ctr s) (wk s) (buf s) k (sw s) (mtx s) (pc s) (put (ns s) i (if k =? 0 then NCas else NDone)) (ret s))
      end
  | Some NCas => Some (mkS (ctr s) (wk s) (buf s) (cnt s) false (mtx s) (pc s) (put (ns s) i NLock) (ret s))
  | Some NLock => if mtx s then None
                  else Some (mkS (ctr s) (wk s) (buf s) (cnt s) (sw s) true (pc s) (put (ns s) i NNotify) (ret s))
  | Some NNotify => Some (mkS (ctr s) (wk s) (buf s) (cnt s) (sw s) (mtx s) (match pc s with MAsleep w => MRelock w | p => p end)
                              (put (ns s) i NUnlock) (ret s))
  | Some NUnlock => Some (mkS (ctr s) (wk s) (buf s) (cnt s) (sw s) false (pc s) (put (ns s) i NDone) (ret s))
  end.

(** the oldest store leaves the buffer (no code: the store buffer of the thread of cv.cpp:37) *)
Definition flush_step (s : st) : option st :=
  match buf s with
  | [] => None
  | e :: l => Some (mkS (ctr s) (upd (wk s) e true) l (cnt s) (sw s) (mtx s) (pc s) (ns s) (ret s))
  end.

(** the accesses are those of cv.cpp:19-53 and the callers, lines at the steps above *)
Inductive move :=
| MCall (c : call)       (* the thread calls *)
| MMain                  (* its next access *)
| MFlush                 (* its store buffer *)
| MSpurious              (* spurious wake-up *)
| MUp (e : nat)          (* event.cpp 57-60: an event not yet reached gets another predecessor *)
| MNew (p : npc)         (* a thread begins to notify *)
| MNote (i : nat).       (* next access of notifying thread i *)

(** cv.cpp:19-53 and the callers, lines at the steps above *)
Definition step (m : move) (s : st) : option st :=
  match m with
  | MCall c => call_step c s
  | MMain => main_step s
  | MFlush => flush_step s
  | MSpurious => match pc s with MAsleep w => Some (at_pc s (MRelock w)) | _ => None end
  | MUp e => match ctr s e with
             | O => None
             | S k => Some (mkS (upd (ctr s) e (S (S k))) (wk s) (buf s) (cnt s) (sw s) (mtx s) (pc s) (ns s) (ret s))
             end
  | MNew p => match p with
              | NDec _ | NFree | NCas => Some (mkS (ctr s) (wk s) (buf s) (cnt s) (sw s) (mtx s) (pc s) (ns s ++ [p]) (ret s))
              | _ => None
              end
  | MNote i => note_step i s
  end.

(** executions and runs, no code of their own (cv.cpp:19-53) *)
Inductive reach : st -> Prop :=
| r_init : reach init
| r_step : forall s m s', reach s -> step m s = Some s' -> reach s'.

Fixpoint exec (ms : list move) (s : st) : option st :=
  match ms with
  | [] => Some s
  | m :: ms => match step m s with Some s' => exec ms s' | None => None end
  end.

(** no thread can make another access on its own (cv.cpp:19-53) *)
Definition quiet (s : st) : Prop := main_step s = None /\ flush_step s = None /\ forall i, note_step i s = None.
End Step.

(** what the thread waits for (cv.cpp:19-38) *)
Definition waits (p : mpc) : option wait :=
  match p with
  | MTest w | MSpin w | MLoad w | MLock w | MPred w | MBlock w | MAsleep w | MRelock w | MUnlock w | MReset w => Some w
  | MRun | MThrown => None
  end.
