(** The marks available/busy of the workers and the choice of workers by them: the pool of
    PoolModel, with the accesses to [WorkerPool::worker_state] and the searches that use it.
    Definitions only.

    Simplifications:
    - [AtomicBitfield::probe_chunk_by_value] finds the first bit of the word it has read (C40;
      not so for the word 2^63, that is for worker 64 alone);
    - [emplace_task] may choose any worker (it takes task.arena_id % size());
      REDGRAPES_EMPLACE_NOTIFY_NEXT is 0, its default (default_scheduler.cpp:46-48);
    - the round robin choice of [activate_task] may give any worker (C45; called by a thread
      that is no worker it dereferences a null pointer, see there). *)
From Coq Require Import Bool List Arith NArith ZArith.
From Verif Require Import AccessModel UserModel SchedModel SchedSpec PoolModel.
Import ListNotations.

(** [AtomicBitfield::probe_by_value] (bitfield.hpp:72-113) in a thread: not begun; the groups of
    workers still to be probed (part of a word each, without the workers already tried);
    [f] is about to be called for a worker; find_free_worker has claimed a worker; nothing found *)
Inductive look := LNone | LLook (ps : list (list nat)) | LTry (v : nat) (ps : list (list nat)) | LGot (v : nat) | LFull.

Record mpool := mkMP {
  pl : pool;
  av : nat -> bool;             (* worker_state: true AVAILABLE, false BUSY (worker_pool.hpp:28-32) *)
  todo : nat -> list bool;      (* marks a worker has to give itself before it goes on *)
  srch : nat -> look;           (* per thread: its search *)
  busy : nat -> option nat      (* per thread: whom it has to mark busy, default_scheduler.cpp:87 *)
}.

(** all marks are BUSY at first (worker_pool.cpp:27, bitfield.hpp:16-20); workers begin with
    worker.cpp:143-145 *)
Definition minit (P : prog) (n m : nat) : mpool :=
  mkMP (pinit P n m) (fun _ => false) (fun w => if is_worker n w then [true] else []) (fun _ => LNone) (fun _ => None).

(** The groups probed by [probe_by_value] from index [s] of [n] (bitfield.hpp:79-110): the
    indices before [s] in its word, then those from [s] on in that word, then the other words.
    [exclude_start] excludes nothing: the bit is not in second_mask (line 88).  Worker
    numbers are indices plus 1. *)
Definition word (n f : nat) : list nat := seq (64 * f) (Nat.min 64 (n - 64 * f)).
Definition words (n : nat) : nat := (n + 63) / 64.
Definition groups (n s : nat) : list (list nat) :=
  let c := s / 64 in
  map (map S) (seq (64 * c) (s - 64 * c) :: seq s (Nat.min (64 * c + 64) n - s)
               :: map (fun b => word n ((c + b) mod words n)) (seq 1 (words n - 1))).
(** worker_pool.cpp:80-82, default_scheduler.cpp:117, 147 *)
Definition start_of (n i : nat) : nat := if is_worker n i then pred i else 0.

(** [set_worker_state(v, BUSY)] of find_free_worker tells that it changed the mark: the result of
    fetch_and is cut to 32 bits (bitfield.hpp:41, 46, 54), see C41 *)
Definition low (v : nat) : bool := pred v mod 64 <? 32.

(** the next step of thread [i] is [activate_task] (event.cpp:146-150) *)
Definition activates (c : pool) (i : nat) : bool :=
  match nth_error (thr (core c)) i with
  | Some (FNotify2 (EPre _) st NInit :: _) => false
  | Some (FNotify2 (EPre _) st _ :: _) => (st =? 1)%Z
  | _ => false
  end.

(** worker [w] is in steal_task, with its number of tries left (default_scheduler.cpp:154-183) *)
Definition steals (n : nat) (c : pool) (w : nat) : option nat :=
  match is_worker n w, nth_error (thr (core c)) w, wp c w with
  | true, Some [], WStealReady k => Some k
  | true, Some [], WStealNew k => Some k
  | _, _, _ => None
  end.
(** the queues it looks into, default_scheduler.cpp:95-150 *)
Definition loot (c : pool) (w : nat) : nat -> list nat := match wp c w with WStealReady _ => rq c | _ => nq c end.
(** a queue in which nothing is found (see PoolModel) (default_scheduler.cpp:95-150) *)
Definition bare (n m : nat) (c : pool) (q : nat -> list nat) (v : nat) : bool :=
  match q v with [] => true | _ => announced n m c v end.

(** the thread that moves, for worker.cpp:138-224 *)
Definition actor (mv : move) : nat := match mv with MStep i _ | MWake i | MTake i _ | MMiss i | MSteal i _ _ | MFire i _ => i end.

(** Whether the searches allow the move, and the search of the thread afterwards
    (default_scheduler.cpp:66-183, worker_pool.cpp:74-101). *)
Definition allows (n m : nat) (x : mpool) (mv : move) : option look :=
  let c := pl x in
  match mv with
  | MStep i w =>
      if activates c i then
        (* default_scheduler.cpp:78-86 *)
        match srch x i with
        | LGot v => if v =? w then Some LNone else None
        | LFull => Some LNone
        | _ => None
        end
      else Some (srch x i)
  | MMiss w =>
      match steals n c w, srch x w with
      | Some (S _), LTry v ps => if bare n m c (loot c w) v && bare n m c (loot c w) w then Some (LLook ps) else None
      | Some (S _), LFull => Some LFull
      | Some 0, LFull => Some LNone
      | Some _, _ => None
      | None, r => Some r
      end
  | MSteal w v _ =>
      (* default_scheduler.cpp:98-111, 128-141 *)
      match srch x w with
      | LTry u _ => if (v =? u) || (v =? w) && bare n m c (loot c w) u then Some LNone else None
      | _ => None
      end
  | _ => Some (srch x (actor mv))
  end.

(** The marks a worker has to give itself after the move: worker.cpp:150 before a task is
    executed, default_scheduler.cpp:164, 175 if it was stolen; worker.cpp:183 before
    stealing; worker.cpp:143 before it sleeps. *)
Definition chores (n : nat) (c : pool) (mv : move) (c' : pool) : list bool :=
  match mv with
  | MTake w _ => match wp c w with WReady => [false] | _ => [] end
  | MMiss w => match wp c w with WNew | WStealNew 0 => [true] | _ => [] end
  | MSteal w _ _ => match wp c w with WStealReady _ => [false; false] | _ => [] end
  | MStep i _ =>
      match is_worker n i, nth_error (thr (core c')) i, wp c' i with
      | true, Some [], WWait => [true]
      | true, Some (FExec _ :: _), _ => match wp c i with WWait => [false; false] | _ => [false] end
      | _, _, _ => []
      end
  | _ => []
  end.
(** default_scheduler.cpp:86-88: the worker is marked after the push, before wake() *)
Definition marks (c : pool) (mv : move) : option nat :=
  match mv with MStep i w => if activates c i then Some w else None | _ => None end.

Inductive kmove :=
| KPool (mv : move)
| KMark (w : nat)      (* worker w marks itself *)
| KBusy (i : nat)      (* thread i marks the worker it gave a task to *)
| KLook (i : nat).     (* thread i, next access of its search *)

(** bitfield.hpp:166-193: the first index with the mark wanted; the indices left *)
Definition first_marked (x : mpool) (b : bool) (l : list nat) : option nat := find (fun v => Bool.eqb (av x v) b) l.
Definition untried (v : nat) (l : list nat) : list nat := filter (fun u => negb (u =? v)) l.

(** one access of a search; the mark wanted is available in find_free_worker, busy in
    steal_task; returns the marks and the search (bitfield.hpp:75-193) *)
Definition lookstep (n : nat) (x : mpool) (i : nat) : option ((nat -> bool) * look) :=
  let want := activates (pl x) i in
  match srch x i with
  | LNone => Some (av x, LLook (groups n (start_of n i)))
  | LLook (p :: ps) =>
      (* bitfield.hpp:160-176 *)
      match first_marked x want p with
      | Some v => Some (av x, LTry v (untried v p :: ps))
      | None => Some (av x, LLook ps)
      end
  | LLook [] => Some (av x, LFull)
  | LTry v ps =>
      (* worker_pool.cpp:85-89; [f] of a thief is MSteal or MMiss *)
      if want then Some (upd (av x) v false, if av x v && low v then LGot v else LLook ps) else None
  | _ => None
  end.

Definition idle_of (x : mpool) (i : nat) : bool := match todo x i, busy x i with [], None => true | _, _ => false end.

Definition mstep (P : prog) (n m : nat) (x : mpool) (k : kmove) : option mpool :=
  match k with
  | KPool mv =>
      if idle_of x (actor mv) then
        match allows n m x mv, pstep P n m (pl x) mv with
        | Some l, Some c' =>
            Some (mkMP c' (av x) (upd (todo x) (actor mv) (chores n (pl x) mv c')) (upd (srch x) (actor mv) l)
                       (upd (busy x) (actor mv) (marks (pl x) mv)))
        | _, _ => None
        end
      else None
  | KMark w =>
      match todo x w with
      | b :: l => Some (mkMP (pl x) (upd (av x) w b) (upd (todo x) w l) (srch x) (busy x))
      | [] => None
      end
  | KBusy i =>
      match busy x i with
      | Some w => Some (mkMP (pl x) (upd (av x) w false) (todo x) (srch x) (upd (busy x) i None))
      | None => None
      end
  | KLook i =>
      match idle_of x i, due (pl x) i, activates (pl x) i || match steals n (pl x) i with Some _ => true | None => false end with
      | true, [], true =>
          match lookstep n x i with
          | Some (a, l) => Some (mkMP (pl x) a (todo x) (upd (srch x) i l) (busy x))
          | None => None
          end
      | _, _, _ => None
      end
  end.

(** Executions with the number of their steps; [g] as in PoolModel
    (no code of its own, executions of worker.cpp:73-224 and default_scheduler.cpp:32-208). *)
Inductive msteps (P : prog) (n m : nat) (g : bool) : nat -> mpool -> Prop :=
| msteps_init : msteps P n m g 0 (minit P n m)
| msteps_step j x k x' : msteps P n m g j x ->
    (g = true -> match k with KPool mv => children_first P (pl x) mv | _ => True end) ->
    mstep P n m x k = Some x' -> msteps P n m g (S j) x'.

(** no thread of worker.cpp:73-224 or outside can move *)
Definition mstuck (P : prog) (n m : nat) (x : mpool) : Prop := forall k, mstep P n m x k = None.
