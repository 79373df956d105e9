(** Placement of tasks, tag matching, MPI request pool, identifiers, task spaces.
     Definitions only; paths are relative to
    /repo/redGrapes. *)
From Coq Require Import Bool List Arith NArith Lia.
Import ListNotations.
Open Scope N_scope.

(** unsigned of worker_pool.cpp and default_scheduler.cpp:32-60 *)
Definition u32 : N := 4294967296.

(** ** Placement *)

(** redGrapes.hpp:177-188: the worker for a new task and the next value of the
    thread-local counter (32 bits); [None]: division by zero *)
Definition emplace_place (size next : N) : option (N * N) :=
  if size =? 0 then None else Some (next mod size, (next + 1) mod u32).
(** default_scheduler.cpp:36: the worker that gets a task created for an arena *)
Definition sched_place (size arena : N) : option N := if size =? 0 then None else Some (arena mod size).
(** [k] consecutive calls of emplace_task on one thread (default_scheduler.cpp:32-60) *)
Fixpoint placements (size next : N) (k : nat) : list N :=
  match k with
  | O => []
  | S k => match emplace_place size next with
           | Some (w, next) => w :: placements size next k
           | None => []
           end
  end.
(** default_scheduler.cpp:78-84: all workers busy; [cur]: the worker on whose
    thread the call happens.  [None]: undefined (line 82 dereferences the null
    [current_worker], or division by zero) *)
Definition activate_place (size : N) (cur : option N) (next : N) : option (N * N) :=
  if size =? 0 then None
  else match cur with
       | None => None
       | Some c =>
           let w := next mod size in
           let n1 := (next + 1) mod u32 in
           if w =? c then Some (n1 mod size, (n1 + 1) mod u32) else Some (w, n1)
       end.

(** ** Tag matching (scheduler/tag_match.hpp, tag_match_property.hpp) *)

(** a [std::bitset<64>] as a number; [set] throws for a position out of range *)
Fixpoint mk_tags (l : list N) : option N :=
  match l with
  | [] => Some 0
  | t :: l => match mk_tags l with
              | Some b => if t <? 64 then Some (N.setbit b t) else None
              | None => None
              end
  end.
(** tag_match_property.hpp:26-38: tags accumulate *)
Definition add_tags (required : N) (l : list N) : option N :=
  match mk_tags l with Some b => Some (N.lor required b) | None => None end.
(** tag_match.hpp:36-47: registration appends *)
Definition add_scheduler {S} (subs : list (N * S)) (l : list N) (s : S) : option (list (N * S)) :=
  match mk_tags l with Some b => Some (subs ++ [(b, s)]) | None => None end.
(** tag_match.hpp:74-82 *)
Fixpoint get_matching {S} (subs : list (N * S)) (required : N) : option S :=
  match subs with
  | [] => None
  | (b, s) :: subs => if N.land b required =? required then Some s else get_matching subs required
  end.
(** tag_match.hpp:58-72: emplace_task and activate_task; [None]: the exception *)
Definition route {S} (subs : list (N * S)) (required : N) : option S := get_matching subs required.
(** tag_match.hpp:84-91 declares [task_dependency_type(Task const&, Task&)], which
    does not override scheduler.hpp:44-47: calls through the interface get the
    default.  [sub_type]: what a sub-scheduler would answer *)
Definition dependency_type {S} (sub_type : S -> bool) (subs : list (N * S)) (required_b : N) : bool := false.
(** tag_match.hpp:99-106: [asleep s]: what [s->wake(id)] returns; the result lists
    the sub-schedulers that were asked *)
Fixpoint wake {S} (asleep : S -> bool) (subs : list (N * S)) : bool * list S :=
  match subs with
  | [] => (false, [])
  | (_, s) :: subs => if asleep s then (true, [s]) else let '(r, l) := wake asleep subs in (r, s :: l)
  end.

(** ** MPI request pool (dispatch/mpi/request_pool.hpp) *)

(** requests, events and status cells are named by numbers; the three vectors are
    kept apart as in the code.  [written]: contents of the status cells;
    [notified]: events notified so far, in order (mpi/request_pool.hpp:30-34) *)
Record mpool := mkPool { m_req : list N; m_ev : list N; m_st : list N; written : list (N * N); notified : list N }.
(** mpi/request_pool.hpp:36-38 *)
Definition mp_init : mpool := mkPool [] [] [] [] [].
(** vector::erase, mpi/request_pool.hpp:66-68 *)
Fixpoint erase {A} (l : list A) (i : nat) : list A :=
  match l, i with
  | [], _ => []
  | _ :: l, O => l
  | x :: l, S i => x :: erase l i
  end.
(** request_pool.hpp:85-97 *)
Definition mp_add (r e s : N) (p : mpool) : mpool :=
  mkPool (m_req p ++ [r]) (m_ev p ++ [e]) (m_st p ++ [s]) (written p) (notified p).
(** request_pool.hpp:56-73: [out]: the indices and statuses reported by
    MPI_Testsome; [None]: access out of range *)
Fixpoint mp_loop (fuel : nat) (out : list (nat * N)) (p : mpool) : option mpool :=
  match fuel with
  | O => Some p
  | S fuel =>
    match out with
    | [] => Some p
    | (idx, st) :: out =>
        match nth_error (m_req p) idx, nth_error (m_ev p) idx, nth_error (m_st p) idx with
        | Some _, Some e, Some c =>
            mp_loop fuel (map (fun '(j, s) => (if idx <? j then j - 1 else j, s)%nat) out)
                    (mkPool (erase (m_req p) idx) (erase (m_ev p) idx) (erase (m_st p) idx) (written p ++ [(c, st)]) (notified p ++ [e]))
        | _, _, _ => None
        end
    end
  end.
Definition mp_poll (out : list (nat * N)) (p : mpool) : option mpool := mp_loop (length out) out p.

(** ** Identifiers (task/property/id.hpp:61-64, resource/resource.cpp:17-21)

    an atomic 32-bit counter; each request is one fetch_add by some thread *)
Fixpoint give_ids (counter : N) (threads : list nat) : list (nat * N) :=
  match threads with
  | [] => []
  | t :: ts => (t, counter) :: give_ids ((counter + 1) mod u32) ts
  end.

(** ** Task spaces (task/task_space.cpp:23-32, redGrapes.cpp:44-70, 87-94)

    tasks and spaces are named by their position; space 0 is the root space *)
Record space := mkSpace { sp_depth : N; sp_parent : option nat }.
Record world := mkWorld { spaces : list space; tasks : list (nat * option nat) }.  (* (space, children) *)
(** the root space only, redGrapes.cpp:123, task_space.cpp:23-26 *)
Definition w_init : world := mkWorld [mkSpace 0 None] [].
(** redGrapes.cpp:44-62, task_space.cpp:29-32 ([depth] is 32 bits wide); [cur]: the
    running task.  [None]: no such task *)
Definition current_space (cur : option nat) (w : world) : option (nat * world) :=
  match cur with
  | None => Some (0%nat, w)
  | Some t =>
      match nth_error (tasks w) t with
      | None => None
      | Some (s, Some c) => Some (c, w)
      | Some (s, None) =>
          match nth_error (spaces w) s with
          | None => None
          | Some sp =>
              let c := length (spaces w) in
              Some (c, mkWorld (spaces w ++ [mkSpace ((sp_depth sp + 1) mod u32) (Some t)])
                               (firstn t (tasks w) ++ (s, Some c) :: skipn (S t) (tasks w)))
          end
      end
  end.
(** redGrapes.cpp:64-70 *)
Definition scope_depth (cur : option nat) (w : world) : option (N * world) :=
  match current_space cur w with
  | None => None
  | Some (s, w) => match nth_error (spaces w) s with Some sp => Some (sp_depth sp, w) | None => None end
  end.
(** task_builder.hpp:69-71, task_space.cpp:70-75: a new task in the current space *)
Definition new_task (cur : option nat) (w : world) : option world :=
  match current_space cur w with
  | None => None
  | Some (s, w) => Some (mkWorld (spaces w) (tasks w ++ [(s, None)]))
  end.
(** redGrapes.cpp:87-94: follow [task->space->parent]; [fuel] bounds the walk *)
Fixpoint backtrace (fuel : nat) (cur : option nat) (w : world) : option (list nat) :=
  match cur with
  | None => Some []
  | Some t =>
      match fuel with
      | O => None
      | S fuel =>
          match nth_error (tasks w) t with
          | None => None
          | Some (s, _) =>
              match nth_error (spaces w) s with
              | None => None
              | Some sp => match backtrace fuel (sp_parent sp) w with Some l => Some (t :: l) | None => None end
              end
          end
      end
  end.
