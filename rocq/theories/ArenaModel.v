(** Arenas: in which allocator the memory of tasks and of bound objects is taken
    and given back; and the loop of wake_all.  Model.
    Sources (under /repo/redGrapes): redGrapes.hpp 178-194, task/task_builder.hpp
    65-81, task/task_space.cpp 50-60, memory/allocator.cpp 13-29, memory/
    allocator.hpp 104-117, dispatch/thread/worker_pool.cpp 31-54, worker_pool.hpp
    56-66, scheduler/default_scheduler.cpp 192-208, scheduler/scheduler.hpp 30. *)
From Coq Require Import Bool List Arith NArith ZArith Lia.
Import ListNotations.

(** ** Arenas (updates of a map; arenas are indexed as in memory/allocator.hpp:30-117) *)
Definition upd {A} (f : nat -> A) (i : nat) (x : A) : nat -> A := fun j => if j =? i then x else f j.

(** A block is named by a number; an allocator is the list of its blocks in use
    (chunks and addresses: C37-C39).  [b_arena]: Task::arena_id (task.hpp 44), or
    the worker_id stored in the Allocator of the owner (allocator.hpp 29). *)
Record obj := mkObj { b_id : nat; b_arena : nat }.

(** [nxt t]: next_worker of thread [t] (redGrapes.hpp 82, thread_local, 32 bit);
    [mem a]: allocs[a] of the pool; [tasks], [bound]: live tasks and live objects
    with an allocator of their own (lists, events, shared pointers); [fresh]: next
    name; [bad]: an index was out of range (an assertion, or undefined) *)
Record st := mkSt { nxt : nat -> N; mem : nat -> list nat; tasks : list obj; bound : list obj; fresh : nat; bad : bool }.
Definition init : st := mkSt (fun _ => 0%N) (fun _ => []) [] [] 0 false.

Section Pool.
(** [n]: number of workers, also allocs.size(); [p]: n_pus *)
Variables n p : nat.

(** redGrapes.hpp 180-187 *)
Definition pick (x : N) : nat := N.to_nat (x mod N.of_nat n).
Definition incr (x : N) : N := ((x + 1) mod 4294967296)%N.
(** allocator.cpp 17-20: the arena of an Allocator made for [a] *)
Definition route (a : nat) : nat := a mod n.
(** worker_pool.cpp 43, 49-50: Worker::alloc of worker [w] *)
Definition worker_alloc (w : nat) : nat := w mod p.

(** allocator.cpp 22-25; worker_pool.hpp 56-60 asserts the index *)
Definition take (a : nat) (s : st) : st :=
  mkSt (nxt s) (upd (mem s) a (fresh s :: mem s a)) (tasks s) (bound s) (S (fresh s)) (bad s || negb (a <? n)).
(** ChunkedBumpAlloc::deallocate (chunked_bump_alloc.hpp 124-161): a block that is
    not in this allocator is ignored *)
Definition give (a b : nat) (s : st) : st :=
  mkSt (nxt s) (upd (mem s) a (remove Nat.eq_dec b (mem s a))) (tasks s) (bound s) (fresh s) (bad s || negb (a <? n)).

Fixpoint drop {A} (k : nat) (l : list A) : list A := match l, k with [], _ => [] | _ :: l, O => l | x :: l, S k => x :: drop k l end.

Inductive op :=
| OEmplace (t : nat)   (* thread t emplaces a task *)
| OFree (k : nat)      (* free_task of the k-th live task *)
| OBind (a : nat)      (* an object is made with Allocator(a) / alloc_shared_bind(a) *)
| OUnbind (k : nat).   (* the k-th of them is destroyed *)

(** task_builder.hpp:50-138, memory/allocator.hpp:30-117, lines at the cases *)
Definition step (o : op) (s : st) : option st :=
  match o with
  (** redGrapes.hpp 188 sets current_arena; task_builder.hpp 71-72, 81 *)
  | OEmplace t =>
      let a := pick (nxt s t) in
      let s1 := take (route a) s in
      Some (mkSt (upd (nxt s) t (incr (nxt s t))) (mem s1) (mkObj (fresh s) a :: tasks s) (bound s) (fresh s1) (bad s1))
  (** task_space.cpp 55-60; worker_pool.hpp 62-66 asserts the index of the worker *)
  | OFree k =>
      match nth_error (tasks s) k with
      | Some x => let s1 := give (worker_alloc (b_arena x)) (b_id x) s in
                  Some (mkSt (nxt s) (mem s1) (drop k (tasks s)) (bound s) (fresh s) (bad s1 || negb (b_arena x <? n)))
      | None => None
      end
  | OBind a => let s1 := take (route a) s in Some (mkSt (nxt s) (mem s1) (tasks s) (mkObj (fresh s) (route a) :: bound s) (fresh s1) (bad s1))
  (** allocator.cpp 27-30 *)
  | OUnbind k =>
      match nth_error (bound s) k with
      | Some x => let s1 := give (b_arena x) (b_id x) s in Some (mkSt (nxt s) (mem s1) (tasks s) (drop k (bound s)) (fresh s) (bad s1))
      | None => None
      end
  end.

Fixpoint exec (os : list op) (s : st) : option st :=
  match os with [] => Some s | o :: os => match step o s with Some s' => exec os s' | None => None end end.
End Pool.

(** ** wake_all *)
(** conversion to int16_t (scheduler.hpp 30) *)
Definition int16 (x : N) : Z := let y := (x mod 65536)%N in if (y <? 32768)%N then Z.of_N y else (Z.of_N y - 65536)%Z.
(** default_scheduler.cpp 192-200: who is notified, 0 the main thread, w + 1 worker w *)
Definition wake (size : N) (id : Z) : option N :=
  if (id =? 0)%Z then Some 0%N
  else if (0 <? id)%Z && (id <=? Z.of_N size)%Z then Some (Z.to_N id) else None.
(** default_scheduler.cpp 206-207: one iteration, [i] a uint16_t; [None]: the loop ends *)
Definition wake_iter (size : N) (i : N) : option (option N * N) :=
  if (i <=? size)%N then Some (wake size (int16 i), ((i + 1) mod 65536)%N) else None.
(** at most [fuel] iterations; [None]: not finished (default_scheduler.cpp:203-208) *)
Fixpoint wake_loop (fuel : nat) (size i : N) : option (list N) :=
  match fuel with
  | O => None
  | S f => match wake_iter size i with
           | None => Some []
           | Some (w, i') => match wake_loop f size i' with
                             | Some l => Some (match w with Some x => x :: l | None => l end)
                             | None => None end
           end
  end.
(** worker.hpp 78-81 *)
Definition waker_id (w : N) : Z := int16 (w + 1).
