(** Where workers, their threads and their arenas are placed on the machine.
    Definitions only.  Processing units (PUs) are numbered as hwloc numbers them. *)
From Coq Require Import Bool List Arith NArith.
Import ListNotations.

(** [p_allocs]: the PU each arena is bound to; [p_workers]: for each worker the arena that holds
    the WorkerThread object, the arena of its reference Worker::alloc, and its id;
    (dispatch/thread/worker_pool.hpp:103-106, dispatch/thread/worker.cpp:43-52) *)
Record pool := mkPool { p_allocs : list nat; p_workers : list (nat * nat * nat) }.

(** one round of the loop of emplace_workers (dispatch/thread/worker_pool.cpp:41-54): HwlocAlloc of PU
    worker_id % n_pus; the object by an Allocator(pu_id) (memory/allocator.cpp:17-20: modulo
    n_workers), from get_alloc, which asserts the index (dispatch/thread/worker_pool.hpp:56-60).
    None: the assertion fails, or a remainder by 0. *)
Definition emplace_one (n_workers n_pus worker_id : nat) (s : pool) : option pool :=
  if (n_pus =? 0) || (n_workers =? 0) then None else
  let pu_id := worker_id mod n_pus in
  let allocs := p_allocs s ++ [pu_id] in
  if (pu_id mod n_workers <? length allocs) && (pu_id <? length allocs)
  then Some (mkPool allocs (p_workers s ++ [(pu_id mod n_workers, pu_id, worker_id)]))
  else None.
(** the loop of emplace_workers (dispatch/thread/worker_pool.cpp:41-54), [k] rounds *)
Fixpoint emplace_upto (n_workers n_pus k : nat) : option pool :=
  match k with
  | O => Some (mkPool [] [])
  | S k => match emplace_upto n_workers n_pus k with Some s => emplace_one n_workers n_pus k s | None => None end
  end.
Definition emplace_workers (n_workers n_pus : nat) : option pool := emplace_upto n_workers n_pus n_workers.
(** dispatch/thread/worker_pool.cpp:34-35 *)
Definition warns (n_workers n_pus : nat) : bool := n_pus <? n_workers.
(** WorkerThread::cpubind and membind (dispatch/thread/worker.cpp:105-119, 120-139): the PU of the thread *)
Definition cpubind (n_pus id : nat) : nat := id mod n_pus.

(** pin_cpu and unpin_cpu (dispatch/thread/cpuset.cpp:18-40; called nowhere): the CPUs the thread may
    run on.  CPU_SETSIZE is 1024. *)
Definition CPU_SETSIZE : N := 1024.
Definition pin_cpu (cpuidx : N) : N -> bool := fun c => N.eqb c (cpuidx mod CPU_SETSIZE).
Definition unpin_cpu : N -> bool := fun c => N.ltb c 64.
