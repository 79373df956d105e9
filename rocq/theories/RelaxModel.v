(** The spin lock and the condition variable with the memory orders of the code.
    Model.  Sources (under /repo/redGrapes): sync/spinlock.hpp, sync/cv.cpp.

    Weak memory as in the usual operational reading of C++ release/acquire: a
    location is the list of all values ever stored, oldest first (its
    modification order); a thread may read any value not older than the newest
    it knows of (its view); a release store attaches the view of the thread, an
    acquire load that reads it joins that view; a successful read-modify-write
    reads the newest value and passes on the view attached to it; a failed
    compare-exchange is a plain load.  Stores go to the end of the list. *)
From Coq Require Import Bool List Arith Lia.
Import ListNotations.

(** updates of a map; views of the C++ memory model, no code of spinlock.hpp:28-53 or cv.cpp:15-53 *)
Definition upd {A} (f : nat -> A) (i : nat) (x : A) : nat -> A := fun j => if j =? i then x else f j.
Definition view := nat -> nat.
Definition join (a b : view) : view := fun x => Nat.max (a x) (b x).

(** ** Spin lock protecting ordinary memory *)

(** [Out]: does not use the lock; [Cas]: at the compare_exchange_weak
    (spinlock.hpp 34); [Spin]: at the load of line 38; [In]: lock() returned *)
Inductive spc := Out | Cas | Spin | In_.

(** [lk]: values of the lock with attached views; [data x]: values of the ordinary
    variable [x]; [tv i]: what thread [i] knows of the ordinary variables (spinlock.hpp:15-19) *)
Record slock := mkL { lk : list (bool * view); data : nat -> list nat; tv : nat -> view; pcs : nat -> spc }.

(** spinlock.hpp 20-24; every variable holds 0 *)
Definition sl_init : slock := mkL [(false, fun _ => 0)] (fun _ => [0]) (fun _ _ => 0) (fun _ => Out).
Definition newest {A} (d : A) (l : list A) : A := last l d.
Definition top (s : slock) : bool * view := newest (false, fun _ => 0) (lk s).

Inductive slab := LTau | LRead (i x v : nat) | LWrite (i x v : nat).
Inductive sl_step : slock -> slab -> slock -> Prop :=
| l_call s i : pcs s i = Out -> sl_step s LTau (mkL (lk s) (data s) (tv s) (upd (pcs s) i Cas))
(** spinlock.hpp 34, memory_order_acquire *)
| l_cas s i : pcs s i = Cas -> fst (top s) = false ->
    sl_step s LTau (mkL (lk s ++ [(true, snd (top s))]) (data s) (upd (tv s) i (join (tv s i) (snd (top s)))) (upd (pcs s) i In_))
(** it fails: another value, an old value, or spuriously *)
| l_fail s i : pcs s i = Cas -> sl_step s LTau (mkL (lk s) (data s) (tv s) (upd (pcs s) i Spin))
(** 38, memory_order_relaxed: may read old values, learns nothing *)
| l_spin s i b v : pcs s i = Spin -> In (b, v) (lk s) ->
    sl_step s LTau (mkL (lk s) (data s) (tv s) (upd (pcs s) i (if b then Spin else Cas)))
(** 49, memory_order_release *)
| l_unlock s i : pcs s i = In_ -> sl_step s LTau (mkL (lk s ++ [(false, tv s i)]) (data s) (tv s) (upd (pcs s) i Out))
(** ordinary accesses, inside only *)
| l_read s i x k v : pcs s i = In_ -> tv s i x <= k -> nth_error (data s x) k = Some v ->
    sl_step s (LRead i x v) (mkL (lk s) (data s) (upd (tv s) i (upd (tv s i) x k)) (pcs s))
| l_write s i x v : pcs s i = In_ ->
    sl_step s (LWrite i x v) (mkL (lk s) (upd (data s) x (data s x ++ [v])) (upd (tv s) i (upd (tv s i) x (length (data s x)))) (pcs s)).

(** runs with their ordinary accesses, latest first (spinlock.hpp:28-53) *)
Inductive sl_reach : slock -> list slab -> Prop :=
| l0 : sl_reach sl_init []
| l1 : forall s t a s', sl_reach s t -> sl_step s a s' -> sl_reach s' (a :: t).

(** ** Condition variable of a worker *)

(** the worker (worker.cpp 138-155, cv.cpp 19-38): [WGather] takes tasks until the
    queue is empty; [WSpin] cv.cpp 22, [WLock] 31, [WPred] 32 with the mutex held,
    [WBlock] about to release it and sleep, [WAsleep], [WRelock] woken, [WUnlock]
    33, [WReset] 37.  The load of line 29 is left out: it repeats that of line 22
    (spinning any number of times is allowed). *)
Inductive wpc := WGather | WSpin | WLock | WPred | WBlock | WAsleep | WRelock | WUnlock | WReset.
(** a notifying thread (worker.hpp 89-102, cv.cpp 40-53) *)
Inductive npc := NPush | NCas | NLock | NNotify | NUnlock | NDone.

(** [sw]: all values of should_wait; [wv], [mv]: newest of them known to the
    worker / attached to the mutex; [q]: tasks in the queue (a linearizable
    queue; an unsuccessful pop synchronizes with nobody); [ns]: the notifying
    threads with the newest value of should_wait they know (cv.hpp:23-39, cv.cpp:15-53) *)
Record cv := mkC { sw : list bool; wv : nat; mv : nat; mtx : bool; q : nat; pc : wpc; ns : list (npc * nat) }.

(** cv.cpp 15-17 *)
Definition cv_init : cv := mkC [true] 0 0 false 0 WSpin [].
Definition flag (s : cv) : bool := newest true (sw s).

Fixpoint put {A} (l : list A) (i : nat) (x : A) : list A :=
  match l, i with
  | [], _ => []
  | _ :: l, O => x :: l
  | y :: l, S i => y :: put l i x
  end.

(** [LStale]: a compare_exchange failed on an old value although the newest one
    is the expected one; [LNew]: a thread begins to notify; [LSpurious]: spurious wake-up (cv.cpp:40-53) *)
Inductive clab := LStep | LStale | LNew | LSpurious.
Definition wset (s : cv) (v : nat) (p : wpc) : cv := mkC (sw s) v (mv s) (mtx s) (q s) p (ns s).

(** the waiting thread: cv.cpp:19-38, worker.cpp:138-201 *)
Inductive wstep : cv -> cv -> Prop :=
(** worker.cpp 148, 157-201: with a task in the queue it is taken and executed *)
| w_take s k : pc s = WGather -> q s = S k -> wstep s (mkC (sw s) (wv s) (mv s) (mtx s) k WGather (ns s))
| w_empty s : pc s = WGather -> q s = 0 -> wstep s (wset s (wv s) WSpin)
(** cv.cpp 22, memory_order_acquire *)
| w_spin s k b : pc s = WSpin -> wv s <= k -> nth_error (sw s) k = Some b -> wstep s (wset s k (if b then WLock else WReset))
(** 31 *)
| w_lock s : pc s = WLock \/ pc s = WRelock -> mtx s = false ->
    wstep s (mkC (sw s) (Nat.max (wv s) (mv s)) (mv s) true (q s) WPred (ns s))
(** 32, memory_order_acquire *)
| w_pred s k b : pc s = WPred -> wv s <= k -> nth_error (sw s) k = Some b -> wstep s (wset s k (if b then WBlock else WUnlock))
| w_block s : pc s = WBlock -> wstep s (mkC (sw s) (wv s) (Nat.max (mv s) (wv s)) false (q s) WAsleep (ns s))
| w_unlock s : pc s = WUnlock -> wstep s (mkC (sw s) (wv s) (Nat.max (mv s) (wv s)) false (q s) WSpin (ns s))
(** 37 *)
| w_reset s : pc s = WReset -> wstep s (mkC (sw s ++ [true]) (length (sw s)) (mv s) (mtx s) (q s) WGather (ns s)).

Definition nset (s : cv) (i : nat) (p : npc) (v : nat) : cv := mkC (sw s) (wv s) (mv s) (mtx s) (q s) (pc s) (put (ns s) i (p, v)).
Inductive nstep : cv -> clab -> cv -> Prop :=
(** worker.hpp 91, 100; the same for the stop flag, worker.cpp 62 *)
| n_push s i v : nth_error (ns s) i = Some (NPush, v) ->
    nstep s LStep (mkC (sw s) (wv s) (mv s) (mtx s) (S (q s)) (pc s) (put (ns s) i (NCas, v)))
(** cv.cpp 43, memory_order_release: succeeds *)
| n_cas s i v : nth_error (ns s) i = Some (NCas, v) -> flag s = true ->
    nstep s LStep (mkC (sw s ++ [false]) (wv s) (mv s) (mtx s) (q s) (pc s) (put (ns s) i (NLock, length (sw s))))
(** fails: a load (memory_order_relaxed) that reads false *)
| n_fail s i v k : nth_error (ns s) i = Some (NCas, v) -> v <= k -> nth_error (sw s) k = Some false ->
    nstep s (if flag s then LStale else LStep) (nset s i NLock k)
(** 48 *)
| n_lock s i v : nth_error (ns s) i = Some (NLock, v) -> mtx s = false ->
    nstep s LStep (mkC (sw s) (wv s) (mv s) true (q s) (pc s) (put (ns s) i (NNotify, Nat.max v (mv s))))
(** 49 *)
| n_notify s i v : nth_error (ns s) i = Some (NNotify, v) ->
    nstep s LStep (mkC (sw s) (wv s) (mv s) (mtx s) (q s) (match pc s with WAsleep => WRelock | p => p end) (put (ns s) i (NUnlock, v)))
(** 50 *)
| n_unlock s i v : nth_error (ns s) i = Some (NUnlock, v) ->
    nstep s LStep (mkC (sw s) (wv s) (Nat.max (mv s) v) false (q s) (pc s) (put (ns s) i (NDone, v))).

Inductive step : cv -> clab -> cv -> Prop :=
| s_worker s s' : wstep s s' -> step s LStep s'
| s_note s l s' : nstep s l s' -> step s l s'
(** a thread with whatever it knows calls emplace_task / activate_task / stop *)
| s_new s v : v < length (sw s) -> step s LNew (mkC (sw s) (wv s) (mv s) (mtx s) (q s) (pc s) (ns s ++ [(NPush, v)]))
| s_spurious s : pc s = WAsleep -> step s LSpurious (wset s (wv s) WRelock).

Section Runs.
Variable ok : clab -> Prop.
(** executions whose labels are allowed, cv.cpp:15-53 *)
Inductive reach : cv -> Prop :=
| r_init : reach cv_init
| r_step : forall s l s', reach s -> step s l s' -> ok l -> reach s'.
Inductive leads : cv -> cv -> Prop :=
| d_refl : forall s, leads s s
| d_step : forall s l s1 s2, step s l s1 -> ok l -> leads s1 s2 -> leads s s2.
End Runs.

(** every compare_exchange_strong that fails has read the newest value (cv.cpp:43) *)
Definition fresh (l : clab) : Prop := l <> LStale.
Definition any (l : clab) : Prop := True.
(** no thread can move (cv.cpp:19-53) *)
Definition quiet (s : cv) : Prop := (forall s', ~ wstep s s') /\ forall l s', ~ nstep s l s'.
