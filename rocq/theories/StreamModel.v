(** Accelerator streams (dispatch/cuda/event_pool.hpp, dispatch/cuda/scheduler.hpp;
    dispatch/cupla is a textual copy).  Definitions only; paths are relative to
    /repo/redGrapes. *)
From Coq Require Import Bool List Arith Lia.
Import ListNotations.

(** Device events are named by numbers; [fresh] is the next handle that
    cudaEventCreate returns.  [recs]: all cudaEventRecord calls in order,
    (event, stream); a recording is named by its position.  [fin]: per stream, how
    many of its recordings the device has finished - a stream works in order.
    [queues]: per stream the queue of (device event, recording of the task whose
    post-event is stored with it), front first (scheduler.hpp:40-42).
    [open]: dispatches between the recording and the push to the queue, innermost
    first.  [busy]: a poll is between [EventPool::free] and [events.pop].
    [told]: recordings whose post-event was notified, in order.
    Not modelled: cudaStreamWaitEvent (it only delays the device), the work
    submitted by the task body, errors of the CUDA calls. *)
Record dev := mkDev {
  fresh : nat; unused : list nat;
  recs : list (nat * nat); fin : nat -> nat;
  queues : nat -> list (nat * nat); open : nat -> list (nat * nat); busy : nat -> bool;
  told : list nat
}.
Definition dev_init : dev := mkDev 0 [] [] (fun _ => 0) (fun _ => []) (fun _ => []) (fun _ => false) [].
Definition fput {A} (f : nat -> A) (i : nat) (x : A) : nat -> A := fun j => if j =? i then x else f j.

(** event_pool.hpp:44-58; the back of the vector is the head of the list *)
Definition ev_alloc (d : dev) : nat * dev :=
  match unused d with
  | [] => (fresh d, mkDev (S (fresh d)) [] (recs d) (fin d) (queues d) (open d) (busy d) (told d))
  | e :: u => (e, mkDev (fresh d) u (recs d) (fin d) (queues d) (open d) (busy d) (told d))
  end.
(** event_pool.hpp:60-64 *)
Definition ev_free (e : nat) (d : dev) : dev :=
  mkDev (fresh d) (e :: unused d) (recs d) (fin d) (queues d) (open d) (busy d) (told d).

(** scheduler.hpp:100-102: record an event behind the work of the task.  The
    pre-event is notified next (line 104): this may dispatch further tasks, on this
    stream too, the mutex is recursive *)
Definition record (s : nat) (d : dev) : dev :=
  let '(e, d) := ev_alloc d in
  mkDev (fresh d) (unused d) (recs d ++ [(e, s)]) (fin d) (queues d)
        (fput (open d) s ((e, length (recs d)) :: open d s)) (busy d) (told d).
(** scheduler.hpp:107: the innermost dispatch pushes *)
Definition push (s : nat) (d : dev) : dev :=
  match open d s with
  | [] => d
  | x :: o => mkDev (fresh d) (unused d) (recs d) (fin d) (fput (queues d) s (queues d s ++ [x]))
                    (fput (open d) s o) (busy d) (told d)
  end.

(** recordings made on stream [s], oldest first (cuda/scheduler.hpp:104) *)
Definition on_stream (s : nat) (d : dev) : list nat :=
  map fst (filter (fun p => snd (snd p) =? s) (combine (seq 0 (length (recs d))) (recs d))).
(** a recording has finished (the device, cuda/scheduler.hpp:65 asks for it) *)
Definition done (r : nat) (d : dev) : bool :=
  match nth_error (recs d) r with
  | Some (_, s) => existsb (Nat.eqb r) (firstn (fin d s) (on_stream s d))
  | None => false
  end.
(** the latest recording of event [e] (cuda/scheduler.hpp:104) *)
Fixpoint latest (e : nat) (l : list (nat * nat)) (i : nat) (r : option nat) : option nat :=
  match l with
  | [] => r
  | (e', _) :: l => latest e l (S i) (if e' =? e then Some i else r)
  end.
(** cudaEventQuery: whether the latest recording has finished; success for an event
    that was never recorded (cuda/scheduler.hpp:65) *)
Definition query (e : nat) (d : dev) : bool :=
  match latest e (recs d) 0 None with Some r => done r d | None => true end.
(** the device finishes the next recording of stream [s] (no code: the device behind cuda/scheduler.hpp:104) *)
Definition progress (s : nat) (d : dev) : dev :=
  if fin d s <? length (on_stream s d)
  then mkDev (fresh d) (unused d) (recs d) (fput (fin d) s (S (fin d s))) (queues d) (open d) (busy d) (told d)
  else d.

(** scheduler.hpp:57-69: up to and including the notification.  The stream's mutex
    keeps a second poll and a poll during a dispatch out (no step).  Until [poll_end]
    other streams, and dispatches on this stream started by the notification, run *)
Definition poll_begin (s : nat) (d : dev) : dev :=
  match busy d s, open d s, queues d s with
  | false, [], (e, r) :: _ =>
      if query e d then
        let d := ev_free e d in
        mkDev (fresh d) (unused d) (recs d) (fin d) (queues d) (open d) (fput (busy d) s true) (told d ++ [r])
      else d
  | _, _, _ => d
  end.
(** scheduler.hpp:71 *)
Definition poll_end (s : nat) (d : dev) : dev :=
  match busy d s, open d s with
  | true, [] => mkDev (fresh d) (unused d) (recs d) (fin d) (fput (queues d) s (tl (queues d s))) (open d)
                      (fput (busy d) s false) (told d)
  | _, _ => d
  end.

Inductive dop := DRecord (s : nat) | DPush (s : nat) | DProgress (s : nat) | DPollBegin (s : nat) | DPollEnd (s : nat).
Definition dstep (d : dev) (o : dop) : dev :=
  match o with
  | DRecord s => record s d | DPush s => push s d | DProgress s => progress s d
  | DPollBegin s => poll_begin s d | DPollEnd s => poll_end s d
  end.
Definition druns (ops : list dop) : dev := fold_left dstep ops dev_init.
