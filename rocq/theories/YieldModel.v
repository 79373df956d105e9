(** C30, C31: suspending a task on an event and resuming it.

    redGrapes/dispatch/thread/execute.cpp 27-51 (execute_task), task/task_base.hpp 37-93
    (operator(), yield), redGrapes.cpp 157-170 (Context::yield), task/property/graph.hpp 131-135
    (sg_pause), scheduler/event.cpp 67-77 (add_follower), 87-93 (notify_followers), 104-178 (notify).

    Any number of tasks, events and workers. Each step is one atomic access.

    Simplifications: the task starts ready (its first activation is the subject of C01..C08); the
    scheduler's queues are a multiset [rdy]; the wake-ups and [waker_id] are left out (C20..C23); the
    boost continuation is the list of events the body still has to wait for; a body is that list (what
    else it does is irrelevant here); the counters are unbounded (they stay below 4, see
    [C30_counter_bounded]); a decrement at 0 stays at 0 (it does not happen, same theorem); pre-events
    have no followers (nothing in the code adds one). *)
From Coq Require Import List Arith Bool.
Import ListNotations.

Definition upd {A} (f : nat -> A) (k : nat) (v : A) : nat -> A := fun x => if Nat.eqb x k then v else f x.

(** What a worker does with a task [t]; execute.cpp line in the comment (execute.cpp:27-51) *)
Inductive wpc :=
| WFree
| WStart (t : nat)          (* 34: get_pre_event().notify() *)
| WRun (t : nat)            (* 37: task(): the body runs *)
| WStore (t e : nat)        (* 42, graph.hpp 133: pre_event.state = 1 *)
| WCheck (t e : nat)        (* event.cpp 71: is_reached() *)
| WPush (t e : nat)         (* event.cpp 74: followers.push *)
| WInc (t e : nat)          (* event.cpp 75: follower->state++ *)
| WUp (t e : nat) (p : bool) (* 44: pre_event.up(); p: the edge was pushed *)
| WNote (t e : nat)         (* 45: get_pre_event().notify() *)
| WPost (t : nat).          (* 48: get_post_event().notify() *)
(** The progress of the notification of an event, event.cpp 90-91, 165: not reached; reached, the
    iteration not begun; entries below [i] to be visited; over. *)
Inductive vpc := VWait | VDue | VWalk (i : nat) | VDone.

Record st := mkS {
  wp : nat -> wpc;
  pre : nat -> nat;             (* pre_event.state *)
  est : nat -> nat;             (* state of the events waited for *)
  fol : nat -> list nat;        (* tasks whose pre-events are in the follower list of an event *)
  vp : nat -> vpc;
  rdy : nat -> nat;             (* how often the task is in the ready queues *)
  todo : nat -> list nat;       (* the rest of the body *)
  ev : nat -> option nat;       (* TaskBase::event, task_base.hpp 95 *)
  fin : nat -> nat;             (* notifications of the post-event *)
  (* observations *)
  acts : nat -> nat;            (* activations, the first included *)
  pauses : nat -> nat;          (* calls of sg_pause *)
  last : nat -> option nat;     (* event of the last sg_pause *)
  runs : nat -> nat             (* how often the body came to its end *)
}.

Section Yield.
Variables (body : nat -> list nat) (ss : nat -> bool) (est0 : nat -> nat).
(** Every task is ready and activated; [ss t]: enable_stack_switching, task_base.hpp 25, 39. *)
Definition init : st := mkS (fun _ => WFree) (fun _ => 1) est0 (fun _ => []) (fun e => if est0 e =? 0 then VDone else VWait)
  (fun _ => 1) body (fun _ => None) (fun _ => 0) (fun _ => 1) (fun _ => 0) (fun _ => None) (fun _ => 0).

Definition set_w s w p := mkS (upd (wp s) w p) (pre s) (est s) (fol s) (vp s) (rdy s) (todo s) (ev s) (fin s) (acts s) (pauses s) (last s) (runs s).
Definition set_pre s t n := mkS (wp s) (upd (pre s) t n) (est s) (fol s) (vp s) (rdy s) (todo s) (ev s) (fin s) (acts s) (pauses s) (last s) (runs s).
Definition set_v s e v := mkS (wp s) (pre s) (est s) (fol s) (upd (vp s) e v) (rdy s) (todo s) (ev s) (fin s) (acts s) (pauses s) (last s) (runs s).
Definition set_todo s t l := mkS (wp s) (pre s) (est s) (fol s) (vp s) (rdy s) (upd (todo s) t l) (ev s) (fin s) (acts s) (pauses s) (last s) (runs s).
Definition set_ev s t o := mkS (wp s) (pre s) (est s) (fol s) (vp s) (rdy s) (todo s) (upd (ev s) t o) (fin s) (acts s) (pauses s) (last s) (runs s).
(** EventPtr::notify on a pre-event, event.cpp 108-109, 144-148: decrement, activate at 1. *)
Definition notify (s : st) (t : nat) : st :=
  let p := pre s t - 1 in
  let s := set_pre s t p in
  if p =? 1 then mkS (wp s) (pre s) (est s) (fol s) (vp s) (upd (rdy s) t (S (rdy s t))) (todo s) (ev s) (fin s) (upd (acts s) t (S (acts s t))) (pauses s) (last s) (runs s) else s.

(** One statement of the body, seen from the worker [w]. redGrapes.cpp 160-163: while the event is
    not reached, yield. With stack switching (task_base.hpp 75, 79-87) the continuation is left and
    [event] returned; without (75, 91) [event] is set, an error is logged, the loop goes on.
    The end of the body: with stack switching [event] is reset (51); without it is returned as it is
    (66-69) and the next call runs the body from its beginning. *)
Definition body_step (s : st) (w t : nat) : st :=
  match todo s t with
  | e :: es => if est s e =? 0 then set_todo s t es
               else if ss t then set_w (set_ev s t (Some e)) w (WStore t e) else set_ev s t (Some e)
  | [] => let s := mkS (wp s) (pre s) (est s) (fol s) (vp s) (rdy s) (todo s) (ev s) (fin s) (acts s) (pauses s) (last s) (upd (runs s) t (S (runs s t))) in
          if ss t then set_w (set_ev s t None) w (WPost t)
          else match ev s t with Some e => set_w (set_todo s t (body t)) w (WStore t e) | None => set_w s w (WPost t) end
  end.

(** Labels: what the step does, for the discipline below (no code of their own (event.cpp:67-178)) *)
Inductive lab := LEnv | LBegin (e : nat) | LVisit (e t : nat) | LWork.

(** execute.cpp:27-51, event.cpp:67-178, task_base.hpp:37-93, graph.hpp:131-135 *)
Inductive step (s : st) : lab -> st -> Prop :=
(* somebody adds an edge in front of an unreached event, or removes one; event.cpp 59, 108 *)
| s_up : forall e, est s e <> 0 -> step s LEnv (mkS (wp s) (pre s) (upd (est s) e (S (est s e))) (fol s) (vp s) (rdy s) (todo s) (ev s) (fin s) (acts s) (pauses s) (last s) (runs s))
| s_dn : forall e k, est s e = S k ->
    step s LEnv (mkS (wp s) (pre s) (upd (est s) e k) (fol s) (if k =? 0 then upd (vp s) e VDue else vp s) (rdy s) (todo s) (ev s) (fin s) (acts s) (pauses s) (last s) (runs s))
(* event.cpp 91: followers.rbegin() *)
| s_begin : forall e, vp s e = VDue -> step s (LBegin e) (set_v s e (VWalk (length (fol s e))))
| s_visit : forall e i t, vp s e = VWalk (S i) -> nth_error (fol s e) i = Some t -> step s (LVisit e t) (notify (set_v s e (VWalk i)) t)
| s_end : forall e, vp s e = VWalk 0 -> step s LEnv (set_v s e VDone)
(* worker.cpp 138-155: a task is taken out of a queue *)
| s_take : forall w t k, wp s w = WFree -> rdy s t = S k ->
    step s LWork (set_w (mkS (wp s) (pre s) (est s) (fol s) (vp s) (upd (rdy s) t k) (todo s) (ev s) (fin s) (acts s) (pauses s) (last s) (runs s)) w (WStart t))
| s_start : forall w t, wp s w = WStart t -> step s LWork (set_w (notify s t) w (WRun t))
| s_body : forall w t, wp s w = WRun t -> step s LWork (body_step s w t)
| s_store : forall w t e, wp s w = WStore t e ->
    step s LWork (set_w (mkS (wp s) (upd (pre s) t 1) (est s) (fol s) (vp s) (rdy s) (todo s) (ev s) (fin s) (acts s) (upd (pauses s) t (S (pauses s t))) (upd (last s) t (Some e)) (runs s)) w (WCheck t e))
| s_check : forall w t e, wp s w = WCheck t e -> step s LWork (set_w s w (if est s e =? 0 then WUp t e false else WPush t e))
| s_push : forall w t e, wp s w = WPush t e ->
    step s LWork (set_w (mkS (wp s) (pre s) (est s) (upd (fol s) e (fol s e ++ [t])) (vp s) (rdy s) (todo s) (ev s) (fin s) (acts s) (pauses s) (last s) (runs s)) w (WInc t e))
| s_inc : forall w t e, wp s w = WInc t e -> step s LWork (set_w (set_pre s t (S (pre s t))) w (WUp t e true))
| s_upp : forall w t e p, wp s w = WUp t e p -> step s LWork (set_w (set_pre s t (S (pre s t))) w (WNote t e))
| s_note : forall w t e, wp s w = WNote t e -> step s LWork (set_w (notify s t) w WFree)
| s_post : forall w t, wp s w = WPost t ->
    step s LWork (set_w (mkS (wp s) (pre s) (est s) (fol s) (vp s) (rdy s) (todo s) (ev s) (upd (fin s) t (S (fin s t))) (acts s) (pauses s) (last s) (runs s)) w WFree).

(** Runs all of whose steps satisfy [ok] (of execute.cpp:27-51) *)
Inductive reach (ok : st -> lab -> Prop) : st -> Prop :=
| r_init : reach ok init
| r_step : forall s l s', reach ok s -> ok s l -> step s l s' -> reach ok s'.
(** The notification of an event does not overlap a pause on it: its iteration does not begin
    between the test and the push of the edge, the edge is not visited between its count and [up()] (event.cpp:67-178) *)
Definition calm (s : st) (l : lab) : Prop :=
  match l with
  | LBegin e => forall w t, wp s w <> WPush t e
  | LVisit e t => forall w, wp s w <> WUp t e true
  | _ => True
  end.
(** no condition (the other reading of event.cpp:67-178) *)
Definition any (_ : st) (_ : lab) : Prop := True.
End Yield.
