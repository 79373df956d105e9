(** Task bodies that wait for a future: schedules considered, and the correspondence with the
    machine of [SchedModel], in which a waiting body blocks its thread. *)
From Coq Require Import Bool List Arith NArith ZArith Lia Permutation.
From Verif Require Import AccessModel AccessSpec UserModel SchedModel SchedSpec SchedMany SchedFree PauseModel.
Import ListNotations.

Definition yframes (y : ystate) : list yframe := concat (ythr y).

(** as [end_ok] *)
Definition yend_ok (P : prog) (y : ystate) (i : nat) : Prop :=
  forall q gs, nth_error (ythr y) i = Some (YF (FBody (Some q) []) :: gs) ->
  forall c, parent P c = Some q -> In (LSpawn c) (log (yst y)) -> In (LInit c) (log (yst y)).

(** The edge to a task that is about to be suspended is not visited between its count and [up()]
    (execute.cpp:42-45; C30 shows that two workers run the task at the same time otherwise). *)
Definition visit_ok (y : ystate) (i : nat) : Prop :=
  forall t gs, nth_error (ythr y) i = Some (YNote t :: gs) -> forall c, ~ In (YUp t c true) (yframes y).

(** The notification of a result does not begin between the test and the push of a task that
    waits for it (event.cpp:71-74; C30 shows that the task is never resumed otherwise). *)
Definition take_ok (y : ystate) (i : nat) : Prop :=
  forall c k gs, nth_error (ythr y) i = Some (YF (FNotify3 (ERSet c) 0%Z k) :: gs) -> forall t, ~ In (YPush t c) (yframes y).

(** as [enters] *)
Definition yenters (y : ystate) (i r : nat) : list nat :=
  match nth_error (ythr y) i with
  | Some (YF (FSub _ c (x :: _) _) :: _) => if Nat.eqb x r then [c] else []
  | _ => []
  end.

(** Executions in which no task is visited too early and, if [a], no wake-up is lost: number of
    steps, and for every resource the tasks in the order in which they entered its user list. *)
Inductive yreach (P : prog) (ms : list (list instr)) (n : nat) (a : bool) : nat -> ystate -> (nat -> list nat) -> Prop :=
| yreach_init : yreach P ms n a 0 (yinit P ms n) (fun _ => [])
| yreach_step k y ord i c y' : yreach P ms n a k y ord ->
    yend_ok P y i -> visit_ok y i -> (a = true -> take_ok y i) -> ystep P y i c = Some y' ->
    yreach P ms n a (S k) y' (fun r => ord r ++ yenters y i r).

(** Nothing can happen any more, except steps that the two conditions exclude. *)
Definition ystuck (P : prog) (y : ystate) : Prop :=
  forall i c, visit_ok y i -> take_ok y i -> ystep P y i c = None.

(** ** Correspondence *)
(** the suspended tasks seen as threads that block *)
Definition asleep (p : nat * list instr) : list frame := [FBody (Some (fst p)) (snd p)].
(** what the other machine sees of a frame *)
Definition seen (f : frame) : frame := match f with FFollow (ERSet c) _ => FFollow (ERSet c) [] | _ => f end.
Definition erase1 (g : yframe) : list frame := match g with YF f => [seen f] | _ => [] end.
Definition erase (gs : list yframe) : list frame := flat_map erase1 gs.
Definition busy (l : list (list frame)) : list (list frame) :=
  filter (fun st => match st with [] => false | _ => true end) l.

(** shared state, except what concerns the waiting for results; [D]: the suspended tasks *)
Record sim (D : nat -> bool) (s u : state) : Prop := {
  sm_users : users s = users u;
  sm_lck : lck s = lck u;
  sm_ctr : forall e, match e with EPre t => D t = false | _ => True end -> ctr s e = ctr u e;
  sm_fol : forall e, match e with ERSet _ => fol s e = [] | _ => fol s e = fol u e end;
  sm_emp : emp s = emp u;
  sm_rdy : rdy s = filter (fun t => negb (D t)) (rdy u);
  sm_ext : ext s = ext u;
  sm_cdn : cdn s = cdn u;
  sm_tcn : tcn s = tcn u;
  sm_log : log s = log u
}.

Record corr (y : ystate) (s : state) : Prop := {
  co_sim : sim (away y) s (yst y);
  co_thr : Permutation (busy (thr s)) (busy (map erase (ythr y)) ++ map asleep (ycont y))
}.
