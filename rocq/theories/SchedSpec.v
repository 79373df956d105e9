(** The runtime machine: vocabulary of the specifications. *)
From Coq Require Import Bool List Arith NArith ZArith Lia Sorting.Sorted.
From Verif Require Import AccessModel AccessSpec AccessProof UserModel SchedModel.
Import ListNotations.

Fixpoint spawns (s : list instr) : list nat :=
  match s with
  | [] => []
  | ISpawn c :: s => c :: spawns s
  | _ :: s => spawns s
  end.

(** how often the future of [c] is consumed, event [e] created *)
Fixpoint uses (c : nat) (s : list instr) : nat :=
  match s with
  | [] => 0
  | IDrop c' :: s | IGet c' :: s => (if Nat.eqb c' c then 1 else 0) + uses c s
  | _ :: s => uses c s
  end.
Fixpoint creates (e : nat) (s : list instr) : nat :=
  match s with
  | [] => 0
  | IEvent e' :: s => (if Nat.eqb e' e then 1 else 0) + creates e s
  | _ :: s => creates e s
  end.

Definition is_use (c : nat) (i : instr) : Prop := i = IDrop c \/ i = IGet c.

(** Programs.  Task names reflect the order of submission inside one space and
    are greater than the name of the parent; every spawn names a fresh task; a
    future is consumed at most once, by the body that got it; external events of
    one task have different numbers; one policy type
    per resource (the C++ type system), areas with begin <= end. *)
Record wfa (P : prog) : Prop := {
  wf_parent : forall o c, In (ISpawn c) (body P o) -> parent P c = o;
  wf_lt : forall q c, In (ISpawn c) (body P (Some q)) -> q < c;
  wf_sorted : forall o, StronglySorted lt (spawns (body P o));
  wf_use_once : forall o c, uses c (body P o) <= 1;
  wf_use_after : forall o pre i post c, body P o = pre ++ i :: post -> is_use c i -> In c (spawns pre);
  wf_event : forall t e, creates e (body P (Some t)) <= 1;
  wf_covers : forall t a, In a (u_acc (user P t)) -> In (r_id (a_res a)) (uniq P t);
  wf_type : forall t1 t2 a b, In a (u_acc (user P t1)) -> In b (u_acc (user P t2)) ->
            r_id (a_res a) = r_id (a_res b) -> a_ty a = a_ty b;
  wf_acc : forall t a, In a (u_acc (user P t)) -> ra_wf a = true
}.
(** ... and only the main thread calls [barrier()] *)
Record wfw (P : prog) : Prop := {
  wfw_wfa :> wfa P;
  wf_no_barrier : forall t, ~ In IBarrier (body P (Some t))
}.
(** ... and only the main thread waits for futures *)
Record wf (P : prog) : Prop := {
  wf_wfw :> wfw P;
  wf_no_get : forall t c, ~ In (IGet c) (body P (Some t))
}.

(** ... or bodies may call [barrier()], but not wait for futures *)
Record wfp (P : prog) : Prop := {
  wfp_wfa :> wfa P;
  wfp_no_get : forall t c, ~ In (IGet c) (body P (Some t))
}.
Lemma wf_wfp P : wf P -> wfp P.
Proof. intros W. split; apply W. Qed.
Coercion wf_wfp : wf >-> wfp.

(** A task that names a resource twice in its arguments (C09) may do so only if its
    accesses are compatible with themselves, like reads; otherwise it waits for
    itself (C22). *)
Definition patient (P : prog) (t : nat) : Prop :=
  NoDup (uniq P t) \/ user_is_serial (user P t) (user P t) = false.

(** how often the arguments of the tasks below [N] name resource [r] *)
Definition mentions (P : prog) (N r : nat) : nat :=
  list_sum (map (fun t => count_occ Nat.eq_dec (uniq P t) r) (seq 0 N)).

(** no task emplaces tasks *)
Definition flat (P : prog) : Prop := forall t, spawns (body P (Some t)) = [].

(** Schedules in which the children of a task have collected their dependencies
    before its body ends. *)
Definition end_ok (P : prog) (s : state) (i : nat) : Prop :=
  forall q fs, nth_error (thr s) i = Some (FBody (Some q) [] :: fs) ->
  forall c, parent P c = Some q -> In (LSpawn c) (log s) -> In (LInit c) (log s).

Inductive greach (P : prog) (n : nat) : state -> Prop :=
| greach_init : greach P n (init P n)
| greach_step s i c s' : greach P n s -> end_ok P s i -> step P s i c = Some s' -> greach P n s'.

(** ** Several threads of the user *)
(** Threads outside the runtime that emplace into the root space at the same time, each
    with its own instructions ([mains]; the main thread is one of them), and the
    order [rk r] in which their tasks enter the user list of resource [r]. *)
Record front := mkFront { mains : list (list instr); rk : nat -> nat -> nat }.

(** the instructions some thread of the user, or the body of a task, consists of *)
Definition code (P : prog) (U : front) (o : option nat) (m : list instr) : Prop :=
  match o with None => In m (mains U) | Some t => m = body P (Some t) end.

(** As [wf], but bodies may wait for the tasks they emplaced; [p_main] is what all threads
    do together, in any order. *)
Record wfc (P : prog) (U : front) : Prop := {
  m_main : p_main P = concat (mains U);
  m_rank : forall r p t, rk U r p = rk U r t -> p = t;
  m_parent : forall o c, In (ISpawn c) (body P o) -> parent P c = o;
  m_lt : forall q c, In (ISpawn c) (body P (Some q)) -> q < c;
  m_once : forall o, NoDup (spawns (body P o));
  m_use_once : forall o c, uses c (body P o) <= 1;
  m_use_after : forall o m pre i post c, code P U o m -> m = pre ++ i :: post -> is_use c i -> In c (spawns pre);
  m_event : forall t e, creates e (body P (Some t)) <= 1;
  m_covers : forall t a, In a (u_acc (user P t)) -> In (r_id (a_res a)) (uniq P t);
  m_type : forall t1 t2 a b, In a (u_acc (user P t1)) -> In b (u_acc (user P t2)) ->
           r_id (a_res a) = r_id (a_res b) -> a_ty a = a_ty b;
  m_acc : forall t a, In a (u_acc (user P t)) -> ra_wf a = true
}.

(** ... and no body calls [barrier()] *)
Record wfm (P : prog) (U : front) : Prop := {
  m_wfc :> wfc P U;
  m_no_barrier : forall t, ~ In IBarrier (body P (Some t))
}.

Arguments m_main P {U} _.
Arguments m_rank P {U} _.
Arguments m_parent P {U} _.
Arguments m_lt P {U} _.
Arguments m_once P {U} _.
Arguments m_use_once P {U} _.
Arguments m_use_after P {U} _.
Arguments m_event P {U} _.
Arguments m_no_barrier P {U} _.
Arguments m_covers P {U} _.
Arguments m_type P {U} _.
Arguments m_acc P {U} _.

(** no body waits for a task *)
Definition no_get (P : prog) : Prop := forall t c, ~ In (IGet c) (body P (Some t)).

(** the machine with these threads and [n] workers; everything else as in [init].
    [TaskSpace::submit] (task_space.cpp:70-87) takes no lock that covers the whole loop. *)
Definition init_many (P : prog) (ms : list (list instr)) (n : nat) : state :=
  set_thr (init P n) (map (fun m => [FBody None m]) ms ++ repeat [] n).

(** [p] has entered the user list of [r] as often as it names it (task_space.cpp:81-84) *)
Definition entered (s : state) (p r : nat) : Prop :=
  In (LSpawn p) (log s) /\ forall o rs is, In (FSub o p rs is) (concat (thr s)) -> ~ In r rs.

(** Schedules in which the tasks of a space enter each user list in the order [rk r]. *)
Definition push_ok (P : prog) (U : front) (s : state) (i : nat) : Prop :=
  forall o c r rs is fs, nth_error (thr s) i = Some (FSub o c (r :: rs) is :: fs) ->
  forall p, In p (spawns (body P (parent P c))) -> rk U r p < rk U r c -> In r (uniq P p) -> entered s p r.

Inductive mreach (P : prog) (U : front) (n : nat) : state -> Prop :=
| mreach_init : mreach P U n (init_many P (mains U) n)
| mreach_step s i c s' : mreach P U n s -> end_ok P s i -> push_ok P U s i -> step P s i c = Some s' -> mreach P U n s'.

(** one thread of the user, tasks numbered in the order of submission *)
Definition single (P : prog) : front := mkFront [p_main P] (fun _ t => t).

(** the orders in which the submitted tasks of a space stand in the user lists agree *)
Definition lined (P : prog) (U : front) (s : state) : Prop :=
  exists f : nat -> nat, forall r p t, parent P p = parent P t -> In (LSpawn p) (log s) -> In (LSpawn t) (log s) ->
  In r (uniq P p) -> In r (uniq P t) -> rk U r p < rk U r t -> f p < f t.

(** ... namely with the order given by [h] *)
Definition aligned (U : front) (h : nat -> nat) : Prop := forall r p t, h p < h t -> rk U r p < rk U r t.

(** the same with the number of steps made *)
Inductive gsteps (P : prog) (n : nat) : nat -> state -> Prop :=
| gsteps_init : gsteps P n 0 (init P n)
| gsteps_step k s i c s' : gsteps P n k s -> end_ok P s i -> step P s i c = Some s' -> gsteps P n (S k) s'.

(** ** History predicates *)
(** the body of [t] has been handed to a worker / has ended *)
Definition started (s : state) (t : nat) : Prop := In (LExec t) (log s).
Definition ended (s : state) (t : nat) : Prop := In (LEnd t) (log s).
(** [t] is complete: its post event has been reached *)
Definition completed (s : state) (t : nat) : Prop := In (LReach (EPost t)) (log s).
Definition submitted (s : state) (t : nat) : Prop := In (LSpawn t) (log s).

(** Two tasks conflict: they were given accesses to one resource that permit
    conflicting operations (AccessSpec). *)
Definition tasks_conflict (P : prog) (p t : nat) : Prop :=
  exists a b (T : ty) (va vb : val T) (x y : touch T),
    In a (u_acc (user P p)) /\ In b (u_acc (user P t)) /\
    r_id (a_res a) = r_id (a_res b) /\
    a = mkAcc (a_res a) T va /\ b = mkAcc (a_res b) T vb /\
    permits T va x /\ permits T vb y /\ conflict T x y.

(** [p] was submitted before [t] (histories are newest first) *)
Definition before (s : state) (p t : nat) : Prop :=
  exists l1 l2 l3, log s = l1 ++ LSpawn t :: l2 ++ LSpawn p :: l3.

(** ** User operations (C14) *)
(** two operations on the same resource that conflict *)
Definition acts_conflict (a b : act) : Prop :=
  exists r T (x y : touch T) c d, a = mkAct r T x c /\ b = mkAct r T y d /\ conflict T x y.

(** every body only does what its access list permits *)
Definition behaved (P : prog) : Prop :=
  forall t a, In (IAct a) (body P (Some t)) ->
  exists r (v : val (ac_ty a)), In (mkAcc r (ac_ty a) v) (u_acc (user P t)) /\ r_id r = ac_res a /\
                                permits (ac_ty a) v (ac_touch a).

(** What operations do: [L] is the private state of a task (values it has read),
    [M] the memory. *)
Record semantics := mkSem { L : Type; M : Type; op : act -> L -> M -> L * M }.

(** operations that do not conflict may be exchanged: same memory, same values
    seen *)
Definition sensible (S : semantics) : Prop :=
  forall a b l1 l2 m, ~ acts_conflict a b ->
  let '(la, m1) := op S a l1 m in
  let '(lb, m2) := op S b l2 m1 in
  let '(lb', n1) := op S b l2 m in
  let '(la', n2) := op S a l1 n1 in
  la = la' /\ lb = lb' /\ m2 = n2.

(** running a list of operations, each by some task *)
Fixpoint exec (S : semantics) (l : list (nat * act)) (g : nat -> L S) (m : M S) : (nat -> L S) * M S :=
  match l with
  | [] => (g, m)
  | (t, a) :: l => let '(x, m') := op S a (g t) m in exec S l (upd g t x) m'
  end.

Fixpoint acts_of (b : list instr) : list act :=
  match b with [] => [] | IAct a :: b => a :: acts_of b | _ :: b => acts_of b end.

(** the operations of the tasks in a history, oldest first *)
Fixpoint performed (l : list lev) : list (nat * act) :=
  match l with
  | [] => []
  | LAct (Some t) a :: l => performed l ++ [(t, a)]
  | _ :: l => performed l
  end.

(** the bodies of [ts] one after another *)
Definition one_by_one (P : prog) (ts : list nat) : list (nat * act) :=
  flat_map (fun t => map (pair t) (acts_of (body P (Some t)))) ts.

(** the same memory and, for every task, the same private state *)
Definition same_result {S} (x y : (nat -> L S) * M S) : Prop :=
  (forall t, fst x t = fst y t) /\ snd x = snd y.

(** ** Reasons for which a task may not start yet (C19) *)
(** not yet handed to a worker *)
Definition unstarted (s : state) (t : nat) : nat :=
  if existsb (fun l => match l with LExec x => Nat.eqb x t | _ => false end) (log s) then 0 else 1.
(** a worker is collecting its dependencies *)
Definition collects (t : nat) (f : frame) : bool :=
  match f with
  | FInit c _ | FIter c _ _ _ | FDep1 c _ _ _ _ | FDep2 c _ _ _ _ | FDep3 c _ _ _ _ | FDep4 c _ _ _ _
  | FPar1 c _ | FPar2 c _ | FPar3 c _ => Nat.eqb c t
  | _ => false
  end.
Definition all_frames (s : state) : list frame := concat (thr s).
Definition collecting (s : state) (t : nat) : nat := length (filter (collects t) (all_frames s)).
(** entries for [e] in a follower list *)
Definition entries (e : ev) (l : list ev) : nat := length (filter (fun x => ev_eqb x e) l).
(** edges from tasks whose followers have not been visited yet *)
Definition submissions (l : list lev) : list nat :=
  flat_map (fun x => match x with LSpawn t => [t] | _ => [] end) l.
Definition visited (s : state) (e : ev) : bool :=
  existsb (fun l => match l with LTake x => ev_eqb x e | _ => false end) (log s).
Definition registered (s : state) (t : nat) : nat :=
  list_sum (map (fun p => if visited s (EPost p) then 0 else entries (EPre t) (fol s (EPost p))) (submissions (log s))).
(** a worker has pushed an edge but not counted it yet (event.cpp:74-75) *)
Definition half_made (s : state) (t : nat) : nat :=
  length (filter (fun f => match f with FDep4 c _ _ _ _ => Nat.eqb c t | _ => false end) (all_frames s)).
(** notifications on their way: visited but not called, called but not counted *)
Definition announced (s : state) (e : ev) : nat :=
  list_sum (map (fun f => match f with FFollow _ l => entries e l | _ => 0 end) (all_frames s)).
Definition arriving (s : state) (e : ev) : nat :=
  length (filter (fun f => match f with FNotify x _ => ev_eqb x e | _ => false end) (all_frames s)).
