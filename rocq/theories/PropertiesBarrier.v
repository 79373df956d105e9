(** [barrier()] called by a task (C68).

    [Context::barrier] (redGrapes.cpp:136-142) is documented to wait for the tasks of the current
    task space; it waits for the root space, in which the root of the calling task is counted
    until it is complete.  So the call always goes on to [idle()] and never returns: not the one
    in the task, nor any other after its submission, and nothing that waits for the task goes on.
    (On the threads of workers [Context::idle] is empty, worker.cpp:84-88, and calling it throws
    [std::bad_function_call]; nobody in the library catches it.  The machine stops the thread at
    the call; what follows std::terminate, or a handler in the body, is not modelled.)  Everything that does not
    need progress holds as without such calls: see [wfp] in C13-C26, C29, C51, C58-C63, C65. *)
From Coq Require Import Bool List Arith NArith ZArith Lia Permutation Sorting.Sorted.
From Verif Require Import AccessModel AccessSpec UserModel SchedModel SchedSpec SchedBase SchedInv1 SchedInv2 SchedInv3 SchedInv8 SchedFront SchedThm SchedBarrier SchedLive SchedEx SchedMany SchedValue SchedFree PoolModel PoolProof PauseModel PauseSpec PropertiesSched PropertiesPool PropertiesMany PropertiesPause PropertiesJoin.
Import ListNotations.
Open Scope nat_scope.

(** the body of [t] calls [barrier()] *)
Definition calls_barrier (P : prog) (t : nat) : Prop := In IBarrier (t_body (p_task P t)).

(** ** One thread of the user *)
(** the test of [barrier()] in a task finds the root space not empty: [idle()] is called *)
Theorem C68_barrier_in_a_task_calls_idle :
  forall P n s t is, wfp P -> p_wrap P = false -> runs P n s -> In (FBody (Some t) (IBarrier :: is)) (all_frames s) ->
  tcn s None <> 0%Z.
Proof.
  intros P n s t is W NW R F. apply (runs_greach P n s W NW) in R. apply (greach_mreach P W NW) in R.
  exact (running_counted P W NW n s t _ R F).
Qed.
Theorem C68_a_task_that_calls_barrier_never_ends :
  forall P n s t, wfp P -> p_wrap P = false -> runs P n s -> calls_barrier P t -> ~ ended s t /\ ~ completed s t /\ ~ In (LFree t) (log s).
Proof.
  intros P n s t W NW R B. apply (runs_greach P n s W NW) in R. apply (greach_mreach P W NW) in R.
  destruct (mr_barrier_never_ends P W NW n s t R B) as [A C]. split; [exact A|]. split; [exact C|].
  intros F. apply C. exact (proj1 (proj2 (proj2 (mr_free_late P W NW n s t R F)))).
Qed.
(** what waits for it: the tasks it is nested in, later tasks that conflict with it, the reader
    of its future, and every call of [barrier()] after its submission *)
Theorem C68_nothing_that_waits_for_it_goes_on :
  forall P n s t, wfp P -> p_wrap P = false -> runs P n s -> calls_barrier P t -> submitted s t ->
  (forall q, descendant P t q -> ~ completed s q) /\
  (forall u, parent P t = parent P u -> tasks_conflict P t u -> before s t u -> ~ started s u) /\
  ~ In (LGet t) (log s) /\
  (forall l1 l2, log s = l1 ++ LBarrier :: l2 -> ~ In (LSpawn t) l2).
Proof.
  intros P n s t W NW R B S. assert (G := runs_greach P n s W NW R).
  destruct (C68_a_task_that_calls_barrier_never_ends P n s t W NW R B) as (NE & NC & _).
  split; [|split; [|split]].
  - intros q D. induction D as [q E|b q D IH E]; intros Cq.
    + apply NC. exact (SchedThm.children_first P W NW n s t q G Cq E S).
    + apply IH. apply (SchedThm.children_first P W NW n s b q G Cq E). clear IH E Cq q.
      induction D as [q E|b' q D IH E]; [exact (parent_submitted P W NW n s t q G E S)|exact (parent_submitted P W NW n s b' q G E IH)].
  - intros u E C Bf St. exact (NE (proj2 (C13_conflicting_tasks_run_in_submission_order P n s t u W NW R E C Bf St))).
  - intros H. apply in_split in H as (l1 & l2 & E). destruct (get_waits P W NW n s t l1 l2 G E) as (s0 & _ & L & En & _).
    apply NE. unfold ended. rewrite E. apply in_or_app. right. right. unfold ended in En. now rewrite <- L.
  - intros l1 l2. apply (greach_mreach P W NW) in G. exact (mr_no_barrier_returns P W NW n s t l1 l2 G B).
Qed.

(** ** In the pool of workers *)
Theorem C68_in_the_pool :
  forall P n m g k c t, wfp P -> p_wrap P = false -> pruns P n m g k c -> calls_barrier P t ->
  ~ ended (core c) t /\ forall l1 l2, log (core c) = l1 ++ LBarrier :: l2 -> ~ In (LSpawn t) l2.
Proof.
  intros P n m g k c t W NW H B. destruct (pruns_greach P n m g k c W NW H) as (_ & a & s & G & (e & r & -> & _ & _) & _).
  apply gsteps_greach in G. apply (greach_mreach P W NW) in G. split.
  - exact (proj1 (mr_barrier_never_ends P W NW (n + m) _ t G B)).
  - intros l1 l2. exact (mr_no_barrier_returns P W NW (n + m) _ t l1 l2 G B).
Qed.

(** ** Several threads of the user, bodies that wait for futures *)
Theorem C68_with_several_threads_and_waiting_bodies :
  forall P ms n a k y ord t, wf_any P ms -> p_wrap P = false -> (forall q, NoDup (uniq P q)) -> yreach P ms n a k y ord ->
  calls_barrier P t -> ~ ended (yst y) t /\ forall l1 l2, log (yst y) = l1 ++ LBarrier :: l2 -> ~ In (LSpawn t) l2.
Proof.
  intros P ms n a k y ord t W NW ND R B.
  destruct (C63_as_if_waiting_bodies_had_threads_partial P ms n a k y ord W NW ND R) as (n' & k' & s & ord' & R' & _ & L & _).
  unfold ended. rewrite <- L. assert (MR := freach_mreach P ms W NW n' ND k' s ord' R'). split.
  - exact (proj1 (mr_barrier_never_ends P (wff P ms W ord') NW n' s t MR B)).
  - intros l1 l2. exact (mr_no_barrier_returns P (wff P ms W ord') NW n' s t l1 l2 MR B).
Qed.

(** ** Programs with such calls, by computation *)
Definition no_bar (i : instr) : bool := match i with IBarrier => false | _ => true end.
Definition opened (d : tdef) : tdef := mkTdef (t_parent d) (t_user d) (filter no_bar (t_body d)).
Lemma open_spawns m : spawns (filter no_bar m) = spawns m.
Proof. induction m as [|[] m IH]; simpl; auto. now rewrite IH. Qed.
Lemma open_uses c m : uses c (filter no_bar m) = uses c m.
Proof. induction m as [|[] m IH]; simpl; auto. Qed.
Lemma open_creates c m : creates c (filter no_bar m) = creates c m.
Proof. induction m as [|[] m IH]; simpl; auto. Qed.
Lemma open_wfa main ds w : wfa (lprog main (map opened ds) w) -> wfa (lprog main ds w).
Proof.
  intros W.
  assert (TK : forall t, p_task (lprog main (map opened ds) w) t = opened (p_task (lprog main ds w) t)).
  { intros t. simpl. change no_task with (opened no_task) at 1. apply map_nth. }
  assert (BT : forall t, body (lprog main (map opened ds) w) (Some t) = filter no_bar (body (lprog main ds w) (Some t))).
  { intros t. unfold body. now rewrite TK. }
  assert (US : forall t, user (lprog main (map opened ds) w) t = user (lprog main ds w) t) by (intros; unfold user; now rewrite TK).
  assert (UQ : forall t, uniq (lprog main (map opened ds) w) t = uniq (lprog main ds w) t) by (intros; unfold uniq; now rewrite US).
  assert (SP : forall o, spawns (body (lprog main (map opened ds) w) o) = spawns (body (lprog main ds w) o)).
  { intros [t|]; [|reflexivity]. rewrite BT. apply open_spawns. }
  assert (IS : forall o c, In (ISpawn c) (body (lprog main ds w) o) -> In (ISpawn c) (body (lprog main (map opened ds) w) o)).
  { intros o c Hc. apply spawns_In. rewrite SP. now apply spawns_In. }
  split.
  - intros o c Hc. rewrite <- (wf_parent _ W o c (IS o c Hc)). unfold parent. now rewrite TK.
  - intros q c Hc. exact (wf_lt _ W q c (IS (Some q) c Hc)).
  - intros o. rewrite <- SP. exact (wf_sorted _ W o).
  - intros [t|] c; [|exact (wf_use_once _ W None c)]. rewrite <- open_uses, <- BT. exact (wf_use_once _ W (Some t) c).
  - intros [t|] pre i post c E Hu; [|exact (wf_use_after _ W None pre i post c E Hu)].
    rewrite <- open_spawns. apply (wf_use_after _ W (Some t) (filter no_bar pre) i (filter no_bar post) c); auto.
    rewrite BT, E, filter_app. simpl. destruct Hu as [-> | ->]; reflexivity.
  - intros t e. rewrite <- open_creates, <- BT. exact (wf_event _ W t e).
  - intros t b Hb. rewrite <- UQ. apply (wf_covers _ W t). now rewrite US.
  - intros t1 t2 b1 b2 H1 H2. apply (wf_type _ W t1 t2 b1 b2); now rewrite US.
  - intros t b Hb. apply (wf_acc _ W t). now rewrite US.
Qed.
Lemma open_ok main ds w : wfb main (map opened ds) = true -> wfp (lprog main ds w).
Proof.
  intros H. assert (W := wfb_ok _ _ w H). split; [apply open_wfa; apply W|].
  intros t c Hc. apply (wf_no_get _ W t c).
  assert (TK : p_task (lprog main (map opened ds) w) t = opened (p_task (lprog main ds w) t)).
  { simpl. change no_task with (opened no_task) at 1. apply map_nth. }
  unfold body. rewrite TK. apply filter_In. auto.
Qed.
Lemma open_any ms ds w : wfb (concat ms) (map hushed (map opened ds)) = true -> forallb (use_after []) ms = true ->
  wf_any (lprog (concat ms) ds w) ms.
Proof.
  intros H U. assert (W := open_wfa _ _ w (wfb_wfw _ _ w H)). split; try apply W; auto.
  - intros o. apply sorted_lt_NoDup, W.
  - intros o m pre i post c C Em Hu. destruct o as [t|]; simpl in C.
    + apply (wf_use_after _ W (Some t) pre i post c); auto. simpl. now rewrite <- C.
    + rewrite forallb_forall in U. specialize (U m C). exact (use_after_ok m [] U pre i post c Em Hu).
Qed.

(** ** Example: task 0 sets cell 0, emplaces 1, which adds to it, calls [barrier()] and means to
    read the sum; task 2 of the main thread reads it, too; task 3 has nothing to do with them. *)
Definition bar_tasks : list tdef :=
  [mkTdef None (declare 0 [acc 0 MWrite] []) [cell 0 KWrite 5%Z; ISpawn 1; IDrop 1; IBarrier; cell 0 KRead 0%Z];
   mkTdef (Some 0) (declare 1 [acc 0 MWrite] []) [cell 0 KAdd 2%Z];
   mkTdef None (declare 0 [acc 0 MRead] []) [cell 0 KRead 0%Z];
   mkTdef None (declare 0 [acc 1 MWrite] []) [cell 1 KWrite 1%Z]].
Definition bar : prog := lprog [ISpawn 0; IDrop 0; ISpawn 2; IDrop 2; ISpawn 3; IDrop 3; IBarrier] bar_tasks false.
Lemma bar_wf : wfp bar. Proof. apply open_ok. vm_compute. reflexivity. Qed.
Definition bar_order : list (nat * pick) := moves_of 0 ++ moves_of 1 ++ moves_of 2.
Definition bar_end : state := gauto bar bar_order 1000 (init bar 2).
Lemma bar_runs : greach bar 2 bar_end.
Proof. exact (gauto_greach bar 2 bar_order 1000 (init bar 2) (greach_init bar 2)). Qed.
Example C68_ex : wfp bar /\ p_wrap bar = false /\ runs bar 2 bar_end /\ calls_barrier bar 0 /\ submitted bar_end 0 /\ started bar_end 0 /\
  parent bar 0 = parent bar 2 /\ tasks_conflict bar 0 2 /\ before bar_end 0 2 /\ In (FBody (Some 0) [IBarrier; cell 0 KRead 0%Z]) (all_frames bar_end).
Proof.
  split; [exact bar_wf|]. split; [reflexivity|]. split; [right; exact bar_runs|]. split; [unfold calls_barrier; inlog|]. split; [inlog|]. split; [inlog|].
  split; [reflexivity|]. split; [|split; [apply beforeb_ok; vm_compute; reflexivity|inlog]].
  exists (acc 0 MWrite), (acc 0 MRead), TIO, MWrite, MRead, KWrite, KRead. repeat split; simpl; auto.
Qed.

(** in the pool: a task that does nothing else *)
Definition solo_tasks : list tdef := [mkTdef None (declare 0 [acc 0 MWrite] []) [IBarrier]; mkTdef None (declare 0 [acc 1 MWrite] []) [cell 1 KWrite 1%Z]].
Definition solo : prog := lprog [ISpawn 0; IDrop 0; ISpawn 1; IDrop 1; IBarrier] solo_tasks false.
Definition solo_asleep : pool := snd (drive solo 2 1 ex_moves 1000 (pinit solo 2 1)).
Example C68_ex_pool : wfp solo /\ flat solo /\ (exists k, pruns solo 2 1 false k solo_asleep) /\ calls_barrier solo 0 /\
  In (FBody (Some 0) [IBarrier]) (all_frames (core solo_asleep)) /\ In (FBody None [IBarrier]) (all_frames (core solo_asleep)) /\
  completed (core solo_asleep) 1 /\ pstuck solo 2 1 solo_asleep.
Proof.
  assert (F : flat solo) by (apply flatb_ok; vm_compute; reflexivity).
  assert (R : exists k, psteps solo 2 1 false k solo_asleep).
  { eexists. exact (drive_steps solo 2 1 ex_moves 1000 0 (pinit solo 2 1) (psteps_init solo 2 1 false)). }
  split; [apply open_ok; vm_compute; reflexivity|]. split; [exact F|].
  split; [destruct R as [k R]; exists k; split; auto|]. split; [unfold calls_barrier; inlog|]. split; [inlog|]. split; [inlog|]. split; [inlog|].
  destruct R as [k R]. apply pstuckb_ok; [exact (proj1 (pool_run _ _ _ _ _ _ R))|]. vm_compute. reflexivity.
Qed.
(** two threads; task 0 waits for the task it emplaced and then calls [barrier()] *)
Definition duel_tasks : list tdef :=
  [mkTdef None (declare 0 [acc 0 MWrite] []) [cell 0 KWrite 5%Z; ISpawn 1; IGet 1; IBarrier; cell 0 KRead 0%Z];
   mkTdef (Some 0) (declare 1 [acc 0 MWrite] []) [cell 0 KAdd 2%Z];
   mkTdef None (declare 0 [acc 1 MRead] []) [cell 1 KRead 0%Z]].
Definition duel_ms : list (list instr) := [[ISpawn 0; IDrop 0]; [ISpawn 2; IGet 2; IBarrier]].
Definition duel : prog := lprog (concat duel_ms) duel_tasks false.
Definition duel_moves : list (nat * pick) := yphases duel (okb duel true) [(moves_of 0 ++ moves_of 1 ++ moves_of 2, 400)] (yinit duel duel_ms 1).
Definition duel_end : ystate := match yrunc duel true (yinit duel duel_ms 1) duel_moves with Some y => y | None => yinit duel duel_ms 0 end.
Example C68_ex_threads : wf_any duel duel_ms /\ p_wrap duel = false /\ (forall q, NoDup (uniq duel q)) /\
  (exists ord, yreach duel duel_ms 1 true (length duel_moves) duel_end ord) /\ calls_barrier duel 0 /\
  submitted (yst duel_end) 0 /\ completed (yst duel_end) 1 /\ In (LGet 1) (log (yst duel_end)) /\ completed (yst duel_end) 2 /\
  forall i c, ystep duel duel_end i c = None.
Proof.
  split; [apply open_any; vm_compute; reflexivity|]. split; [reflexivity|]. split.
  { intros [|[|[|t]]]; [unfold uniq, user, duel, lprog; simpl; repeat (constructor; [simpl; lia|]); constructor..|].
    unfold duel, lprog, uniq, user; simpl. destruct t; constructor. }
  split.
  { unfold duel_end. destruct (yrunc duel true (yinit duel duel_ms 1) duel_moves) as [y|] eqn:E.
    - destruct (yrunc_init duel duel_ms 1 true _ y E) as (ord & R & _). exists ord. exact R.
    - exfalso. apply (f_equal (fun x => match x with Some _ => true | None => false end)) in E. vm_compute in E. discriminate. }
  split; [unfold calls_barrier; inlog|]. split; [inlog|]. split; [inlog|]. split; [inlog|]. split; [inlog|].
  apply ystuckb_ok. vm_compute. reflexivity.
Qed.

(** ** The documented behaviour: [barrier()] returns when the tasks of the current space are done *)
Theorem C68_barrier_waits_for_the_current_space_refuted :
  exists P n s t is, wfp P /\ (forall u, patient P u) /\ p_wrap P = false /\ 1 <= n /\ greach P n s /\ stuck P s /\
  In (FBody (Some t) (IBarrier :: is)) (all_frames s) /\
  (exists c, parent P c = Some t /\ submitted s c) /\
  (forall c, parent P c = Some t -> submitted s c -> completed s c /\ In (LFree c) (log s)) /\ tcn s (Some t) = 0%Z.
Proof.
  exists bar, 2, bar_end, 0, [cell 0 KRead 0%Z]. split; [exact bar_wf|]. split; [apply patientb_ok; vm_compute; reflexivity|].
  split; [reflexivity|]. split; [lia|]. split; [exact bar_runs|]. split; [apply stuckb_ok; vm_compute; reflexivity|]. split; [inlog|].
  split; [exists 1; split; [reflexivity|inlog]|]. split; [|vm_compute; reflexivity].
  intros c E _. assert (c = 1) as ->.
  { destruct c as [|[|[|[|c]]]]; auto; try discriminate E. simpl in E. destruct c; discriminate E. }
  split; inlog.
Qed.

Definition all_barrier := (@C68_barrier_in_a_task_calls_idle, @C68_a_task_that_calls_barrier_never_ends, @C68_nothing_that_waits_for_it_goes_on, @C68_in_the_pool,
  @C68_with_several_threads_and_waiting_bodies, @C68_barrier_waits_for_the_current_space_refuted).
Print Assumptions all_barrier.
