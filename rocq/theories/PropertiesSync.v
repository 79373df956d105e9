(** Spin lock, condition variable, worker loop: properties C42, C43, C44. *)
From Coq Require Import Bool List Arith NArith Lia Permutation.
From Verif Require Import SyncModel SyncProof.
Import ListNotations.

(** ** C42: spin locks exclude *)
Theorem C42_exclusion : forall n s i j, sl_reach n s ->
  nth_error (sl_pc s) i = Some SIn -> nth_error (sl_pc s) j = Some SIn -> i = j.
Proof.
  intros n s i j R A B. destruct (sl_inv_reach n s R) as (h & _ & P & _). apply P in A, B. congruence.
Qed.

(** the same in terms of the calls: between two returns of [lock()] there is the
    [unlock()] of the first holder, and only the holder unlocks *)
Theorem C42_alternation : forall n s l1 i l2 j l3, sl_reach n s ->
  sl_log s = l1 ++ (i, true) :: l2 ++ (j, true) :: l3 -> In (i, false) l2.
Proof.
  intros n s l1 i l2 j l3 R E. destruct (sl_inv_reach n s R) as (h & H & _). rewrite E in H.
  rewrite holder_app in H. destruct (holder l1 None) as [h1|]; [|discriminate]. simpl in H. destruct h1; [discriminate|].
  destruct l2 as [|[k b] l2]; [discriminate|]. simpl in H. destruct b; [discriminate|].
  destruct (k =? i) eqn:Q; [|discriminate]. apply Nat.eqb_eq in Q as ->. now left.
Qed.

(** a free lock can be taken: a thread that wants it gets it within its next two
    accesses if nothing interferes and the weak exchange does not fail *)
Theorem C42_free_can_be_taken : forall n s i, sl_reach n s -> (forall j, nth_error (sl_pc s) j <> Some SIn) ->
  (nth_error (sl_pc s) i = Some SCas -> exists s', sl_step i false s = Some s' /\ nth_error (sl_pc s') i = Some SIn) /\
  (nth_error (sl_pc s) i = Some SSpin ->
     exists s1 s2, sl_step i false s = Some s1 /\ sl_step i false s1 = Some s2 /\ nth_error (sl_pc s2) i = Some SIn).
Proof.
  intros n s i R F. destruct (sl_inv_reach n s R) as (h & _ & P & St).
  assert (h = None) as -> by (destruct h as [h|]; auto; destruct (F h); now apply P). split; intros Q.
  - unfold sl_step. rewrite Q, St. simpl. eexists. split; [reflexivity|]. simpl. eapply upd_same. eauto.
  - assert (Q2 : nth_error (upd (sl_pc s) i SCas) i = Some SCas) by (eapply upd_same; eauto).
    unfold sl_step at 1. rewrite Q, St. eexists. eexists. split; [reflexivity|]. unfold sl_step. simpl. rewrite Q2. simpl.
    split; [reflexivity|]. simpl. eapply upd_same. eauto.
Qed.
(** and after its release the lock is free *)
Theorem C42_unlock_frees : forall n s i s', sl_reach n s -> nth_error (sl_pc s) i = Some SIn -> sl_step i false s = Some s' ->
  forall j, nth_error (sl_pc s') j <> Some SIn.
Proof.
  intros n s i s' R Q E j. assert (R' := sl_rs n s i false s' R E).
  destruct (sl_inv_reach n s' R') as (h & _ & P & St). intros Z. apply P in Z. subst h.
  unfold sl_step in E. rewrite Q in E. injection E as <-. discriminate.
Qed.

Fixpoint sl_run (ms : list (nat * bool)) (s : slock) : option slock :=
  match ms with [] => Some s | (i, w) :: ms => match sl_step i w s with Some s' => sl_run ms s' | None => None end end.
Lemma sl_run_reach n ms : forall s s', sl_reach n s -> sl_run ms s = Some s' -> sl_reach n s'.
Proof.
  induction ms as [|[i w] ms IH]; intros s s' R E; simpl in E; [injection E as <-; auto|].
  destruct (sl_step i w s) as [s1|] eqn:S1; [|discriminate]. exact (IH s1 s' (sl_rs n s i w s1 R S1) E).
Qed.
(** three threads; thread 1 gets the lock after thread 0, thread 2 still spins *)
Example C42_ex : exists s, sl_reach 3 s /\ nth_error (sl_pc s) 1 = Some SIn /\ nth_error (sl_pc s) 2 = Some SSpin /\
  sl_log s = [(0, true); (0, false); (1, true)].
Proof.
  destruct (sl_run [(0,false);(1,false);(2,false);(0,false);(1,false);(2,false);(1,false);(0,false);(1,false);(1,false);(2,true)] (sl_init 3)) as [s|] eqn:E.
  - exists s. split; [exact (sl_run_reach 3 _ _ _ (sl_r0 3) E)|]. vm_compute in E. injection E as <-. auto.
  - vm_compute in E. discriminate.
Qed.

(** ** C43: a notify is never lost *)

(** While the waiter sleeps although it was notified, a notifier is still on its
    way to wake it. *)
Theorem C43_sleeping_has_waker : forall T s n, reach T s -> pc s = WAsleep n -> sw s = false ->
  In PLock (ns s) \/ In PNotify (ns s).
Proof. intros T s n R P W. apply (i_sleep T s (inv_reach T s R)); eauto. Qed.

(** A wait() during which (or before which) notify() lowered the flag returns:
    let the threads that exist run on until none of them can move. *)
Theorem C43_notified_wait_returns : forall T s ms s', reach T s ->
  waiting (pc s) = true -> sw s = false ->
  exec T ms s = Some s' -> quiet T s' ->
  cnt isret (hist s) < cnt isret (hist s').
Proof.
  intros T s ms s' R W F E Q. assert (I := inv_reach T s R). assert (I' := exec_inv T ms s s' I E).
  destruct (notified_exec T (cnt isret (hist s)) ms s s' I E) as [(W' & F' & _)|L]; auto.
  exfalso. destruct (quiet_worker T s' I' Q) as [P|(n & P & S')]; [rewrite P in W'; discriminate|congruence].
Qed.
(** and they do run out of moves, after a bounded number of steps *)
Theorem C43_terminates : forall T s ms s', (T < 4294967295)%N -> reach T s -> Forall internal ms -> exec T ms s = Some s' ->
  (N.of_nat (length ms) <= mu T s)%N.
Proof.
  intros T s ms s' B R F E. pose proof (mu_exec T B ms s s' (inv_reach T s R) F E). lia.
Qed.

(** wait() returns only if notified: every return has its own notify() that
    found the flag up *)
Theorem C43_one_return_per_notify : forall T s, reach T s -> cnt isret (hist s) <= cnt isnote (hist s) <= S (cnt isret (hist s)).
Proof. intros T s R. pose proof (i_note T s (inv_reach T s R)) as N. destruct (sw s); simpl in N; lia. Qed.

(** two notifications while the worker is going to sleep (timeout 1): both push a task *)
Definition ex_sync : list move :=
  [MNew (KReady 7); MWorker CNone; MWorker CNone; MWorker CNone; MWorker CNone; MWorker CNone; MWorker CNone; (* WBlock *)
   MNotifier 0; MNotifier 0; (* pushed, flag down *) MWorker CNone (* sleeps *)].
Definition ex_sync2 : list move :=
  [MNotifier 0; MNotifier 0; MNotifier 0; MWorker CNone; MWorker CNone; MWorker CNone; MWorker CNone; MWorker CNone;
   MWorker (CReady 0); MWorker CNone; MWorker (CReady 0); MWorker (CEmpl 0 true); MWorker CNone; MWorker CNone; MWorker CNone; MWorker CNone; MWorker CNone;
   MWorker CNone; MWorker CNone; MWorker CNone].
Example C43_ex : exists s s', reach 1 s /\ pc s = WAsleep 2 /\ sw s = false /\ exec 1 ex_sync2 s = Some s' /\ Forall internal ex_sync2 /\
  quiet 1 s' /\ hist s' = [HPush 7; HNotify true; HReturn; HTake true 7].
Proof.
  destruct (exec 1 ex_sync init) as [s|] eqn:E; [|vm_compute in E; discriminate].
  destruct (exec 1 ex_sync2 s) as [s'|] eqn:E'.
  - exists s, s'. split; [exact (exec_reach 1 _ _ _ (r0 1) E)|]. vm_compute in E. injection E as <-. split; auto. split; auto. split; auto.
    split; [repeat constructor|]. vm_compute in E'. injection E' as <-. split; [|reflexivity]. split.
    + intros c. reflexivity.
    + intros [|[|i]]; reflexivity.
  - vm_compute in E. injection E as <-. vm_compute in E'. discriminate.
Qed.

(** ** C44: no worker sleeps on work *)

(** When no thread can move, the worker has left its loop, or it sleeps, its
    queues are empty and it was not stopped. *)
Theorem C44_no_sleep_on_work : forall T s, reach T s -> quiet T s ->
  pc s = LEnd \/ ((exists n, pc s = WAsleep n) /\ rq s = [] /\ eq_ s = [] /\ stopf s = false).
Proof.
  intros T s R Q. assert (I := inv_reach T s R). destruct (quiet_worker T s I Q) as [P|(n & P & W)]; auto.
  right. split; eauto. apply (quiet_no_work T s I Q). congruence.
Qed.
(** In particular every task put into its queues was taken, by it or by another
    worker, as often as it was put there. *)
Theorem C44_every_task_is_taken : forall T s, reach T s -> quiet T s -> pc s <> LEnd ->
  Permutation (pushes (hist s)) (takes (hist s)).
Proof.
  intros T s R Q N. assert (I := inv_reach T s R). destruct (quiet_no_work T s I Q N) as (A & B & _).
  pose proof (i_items T s I) as P. now rewrite A, B, !app_nil_r in P.
Qed.
(** and never more often *)
Theorem C44_taken_at_most_once : forall T s, reach T s -> Permutation (pushes (hist s)) (takes (hist s) ++ rq s ++ eq_ s).
Proof. intros T s R. exact (i_items T s (inv_reach T s R)). Qed.
(** A stopped worker leaves its loop. *)
Theorem C44_stop : forall T s ms s', reach T s -> stopf s = true -> exec T ms s = Some s' -> quiet T s' -> pc s' = LEnd.
Proof.
  intros T s ms s' R S E Q.
  assert (S' : stopf s' = true).
  { clear R Q. revert s S E. induction ms as [|m ms IH]; intros s S E; simpl in E; [injection E as <-; auto|].
    destruct (step T m s) as [s1|] eqn:S1; [|discriminate]. apply (IH s1); auto. clear IH E.
    destruct m as [c| |k|i|[] k]; simpl in S1.
    - unfold wstep in S1. destruct (pc s), c; try discriminate; repeat match type of S1 with context [if ?b then _ else _] => destruct b | context [take ?k ?l] => destruct (take k l) as [[? ?]|] end;
        try discriminate; injection S1 as <-; simpl; auto.
    - destruct (pc s); try discriminate. injection S1 as <-. auto.
    - injection S1 as <-. auto.
    - unfold nstep in S1. destruct (nth_error (ns s) i) as [[[t|t| |]| | | | |]|]; try discriminate;
        repeat match type of S1 with context [if ?b then _ else _] => destruct b end; try discriminate; injection S1 as <-; auto.
    - destruct (take k (rq s)) as [[t q]|]; [|discriminate]. injection S1 as <-. auto.
    - destruct (take k (eq_ s)) as [[t q]|]; [|discriminate]. injection S1 as <-. auto. }
  assert (I := exec_inv T ms s s' (inv_reach T s R) E).
  destruct (quiet_worker T s' I Q) as [P|(n & P & W)]; auto. exfalso.
  destruct (quiet_no_work T s' I Q) as (_ & _ & Z); congruence.
Qed.

(** a producer, a thief and a stopping thread *)
Definition ex_work : list move :=
  [MNew (KEmpl 1); MNew (KEmpl 2); MNew KStop; MNotifier 0; MWorker CNone; MNotifier 1; MThief false 1; MNotifier 0; MWorker CNone; MWorker CNone;
   MNotifier 0; MNotifier 0; MNotifier 1; MNotifier 2; MNotifier 0; MNotifier 1; MNotifier 1; MNotifier 1; MNotifier 2; MNotifier 2; MNotifier 2; MNotifier 2;
   MWorker (CReady 0); MWorker (CEmpl 0 false); MWorker (CEmpl 0 false); MWorker CNone; MWorker CNone].
Example C44_ex : exists s, reach 1 s /\ quiet 1 s /\ pc s = LEnd /\ pushes (hist s) = [1; 2] /\ takes (hist s) = [2; 1].
Proof.
  destruct (exec 1 ex_work init) as [s|] eqn:E; [|vm_compute in E; discriminate].
  exists s. split; [exact (exec_reach 1 _ _ _ (r0 1) E)|]. vm_compute in E. injection E as <-. split; [|auto]. split.
  - intros c. reflexivity.
  - intros [|[|[|[|i]]]]; reflexivity.
Qed.

(** In terms of calls: once somebody has called stop(), the worker leaves its
    loop, and it never leaves before. *)
Lemma stop_step T m s s' : step T m s = Some s' ->
  ((stopf s = true \/ In (PStart KStop) (ns s)) \/ m = MNew KStop <-> (stopf s' = true \/ In (PStart KStop) (ns s'))).
Proof.
  assert (U : forall i p, nth_error (ns s) i = Some p -> p <> PStart KStop -> forall x, x <> PStart KStop ->
            (In (PStart KStop) (upd (ns s) i x) <-> In (PStart KStop) (ns s))).
  { clear. generalize (ns s) as l. induction l as [|y l IH]; intros [|i] p E D x X; simpl in *; try discriminate.
    - injection E as <-. intuition.
    - specialize (IH i p E D x X). intuition. }
  intros ST. destruct m as [c| |k|i|[] k]; simpl in ST.
  - assert (E : stopf s' = stopf s /\ ns s' = ns s).
    { unfold wstep in ST. destruct (pc s), c; try discriminate; repeat match type of ST with context [if ?b then _ else _] => destruct b eqn:? | context [take ?k ?l] => destruct (take k l) as [[? ?]|] end;
        try discriminate; injection ST as <-; simpl; auto. }
    destruct E as (-> & ->). intuition discriminate.
  - destruct (pc s); try discriminate. injection ST as <-. simpl. intuition discriminate.
  - injection ST as <-. simpl. rewrite in_app_iff. simpl. split; intros H.
    + destruct H as [[H|H]|[= ->]]; auto.
    + destruct H as [H|[H|[[= ->]|[]]]]; auto.
  - unfold nstep in ST. destruct (nth_error (ns s) i) as [p|] eqn:E; [|discriminate].
    destruct p as [[t|t| |]| | | | |]; try discriminate; repeat match type of ST with context [if ?b then _ else _] => destruct b end; try discriminate;
      injection ST as <-; simpl; try (rewrite (U i _ E) by discriminate; intuition discriminate).
    apply nth_error_In in E. split; auto.
  - destruct (take k (rq s)) as [[? ?]|]; [|discriminate]. injection ST as <-. simpl. intuition discriminate.
  - destruct (take k (eq_ s)) as [[? ?]|]; [|discriminate]. injection ST as <-. simpl. intuition discriminate.
Qed.
Lemma stop_exec T ms : forall s s', exec T ms s = Some s' ->
  ((stopf s = true \/ In (PStart KStop) (ns s)) \/ In (MNew KStop) ms <-> (stopf s' = true \/ In (PStart KStop) (ns s'))).
Proof.
  induction ms as [|m ms IH]; intros s s' E; simpl in E; [injection E as <-; simpl; intuition|].
  destruct (step T m s) as [s1|] eqn:S1; [|discriminate]. rewrite <- (IH s1 s' E), <- (stop_step T m s s1 S1). simpl. tauto.
Qed.
Lemma left_stopped T s : reach T s -> pc s = LEnd -> stopf s = true.
Proof.
  induction 1 as [|s m s' R IH ST]; [discriminate|]. intros P.
  destruct m as [c| |k|i|[] k]; simpl in ST.
  - unfold wstep in ST. destruct (pc s), c; try discriminate; repeat match type of ST with context [if ?b then _ else _] => destruct b eqn:? | context [take ?k ?l] => destruct (take k l) as [[? ?]|] end;
        try discriminate; injection ST as <-; simpl in P; try discriminate; auto.
  - destruct (pc s); try discriminate. injection ST as <-. discriminate.
  - injection ST as <-. auto.
  - unfold nstep in ST. destruct (nth_error (ns s) i) as [[[t|t| |]| | | | |]|]; try discriminate;
      repeat match type of ST with context [if ?b then _ else _] => destruct b end; try discriminate; injection ST as <-; simpl in *; auto.
    destruct (pc s); try discriminate; auto.
  - destruct (take k (rq s)) as [[? ?]|]; [|discriminate]. injection ST as <-. auto.
  - destruct (take k (eq_ s)) as [[? ?]|]; [|discriminate]. injection ST as <-. auto.
Qed.
Theorem C44_stop_called : forall T ms s, exec T ms init = Some s ->
  (In (MNew KStop) ms -> quiet T s -> pc s = LEnd) /\ (pc s = LEnd -> In (MNew KStop) ms).
Proof.
  intros T ms s E. pose proof (stop_exec T ms init s E) as S. simpl in S. assert (R := exec_reach T ms init s (r0 T) E). split.
  - intros H Q. destruct S as (S & _). destruct S as [S|S]; auto.
    + apply (C44_stop T s [] s); auto.
    + exfalso. apply In_nth_error in S as (i & N). destruct Q as (_ & Q). specialize (Q i). unfold nstep in Q. rewrite N in Q. discriminate.
  - intros P. destruct S as (_ & S). apply (left_stopped T s R) in P. destruct S as [[|[]]|]; auto; discriminate.
Qed.

Definition all_sync := (C44_stop_called, C42_exclusion, C42_alternation, C42_free_can_be_taken, C42_unlock_frees, C43_sleeping_has_waker,
  C43_notified_wait_returns, C43_terminates, C43_one_return_per_notify, C44_no_sleep_on_work, C44_every_task_is_taken,
  C44_taken_at_most_once, C44_stop).
Print Assumptions all_sync.
