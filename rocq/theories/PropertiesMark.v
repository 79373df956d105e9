(** The marks AVAILABLE and BUSY of the workers: C69. *)
From Coq Require Import Bool List Arith NArith ZArith Lia Permutation.
From Verif Require Import AccessModel AccessSpec UserModel SchedModel SchedSpec SchedBase SchedInv1 SchedInv2 SchedInv3 SchedInv4 SchedInv5 SchedInv6 SchedInv7 SchedInv8 SchedFront SchedThm SchedLive SchedTerm SchedSeq SchedEx PropertiesSched PoolModel PoolProof PropertiesPool MarkModel MarkProof MarkThm MarkSleep.
Import ListNotations.
Open Scope nat_scope.

(** ** Refinement: the marks restrict the choice of the workers, nothing else *)
Theorem C69_marks_refine_the_pool :
  forall P n m g j x, msteps P n m g j x -> exists k, psteps P n m g k (pl x) /\ j <= k * (1 + mgain n) + mstart n m.
Proof. intros P n m g j x H. destruct (mark_run P n m g j x H) as (_ & k & A & B). exists k. split; auto. lia. Qed.

(** ** When nothing moves any more, everything has been done: no thread waits for a mark. *)
Theorem C69_everything_is_done :
  forall P n m g j x, wf P -> p_wrap P = false -> (forall t, patient P t) -> 1 <= n -> 1 <= m ->
  msteps P n m g j x -> g = true \/ flat P -> mstuck P n m x ->
  (forall t, submitted (core (pl x)) t ->
     completed (core (pl x)) t /\ (In (LGet t) (log (core (pl x))) \/ In (LDrop t) (log (core (pl x))) -> In (LFree t) (log (core (pl x))))) /\
  (forall t e, In (LEvent t e) (log (core (pl x))) -> In (LFire t e) (log (core (pl x)))) /\
  (forall w, 1 <= w <= n -> rq (pl x) w = [] /\ nq (pl x) w = []) /\
  (exists is, all_frames (core (pl x)) = [FBody None is] /\
     (is = [] \/ exists is' t, is = IBarrier :: is' /\ submitted (core (pl x)) t /\ parent P t = None /\
                               ~ (In (LGet t) (log (core (pl x))) \/ In (LDrop t) (log (core (pl x)))))).
Proof.
  intros P n m g j x W NW PA Hn Hm H F K. destruct (mark_run P n m g j x H) as (I & k & A & _).
  exact (C58_sleeping_pool_has_finished P n m g k (pl x) W NW PA Hn Hm (conj A F) (mstuck_pstuck P n m x I K)).
Qed.

Theorem C69_executions_are_bounded :
  forall P n m g N, wfp P -> p_wrap P = false -> g = true \/ flat P -> (forall o x, In (ISpawn x) (body P o) -> x < N) ->
  exists B, forall j x, msteps P n m g j x -> j <= B.
Proof.
  intros P n m g N W NW F BD. destruct (C58_executions_are_bounded P n m g N W NW BD) as (B & HB).
  exists (B * (1 + mgain n) + mstart n m). intros j x H. destruct (C69_marks_refine_the_pool P n m g j x H) as (k & A & L).
  specialize (HB k (pl x) (conj A F)). apply (Nat.mul_le_mono_r _ _ (1 + mgain n)) in HB. lia.
Qed.

Theorem C69_final_result :
  forall P n m j x (S : semantics) l mem, wf P -> p_wrap P = false -> flat P -> (forall t, patient P t) -> 1 <= n -> 1 <= m ->
  behaved P -> sensible S -> msteps P n m false j x -> mstuck P n m x -> In (FBody None []) (all_frames (core (pl x))) ->
  same_result (exec S (performed (log (core (pl x)))) l mem) (exec S (one_by_one P (spawns (p_main P))) l mem).
Proof.
  intros P n m j x S l mem W NW F PA Hn Hm B Q H K E. destruct (mark_run P n m false j x H) as (I & k & A & _).
  exact (C58_final_result_of_the_pool P n m k (pl x) S l mem W NW F PA Hn Hm B Q A (mstuck_pstuck P n m x I K) E).
Qed.

(** ** A worker is marked BUSY all the time a task body runs on it *)
Theorem C69_executing_worker_is_busy :
  forall P n m g j x w st t, msteps P n m g j x -> 1 <= w <= n -> nth_error (thr (core (pl x))) w = Some st ->
  In (FRun t) st \/ (exists is, In (FBody (Some t) is) st) \/ (exists c rs is, In (FSub (Some t) c rs is) st) ->
  av x w = false.
Proof.
  intros P n m g j x w st t H Hw E D. assert (W : is_worker n w = true) by (apply In_is_worker, in_seq; lia).
  destruct D as [D|[(is & D)|(c & rs & is & D)]]; exact (executing_marked P n m g j x w st _ H W E D eq_refl).
Qed.

(** ** Up to 32 workers no sleeping worker is forgotten: it is marked AVAILABLE, or somebody has
    claimed it or is about to wake it. *)
Theorem C69_sleeping_worker_is_known :
  forall P n m g j x w, n <= 32 -> msteps P n m g j x -> 1 <= w <= n ->
  nth_error (thr (core (pl x))) w = Some [] -> wp (pl x) w = WWait -> todo x w = [] -> flag (pl x) w = false ->
  av x w = true \/ exists i, srch x i = LGot w \/ busy x i = Some w \/ In w (due (pl x) i).
Proof.
  intros P n m g j x w N H Hw E Ep T F. assert (W : is_worker n w = true) by (apply In_is_worker, in_seq; lia).
  exact (known_run P n m g j x N H w (conj W (conj E (conj Ep (conj T F))))).
Qed.

(** ** What a search has seen: if find_free_worker finds nobody, every worker was BUSY at some moment of
    the search (the workers whose mark is in the upper half of a word excepted, see C41) *)
Theorem C69_no_free_worker_was_overlooked :
  forall P n m i l x, sought P n m i l x ->
  activates (pl x) i = true -> srch x i = LFull ->
  forall v, 1 <= v <= n -> pred v mod 64 < 32 -> exists y, In y l /\ av y v = false.
Proof.
  intros P n m i l x S Ac F v Hv Lv. assert (W : is_worker n v = true) by (apply In_is_worker, in_seq; lia).
  assert (C := sought_covers P n m i l x S v W
    (or_intror (proj2 (Nat.ltb_lt _ _) Lv))). rewrite F in C. destruct C as [[]|(y & Y & [R|[R _]])]; [|congruence].
  rewrite Ac in R. eauto.
Qed.
(** if a thief finds nothing, every worker was AVAILABLE at some moment of the search, or its queue
    was empty, or somebody was just filling it and is going to wake the worker *)
Theorem C69_no_loot_was_overlooked :
  forall P n m i l x, sought P n m i l x ->
  activates (pl x) i = false -> srch x i = LFull ->
  forall v, 1 <= v <= n -> exists y, In y l /\
    (av y v = true \/ match wp (pl x) i with WStealReady _ => rq | _ => nq end (pl y) v = [] \/ exists h, In v (due (pl y) h)).
Proof.
  intros P n m i l x S Ac F v Hv. assert (W : is_worker n v = true) by (apply In_is_worker, in_seq; lia).
  assert (C := sought_covers P n m i l x S v W
    (or_introl Ac)). rewrite F in C. destruct C as [[]|(y & Y & R)]. exists y. split; auto. rewrite Ac in R. destruct R as [R|[_ R]]; [auto|right].
  assert (M := sought_mode P n m i l x S y Y). unfold mode in M.
  unfold bare, loot in R. destruct (wp (pl y) i), (wp (pl x) i); try discriminate M; match type of R with match ?q with _ => _ end = _ => destruct q end; auto; right; apply announced_iff in R as (h & _ & R); eauto.
Qed.

(** ** Where a ready task waits: its worker has been or is being woken, or is about to look into the
    queue, or is marked BUSY, so that thieves see it. *)
Theorem C69_ready_task_is_seen :
  forall P n m g j x w, msteps P n m g j x -> 1 <= w <= n -> rq (pl x) w <> [] ->
  flag (pl x) w = true \/ (exists i, In w (due (pl x) i)) \/
  wp (pl x) w = WReady /\ (nth_error (thr (core (pl x))) w = Some [] \/ todo x w <> [] \/ av x w = false).
Proof.
  intros P n m g j x w H Hw Q. assert (W : is_worker n w = true) by (apply In_is_worker, in_seq; lia).
  destruct (mark_run P n m g j x H) as (I & _). destruct (pi_rq n m _ (mi_p n m x I) w W Q) as [A|[A|A]]; auto.
  - right; left. apply announced_iff in A as (i & _ & A). eauto.
  - right; right. split; auto. destruct (sees_in n m (pl x) w (mi_p n m x I) ltac:(lia)) as (v & V). assert (G := mi_g n m x I w v V).
    destruct V as (V1 & V2 & V3). destruct (vst v) as [|f fs] eqn:Ev; [left; congruence|right].
    destruct (todo x w) eqn:T; [right|left; discriminate]. apply (gd_exec _ _ _ _ _ _ _ G); auto; congruence.
Qed.

(** ** Executions for the examples: a thread makes the first move it can *)
Fixpoint mfirst (P : prog) (n m : nat) (x : mpool) (o : list kmove) : option mpool :=
  match o with
  | [] => None
  | k :: o => match mstep P n m x k with Some x' => Some x' | None => mfirst P n m x o end
  end.
Definition turn (n i w : nat) : list kmove :=
  [KMark i; KBusy i; KPool (MWake i); KLook i; KPool (MTake i 0)]
  ++ map (fun v => KPool (MStep i v)) (w :: seq 1 n) ++ map (fun v => KPool (MSteal i v 0)) (seq 1 n) ++ [KPool (MMiss i); KPool (MFire i 0)].
Fixpoint mgo (P : prog) (n m i w fuel : nat) (x : mpool) : mpool :=
  match fuel with
  | O => x
  | S fuel => match mfirst P n m x (turn n i w) with Some x' => mgo P n m i w fuel x' | None => x end
  end.
(** thread, worker that gets the tasks, number of steps at most *)
Definition play (P : prog) (n m : nat) (l : list (nat * nat * nat)) : mpool :=
  fold_left (fun x '(i, w, f) => mgo P n m i w f x) l (minit P n m).

Definition two_tasks : list tdef :=
  [mkTdef None (declare 0 [acc 0 MWrite] []) [cell 0 KWrite 5%Z]; mkTdef None (declare 0 [acc 0 MWrite] []) [cell 0 KWrite 7%Z]].
Definition two : prog := lprog [ISpawn 0; ISpawn 1; IBarrier] two_tasks false.

Definition four_tasks : list tdef :=
  [mkTdef None (declare 0 [acc 0 MWrite] []) [cell 0 KWrite 1%Z; IEvent 0]; mkTdef None (declare 0 [acc 1 MWrite] []) [cell 1 KWrite 2%Z; IEvent 0];
   mkTdef None (declare 0 [acc 0 MWrite] []) [cell 0 KWrite 3%Z]; mkTdef None (declare 0 [acc 1 MWrite] []) [cell 1 KWrite 4%Z]].
Definition four : prog := lprog [ISpawn 0; ISpawn 1; ISpawn 2; ISpawn 3; IBarrier] four_tasks false.

Lemma mfirst_step P n m x o x' : mfirst P n m x o = Some x' -> exists k, mstep P n m x k = Some x'.
Proof.
  induction o as [|k o IH]; simpl; [easy|]. destruct (mstep P n m x k) eqn:E; auto. intros H. injection H as <-. eauto.
Qed.
Lemma mgo_steps P n m i w fuel : forall x, (exists j, msteps P n m false j x) -> exists j, msteps P n m false j (mgo P n m i w fuel x).
Proof.
  induction fuel as [|fuel IH]; intros x H; [exact H|]. cbn [mgo]. destruct (mfirst P n m x (turn n i w)) as [x'|] eqn:E; [|exact H].
  apply IH. destruct H as [j H]. apply mfirst_step in E as (k & E). exists (S j). econstructor; eauto. discriminate.
Qed.
Lemma play_steps P n m l : exists j, msteps P n m false j (play P n m l).
Proof.
  unfold play. assert (H : exists j, msteps P n m false j (minit P n m)) by (exists 0; constructor). revert H. generalize (minit P n m).
  induction l as [|[[i w] f] l IH]; intros x H; [exact H|]. cbn [fold_left]. apply IH. now apply mgo_steps.
Qed.
(** the states of a search *)
Fixpoint watch (P : prog) (n m i w fuel : nat) (l : list mpool) (x : mpool) : list mpool * mpool :=
  match fuel with
  | O => (l, x)
  | S fuel => match mfirst P n m x (turn n i w) with
              | Some x' => match srch x' i with LNone => (l, x) | _ => watch P n m i w fuel (x :: l) x' end
              | None => (l, x)
              end
  end.
Lemma watch_sought P n m i w fuel : forall l x, sought P n m i l x ->
  sought P n m i (fst (watch P n m i w fuel l x)) (snd (watch P n m i w fuel l x)).
Proof.
  induction fuel as [|fuel IH]; intros l x H; [exact H|]. cbn [watch]. destruct (mfirst P n m x (turn n i w)) as [x'|] eqn:E; [|exact H].
  apply mfirst_step in E as (k & E).
  destruct (srch x' i) eqn:Q; [exact H|apply IH; econstructor; eauto; congruence..].
Qed.
Definition look_now (P : prog) (n m i : nat) (x : mpool) : mpool := match mstep P n m x (KLook i) with Some x' => x' | None => x end.
Lemma look_sought P n m i x : (exists j, msteps P n m false j x) -> srch x i = LNone -> mstep P n m x (KLook i) <> None -> sought P n m i [x] (look_now P n m i x).
Proof.
  intros (j & H) S E. unfold look_now. destruct (mstep P n m x (KLook i)) as [x'|] eqn:Q; [|easy]. econstructor; eauto.
Qed.

Lemma mstuck_ok P n m x : minv n m x -> pstuck P n m (pl x) ->
  forallb (fun i => idle_of x i && negb (activates (pl x) i || match steals n (pl x) i with Some _ => true | None => false end)) (seq 0 (1 + n + m)) = true ->
  mstuck P n m x.
Proof.
  intros I K F. rewrite forallb_forall in F.
  assert (X : forall i, todo x i = [] /\ busy x i = None /\ (activates (pl x) i || match steals n (pl x) i with Some _ => true | None => false end) = false).
  { intros i. destruct (le_lt_dec (1 + n + m) i) as [L|L].
    - destruct (mi_out n m x I i L) as (A & _ & B). repeat split; auto. unfold activates, steals.
      replace (nth_error (thr (core (pl x))) i) with (@None (list frame)); [destruct (is_worker n i); reflexivity|].
      symmetry. apply nth_error_None. rewrite (pi_thr n m _ (mi_p n m x I)). lia.
    - specialize (F i ltac:(apply in_seq; lia)). apply andb_true_iff in F as [A B]. apply negb_true_iff in B. unfold idle_of in A.
      destruct (todo x i), (busy x i); try discriminate. auto. }
  intros [mv|w|i|i]; simpl.
  - rewrite (K mv). destruct (idle_of x (actor mv)), (allows n m x mv); reflexivity.
  - now rewrite (proj1 (X w)).
  - now rewrite (proj1 (proj2 (X i))).
  - rewrite (proj2 (proj2 (X i))). destruct (idle_of x i), (due (pl x) i); reflexivity.
Qed.

(** no search and no wakeup on its way *)
Definition quiet (n m : nat) (x : mpool) : bool :=
  forallb (fun i => match srch x i, busy x i, due (pl x) i with LNone, None, [] => true | _, _, _ => false end) (seq 0 (1 + n + m)).
Lemma quiet_ok n m x : minv n m x -> quiet n m x = true -> forall i, srch x i = LNone /\ busy x i = None /\ due (pl x) i = [].
Proof.
  intros I Q i. unfold quiet in Q. rewrite forallb_forall in Q. destruct (le_lt_dec (1 + n + m) i) as [L|L].
  - destruct (mi_out n m x I i L) as (_ & A & B). repeat split; auto. destruct (due (pl x) i) eqn:D; auto. exfalso.
    assert (i < 1 + n + m) by (apply (pi_due n m _ (mi_p _ _ _ I)); congruence). lia.
  - specialize (Q i ltac:(apply in_seq; lia)). destruct (srch x i), (busy x i), (due (pl x) i); try discriminate Q. auto.
Qed.

(** ** Refuted: with 33 workers a sleeping worker may be forgotten.  Worker 33 sleeps; it is marked BUSY by
    an activation that then goes on without it; find_free_worker does not see it any more. *)
Definition lost33 : mpool := play two 33 1 [(33, 1, 100); (0, 1, 4); (1, 1, 14); (0, 33, 4); (33, 1, 1000); (1, 1, 1000)].
Lemma lost33_run : exists j, msteps two 33 1 false j lost33.
Proof. apply play_steps. Qed.
Theorem C69_sleeping_worker_is_known_refuted :
  ~ (forall P n m g j x w, msteps P n m g j x -> 1 <= w <= n ->
     nth_error (thr (core (pl x))) w = Some [] -> wp (pl x) w = WWait -> todo x w = [] -> flag (pl x) w = false ->
     av x w = true \/ exists i, srch x i = LGot w \/ busy x i = Some w \/ In w (due (pl x) i)).
Proof.
  intros C. destruct lost33_run as (j & H). assert (Q := quiet_ok 33 1 lost33 (proj1 (mark_run _ _ _ _ _ _ H)) ltac:(vm_compute; reflexivity)).
  destruct (C two 33 1 false j lost33 33 H ltac:(lia)) as [X|(i & X)]; try (vm_compute; reflexivity).
  - vm_compute in X. discriminate X.
  - destruct (Q i) as (A & B & D). rewrite A, B, D in X. clear -X. destruct X as [X|[X|[]]]; discriminate X.
Qed.

(** ** Refuted: two activations may claim the same worker at a time, though another one sleeps and is AVAILABLE
    (a worker marks itself AVAILABLE again before it sleeps, worker.cpp:143) *)
Definition twice : mpool := play four 2 2 [(0, 1, 1000); (2, 1, 1000); (1, 1, 81); (3, 1, 16); (1, 1, 1000); (4, 1, 16)].
Lemma twice_run : exists j, msteps four 2 2 false j twice.
Proof. apply play_steps. Qed.
Theorem C69_claims_are_exclusive_refuted :
  ~ (forall P n m g j x i i' w v, msteps P n m g j x -> i <> i' -> srch x i = LGot w -> srch x i' = LGot w ->
     1 <= v <= n -> nth_error (thr (core (pl x))) v = Some [] -> wp (pl x) v = WWait -> todo x v = [] -> flag (pl x) v = false -> av x v = false).
Proof.
  intros C. destruct twice_run as (j & H).
  assert (X := C four 2 2 false j twice 3 4 1 2 H ltac:(lia) ltac:(vm_compute; reflexivity) ltac:(vm_compute; reflexivity) ltac:(lia)
    ltac:(vm_compute; reflexivity) ltac:(vm_compute; reflexivity) ltac:(vm_compute; reflexivity) ltac:(vm_compute; reflexivity)).
  vm_compute in X. discriminate X.
Qed.

(** ** Refuted: a task may lie in the queue of a worker that executes a body, and is not looked for, while another
    worker sleeps: emplace_task and activate_task notify only the worker that gets the task *)
Definition unshared : mpool := play four 2 2 [(0, 1, 1000); (2, 1, 1000); (1, 1, 42)].
Lemma unshared_run : exists j, msteps four 2 2 false j unshared.
Proof. apply play_steps. Qed.
Theorem C69_queued_tasks_wake_a_sleeping_worker_refuted :
  ~ (forall P n m g j x w v t is, msteps P n m g j x -> 1 <= w <= n -> 1 <= v <= n ->
     nth_error (thr (core (pl x))) w = Some [FBody (Some t) is] -> nq (pl x) w <> [] ->
     nth_error (thr (core (pl x))) v = Some [] -> wp (pl x) v = WWait -> todo x v = [] -> av x v = true ->
     flag (pl x) v = true \/ exists i, srch x i <> LNone \/ In v (due (pl x) i)).
Proof.
  intros C. destruct unshared_run as (j & H). assert (Q := quiet_ok 2 2 unshared (proj1 (mark_run _ _ _ _ _ _ H)) ltac:(vm_compute; reflexivity)).
  destruct (C four 2 2 false j unshared 1 2 1 [cell 1 KWrite 2%Z; IEvent 0] H ltac:(lia) ltac:(lia)) as [X|(i & X)]; try (vm_compute; reflexivity).
  - vm_compute. discriminate.
  - vm_compute in X. discriminate X.
  - destruct (Q i) as (A & B & D). rewrite A, D in X. clear -X. destruct X as [X|[]]. now apply X.
Qed.

(** ** Refuted: thieves need not see a queue with tasks that wait for their initialisation: a worker that initialises
    a task is still marked AVAILABLE, and thieves look at BUSY workers only *)
Definition unseen : mpool := play four 2 2 [(0, 1, 1000); (2, 1, 1000); (1, 1, 4)].
Lemma unseen_run : exists j, msteps four 2 2 false j unseen.
Proof. apply play_steps. Qed.
Theorem C69_new_task_is_seen_refuted :
  ~ (forall P n m g j x w, msteps P n m g j x -> 1 <= w <= n -> nq (pl x) w <> [] ->
     flag (pl x) w = true \/ (exists i, In w (due (pl x) i)) \/
     nth_error (thr (core (pl x))) w = Some [] \/ todo x w <> [] \/ av x w = false).
Proof.
  intros C. destruct unseen_run as (j & H). assert (Q := quiet_ok 2 2 unseen (proj1 (mark_run _ _ _ _ _ _ H)) ltac:(vm_compute; reflexivity)).
  destruct (C four 2 2 false j unseen 1 H ltac:(lia)) as [X|[(i & X)|[X|[X|X]]]]; try (vm_compute in X; congruence).
  - vm_compute. discriminate.
  - destruct (Q i) as (A & B & D). rewrite D in X. clear -X. destruct X.
Qed.

(** ** Examples *)
Definition ex_turns : list (nat * nat * nat) :=
  [(1, 2, 1000); (0, 2, 1000); (2, 1, 30); (1, 2, 1000); (2, 1, 1000); (3, 2, 1000); (1, 2, 1000); (2, 1, 1000); (0, 2, 1000);
   (1, 2, 1000); (2, 1, 1000); (0, 2, 1000); (1, 2, 1000); (2, 1, 1000)].
Definition ex_marked : mpool := play ex 2 1 ex_turns.
Lemma ex_marked_run : exists j, msteps ex 2 1 false j ex_marked.
Proof. apply play_steps. Qed.
Lemma ex_marked_stuck : mstuck ex 2 1 ex_marked.
Proof.
  destruct ex_marked_run as [j H]. assert (I := proj1 (mark_run _ _ _ _ _ _ H)). apply mstuck_ok; [exact I| |].
  - apply pstuckb_ok; [exact (mi_p _ _ _ I)|]. vm_compute. reflexivity.
  - vm_compute. reflexivity.
Qed.
(** [ex] to its end; both workers are asleep and AVAILABLE then *)
Example C69_ex :
  wf ex /\ p_wrap ex = false /\ flat ex /\ (forall t, patient ex t) /\ behaved ex /\ sensible cells /\
  (exists j, msteps ex 2 1 false j ex_marked) /\ mstuck ex 2 1 ex_marked /\ In (FBody None []) (all_frames (core (pl ex_marked))) /\
  (forall t, t < 4 -> submitted (core (pl ex_marked)) t) /\
  (forall o x, In (ISpawn x) (body ex o) -> x < 4) /\
  2 <= 32 /\ nth_error (thr (core (pl ex_marked))) 1 = Some [] /\ wp (pl ex_marked) 1 = WWait /\ todo ex_marked 1 = [] /\
  flag (pl ex_marked) 1 = false /\ av ex_marked 1 = true.
Proof.
  split; [exact ex_wf|]. split; [reflexivity|]. split; [exact ex_flat|]. split; [exact ex_patient|]. split; [exact ex_behaved|].
  split; [exact cells_sensible|]. split; [exact ex_marked_run|]. split; [exact ex_marked_stuck|]. split; [vm_compute; auto|].
  split; [intros t H; do 4 (destruct t as [|t]; [inlog|]); lia|].
  split.
  { intros [t|] x H; simpl in H.
    - do 4 (destruct t as [|t]; [simpl in H; repeat destruct H as [H|H]; try discriminate; easy|]).
      destruct t; simpl in H; easy.
    - repeat destruct H as [H|H]; try discriminate; try easy; injection H as <-; lia. }
  split; [lia|]. repeat (split; [vm_compute; reflexivity|]). vm_compute. reflexivity.
Qed.
(** a body on worker 1, with a task in its queue of new tasks *)
Example C69_ex_executing :
  (exists j, msteps four 2 2 false j unshared) /\ exists is, nth_error (thr (core (pl unshared))) 1 = Some [FBody (Some 1) is].
Proof. split; [exact unshared_run|]. eexists. vm_compute. reflexivity. Qed.
(** worker 1 searches a free worker, finds none (of the first 32) and goes on with LFull *)
Definition search1 : mpool := play two 33 1 [(33, 1, 100); (0, 1, 4); (1, 1, 14); (0, 33, 4); (33, 1, 1000); (1, 1, 17)].
Definition searched1 : list mpool * mpool := watch two 33 1 1 1 10 [search1] (look_now two 33 1 1 search1).
Example C69_ex_search :
  exists l x, sought two 33 1 1 l x /\ activates (pl x) 1 = true /\ srch x 1 = LFull /\ length l = 6.
Proof.
  exists (fst searched1), (snd searched1). split; [|vm_compute; auto].
  unfold searched1. apply watch_sought. apply look_sought; [apply play_steps|vm_compute; reflexivity|vm_compute; discriminate].
Qed.
(** worker 2 looks for ready tasks of the others; worker 1 is BUSY, its queue is empty; worker 2 itself is AVAILABLE *)
Definition steal2 : mpool := play two 2 1 [(2, 1, 100); (0, 1, 4); (1, 1, 14); (0, 2, 4); (2, 1, 16)].
Definition searched2 : list mpool * mpool := watch two 2 1 2 1 5 [steal2] (look_now two 2 1 2 steal2).
Example C69_ex_thief :
  exists l x, sought two 2 1 2 l x /\ activates (pl x) 2 = false /\ srch x 2 = LFull /\ 
    map (fun y => srch y 2) l = [LLook []; LLook [[2]]; LLook [[]; [2]]; LTry 1 [[]; [2]]; LLook [[1]; [2]]; LNone].
Proof.
  exists (fst searched2), (snd searched2). split; [|repeat split; vm_compute; reflexivity].
  unfold searched2. apply watch_sought. apply look_sought; [apply play_steps|vm_compute; reflexivity|vm_compute; discriminate].
Qed.
(** the second task is ready and in the queue of worker 1, which executes the end of the first *)
Definition waiting : mpool := play two 33 1 [(33, 1, 100); (0, 1, 4); (1, 1, 14); (0, 33, 4); (33, 1, 1000); (1, 1, 26)].
Example C69_ex_ready :
  (exists j, msteps two 33 1 false j waiting) /\ rq (pl waiting) 1 = [1] /\ av waiting 1 = false.
Proof. split; [apply play_steps|]. split; vm_compute; reflexivity. Qed.

Definition all_mark := (C69_marks_refine_the_pool, C69_everything_is_done, C69_executions_are_bounded, C69_final_result,
  C69_executing_worker_is_busy, C69_sleeping_worker_is_known, C69_no_free_worker_was_overlooked, C69_no_loot_was_overlooked,
  C69_ready_task_is_seen, C69_sleeping_worker_is_known_refuted, C69_claims_are_exclusive_refuted,
  C69_queued_tasks_wake_a_sleeping_worker_refuted, C69_new_task_is_seen_refuted, C69_ex, C69_ex_executing, C69_ex_search, C69_ex_thief, C69_ex_ready).
Print Assumptions all_mark.
