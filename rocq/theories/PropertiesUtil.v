(** Are the workers used?  C74: the test WorkerUtilization (test/scheduler.cpp) with any
    number of workers. *)
From Coq Require Import Bool List Arith NArith ZArith Lia Permutation.
From Verif Require Import AccessModel AccessSpec UserModel SchedModel SchedSpec SchedBase SchedInv1 SchedInv2 SchedInv3 SchedInv4 SchedInv5 SchedInv6 SchedInv7 SchedInv8 SchedFront SchedThm SchedLive SchedTerm SchedSeq SchedEx PropertiesSched PoolModel PoolProof PropertiesPool AppModel AppProof AppMore UtilModel UtilProof.
Import ListNotations.
Open Scope nat_scope.

(** ** Specification *)
(** every move that is possible is the end of a body: all that has been given to the runtime is
    either done or waits until user code returns *)
Definition all_but_bodies (P : prog) (n m : nat) (place : nat -> nat) (c : pool) : Prop :=
  forall mv c', placed place c mv -> pstep P n m c mv = Some c' ->
  exists i w q fs, mv = MStep i w /\ nth_error (thr (core c)) i = Some (FBody (Some q) [] :: fs).
(** worker [w] is in cv.wait() and nobody has woken it *)
Definition sleeps (c : pool) (w : nat) : Prop := nth_error (thr (core c)) w = Some [] /\ wp c w = WWait /\ flag c w = false.
(** worker [w] is in the body of [t] *)
Definition in_body (c : pool) (w t : nat) : Prop := nth_error (thr (core c)) w = Some [FBody (Some t) []].
(** the variable [count] of the test *)
Definition count (l : list lev) : nat := length (filter (fun e => match e with LStart _ => true | _ => false end) l).

(** ** A task waits in a queue only if the worker of this queue is in a call itself, which is at
    the end of a body or cannot go on: for any program and any placement. *)
Theorem C74_tasks_wait_only_for_a_busy_worker :
  forall P n m k c w, psteps P n m false k c -> 1 <= w <= n ->
  (forall mv c', pstep P n m c mv = Some c' -> exists i v q fs, mv = MStep i v /\ nth_error (thr (core c)) i = Some (FBody (Some q) [] :: fs)) ->
  rq c w <> [] \/ nq c w <> [] ->
  exists f fs, nth_error (thr (core c)) w = Some (f :: fs) /\ ((exists q, f = FBody (Some q) []) \/ fstep P (core c) f = None).
Proof.
  intros P n m k c w H Hw Q NE. destruct (pool_run P n m false k c H) as (I & _).
  assert (W : is_worker n w = true) by (apply In_is_worker, in_seq; lia).
  assert (NO : forall mv, (forall i v, mv <> MStep i v) -> pstep P n m c mv = None).
  { intros mv Nm. destruct (pstep P n m c mv) eqn:E; auto. destruct (Q _ _ E) as (i & v & q & fs & -> & _). now destruct (Nm i v). }
  assert (D : forall i, due c i = []).
  { intros i. assert (X := NO (MWake i) ltac:(discriminate)). simpl in X. now destruct (due c i). }
  assert (A : announced n m c w = false).
  { apply not_true_iff_false. rewrite announced_iff. intros (i & _ & Hi). rewrite D in Hi. easy. }
  destruct (nth_error (thr (core c)) w) as [[|f fs]|] eqn:E.
  - exfalso. assert (M := NO (MMiss w) ltac:(discriminate)). assert (T0 := NO (MTake w 0) ltac:(discriminate)). unfold pstep in M, T0. rewrite W, D, E in M, T0.
    assert (wp c w = WWait /\ flag c w = false) as [Ew Ef].
    { destruct (wp c w) as [| | |[|j]|[|j]]; try discriminate.
      - destruct (flag c w); [discriminate|auto].
      - destruct (rq c w); discriminate.
      - destruct (nq c w); discriminate. }
    destruct NE as [N|N].
    + destruct (pi_rq n m c I w W N) as [X|[X|X]]; congruence.
    + destruct (pi_nq n m c I w W N) as [X|[X|[X|X]]]; congruence.
  - exists f, fs. split; auto. destruct (fstep P (core c) f) as [[s' fr]|] eqn:F; auto. left.
    assert (S : exists c', pstep P n m c (MStep w w) = Some c') by (unfold pstep; rewrite D, E, F, W; eauto).
    destruct S as [c' S]. destruct (Q _ _ S) as (i & v & q & fs1 & X & Y). injection X as <- <-. rewrite E in Y. injection Y as -> _. eauto.
  - exfalso. apply nth_error_None in E. rewrite (pi_thr n m c I) in E. lia.
Qed.

(** ** The test: if every worker is given one of the [n] tasks, then all bodies run at the same
    time, each on the worker it was given to.  No body has to end for another one to begin. *)
Theorem C74_all_workers_are_used :
  forall n m place k c, (forall t, t < n -> 1 <= place t <= n) -> (forall t u, t < n -> u < n -> place t = place u -> t = u) ->
  usteps (util n) n m place k c -> (forall t, ~ ended (core c) t) -> all_but_bodies (util n) n m place c ->
  (forall t, t < n -> in_body c (place t) t) /\ (forall w, 1 <= w <= n -> exists t, t < n /\ in_body c w t).
Proof.
  intros n m place k c Hr Hi H NE Q. destruct (uinv_run n m place Hr Hi k c H NE) as (j & U).
  assert (A : forall t, t < n -> in_body c (place t) t) by (intros t Lt; exact (proj1 (uinv_rest n m place Hr j c U Q t Lt))).
  split; auto. intros w Hw. destruct (pl_all n place Hr Hi w Hw) as (t & Lt & <-). eauto.
Qed.

(** which is what emplace_task does *)
Lemma round_robin_ok n v : (forall t, t < n -> 1 <= round_robin n v t <= n) /\ (forall t u, t < n -> u < n -> round_robin n v t = round_robin n v u -> t = u).
Proof.
  unfold round_robin. split.
  - intros t Lt. assert (X := Nat.mod_upper_bound (v + t) n ltac:(lia)). lia.
  - assert (G : forall t u, t <= u -> u < n -> (v + t) mod n = (v + u) mod n -> t = u).
    { intros t u L Lu E. assert (A := Nat.div_mod (v + t) n ltac:(lia)). assert (B := Nat.div_mod (v + u) n ltac:(lia)). rewrite E in A.
      assert (X : n * ((v + u) / n) - n * ((v + t) / n) = u - t) by lia. rewrite <- Nat.mul_sub_distr_l in X.
      destruct ((v + u) / n - (v + t) / n) as [|d]; [lia|]. rewrite Nat.mul_succ_r in X. lia. }
    intros t u Lt Lu E. injection E as E. destruct (Nat.le_ge_cases t u); [|symmetry]; apply G; auto.
Qed.

(** ** [count] *)
Fixpoint begun (l : list lev) : list nat := match l with [] => [] | LStart t :: l => t :: begun l | _ :: l => begun l end.
Lemma count_begun l : count l = length (begun l).
Proof. unfold count. induction l as [|[] l IH]; simpl; auto. Qed.
Lemma in_begun l t : In t (begun l) <-> In (LStart t) l.
Proof.
  induction l as [|e l IH]; [easy|]. simpl. destruct e; simpl; rewrite ?IH; split; intros [X|X] || intros X; try discriminate; try tauto.
  - left. congruence.
  - left. congruence.
Qed.
Lemma begun_once l t : (zsum (ni t) (begun l) = zsum (v_start t) l)%Z.
Proof. induction l as [|[] l IH]; simpl; auto; rewrite ?IH; try reflexivity. Qed.
Lemma nodup_ni l : (forall t, (zsum (ni t) l <= 1)%Z) -> NoDup l.
Proof.
  induction l as [|x l IH]; intros H; [constructor|]. constructor.
  - intros X. apply ni_pos in X. specialize (H x). simpl in H. unfold ni at 1 in H. rewrite Nat.eqb_refl in H. simpl in H. lia.
  - apply IH. intros t. specialize (H t). simpl in H. assert (0 <= ni t x)%Z; [|lia]. unfold ni. destruct (x =? t); simpl; lia.
Qed.
Lemma util_begun k n m g j c : psteps (util k) n m g j c ->
  NoDup (begun (log (core c))) /\ incl (begun (log (core c))) (seq 0 k).
Proof.
  intros H. assert (W := app_wf _ false (util_sound k)).
  destruct (pruns_greach (util k) n m g j c W eq_refl (conj H (or_intror (app_flat _ false)))) as (_ & a & s & G & (e & r & -> & _) & _).
  apply gsteps_greach in G. assert (I := greach_Inv _ W eq_refl _ _ G). split.
  - apply nodup_ni. intros t. rewrite begun_once. pose proof (f_exec _ _ I t). pose proof (f_start _ _ I t). simpl in *. lia.
  - intros t Ht. apply in_begun, in_start in Ht. pose proof (f_start _ _ I t). pose proof (f_exec_init _ _ I t). pose proof (f_phase _ _ I t).
    destruct (app_counts _ false _ I t) as [_ C]. rewrite repeat_length in C. simpl in *.
    assert (NT : (0 <= zsum (n_spawn t) (frames (with_queues (core c) e r)))%Z).
    { apply zsum_nonneg. intros q _. unfold n_spawn. apply zsum_nonneg. intros x _. unfold ni. destruct (x =? t); simpl; lia. }
    apply in_seq. destruct (Nat.ltb_spec t k); [|lia]. lia.
Qed.
Lemma count_le k n m g j c : psteps (util k) n m g j c -> count (log (core c)) <= k.
Proof.
  intros H. destruct (util_begun k n m g j c H) as [N I]. rewrite count_begun. apply NoDup_incl_length in I; auto. now rewrite seq_length in I.
Qed.
Lemma count_all k n m g j c : psteps (util k) n m g j c -> (forall t, t < k -> In (LStart t) (log (core c))) -> count (log (core c)) = k.
Proof.
  intros H A. assert (L := count_le k n m g j c H). rewrite count_begun in *.
  assert (X : incl (seq 0 k) (begun (log (core c)))) by (intros t Ht; apply in_begun, A; apply in_seq in Ht; lia).
  apply NoDup_incl_length in X; [|apply seq_NoDup]. rewrite seq_length in X. lia.
Qed.

Theorem C74_round_robin_uses_all_workers :
  forall n m v k c, usteps (util n) n m (round_robin n v) k c -> (forall t, ~ ended (core c) t) -> all_but_bodies (util n) n m (round_robin n v) c ->
  (forall w, 1 <= w <= n -> exists t, t < n /\ in_body c w t) /\ count (log (core c)) = n.
Proof.
  intros n m v k c H NE Q. destruct (round_robin_ok n v) as [Hr Hi]. split; [exact (proj2 (C74_all_workers_are_used n m _ k c Hr Hi H NE Q))|].
  destruct (uinv_run n m _ Hr Hi k c H NE) as (j & U).
  apply (count_all n n m false k); [exact (usteps_psteps _ _ _ _ _ _ H)|]. intros t Lt. exact (proj2 (uinv_rest n m _ Hr j c U Q t Lt)).
Qed.

(** ** The check of the test: with any placement [count] never passes the number of tasks, and
    has this value when everything has come to rest; this takes a bounded number of steps. *)
Theorem C74_the_test_passes :
  forall n q m, 1 <= q -> 1 <= m ->
  (exists B, forall k c, psteps (util n) q m false k c -> k <= B) /\
  (forall k c, psteps (util n) q m false k c -> count (log (core c)) <= n) /\
  (forall k c, psteps (util n) q m false k c -> pstuck (util n) q m c ->
     count (log (core c)) = n /\ all_frames (core c) = [FBody None []] /\ forall t, t < n -> completed (core c) t).
Proof.
  intros n q m Hq Hm. assert (OK := util_sound n). assert (W := app_wf _ false OK). split; [|split].
  - destruct (C58_executions_are_bounded (util n) q m false n W eq_refl) as (B & HB).
    { intros o x Hx. assert (X : bounded (util n) (length (repeat count_task n))) by apply app_bounded. rewrite repeat_length in X. exact (X o x Hx). }
    exists B. intros k c H. apply (HB k c). split; auto. right. apply app_flat.
  - intros k c H. exact (count_le n q m false k c H).
  - intros k c H K. destruct (app_pool _ q m k c OK Hq Hm H K) as (s & R & S & EL & EF).
    destruct (app_finished _ (q + m) s OK ltac:(lia) R S) as [A B]. rewrite repeat_length in B.
    assert (C : forall t, t < n -> completed s t) by (intros t Lt; apply B; auto).
    split; [|split].
    + apply (count_all n q m false k); auto. intros t Lt. rewrite <- EL.
      assert (G := flat_greach _ W eq_refl _ s (app_flat _ false) R). assert (E := completed_ended _ W eq_refl _ s t G (C t Lt)).
      assert (I := greach_Inv _ W eq_refl _ s G). apply in_end in E. apply in_start. pose proof (f_end _ s I t). lia.
    + now rewrite <- EF.
    + intros t Lt. unfold completed. rewrite <- EL. exact (C t Lt).
Qed.

(** ** Executions that can be computed *)
Definition placedb (place : nat -> nat) (c : pool) (mv : move) : bool :=
  match mv with
  | MStep i w => match nth_error (thr (core c)) i with Some (FSub _ t [] _ :: _) => w =? place t | _ => true end
  | _ => true
  end.
Lemma placedb_ok place c mv : placedb place c mv = true -> placed place c mv.
Proof. destruct mv; simpl; auto. intros H o t is fs E. rewrite E in H. now apply Nat.eqb_eq in H. Qed.
Fixpoint pick_of (P : prog) (n m : nat) (place : nat -> nat) (c : pool) (o : list move) : option (move * pool) :=
  match o with
  | [] => None
  | mv :: o => match placedb place c mv, pstep P n m c mv with true, Some c' => Some (mv, c') | _, _ => pick_of P n m place c o end
  end.
Fixpoint udrive (P : prog) (n m : nat) (place : nat -> nat) (o : list move) (fuel : nat) (c : pool) : list move * pool :=
  match fuel with
  | O => ([], c)
  | S fuel => match pick_of P n m place c o with
              | Some (mv, c') => let '(l, c'') := udrive P n m place o fuel c' in (mv :: l, c'')
              | None => ([], c)
              end
  end.
Lemma pick_of_step P n m place c o mv c' : pick_of P n m place c o = Some (mv, c') -> placed place c mv /\ pstep P n m c mv = Some c'.
Proof.
  induction o as [|x o IH]; simpl; [easy|]. destruct (placedb place c x) eqn:B; auto. destruct (pstep P n m c x) eqn:E; auto.
  intros H. injection H as <- <-. split; auto. now apply placedb_ok.
Qed.
(** an execution and the moves in it *)
Inductive made (P : prog) (n m : nat) (place : nat -> nat) : pool -> list move -> pool -> Prop :=
| made_nil c : made P n m place c [] c
| made_cons c mv c' l c'' : placed place c mv -> pstep P n m c mv = Some c' -> made P n m place c' l c'' -> made P n m place c (mv :: l) c''.
Lemma udrive_made P n m place o fuel : forall c, made P n m place c (fst (udrive P n m place o fuel c)) (snd (udrive P n m place o fuel c)).
Proof.
  induction fuel as [|fuel IH]; intros c; simpl; [constructor|]. destruct (pick_of P n m place c o) as [[mv c']|] eqn:E; [|constructor].
  apply pick_of_step in E as [A B]. specialize (IH c'). destruct (udrive P n m place o fuel c') as [l c''] eqn:Ed. simpl in *. econstructor; eauto.
Qed.
Lemma made_usteps P n m place c l c' : made P n m place c l c' -> forall k, usteps P n m place k c -> usteps P n m place (length l + k) c'.
Proof.
  induction 1 as [|c mv c' l c'' A B H IH]; intros k U; simpl; auto. rewrite plus_n_Sm. apply IH. econstructor; eauto.
Qed.
Lemma made_app P n m place c l c' l' c'' : made P n m place c l c' -> made P n m place c' l' c'' -> made P n m place c (l ++ l') c''.
Proof. induction 1; simpl; auto. intros X. econstructor; eauto. Qed.

(** every possible move is the end of a body *)
Definition restb (P : prog) (n m : nat) (c : pool) : bool :=
  forallb (fun i => match due c i, nth_error (thr (core c)) i with
                    | [], Some (FBody (Some _) [] :: _) => true
                    | [], Some (f :: _) => match fstep P (core c) f with None => true | _ => false end
                    | [], Some [] => match is_worker n i, wp c i, flag c i, ext (core c) with
                                     | true, WWait, false, [] => true
                                     | false, _, _, [] => true
                                     | _, _, _, _ => false
                                     end
                    | _, _ => false
                    end) (seq 0 (1 + n + m)).
Lemma restb_all P n m c : pinv n m c -> restb P n m c = true ->
  forall mv c', pstep P n m c mv = Some c' -> exists i w q fs, mv = MStep i w /\ nth_error (thr (core c)) i = Some (FBody (Some q) [] :: fs).
Proof.
  intros I H mv c' S. unfold restb in H. rewrite forallb_forall in H.
  assert (R : forall i st, nth_error (thr (core c)) i = Some st -> In i (seq 0 (1 + n + m))).
  { intros i st E. apply nth_lt in E. rewrite (pi_thr n m c I) in E. apply in_seq. lia. }
  assert (X : forall i st, nth_error (thr (core c)) i = Some st ->
    due c i = [] /\ match st with
                    | f :: _ => (exists q, f = FBody (Some q) []) \/ fstep P (core c) f = None
                    | [] => ext (core c) = [] /\ (is_worker n i = true -> wp c i = WWait /\ flag c i = false)
                    end).
  { intros i st E. specialize (H i (R i st E)). rewrite E in H. destruct (due c i); [|discriminate]. split; auto.
    destruct st as [|f fs].
    - destruct (is_worker n i), (wp c i), (flag c i), (ext (core c)); try discriminate; split; auto; discriminate.
    - destruct (fstep P (core c) f) eqn:F; [|auto]. left. destruct f as [[q|] [|]| | | | | | | | | | | | | | | | | | |]; try discriminate. eauto. }
  destruct mv as [i w|i|w k|w|w v k|i k]; unfold pstep in S.
  - destruct (nth_error (thr (core c)) i) as [[|f fs]|] eqn:E; destruct (due c i) eqn:D; try discriminate.
    destruct (X i _ E) as [_ [[q ->]|F]]; [|rewrite F in S; discriminate]. exists i, w, q, fs. auto.
  - exfalso. destruct (due c i) eqn:D; [discriminate|].
    assert (Hi : i < 1 + n + m) by (apply (pi_due n m c I); congruence).
    specialize (H i ltac:(apply in_seq; lia)). rewrite D in H. discriminate.
  - exfalso. destruct (is_worker n w) eqn:W; [|discriminate]. destruct (due c w); [|discriminate].
    destruct (nth_error (thr (core c)) w) as [[|f fs]|] eqn:E; try discriminate. destruct (X w _ E) as (_ & _ & Y).
    destruct (Y W) as [Y1 Y2]. rewrite Y1, Y2 in S. discriminate.
  - exfalso. destruct (is_worker n w) eqn:W; [|discriminate]. destruct (due c w); [|discriminate].
    destruct (nth_error (thr (core c)) w) as [[|f fs]|] eqn:E; try discriminate. destruct (X w _ E) as (_ & _ & Y).
    destruct (Y W) as [Y1 _]. rewrite Y1 in S. discriminate.
  - exfalso. destruct (is_worker n w) eqn:W; [|discriminate]. destruct (is_worker n v); [|discriminate]. destruct (due c w); [|discriminate].
    destruct (nth_error (thr (core c)) w) as [[|f fs]|] eqn:E; try discriminate. destruct (X w _ E) as (_ & _ & Y).
    destruct (Y W) as [Y1 _]. rewrite Y1 in S. discriminate.
  - exfalso. destruct (n <? i); [|discriminate]. destruct (due c i); [|discriminate].
    destruct (nth_error (thr (core c)) i) as [[|f fs]|] eqn:E; try discriminate. destruct (X i _ E) as (_ & Y & _).
    simpl in S. rewrite Y in S. now destruct k.
Qed.

Lemma restb_ok P n m place c : pinv n m c -> restb P n m c = true -> all_but_bodies P n m place c.
Proof. intros I H mv c' _ S. exact (restb_all P n m c I H mv c' S). Qed.

Definition of_main : list move := [MWake 0; MStep 0 1; MStep 0 2; MStep 0 3].
Definition of_worker (w : nat) : list move := [MWake w; MTake w 0; MMiss w; MStep w 1].
Fixpoint phases (P : prog) (n m : nat) (place : nat -> nat) (ps : list (list move * nat)) (c : pool) : list move * pool :=
  match ps with
  | [] => ([], c)
  | (o, fuel) :: ps => let '(l, c') := udrive P n m place o fuel c in let '(l', c'') := phases P n m place ps c' in (l ++ l', c'')
  end.
Lemma phases_made P n m place ps : forall c, made P n m place c (fst (phases P n m place ps c)) (snd (phases P n m place ps c)).
Proof.
  induction ps as [|[o fuel] ps IH]; intros c; simpl; [constructor|]. assert (A := udrive_made P n m place o fuel c).
  destruct (udrive P n m place o fuel c) as [l c']. specialize (IH c'). destruct (phases P n m place ps c') as [l' c'']. simpl in *. eapply made_app; eauto.
Qed.
Lemma phases_usteps P n m place ps : exists k, usteps P n m place k (snd (phases P n m place ps (pinit P n m))).
Proof. eexists. eapply made_usteps; [apply phases_made|constructor]. Qed.

(** ** Is no worker left asleep while a task waits?  No: a worker that has found nothing goes to
    sleep, and a task that is put into the queue of a busy worker wakes this worker only
    (default_scheduler.cpp:33-62, REDGRAPES_EMPLACE_NOTIFY_NEXT is 0).  Three tasks, two workers,
    placed in turn: task 0 runs on worker 1, task 1 has run on worker 2, task 2 waits in the
    queue of worker 1, and nothing at all happens until the body of task 0 returns. *)
Definition nap_plan : list (list move * nat) := [(of_main, 18); (of_worker 1, 14); (of_worker 2, 200); (of_main, 100)].
Definition nap : pool := snd (phases (util 3) 2 1 (round_robin 2 0) nap_plan (pinit (util 3) 2 1)).
Lemma nap_steps : exists k, usteps (util 3) 2 1 (round_robin 2 0) k nap.
Proof. exact (phases_usteps (util 3) 2 1 (round_robin 2 0) nap_plan). Qed.
Lemma nap_rest : all_but_bodies (util 3) 2 1 (round_robin 2 0) nap.
Proof.
  destruct nap_steps as [k H]. refine (restb_ok _ _ _ _ _ (proj1 (pool_run _ _ _ _ _ _ (usteps_psteps _ _ _ _ _ _ H))) _). vm_compute. reflexivity.
Qed.
Lemma nap_sleeps : sleeps nap 2.
Proof. split; [|split]; vm_compute; reflexivity. Qed.
Lemma nap_queue : nq nap 1 = [2].
Proof. vm_compute. reflexivity. Qed.
Lemma end_in l t : existsb (fun e => match e with LEnd u => u =? t | _ => false end) l = true -> In (LEnd t) l.
Proof. intros H. apply existsb_exists in H as (e & He & X). destruct e; try discriminate. apply Nat.eqb_eq in X. now subst. Qed.
Lemma exec_not l t : forallb (fun e => match e with LExec u => negb (u =? t) | _ => true end) l = true -> ~ In (LExec t) l.
Proof. intros H X. rewrite forallb_forall in H. specialize (H _ X). simpl in H. now rewrite Nat.eqb_refl in H. Qed.
Lemma nap_log : ended (core nap) 1 /\ ~ started (core nap) 2.
Proof. split; [apply end_in|apply exec_not]; vm_compute; reflexivity. Qed.
Theorem C74_no_worker_sleeps_while_a_task_waits_refuted :
  ~ (forall j n m v k c w u, usteps (util j) n m (round_robin n v) k c -> all_but_bodies (util j) n m (round_robin n v) c ->
     1 <= w <= n -> 1 <= u <= n -> nq c u <> [] -> ~ sleeps c w).
Proof.
  intros F. destruct nap_steps as [k H]. assert (A : 1 <= 2 <= 2) by (split; repeat constructor). assert (B : 1 <= 1 <= 2) by (split; repeat constructor).
  refine (F 3 2 1 0 k nap 2 1 H nap_rest A B _ nap_sleeps). rewrite nap_queue. clear. discriminate.
Qed.
(** there only the body of task 0 runs, though a worker is free and a task is there *)
Example C74_ex_nap :
  (exists k, usteps (util 3) 2 1 (round_robin 2 0) k nap) /\ all_but_bodies (util 3) 2 1 (round_robin 2 0) nap /\
  in_body nap 1 0 /\ sleeps nap 2 /\ nq nap 1 = [2] /\ ended (core nap) 1 /\ ~ started (core nap) 2.
Proof.
  refine (conj nap_steps (conj nap_rest (conj _ (conj nap_sleeps (conj nap_queue nap_log))))). vm_compute. reflexivity.
Qed.

(** ** What the check of the test cannot see: the name says that every worker is utilised, but
    [count] also becomes [n] when one worker does everything.  Two workers: worker 1 is done with
    task 0 and steals task 1 before worker 2 has been woken. *)
Definition lone_run : list move * pool := phases (util 2) 2 1 (round_robin 2 0)
  [(of_main, 9); ([MStep 0 2], 2); ([MWake 1; MTake 1 0; MSteal 1 2 0; MMiss 1; MStep 1 1], 200); (of_main, 100); (of_worker 1, 50); (of_worker 2, 50);
   (of_main, 100)] (pinit (util 2) 2 1).
Lemma lone_made : made (util 2) 2 1 (round_robin 2 0) (pinit (util 2) 2 1) (fst lone_run) (snd lone_run).
Proof. exact (phases_made (util 2) 2 1 (round_robin 2 0) _ _). Qed.
Lemma lone_steps : exists k, psteps (util 2) 2 1 false k (snd lone_run).
Proof. eexists. eapply usteps_psteps. eapply made_usteps; [exact lone_made|constructor]. Qed.
Lemma lone_stuck : pstuck (util 2) 2 1 (snd lone_run).
Proof. destruct lone_steps as [k H]. refine (pstuckb_ok _ _ _ _ (proj1 (pool_run _ _ _ _ _ _ H)) _). vm_compute. reflexivity. Qed.
Definition steps_of (w : nat) (l : list move) : bool := existsb (fun mv => match mv with MStep i _ => i =? w | _ => false end) l.
Lemma steps_of_in w l v : In (MStep w v) l -> steps_of w l = true.
Proof. intros H. apply existsb_exists. exists (MStep w v). split; auto. apply Nat.eqb_refl. Qed.
Lemma lone_quiet : steps_of 2 (fst lone_run) = false.
Proof. vm_compute. reflexivity. Qed.
Theorem C74_every_worker_gets_a_task_refuted :
  ~ (forall n m v l c w, made (util n) n m (round_robin n v) (pinit (util n) n m) l c -> pstuck (util n) n m c -> 1 <= w <= n ->
     exists i, In (MStep w i) l).
Proof.
  intros F. assert (A : 1 <= 2 <= 2) by (split; repeat constructor).
  destruct (F 2 1 0 _ _ 2 lone_made lone_stuck A) as [i Hi]. apply steps_of_in in Hi. rewrite lone_quiet in Hi. clear - Hi. discriminate.
Qed.
(** the check passes all the same *)
Example C74_ex_lone :
  made (util 2) 2 1 (round_robin 2 0) (pinit (util 2) 2 1) (fst lone_run) (snd lone_run) /\ pstuck (util 2) 2 1 (snd lone_run) /\
  (forall v, ~ In (MStep 2 v) (fst lone_run)) /\ count (log (core (snd lone_run))) = 2.
Proof.
  refine (conj lone_made (conj lone_stuck (conj _ _))); [|vm_compute; reflexivity].
  intros v Hv. apply steps_of_in in Hv. rewrite lone_quiet in Hv. clear - Hv. discriminate.
Qed.

(** ** Examples: three workers, the counter next_worker is 7 before the first call; all three bodies run *)
Definition full_plan : list (list move * nat) := [(of_main, 100); (of_worker 1, 14); (of_worker 2, 14); (of_worker 3, 14)].
Definition full : pool := snd (phases (util 3) 3 1 (round_robin 3 7) full_plan (pinit (util 3) 3 1)).
Lemma full_steps : exists k, usteps (util 3) 3 1 (round_robin 3 7) k full.
Proof. exact (phases_usteps (util 3) 3 1 (round_robin 3 7) full_plan). Qed.
Lemma end_not l : forallb (fun e => match e with LEnd _ => false | _ => true end) l = true -> forall t, ~ In (LEnd t) l.
Proof. intros H t X. rewrite forallb_forall in H. now specialize (H _ X). Qed.
Example C74_ex :
  (forall t, t < 3 -> 1 <= round_robin 3 7 t <= 3) /\ (exists k, usteps (util 3) 3 1 (round_robin 3 7) k full) /\
  (forall t, ~ ended (core full) t) /\ all_but_bodies (util 3) 3 1 (round_robin 3 7) full /\
  in_body full 2 0 /\ in_body full 3 1 /\ in_body full 1 2 /\ count (log (core full)) = 3.
Proof.
  split; [exact (proj1 (round_robin_ok 3 7))|]. split; [exact full_steps|].
  split; [apply end_not; vm_compute; reflexivity|]. split.
  { destruct full_steps as [k H]. refine (restb_ok _ _ _ _ _ (proj1 (pool_run _ _ _ _ _ _ (usteps_psteps _ _ _ _ _ _ H))) _). vm_compute. reflexivity. }
  split; [vm_compute; reflexivity|]. split; [vm_compute; reflexivity|]. split; vm_compute; reflexivity.
Qed.
(** [nap] is also an example for the first theorem: the queue of worker 1 is not empty *)
Example C74_ex_busy :
  (exists k, psteps (util 3) 2 1 false k nap) /\
  (forall mv c', pstep (util 3) 2 1 nap mv = Some c' -> exists i w q fs, mv = MStep i w /\ nth_error (thr (core nap)) i = Some (FBody (Some q) [] :: fs)) /\
  (rq nap 1 <> [] \/ nq nap 1 <> []).
Proof.
  destruct nap_steps as [k H]. apply usteps_psteps in H. split; [exact (ex_intro _ k H)|]. split.
  - refine (restb_all _ _ _ _ (proj1 (pool_run _ _ _ _ _ _ H)) _). vm_compute. reflexivity.
  - right. rewrite nap_queue. clear. discriminate.
Qed.

Definition all_util := (@C74_tasks_wait_only_for_a_busy_worker, @C74_all_workers_are_used, @C74_round_robin_uses_all_workers, @C74_the_test_passes,
  @C74_no_worker_sleeps_while_a_task_waits_refuted, @C74_every_worker_gets_a_task_refuted, @C74_ex, @C74_ex_nap, @C74_ex_lone, @C74_ex_busy).
Print Assumptions all_util.
