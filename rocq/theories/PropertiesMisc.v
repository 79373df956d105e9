(** C45-C50: placement, tag matching, MPI request pool, accelerator streams,
    identifiers, scope depth. *)
From Coq Require Import Bool List Arith NArith Lia Permutation.
From Verif Require Import MiscModel MiscProof StreamModel StreamProof.
From Verif Require AccessModel UserModel UserProof.
Import ListNotations.
Open Scope N_scope.

(** ** C45 *)

(** The worker chosen by emplace_task exists, and the scheduler puts the task into
    that worker's queue. *)
Theorem C45_placed_in_existing_queue :
  forall size next, 0 < size ->
  exists w next', emplace_place size next = Some (w, next') /\ w < size /\ sched_place size w = Some w.
Proof.
  intros size next H. unfold emplace_place, sched_place. destruct (N.eqb_spec size 0); [lia|].
  assert (L : next mod size < size) by (apply N.mod_lt; lia).
  eexists _, _. split; [reflexivity|split; [assumption|]]. now rewrite N.mod_small.
Qed.

(** One round gives every worker exactly one task. *)
Theorem C45_round_visits_every_worker_once :
  forall size next, 0 < size -> next + size <= 2 ^ 32 ->
  NoDup (placements size next (N.to_nat size)) /\
  forall w, In w (placements size next (N.to_nat size)) <-> w < size.
Proof.
  intros size next H B. split; [apply placements_nodup; unfold u32; lia|]. intros w.
  assert (P := placements_cycle size next H B). rewrite <- in_workers. split; apply Permutation_in; [|symmetry]; assumption.
Qed.

(** Over any number of submissions the loads differ by at most one. *)
Theorem C45_round_robin_is_fair :
  forall size k next, 0 < size -> next + N.of_nat k <= 2 ^ 32 ->
  length (placements size next k) = k /\
  forall w, w < size ->
  (k / N.to_nat size <= count_occ N.eq_dec (placements size next k) w <= S (k / N.to_nat size))%nat.
Proof.
  intros size k next H B. split; [now apply placements_length|]. intros w Hw. now apply placements_fair.
Qed.
Example C45_ex_fair : placements 3 4294967289 7 = [0; 1; 2; 0; 1; 2; 0] /\ 4294967289 + 7 <= 2 ^ 32.
Proof. split; vm_compute; [reflexivity|discriminate]. Qed.

(** When all workers are busy a ready task goes to an existing worker, and to another
    one than the worker that made it ready. *)
Theorem C45_busy_fallback_avoids_caller_partial :
  forall size c next, 0 < size -> c < size ->
  exists w next', activate_place size (Some c) next = Some (w, next') /\ w < size /\
  (2 <= size -> next + 1 < 2 ^ 32 -> w <> c).
Proof.
  intros size c next H Hc. unfold activate_place. destruct (N.eqb_spec size 0); [lia|].
  destruct (N.eqb_spec (next mod size) c) as [E|E]; eexists _, _; (split; [reflexivity|]); (split; [apply N.mod_lt; lia|]); intros H2 B.
  - rewrite (N.mod_small (next + 1)) by (unfold u32; lia). intros E2. rewrite <- E in E2.
    symmetry in E2. apply mod_inj in E2; lia.
  - assumption.
Qed.
Example C45_ex_fallback : activate_place 4 (Some 2) 6 = Some (3, 8).
Proof. reflexivity. Qed.

(** At the wrap of the 32-bit counter both guarantees fail for 3 workers. *)
Theorem C45_fair_across_wrap_refuted :
  ~ (forall size next, 0 < size -> next < 2 ^ 32 -> NoDup (placements size next (N.to_nat size))).
Proof.
  intros H. specialize (H 3 4294967295 ltac:(lia) ltac:(vm_compute; reflexivity)). vm_compute in H.
  inversion H; subst. apply H2. now left.
Qed.
Theorem C45_fallback_across_wrap_refuted :
  ~ (forall size c next w next', 2 <= size -> c < size -> next < 2 ^ 32 ->
       activate_place size (Some c) next = Some (w, next') -> w <> c).
Proof.
  intros H. apply (H 3 0 4294967295 0 1); try reflexivity; vm_compute; congruence.
Qed.
(** A task made ready by a thread that is no worker, while all workers are busy: the
    null pointer [current_worker] is dereferenced. *)
Theorem C45_activate_from_any_thread_refuted :
  ~ (forall size cur next, 0 < size -> exists r, activate_place size cur next = Some r).
Proof. intros H. destruct (H 1 None 0 ltac:(lia)) as [r E]. discriminate. Qed.

(** ** C46 *)
Definition supports (b req : N) : Prop := forall t, N.testbit req t = true -> N.testbit b t = true.

Theorem C46_first_supporting_scheduler :
  forall S (subs : list (N * S)) req s,
  route subs req = Some s <->
  exists i b, nth_error subs i = Some (b, s) /\ supports b req /\
              forall j b' s', (j < i)%nat -> nth_error subs j = Some (b', s') -> ~ supports b' req.
Proof. exact get_matching_some. Qed.
Theorem C46_unsupported_task_rejected :
  forall S (subs : list (N * S)) req,
  route subs req = None <-> forall b s, In (b, s) subs -> ~ supports b req.
Proof. exact get_matching_none. Qed.
(** The tags of a task are those of all [scheduling_tags] calls, those of a
    scheduler the ones it was registered with; a tag from 64 on is an error. *)
Theorem C46_tags_accumulate :
  forall calls b, fold_left (fun o l => match o with Some r => add_tags r l | None => None end) calls (Some 0) = Some b ->
  forall t, N.testbit b t = true <-> exists l, In l calls /\ In t l.
Proof.
  assert (G : forall calls b0 b, fold_left (fun o l => match o with Some r => add_tags r l | None => None end) calls (Some b0) = Some b ->
    forall t, N.testbit b t = true <-> N.testbit b0 t = true \/ exists l, In l calls /\ In t l).
  { induction calls as [|l calls IH]; intros b0 b H t; simpl in H.
    - injection H as <-. split; [now left|]. intros [H|(l & [] & _)]. assumption.
    - unfold add_tags in H. destruct (mk_tags l) as [bl|] eqn:E.
      + rewrite (IH _ _ H t). rewrite N.lor_spec, orb_true_iff. rewrite (mk_tags_ok l bl E t : N.testbit bl t = true <-> In t l). split.
        * intros [[A|A]|(l1 & A & B)]; [now left| |]; right; [exists l|exists l1]; simpl; auto.
        * intros [A|(l1 & [<-|A] & B)]; [auto|auto|]. right. exists l1. auto.
      + exfalso. clear - H. induction calls as [|x calls IH]; simpl in H; [discriminate|auto]. }
  intros calls b H t. rewrite (G calls 0 b H t), N.bits_0. split; [intros [A|A]; [discriminate|assumption]|auto].
Qed.
Theorem C46_registered_tags :
  forall S (subs subs' : list (N * S)) l s, add_scheduler subs l s = Some subs' ->
  exists b, subs' = subs ++ [(b, s)] /\ forall t, N.testbit b t = true <-> In t l.
Proof.
  intros S subs subs' l s H. unfold add_scheduler in H. destruct (mk_tags l) as [b|] eqn:E; [|discriminate].
  injection H as <-. exists b. split; [reflexivity|]. exact (mk_tags_ok l b E).
Qed.
(** A task without tags goes to the first scheduler. *)
Theorem C46_untagged_goes_to_first :
  forall S b (s : S) subs, route ((b, s) :: subs) 0 = Some s.
Proof. intros. unfold route. simpl. now rewrite N.land_0_r. Qed.
(** Waking succeeds if some sub-scheduler could be woken, and at most one is. *)
Theorem C46_wake_one :
  forall S (asleep : S -> bool) subs,
  fst (wake asleep subs) = existsb (fun p => asleep (snd p)) subs /\
  exists k, snd (wake asleep subs) = map snd (firstn k subs) /\
            forallb (fun p => negb (asleep (snd p))) (firstn (pred k) subs) = true.
Proof.
  intros S asleep subs. induction subs as [|[b s] subs IH]; simpl.
  - split; [reflexivity|]. now exists 0%nat.
  - destruct (asleep s) eqn:E; simpl.
    + split; [reflexivity|]. now exists 1%nat.
    + destruct (wake asleep subs) as [r l]. destruct IH as [I1 (k & I2 & I3)]. simpl in *. split; [assumption|].
      exists (Datatypes.S k). simpl. split; [now rewrite I2|]. destruct k as [|k]; [reflexivity|]. simpl in *. now rewrite E.
Qed.
Example C46_ex :
  exists b1 b2, mk_tags [0; 1] = Some b1 /\ mk_tags [1; 2] = Some b2 /\
  route [(b1, 10%nat); (b2, 20%nat)] 2 = Some 10%nat /\ route [(b1, 10%nat); (b2, 20%nat)] 6 = Some 20%nat /\
  route [(b1, 10%nat); (b2, 20%nat)] 5 = None.
Proof. eexists _, _. repeat split. Qed.
(** The dependency type of the matching sub-scheduler is not used: the function with
    that purpose does not override the interface. *)
Theorem C46_dependency_type_of_matching_scheduler_refuted :
  ~ (forall S (sub_type : S -> bool) subs req s, route subs req = Some s -> dependency_type sub_type subs req = sub_type s).
Proof. intros H. specialize (H nat (fun _ => true) [(1, 0%nat)] 1 0%nat eq_refl). discriminate. Qed.

(** ** C47 *)

(** a valid answer of MPI_Testsome for [n] requests: distinct positions *)
Definition testsome (out : list (nat * N)) (n : nat) : Prop :=
  NoDup (map fst out) /\ forall j s, In (j, s) out -> (j < n)%nat.

(** One poll, in terms of the pending (request, event, status cell) triples: the
    reported requests' events are notified and their statuses written, in the order
    of the report; the others stay, in their order. *)
Theorem C47_poll_notifies_exactly_the_reported :
  forall (l : list (N * N * N)) out w n, testsome out (length l) ->
  exists kept rep, mp_poll out (pool_of l w n) =
    Some (pool_of kept (w ++ map (fun '(_, _, c, s) => (c, s)) rep) (n ++ map (fun '(_, e, _, _) => e) rep)) /\
  length rep = length out /\
  (forall i j s, nth_error out i = Some (j, s) -> exists t, nth_error l j = Some t /\ nth_error rep i = Some (t, s)) /\
  Permutation l (kept ++ map fst rep) /\
  kept = map snd (filter (fun p => negb (existsb (Nat.eqb (fst p)) (map fst out))) (combine (seq 0 (length l)) l)).
Proof.
  intros l out w n V. exists (keep (outside out) 0 l), (reported l out).
  split; [unfold mp_poll; now apply mp_loop_ok|]. split; [apply reported_length; apply V|]. split; [|split].
  - destruct V as [_ V]. induction out as [|[j0 s0] out IH]; intros i j s H; [now destruct i|].
    assert (L := V j0 s0 (or_introl eq_refl)). simpl.
    destruct (nth_error l j0) as [t|] eqn:E; [|apply nth_error_None in E; lia].
    destruct i as [|i]; simpl in H.
    + injection H as <- <-. now exists t.
    + apply IH; [|assumption]. intros j1 s1 H1. apply (V j1 s1). now right.
  - now apply keep_reported.
  - fold (outside out). clear V. generalize 0%nat. induction l as [|x l IH]; intros k; [reflexivity|]. simpl. unfold outside at 1 2.
    destruct (negb (existsb (Nat.eqb k) (map fst out))); simpl; now rewrite IH.
Qed.

(** Over any history: no access out of range, and the registered requests are the
    pending ones and those completed, each exactly once with its own event and
    status cell. *)
Theorem C47_every_request_completes_once :
  forall ops, mp_valid ops 0 ->
  exists pending log,
    mp_run ops mp_init = Some (pool_of pending (map (fun '(_, _, c, s) => (c, s)) log) (map (fun '(_, e, _, _) => e) log)) /\
    Permutation (added ops) (pending ++ map fst log).
Proof.
  intros ops V. destruct (mp_run_ok ops [] [] [] [] eq_refl eq_refl V) as (l & log & E & P & _).
  exists l, log. split; [exact E|exact P].
Qed.
(** So with one event per call of get_status no event is notified twice. *)
Theorem C47_no_event_notified_twice :
  forall ops p, mp_valid ops 0 -> mp_run ops mp_init = Some p ->
  NoDup (map (fun '(_, e, _) => e) (added ops)) -> NoDup (notified p) /\ forall e, In e (notified p) -> ~ In e (m_ev p).
Proof.
  intros ops p V E D. destruct (C47_every_request_completes_once ops V) as (pend & log & E' & P).
  rewrite E' in E. injection E as <-. cbn [pool_of notified m_ev].
  assert (D2 : NoDup (map (fun t => snd (fst t)) pend ++ map (fun '(_, e, _, _) => e) log)).
  { replace (map (fun '(_, e, _, _) => e) log) with (map (fun t : N * N * N => snd (fst t)) (map fst log)).
    2: { rewrite map_map. apply map_ext. now intros [[[r e] c] s]. }
    rewrite <- map_app. eapply Permutation_NoDup; [apply Permutation_map; exact P|].
    erewrite map_ext; [exact D|]. now intros [[r e] c]. }
  split.
  - clear - D2. revert D2. generalize (map (fun t : N * N * N => snd (fst t)) pend). intros l.
    induction l as [|x l IH]; intros D2; [assumption|]. apply IH. now inversion D2.
  - intros e H1 H2. apply in_split in H2. destruct H2 as (l1 & l2 & H2). rewrite H2, <- app_assoc in D2. simpl in D2.
    apply NoDup_remove_2 in D2. apply D2. rewrite !in_app_iff. auto.
Qed.
Example C47_ex :
  mp_valid [MAdd 1 11 21; MAdd 2 12 22; MAdd 3 13 23; MPoll [(2%nat, 7); (0%nat, 8)]; MAdd 4 14 24; MPoll [(1%nat, 9)]] 0 /\
  mp_run [MAdd 1 11 21; MAdd 2 12 22; MAdd 3 13 23; MPoll [(2%nat, 7); (0%nat, 8)]; MAdd 4 14 24; MPoll [(1%nat, 9)]] mp_init
  = Some (mkPool [2] [12] [22] [(23, 7); (21, 8); (24, 9)] [13; 11; 14]).
Proof.
  split; [|reflexivity]. simpl. split; [|split; [|exact I]].
  - split; simpl.
    + constructor; [intros [H|[]]; discriminate|]. constructor; [easy|constructor].
    + intros j s [[= <- <-]|[[= <- <-]|[]]]; lia.
  - split; simpl.
    + constructor; [easy|constructor].
    + intros j s [[= <- <-]|[]]; lia.
Qed.

(** ** C48 *)

(** A device event is in use from the recording until the notification of the task
    it was recorded for. *)
Definition in_use (d : dev) (s e r : nat) : Prop :=
  (In (e, r) (queues d s) /\ ~ In r (told d)) \/ In (e, r) (open d s).

Theorem C48_pool_never_hands_out_event_in_use :
  forall ops s e r, in_use (druns ops) s e r -> fst (ev_alloc (druns ops)) <> e.
Proof.
  intros ops s e r H E. assert (I := inv_runs ops). apply (held_iff _ I) in H.
  destruct (ev_alloc (druns ops)) as [e' d'] eqn:A. destruct (ev_alloc_ok _ _ _ I A) as (_ & _ & _ & _ & _ & N & _).
  simpl in E. subst. exact (N _ _ H).
Qed.
Theorem C48_event_in_use_belongs_to_one_task :
  forall ops s s' e r r', in_use (druns ops) s e r -> in_use (druns ops) s' e r' -> s = s' /\ r = r'.
Proof.
  intros ops s s' e r r' H H'. assert (I := inv_runs ops). apply (held_iff _ I) in H. apply (held_iff _ I) in H'.
  apply In_nth_error in H. apply In_nth_error in H'. destruct H as [i H], H' as [j H'].
  destruct (held_unique _ I _ _ _ _ _ _ _ H H') as (A & _ & B). auto.
Qed.
(** A task's post-event is notified at most once, and only when the work recorded for
    this very task has finished. *)
Theorem C48_notified_once_after_completion :
  forall ops, NoDup (told (druns ops)) /\ forall r, In r (told (druns ops)) -> done r (druns ops) = true.
Proof. intros ops. split; apply inv_runs. Qed.
(** No task is forgotten. *)
Theorem C48_every_task_notified_or_pending :
  forall ops r e s, nth_error (recs (druns ops)) r = Some (e, s) ->
  (In r (told (druns ops)) \/ in_use (druns ops) s e r) /\ ~ (In r (told (druns ops)) /\ in_use (druns ops) s e r).
Proof.
  intros ops r e s H. assert (I := inv_runs ops). set (d := druns ops) in *. split.
  - assert (P := i_perm d I s). assert (R : In r (on_stream s d)) by (apply (onS_in s (recs d)); eauto).
    apply (Permutation_in _ P) in R. apply in_app_iff in R. destruct R as [R|R].
    + left. unfold told_on in R. now apply filter_In in R.
    + right. apply in_map_iff in R. destruct R as ([e' r'] & <- & R). simpl in *.
      destruct (i_held d I _ _ _ R) as (A & _). assert (e' = e) by congruence. subst. now apply (held_iff d I).
  - intros [A B]. apply (held_iff d I) in B. exact (held_untold d I _ _ _ B A).
Qed.
(** Polling looks at the front of the queue only: it notifies the task there if its
    work has finished and changes nothing otherwise. *)
Theorem C48_poll_notifies_front_if_finished :
  forall ops s e r q, let d := druns ops in
  busy d s = false -> open d s = [] -> queues d s = (e, r) :: q ->
  let d' := dstep (dstep d (DPollBegin s)) (DPollEnd s) in
  (done r d = true -> told d' = told d ++ [r] /\ queues d' s = q) /\ (done r d = false -> d' = d).
Proof.
  intros ops s e r q d B O Q d'. destruct (poll_round s d e r q B O Q (inv_runs ops)) as [P1 P2]. split; [|exact P2].
  intros D. now destruct (P1 D) as (_ & _ & X & Y & _).
Qed.
(** Once all its work has finished, as many polls as there are entries notify all. *)
Theorem C48_polls_drain_finished_stream :
  forall ops s, let d := druns ops in
  busy d s = false -> open d s = [] -> (forall e r, In (e, r) (queues d s) -> done r d = true) ->
  let d' := fold_left dstep (polls s (length (queues d s))) d in
  queues d' s = [] /\ told d' = told d ++ map snd (queues d s).
Proof. intros ops s d B O H. exact (polls_drain s (queues d s) d (inv_runs ops) B O eq_refl H). Qed.
(** In the order of the work on the stream, if no dispatch is nested in another one
    on the same stream. *)
Theorem C48_notified_in_stream_order_partial :
  forall ops s, unnested ops dev_init ->
  exists rest, on_stream s (druns ops) =
    filter (fun r => match nth_error (recs (druns ops)) r with Some (_, s') => (s' =? s)%nat | None => false end) (told (druns ops)) ++ rest.
Proof.
  intros ops s U.
  assert (W : ordered dev_init) by (intros s1; split; [reflexivity|simpl; lia]).
  destruct (ordered_fold ops dev_init inv_init W U s) as [E _]. eexists. exact E.
Qed.
Definition ex_stream : list dop :=
  [DRecord 0; DPush 0; DRecord 1; DPush 1; DRecord 0; DPush 0; DProgress 0; DPollBegin 0; DRecord 1; DPush 1; DPollEnd 0;
   DProgress 1; DPollBegin 0; DPollEnd 0; DPollBegin 1; DPollEnd 1].
Example C48_ex : unnested ex_stream dev_init /\ told (druns ex_stream) = [0; 1]%nat /\ recs (druns ex_stream) = [(0, 0); (1, 1); (2, 0); (0, 1)]%nat /\
  in_use (druns ex_stream) 0 2 2 /\ in_use (druns ex_stream) 1 0 3.
Proof.
  split; [repeat split|]. split; [reflexivity|]. split; [reflexivity|]. split; left; (split; [vm_compute; left; reflexivity|]);
    vm_compute; intros [H|[H|[]]]; discriminate.
Qed.
(** Nested dispatches (a task made ready by the pre-event of another one, on the same
    stream): the queue is in the wrong order, a finished task is not notified until
    a later one has finished. *)
Theorem C48_notified_in_stream_order_refuted :
  ~ (forall ops s, exists rest, on_stream s (druns ops) =
      filter (fun r => match nth_error (recs (druns ops)) r with Some (_, s') => (s' =? s)%nat | None => false end) (told (druns ops)) ++ rest).
Proof.
  intros H. specialize (H [DRecord 0; DRecord 0; DPush 0; DPush 0; DProgress 0; DProgress 0; DPollBegin 0; DPollEnd 0]%nat 0%nat).
  destruct H as [rest H]. vm_compute in H. discriminate.
Qed.
Theorem C48_finished_oldest_is_notified_refuted :
  ~ (forall ops s r, let d := druns ops in
       busy d s = false -> open d s = [] -> hd_error (on_stream s d) = Some r -> done r d = true ->
       In r (told (dstep (dstep d (DPollBegin s)) (DPollEnd s)))).
Proof.
  intros H. specialize (H [DRecord 0; DRecord 0; DPush 0; DPush 0; DProgress 0]%nat 0%nat 0%nat eq_refl eq_refl eq_refl eq_refl).
  vm_compute in H. exact H.
Qed.

(** ** C49 *)
(** [ts]: which thread makes the i-th request, i.e. any interleaving *)
Theorem C49_ids_unique :
  forall ts c, c < 2 ^ 32 -> N.of_nat (length ts) <= 2 ^ 32 ->
  length (give_ids c ts) = length ts /\ NoDup (map snd (give_ids c ts)) /\ map fst (give_ids c ts) = ts.
Proof.
  intros ts c Hc H. split; [apply give_ids_length|]. split; [now apply give_ids_unique|].
  clear. revert c. induction ts as [|t ts IH]; intros; simpl; [reflexivity|now rewrite IH].
Qed.
Theorem C49_ids_unique_forever_refuted :
  forall ts c, c < 2 ^ 32 -> 2 ^ 32 < N.of_nat (length ts) -> ~ NoDup (map snd (give_ids c ts)).
Proof. exact give_ids_repeat. Qed.
Example C49_ex : give_ids 4294967294 [0; 1; 0; 2]%nat = [(0%nat, 4294967294); (1%nat, 4294967295); (0%nat, 0); (2%nat, 1)].
Proof. reflexivity. Qed.

(** ** C50 *)
(** [creators ops]: for each task the task whose body created it; [lineage]: a task
    and its ancestors.  scope_depth() of a body is the number of tasks around it,
    backtrace() lists exactly these. *)
Theorem C50_depth_and_backtrace_follow_nesting :
  forall ops cur, w_valid ops 0 -> (forall t, cur = Some t -> (t < length (creators ops))%nat) ->
  exists w l, w_run ops w_init = Some w /\ lineage (creators ops) cur l /\
    backtrace (length (tasks w)) cur w = Some l /\
    exists w', scope_depth cur w = Some (N.of_nat (length l) mod 2 ^ 32, w').
Proof.
  intros ops cur V C. destruct (w_run_ok ops [] w_init rep_init V) as (w & E & R). simpl in R.
  assert (exists l, lineage (creators ops) cur l) as [l L].
  { destruct cur as [t|]; [apply (rep_lineage _ w t R); now apply C|exists []; constructor]. }
  exists w, l. split; [assumption|split; [assumption|split]].
  - apply (backtrace_ok _ w cur l _ R L). rewrite (rep_len _ _ R). apply (lineage_nodup_len _ cur l); [|assumption].
    apply (creators_earlier ops 0 [] V eq_refl). now intros [|t] c.
  - destruct (scope_depth_ok _ w cur l R C L) as (w' & H & _). exists w'. exact H.
Qed.
Theorem C50_lineage_is_unique :
  forall ps cur l l', lineage ps cur l -> lineage ps cur l' -> l = l'.
Proof. exact lineage_fun. Qed.
Example C50_ex :
  let ops := [WNew None; WNew (Some 0%nat); WAsk (Some 0%nat); WNew (Some 1%nat); WNew None] in
  w_valid ops 0 /\
  match w_run ops w_init with
  | Some w => backtrace 4 (Some 2%nat) w = Some [2; 1; 0]%nat /\ option_map fst (scope_depth (Some 2%nat) w) = Some 3 /\
              option_map fst (scope_depth (Some 3%nat) w) = Some 1
  | None => False
  end.
Proof. simpl. split; [|auto]. repeat split; intros t; congruence || (intros [= <-]; lia). Qed.

(** Below depth 256 a child is accepted iff all its accesses to resources of the
    parent's or an outer scope are covered. *)
Theorem C50_scope_check_partial :
  forall depth args calls child, (depth < 256)%nat ->
  let parent := UserModel.declare depth args calls in
  UserModel.user_is_superset_of parent child = true <->
  forall ra, In ra (UserModel.u_acc child) -> (AccessModel.r_scope (AccessModel.a_res ra) <= depth)%nat ->
             exists r, In r (UserModel.u_acc parent) /\ AccessModel.ra_is_superset r ra = true.
Proof.
  intros depth args calls child D parent. rewrite UserProof.user_is_superset_spec.
  assert (E : UserModel.u_scope parent = depth).
  { unfold parent, UserModel.declare.
    assert (G : forall l u, UserModel.u_scope (fold_left UserModel.resources l u) = UserModel.u_scope u).
    { induction l as [|x l IH]; intros u; simpl; [reflexivity|]. now rewrite IH. }
    rewrite G. assert (G2 : forall l u, UserModel.u_scope (fold_left UserModel.add_resource_access l u) = UserModel.u_scope u).
    { induction l as [|x l IH]; intros u; simpl; [reflexivity|]. now rewrite IH. }
    rewrite G2. cbn [UserModel.new_user UserModel.u_scope]. now apply Nat.mod_small. }
  now rewrite E.
Qed.
Example C50_ex_scope :
  let r := AccessModel.mkAcc (AccessModel.mkRes 1 255) AccessModel.TIO AccessModel.MWrite in
  UserModel.user_is_superset_of (UserModel.declare 255 [] [[]]) (UserModel.declare 256 [] [[r]]) = false /\
  UserModel.user_is_superset_of (UserModel.declare 254 [] [[]]) (UserModel.declare 255 [] [[r]]) = true.
Proof. vm_compute. split; reflexivity. Qed.
(** At depth 256 the stored level wraps: the access of a child to a resource of an
    outer scope is accepted although the parent did not declare it. *)
Theorem C50_scope_check_any_depth_refuted :
  ~ (forall depth args calls child,
       let parent := UserModel.declare depth args calls in
       UserModel.user_is_superset_of parent child = true ->
       forall ra, In ra (UserModel.u_acc child) -> (AccessModel.r_scope (AccessModel.a_res ra) <= depth)%nat ->
                  exists r, In r (UserModel.u_acc parent) /\ AccessModel.ra_is_superset r ra = true).
Proof.
  set (r := AccessModel.mkAcc (AccessModel.mkRes 1 5) AccessModel.TIO AccessModel.MWrite).
  intros H. destruct (H 256%nat [] [] (UserModel.declare 257 [r] []) eq_refl r) as (x & [] & _).
  - now left.
  - unfold r. simpl. lia.
Qed.

Definition all_misc := (C45_placed_in_existing_queue, C45_round_visits_every_worker_once, C45_round_robin_is_fair,
  C45_busy_fallback_avoids_caller_partial, C45_fair_across_wrap_refuted, C45_fallback_across_wrap_refuted,
  C45_activate_from_any_thread_refuted, C46_first_supporting_scheduler, C46_unsupported_task_rejected, C46_tags_accumulate,
  @C46_registered_tags, @C46_untagged_goes_to_first, @C46_wake_one, C46_dependency_type_of_matching_scheduler_refuted,
  C47_poll_notifies_exactly_the_reported, C47_every_request_completes_once, C47_no_event_notified_twice,
  C48_pool_never_hands_out_event_in_use, C48_event_in_use_belongs_to_one_task, C48_notified_once_after_completion,
  C48_every_task_notified_or_pending, C48_poll_notifies_front_if_finished, C48_polls_drain_finished_stream,
  C48_notified_in_stream_order_partial, C48_notified_in_stream_order_refuted, C48_finished_oldest_is_notified_refuted,
  C49_ids_unique, C49_ids_unique_forever_refuted, C50_depth_and_backtrace_follow_nesting, C50_lineage_is_unique,
  C50_scope_check_partial, C50_scope_check_any_depth_refuted).
Print Assumptions all_misc.
