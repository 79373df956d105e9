(** The pool of workers: C58.  Queues of their own, stealing and sleeping do not
    add behaviour to the machine of SchedModel, lose no task and stop nothing. *)
From Coq Require Import Bool List Arith NArith ZArith Lia Permutation.
From Verif Require Import AccessModel AccessSpec UserModel SchedModel SchedSpec SchedBase SchedInv1 SchedInv2 SchedInv3 SchedInv4 SchedInv5 SchedInv6 SchedInv7 SchedInv8 SchedFront SchedThm SchedLive SchedTerm SchedSeq SchedEx PropertiesSched PoolModel PoolProof.
Import ListNotations.
Open Scope nat_scope.

(** a state of the pool reached in [k] steps; [g] as for [runs] in PropertiesSched:
    every schedule of a flat program, or the schedules in which children are
    initialised before the body of their parent ends *)
Definition pruns (P : prog) (n m : nat) (g : bool) (k : nat) (c : pool) : Prop :=
  psteps P n m g k c /\ (g = true \/ flat P).

(** everything that is in the queues [q] of the workers 1..n *)
Fixpoint queued (q : nat -> list nat) (n : nat) : list nat :=
  match n with 0 => [] | S n => queued q n ++ q (S n) end.

Lemma queued_all q n : queued q n = all_of n q.
Proof.
  unfold all_of. induction n as [|n IH]; [reflexivity|]. rewrite seq_S, map_app, concat_app. simpl. now rewrite IH, app_nil_r.
Qed.

Lemma pruns_greach P n m g k c : wfa P -> p_wrap P = false -> pruns P n m g k c ->
  pinv n m c /\ exists a s, gsteps P (n + m) a s /\ sim n c s /\ k <= a * (1 + gain n).
Proof.
  intros W NW [H F]. destruct (pool_run P n m g k c H) as (I & a & s & A & S & B). split; auto.
  exists a, s. split; [exact (asteps_gsteps P (n + m) g a s W NW F A)|]. split; auto. lia.
Qed.

(** ** Refinement: for every execution of the pool there is one of SchedModel with
    the same history, in the same state but for the place of queued tasks; it is
    as long up to a factor. *)
Theorem C58_pool_refines_the_runtime :
  forall P n m g k c, psteps P n m g k c ->
  exists a s, asteps P (n + m) g a s /\ k <= a * (1 + gain n) /\
    log s = log (core c) /\ thr s = thr (core c) /\ ctr s = ctr (core c) /\ fol s = fol (core c) /\
    users s = users (core c) /\ lck s = lck (core c) /\ ext s = ext (core c) /\ cdn s = cdn (core c) /\ tcn s = tcn (core c) /\
    Permutation (emp s) (queued (nq c) n) /\ Permutation (rdy s) (queued (rq c) n).
Proof.
  intros P n m g k c H. destruct (pool_run P n m g k c H) as (_ & a & s & A & (e & r & -> & Pe & Pr) & B).
  exists a, (with_queues (core c) e r). split; auto. split; [lia|]. rewrite !queued_all. repeat split; auto.
Qed.

(** ** No lost wakeup: a worker that sleeps, and for which no wake() is on its way,
    has nothing in its queues. *)
Theorem C58_sleeping_worker_has_empty_queues :
  forall P n m g k c w, psteps P n m g k c -> 1 <= w <= n ->
  wp c w = WWait -> flag c w = false -> (forall i, ~ In w (due c i)) -> rq c w = [] /\ nq c w = [].
Proof.
  intros P n m g k c w H Hw Ew Ef D. destruct (pool_run P n m g k c H) as (I & _).
  assert (W : is_worker n w = true) by (apply In_is_worker, in_seq; lia).
  assert (A : announced n m c w <> true) by (rewrite announced_iff; intros (i & _ & Hi); exact (D i Hi)).
  split.
  - destruct (rq c w) as [|x l] eqn:Q; auto. exfalso. destruct (pi_rq n m c I w W) as [X|[X|X]]; congruence.
  - destruct (nq c w) as [|x l] eqn:Q; auto. exfalso. destruct (pi_nq n m c I w W) as [X|[X|[X|X]]]; congruence.
Qed.

(** ** When nothing moves any more, everything has been done. *)
Theorem C58_sleeping_pool_has_finished :
  forall P n m g k c, wf P -> p_wrap P = false -> (forall t, patient P t) -> 1 <= n -> 1 <= m -> pruns P n m g k c -> pstuck P n m c ->
  (forall t, submitted (core c) t ->
     completed (core c) t /\ (In (LGet t) (log (core c)) \/ In (LDrop t) (log (core c)) -> In (LFree t) (log (core c)))) /\
  (forall t e, In (LEvent t e) (log (core c)) -> In (LFire t e) (log (core c))) /\
  (forall w, 1 <= w <= n -> rq c w = [] /\ nq c w = []) /\
  (exists is, all_frames (core c) = [FBody None is] /\
     (is = [] \/ exists is' t, is = IBarrier :: is' /\ submitted (core c) t /\ parent P t = None /\
                               ~ (In (LGet t) (log (core c)) \/ In (LDrop t) (log (core c))))).
Proof.
  intros P n m g k c W NW PA Hn Hm H K. destruct (pruns_greach P n m g k c W NW H) as (I & a & s & G & S & _).
  apply gsteps_greach in G. assert (ST := pstuck_stuck P n m c s W NW Hn Hm I G S K).
  destruct (gprogress P W NW (n + m) s ltac:(lia) PA G ST) as (A & B & C).
  assert (R : reach P (n + m) s) by (clear -G; induction G; econstructor; eauto).
  destruct (reach_stack P (n + m) s R) as [_ LEN].
  destruct S as (e & r & -> & _ & _). split; [exact A|]. split; [exact B|]. split; [|exact C].
  intros w Hw. destruct C as (is & C & _).
  assert (WK : is_worker n w = true) by (apply In_is_worker, in_seq; lia).
  assert (nth_error (thr (core c)) w = Some []) as E.
  { destruct (nth_error (thr (core c)) w) as [[|f fs]|] eqn:E; auto; exfalso.
    - assert (Hf : In f (frames (with_queues (core c) e r))) by (apply in_frames; exists w, (f :: fs); split; simpl; auto).
      rewrite C in Hf. destruct Hf as [<-|[]].
      assert (w = 0); [|lia]. apply (reach_mainly P (n + m) _ R w _ (FBody None is) E); simpl; auto.
    - apply nth_error_None in E. simpl in LEN. lia. }
  destruct (pstuck_waits P n m c w I K WK E) as (_ & _ & X & Y). auto.
Qed.

(** ** Every execution ends. *)
Theorem C58_executions_are_bounded :
  forall P n m g N, wfp P -> p_wrap P = false -> (forall o x, In (ISpawn x) (body P o) -> x < N) ->
  exists B, forall k c, pruns P n m g k c -> k <= B.
Proof.
  intros P n m g N W NW BD. destruct (C17_nested_executions_are_bounded P (n + m) N W NW BD) as (B & HB).
  exists (B * (1 + gain n)). intros k c H. destruct (pruns_greach P n m g k c W NW H) as (_ & a & s & G & _ & L).
  specialize (HB a s G). apply (Nat.mul_le_mono_r _ _ (1 + gain n)) in HB. lia.
Qed.

(** ** Order, at most once, and the final result (C13, C15, C14) in the pool *)
Theorem C58_order_and_once_in_the_pool :
  forall P n m g k c, wfp P -> p_wrap P = false -> pruns P n m g k c ->
  (forall p t, parent P p = parent P t -> tasks_conflict P p t -> before (core c) p t ->
     started (core c) t -> completed (core c) p /\ ended (core c) p) /\
  (forall t, not_twice (LStart t) (log (core c)) /\
     length (filter (runner t) (all_frames (core c))) + count_occ Nat.eq_dec (queued (rq c) n) t <= 1 /\
     (started (core c) t -> ~ In t (queued (rq c) n))).
Proof.
  intros P n m g k c W NW H. destruct (pruns_greach P n m g k c W NW H) as (_ & a & s & G & (e & r & -> & _ & Pr) & _).
  apply gsteps_greach in G. split.
  - intros p t. exact (C13_conflicting_tasks_run_in_submission_order P (n + m) _ p t W NW (or_intror G)).
  - intros t. destruct (C15_body_runs_at_most_once P (n + m) _ t W NW (or_intror G)) as (_ & A & _ & _ & B). split; auto.
    rewrite queued_all. split.
    + rewrite <- (proj1 (Permutation_count_occ Nat.eq_dec _ _) Pr t). exact B.
    + intros St Hq. rewrite <- Pr in Hq. assert (I := greach_Inv P W NW (n + m) _ G). assert (T := tok_le P _ I t).
      apply in_exec in St. apply ni_pos in Hq. unfold tok in T. simpl log in T. simpl rdy in T.
      assert (0 <= zsum (w_token t) (frames (with_queues (core c) e r)))%Z; [|lia].
      apply zsum_nonneg. intros f _. destruct f; simpl; unfold ni, ce, zb; repeat match goal with |- context [match ?x with _ => _ end] => destruct x end; try lia.
Qed.

Theorem C58_final_result_of_the_pool :
  forall P n m k c (S : semantics) l mem, wf P -> p_wrap P = false -> flat P -> (forall t, patient P t) -> 1 <= n -> 1 <= m ->
  behaved P -> sensible S -> psteps P n m false k c -> pstuck P n m c -> In (FBody None []) (all_frames (core c)) ->
  same_result (exec S (performed (log (core c))) l mem) (exec S (one_by_one P (spawns (p_main P))) l mem).
Proof.
  intros P n m k c S l mem W NW F PA Hn Hm B Q H K E.
  destruct (pruns_greach P n m false k c W NW (conj H (or_intror F))) as (I & a & s & G & Sm & _).
  apply gsteps_greach in G. assert (ST := pstuck_stuck P n m c s W NW Hn Hm I G Sm K).
  assert (R : reach P (n + m) s) by (clear -G; induction G; econstructor; eauto).
  destruct Sm as (e & r & -> & _ & _).
  exact (final_result P W NW (n + m) _ S l mem ltac:(lia) PA F B Q R ST E).
Qed.

(** ** Example: two workers and one outside thread run [ex] (PropertiesSched).
    The first possible move in a fixed order is made.  All tasks go to the queues
    of worker 2, worker 1 steals. *)
Fixpoint first_of (P : prog) (n m : nat) (c : pool) (o : list move) : option (move * pool) :=
  match o with
  | [] => None
  | mv :: o => match pstep P n m c mv with Some c' => Some (mv, c') | None => first_of P n m c o end
  end.
Fixpoint drive (P : prog) (n m : nat) (o : list move) (fuel : nat) (c : pool) : list move * pool :=
  match fuel with
  | O => ([], c)
  | S fuel => match first_of P n m c o with
              | Some (mv, c') => let '(l, c'') := drive P n m o fuel c' in (mv :: l, c'')
              | None => ([], c)
              end
  end.
Lemma first_of_step P n m c o mv c' : first_of P n m c o = Some (mv, c') -> pstep P n m c mv = Some c'.
Proof.
  induction o as [|x o IH]; simpl; [easy|]. destruct (pstep P n m c x) eqn:E; auto. intros H. now injection H as <- <-.
Qed.
Lemma drive_steps P n m o fuel : forall k c, psteps P n m false k c ->
  psteps P n m false (length (fst (drive P n m o fuel c)) + k) (snd (drive P n m o fuel c)).
Proof.
  induction fuel as [|fuel IH]; intros k c H; simpl; auto. destruct (first_of P n m c o) as [[mv c']|] eqn:E; auto.
  apply first_of_step in E. assert (H' : psteps P n m false (S k) c') by (econstructor; eauto; discriminate).
  specialize (IH (S k) c' H'). destruct (drive P n m o fuel c') as [l c''] eqn:Ed. simpl in *. now rewrite <- plus_n_Sm in IH.
Qed.

Definition pstuckb (P : prog) (n m : nat) (c : pool) : bool :=
  forallb (fun i => match due c i, nth_error (thr (core c)) i with
                    | [], Some (f :: _) => match fstep P (core c) f with None => true | _ => false end
                    | [], Some [] => match is_worker n i, wp c i, flag c i, ext (core c) with
                                     | true, WWait, false, [] => true
                                     | false, _, _, [] => true
                                     | _, _, _, _ => false
                                     end
                    | _, _ => false
                    end) (seq 0 (1 + n + m)).
Lemma pstuckb_ok P n m c : pinv n m c -> pstuckb P n m c = true -> pstuck P n m c.
Proof.
  intros I H mv. unfold pstuckb in H. rewrite forallb_forall in H.
  assert (R : forall i st, nth_error (thr (core c)) i = Some st -> In i (seq 0 (1 + n + m))).
  { intros i st E. apply nth_lt in E. rewrite (pi_thr n m c I) in E. apply in_seq. lia. }
  assert (X : forall i st, nth_error (thr (core c)) i = Some st ->
    due c i = [] /\ match st with
                    | f :: _ => fstep P (core c) f = None
                    | [] => ext (core c) = [] /\ (is_worker n i = true -> wp c i = WWait /\ flag c i = false)
                    end).
  { intros i st E. specialize (H i (R i st E)). rewrite E in H. destruct (due c i); [|discriminate]. split; auto.
    destruct st as [|f fs]; [|destruct (fstep P (core c) f); [discriminate|auto]].
    destruct (is_worker n i), (wp c i), (flag c i), (ext (core c)); try discriminate; split; auto; discriminate. }
  destruct mv as [i w|i|w k|w|w v k|i k]; unfold pstep.
  - destruct (nth_error (thr (core c)) i) as [[|f fs]|] eqn:E; destruct (due c i) eqn:D; auto.
    destruct (X i _ E) as [_ ->]. reflexivity.
  - destruct (due c i) eqn:D; auto. exfalso.
    assert (Hi : i < 1 + n + m) by (apply (pi_due n m c I); congruence).
    specialize (H i ltac:(apply in_seq; lia)). rewrite D in H. discriminate.
  - destruct (is_worker n w) eqn:W; auto. destruct (due c w); auto.
    destruct (nth_error (thr (core c)) w) as [[|f fs]|] eqn:E; auto. destruct (X w _ E) as (_ & _ & Y).
    destruct (Y W) as [-> ->]. reflexivity.
  - destruct (is_worker n w) eqn:W; auto. destruct (due c w); auto.
    destruct (nth_error (thr (core c)) w) as [[|f fs]|] eqn:E; auto. destruct (X w _ E) as (_ & _ & Y).
    destruct (Y W) as [-> _]. reflexivity.
  - destruct (is_worker n w) eqn:W; auto. destruct (is_worker n v); auto. destruct (due c w); auto.
    destruct (nth_error (thr (core c)) w) as [[|f fs]|] eqn:E; auto. destruct (X w _ E) as (_ & _ & Y).
    destruct (Y W) as [-> _]. reflexivity.
  - destruct (n <? i); auto. destruct (due c i); auto.
    destruct (nth_error (thr (core c)) i) as [[|f fs]|] eqn:E; auto. destruct (X i _ E) as (_ & Y & _).
    simpl. rewrite Y. now destruct k.
Qed.

Definition ex_moves : list move :=
  [MWake 1; MSteal 1 2 0; MStep 1 2; MTake 1 0; MStep 0 2; MWake 0; MMiss 1; MStep 2 2; MTake 2 0; MMiss 2; MWake 2;
   MFire 3 0; MStep 3 2; MWake 3].
Definition ex_drive : list move * pool := drive ex 2 1 ex_moves 1000 (pinit ex 2 1).
Definition ex_asleep : pool := snd ex_drive.
Lemma ex_drive_steps fuel : exists k, psteps ex 2 1 false k (snd (drive ex 2 1 ex_moves fuel (pinit ex 2 1))).
Proof. eexists. apply drive_steps. constructor. Qed.
Lemma ex_asleep_stuck : pstuck ex 2 1 ex_asleep.
Proof.
  destruct (ex_drive_steps 1000) as [k H]. apply pstuckb_ok; [exact (proj1 (pool_run _ _ _ _ _ _ H))|].
  vm_compute. reflexivity.
Qed.
(** all four tasks are in the queue of worker 2, worker 1 sleeps *)
Definition ex_full : pool := snd (drive ex 2 1 ex_moves 24 (pinit ex 2 1)).

Example C58_ex :
  wf ex /\ p_wrap ex = false /\ flat ex /\ (forall t, patient ex t) /\ behaved ex /\ sensible cells /\
  (exists k, pruns ex 2 1 false k ex_asleep) /\ pstuck ex 2 1 ex_asleep /\ In (FBody None []) (all_frames (core ex_asleep)) /\
  length (fst ex_drive) = 275 /\ In (MSteal 1 2 0) (fst ex_drive) /\
  (forall t, t < 4 -> submitted (core ex_asleep) t) /\
  before (core ex_asleep) 0 1 /\ started (core ex_asleep) 1 /\
  (forall o x, In (ISpawn x) (body ex o) -> x < 4) /\
  (exists k, psteps ex 2 1 false k ex_full) /\ wp ex_full 1 = WWait /\ flag ex_full 1 = false /\
  (forall i, i < 4 -> ~ In 1 (due ex_full i)) /\ nq ex_full 2 = [3; 2; 1; 0].
Proof.
  split; [exact ex_wf|]. split; [reflexivity|]. split; [exact ex_flat|]. split; [exact ex_patient|]. split; [exact ex_behaved|].
  split; [exact cells_sensible|].
  split; [destruct (ex_drive_steps 1000) as [k H]; exists k; split; [exact H|right; exact ex_flat]|].
  split; [exact ex_asleep_stuck|]. split; [vm_compute; auto|]. split; [vm_compute; reflexivity|].
  split; [inlog|]. split; [intros t H; do 4 (destruct t as [|t]; [inlog|]); lia|].
  split; [apply beforeb_ok; vm_compute; reflexivity|]. split; [inlog|].
  split.
  { intros [t|] x H; simpl in H.
    - do 4 (destruct t as [|t]; [simpl in H; repeat destruct H as [H|H]; try discriminate; easy|]).
      destruct t; simpl in H; easy.
    - repeat destruct H as [H|H]; try discriminate; try easy; injection H as <-; lia. }
  split; [exact (ex_drive_steps 24)|]. split; [vm_compute; reflexivity|]. split; [vm_compute; reflexivity|].
  split; [|vm_compute; reflexivity].
  intros i H. do 4 (destruct i as [|i]; [vm_compute; intros Q; repeat destruct Q as [Q|Q]; try discriminate; easy|]). lia.
Qed.

Definition all_pool := (C58_pool_refines_the_runtime, C58_sleeping_worker_has_empty_queues, C58_sleeping_pool_has_finished,
  C58_executions_are_bounded, C58_order_and_once_in_the_pool, C58_final_result_of_the_pool, C58_ex).
Print Assumptions all_pool.
