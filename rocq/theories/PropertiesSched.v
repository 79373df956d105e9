(** The task graph runtime: properties C13-C26, C29, C51.

    [reach P n s]: state [s] can be reached by program [P] with [n] workers under
    some interleaving.  The results are for programs in which no task emplaces
    tasks, under every interleaving; and for programs with nested tasks under the
    interleavings in which every child has collected its dependencies before the
    body of its parent ends ([greach]).  C21 shows that the latter restriction is
    needed. *)
From Coq Require Import Bool List Arith NArith ZArith Lia Permutation.
From Verif Require Import AccessModel AccessSpec AccessProof UserModel UserProof SchedModel SchedSpec SchedBase SchedInv1 SchedInv2 SchedInv3 SchedInv8 SchedFront SchedThm SchedLive SchedTerm SchedStack SchedSeq SchedMore SchedEx.
Import ListNotations.
Open Scope nat_scope.

Definition runs (P : prog) (n : nat) (s : state) : Prop := (flat P /\ reach P n s) \/ greach P n s.

Lemma runs_greach P n s : wfa P -> p_wrap P = false -> runs P n s -> greach P n s.
Proof. intros W NW [[F R]|R]; auto. now apply (flat_greach P W). Qed.

(** [x] does not occur twice in a history *)
Definition not_twice (x : lev) (l : list lev) : Prop := forall l1 l2 l3, l <> l1 ++ x :: l2 ++ x :: l3.

Lemma sum_not_twice (v : lev -> Z) x l : (forall y, 0 <= v y)%Z -> v x = 1%Z -> (zsum v l <= 1)%Z -> not_twice x l.
Proof.
  intros N V B l1 l2 l3 ->. repeat (rewrite zsum_app in B; cbn [zsum] in B). rewrite V in B.
  pose proof (zsum_nonneg v l1 (fun y _ => N y)). pose proof (zsum_nonneg v l2 (fun y _ => N y)).
  pose proof (zsum_nonneg v l3 (fun y _ => N y)). lia.
Qed.

(** ** The example program: task 0 writes cell 0 and creates an event, task 1
    reads cell 0 and writes cell 1, tasks 2 and 3 add to cell 1. *)
Definition acc (r : nat) (m : iomode) : raccess := mkAcc (mkRes r 0) TIO m.
Definition cell (r : nat) (k : kind) (v : Z) : instr := IAct (mkAct r TIO k v).
Definition ex_tasks : list tdef :=
  [mkTdef None (declare 0 [acc 0 MWrite] []) [cell 0 KWrite 5%Z; IEvent 0];
   mkTdef None (declare 0 [acc 0 MRead; acc 1 MWrite] []) [cell 0 KRead 0; cell 1 KWrite 7];
   mkTdef None (declare 0 [] [[acc 1 MAadd]]) [cell 1 KAdd 3];
   mkTdef None (declare 0 [acc 1 MAadd] []) [cell 1 KAdd 4]].
Definition ex_main : list instr :=
  [ISpawn 0; ISpawn 1; IDrop 0; ISpawn 2; ISpawn 3; IGet 1; IDrop 2; IDrop 3; IBarrier].
Definition ex : prog := lprog ex_main ex_tasks false.
Lemma ex_wf : wf ex. Proof. apply wfb_ok. vm_compute. reflexivity. Qed.
Lemma ex_patient : forall t, patient ex t. Proof. apply patientb_ok. vm_compute. reflexivity. Qed.
Lemma ex_flat : flat ex. Proof. apply flatb_ok. vm_compute. reflexivity. Qed.

(** the end of a run with two workers, worker 2 and the newest tasks first *)
Definition ex_order : list (nat * pick) := [(2, PNew 0); (1, PNew 0); (2, PReady 0); (1, PReady 0); (0, PNew 0); (1, PExt 0)].
Definition ex_end : state := auto_run ex ex_order 1000 (init ex 2).
Lemma ex_end_reach : reach ex 2 ex_end.
Proof. apply auto_reach. constructor. Qed.
(** the moment at which only the owner of the event can move: task 0 has ended,
    the others have been initialised *)
Definition ex_wait : state := auto_run ex [(2, PNew 0); (1, PNew 0); (0, PNew 0)] 1000 (init ex 2).
Lemma ex_wait_reach : reach ex 2 ex_wait.
Proof. apply auto_reach. constructor. Qed.
Ltac inlog := vm_compute; repeat (first [left; reflexivity | right]).
Ltac notin := vm_compute; let H := fresh in intros H; repeat (destruct H as [H|H]; [discriminate|]); destruct H.

Definition stuckb (P : prog) (s : state) : bool :=
  forallb (fun st => match st with
                     | [] => match rdy s, emp s, ext s with [], [], [] => true | _, _, _ => false end
                     | f :: _ => match fstep P s f with None => true | _ => false end
                     end) (thr s).
Lemma stuckb_ok P s : stuckb P s = true -> stuck P s.
Proof.
  unfold stuckb. rewrite forallb_forall. intros H i c. unfold step. destruct (nth_error (thr s) i) as [st|] eqn:E; auto.
  apply nth_error_In in E. specialize (H st E). destruct st as [|f fs].
  - destruct (rdy s) eqn:E1, (emp s) eqn:E2, (ext s) eqn:E3; try discriminate.
    unfold istep. rewrite E1, E2, E3. destruct c as [[]|[]|[]]; reflexivity.
  - destruct (fstep P s f); [discriminate|reflexivity].
Qed.

(** ** C13 *)
Theorem C13_conflicting_tasks_run_in_submission_order :
  forall P n s p t, wfp P -> p_wrap P = false -> runs P n s ->
  parent P p = parent P t -> tasks_conflict P p t -> before s p t ->
  started s t -> completed s p /\ ended s p.
Proof.
  intros P n s p t W NW R E C B S. apply (runs_greach P n s W NW) in R.
  assert (D := order P W NW n s p t R E C B S). split; auto. exact (completed_ended P W NW n s p R D).
Qed.

Lemma ex_conflict : tasks_conflict ex 0 1.
Proof.
  exists (acc 0 MWrite), (acc 0 MRead), TIO, MWrite, MRead, KWrite, KRead.
  repeat split; simpl; auto.
Qed.
Fixpoint beforeb (p t : nat) (l : list lev) : bool :=
  match l with
  | [] => false
  | LSpawn c :: l => (Nat.eqb c t && existsb (fun x => match x with LSpawn d => Nat.eqb d p | _ => false end) l) || beforeb p t l
  | _ :: l => beforeb p t l
  end.
Lemma beforeb_ok s p t : beforeb p t (log s) = true -> before s p t.
Proof.
  unfold before. generalize (log s). induction l as [|x l IH]; [easy|]. intros H.
  assert (D : beforeb p t l = true \/ (x = LSpawn t /\ In (LSpawn p) l)).
  { destruct x; simpl in H; auto. apply orb_true_iff in H as [H|H]; auto. apply andb_true_iff in H as [H1 H2].
    apply Nat.eqb_eq in H1. subst. apply existsb_exists in H2 as (y & Hy & H2). destruct y; try discriminate.
    apply Nat.eqb_eq in H2. subst. auto. }
  destruct D as [D|[-> D]].
  - destruct (IH D) as (l1 & l2 & l3 & ->). exists (x :: l1), l2, l3. reflexivity.
  - apply in_split in D as (l2 & l3 & ->). exists [], l2, l3. reflexivity.
Qed.

Example C13_ex : wf ex /\ p_wrap ex = false /\ runs ex 2 ex_end /\ parent ex 0 = parent ex 1 /\
  tasks_conflict ex 0 1 /\ before ex_end 0 1 /\ started ex_end 1.
Proof.
  split; [exact ex_wf|]. split; [reflexivity|]. split; [left; split; [exact ex_flat|exact ex_end_reach]|].
  split; [reflexivity|]. split; [exact ex_conflict|]. split; [apply beforeb_ok; vm_compute; reflexivity|]. inlog.
Qed.

(** ** C14 *)
Theorem C14_same_result_as_one_by_one :
  forall P n s (S : semantics) g m, wf P -> p_wrap P = false -> flat P -> (forall t, patient P t) -> 1 <= n ->
  behaved P -> sensible S -> reach P n s -> stuck P s -> In (FBody None []) (all_frames s) ->
  same_result (exec S (performed (log s)) g m) (exec S (one_by_one P (spawns (p_main P))) g m).
Proof. intros P n s S g m W NW F PA N B Q R K E. exact (final_result P W NW n s S g m N PA F B Q R K E). Qed.

(** the same at any moment at which everything submitted so far is complete *)
Theorem C14_same_result_when_all_complete :
  forall P n s (S : semantics) g m, wfp P -> p_wrap P = false -> flat P ->
  behaved P -> sensible S -> reach P n s -> (forall t, submitted s t -> completed s t) ->
  same_result (exec S (performed (log s)) g m) (exec S (one_by_one P (rev (submissions (log s)))) g m).
Proof.
  intros P n s S g m W NW F B Q R A.
  assert (E : submissions (log s) = spawned (log s)).
  { generalize (log s). unfold submissions. induction l as [|[] l IH]; simpl; auto. now rewrite IH. }
  rewrite E. exact (sequential P W NW n s S g m F B Q R A).
Qed.

Lemma ex_behaved : behaved ex.
Proof.
  intros t a H. destruct t as [|[|[|[|t]]]]; simpl in H.
  - destruct H as [H|[H|[]]]; [injection H as <-|discriminate].
    exists (mkRes 0 0), MWrite. simpl. auto.
  - destruct H as [H|[H|[]]]; injection H as <-.
    + exists (mkRes 0 0), MRead. simpl. auto.
    + exists (mkRes 1 0), MWrite. simpl. auto.
  - destruct H as [H|[]]; injection H as <-. exists (mkRes 1 0), MAadd. simpl. auto.
  - destruct H as [H|[]]; injection H as <-. exists (mkRes 1 0), MAadd. simpl. auto.
  - destruct t; simpl in H; destruct H.
Qed.
Lemma ex_stuck : stuck ex ex_end. Proof. apply stuckb_ok. vm_compute. reflexivity. Qed.
Example C14_ex : wf ex /\ flat ex /\ (forall t, patient ex t) /\ behaved ex /\ sensible cells /\ reach ex 2 ex_end /\ stuck ex ex_end /\
  In (FBody None []) (all_frames ex_end) /\ (forall t, submitted ex_end t -> completed ex_end t) /\
  snd (exec cells (performed (log ex_end)) (fun _ => []) [0; 0]%Z) = [5; 14]%Z /\
  fst (exec cells (performed (log ex_end)) (fun _ => []) [0; 0]%Z) 1 = [5]%Z.
Proof.
  split; [exact ex_wf|]. split; [exact ex_flat|]. split; [exact ex_patient|]. split; [exact ex_behaved|]. split; [exact cells_sensible|].
  split; [exact ex_end_reach|]. split; [exact ex_stuck|]. split; [vm_compute; auto|]. split; [|split; vm_compute; reflexivity].
  intros t H. exact (proj1 (proj1 (progress ex ex_wf eq_refl 2 ex_end (le_S _ _ (le_n 1)) ex_patient ex_flat ex_end_reach ex_stuck) t H)).
Qed.

(** ** C15 *)
(** who is about to run, or runs, the body of [t] *)
Definition runner (t : nat) (f : frame) : bool :=
  match f with FExec c | FRun c | FBody (Some c) _ => Nat.eqb c t | _ => false end.
Theorem C15_body_runs_at_most_once :
  forall P n s t, wfp P -> p_wrap P = false -> runs P n s ->
  not_twice (LExec t) (log s) /\ not_twice (LStart t) (log s) /\ not_twice (LEnd t) (log s) /\
  (started s t -> In (LInit t) (log s)) /\
  length (filter (runner t) (all_frames s)) + count_occ Nat.eq_dec (rdy s) t <= 1.
Proof.
  intros P n s t W NW R. apply (runs_greach P n s W NW) in R.
  destruct (once P W NW n s t R) as (A & B & C & D & E).
  split; [|split; [|split; [|split]]].
  - apply (sum_not_twice (v_exec t)); auto; [intros []; simpl; try lia; unfold ni, zb; destruct (_ =? _); lia|].
    simpl. unfold ni. now rewrite Nat.eqb_refl.
  - apply (sum_not_twice (v_start t)); auto; [intros []; simpl; try lia; unfold ni, zb; destruct (_ =? _); lia|].
    simpl. unfold ni. now rewrite Nat.eqb_refl.
  - apply (sum_not_twice (v_end t)); auto; [intros []; simpl; try lia; unfold ni, zb; destruct (_ =? _); lia|].
    simpl. unfold ni. now rewrite Nat.eqb_refl.
  - intros Q. apply in_init, D, in_exec, Q.
  - assert (Z.of_nat (length (filter (runner t) (all_frames s))) <=
            zsum (w_token t) (frames s) + zsum (w_run t) (frames s) + zsum (is_body (Some t)) (frames s))%Z.
    { unfold all_frames, frames. clear. induction (concat (thr s)) as [|f l IH]; simpl; [lia|].
      assert (0 <= w_token t f)%Z.
      { destruct f; simpl; try lia; try destruct e; try destruct k; try destruct st; simpl; unfold ni, zb; repeat destruct (Nat.eqb _ _); repeat destruct (Z.eqb _ _); simpl; lia. }
      destruct f; try destruct o; simpl in *; unfold ni, zb in *; rewrite ?(Nat.eqb_sym t) in *; try destruct (Nat.eqb _ _); simpl; try lia. }
    assert (Z.of_nat (count_occ Nat.eq_dec (rdy s) t) = zsum (ni t) (rdy s))%Z.
    { clear. induction (rdy s) as [|x l IH]; simpl; [lia|]. rewrite <- IH. unfold ni, zb. destruct (Nat.eq_dec x t) as [->|D].
      - rewrite Nat.eqb_refl. lia.
      - destruct (Nat.eqb_spec t x); [congruence|]. destruct (Nat.eqb_spec x t); [congruence|]. lia. }
    lia.
Qed.
Example C15_ex : wf ex /\ runs ex 2 ex_end /\ started ex_end 1 /\ ended ex_end 1.
Proof. split; [exact ex_wf|]. split; [left; split; [exact ex_flat|exact ex_end_reach]|]. split; inlog. Qed.

(** ** C16, C17 *)
Theorem C16_no_deadlock :
  forall P n s, wf P -> p_wrap P = false -> (forall t, patient P t) -> 1 <= n -> runs P n s -> stuck P s ->
  (forall t, submitted s t -> completed s t /\ (In (LGet t) (log s) \/ In (LDrop t) (log s) -> In (LFree t) (log s))) /\
  (forall t e, In (LEvent t e) (log s) -> In (LFire t e) (log s)) /\
  (exists is, all_frames s = [FBody None is] /\
     (is = [] \/ exists is' t, is = IBarrier :: is' /\ submitted s t /\ parent P t = None /\
                               ~ (In (LGet t) (log s) \/ In (LDrop t) (log s)))).
Proof. intros P n s W NW PA N R K. exact (gprogress P W NW n s N PA (runs_greach P n s W NW R) K). Qed.
Example C16_ex : wf ex /\ (forall t, patient ex t) /\ runs ex 2 ex_end /\ stuck ex ex_end /\ submitted ex_end 3 /\ In (LEvent 0 0) (log ex_end).
Proof.
  split; [exact ex_wf|]. split; [exact ex_patient|]. split; [left; split; [exact ex_flat|exact ex_end_reach]|].
  split; [exact ex_stuck|]. split; inlog.
Qed.

Theorem C17_executions_are_bounded :
  forall P n, wfp P -> p_wrap P = false -> flat P ->
  exists B, forall l s, run P (init P n) l = Some s -> length l <= B.
Proof.
  intros P n W NW F. exists (Z.to_nat (measure P (S (list_max (spawns (p_main P)))) (init P n))). intros l s H.
  pose proof (terminates P W NW _ (flat_bounded P F) n l s H F). unfold len in *. lia.
Qed.

(** the same for nested tasks, under the schedules of [greach] *)
Theorem C17_nested_executions_are_bounded :
  forall P n N, wfp P -> p_wrap P = false -> (forall o c, In (ISpawn c) (body P o) -> c < N) ->
  exists B, forall k s, gsteps P n k s -> k <= B.
Proof.
  intros P n N W NW BD. exists (Z.to_nat (measure P N (init P n))). intros k s H.
  destruct (gterminates P W NW N BD n k s H) as [R B]. pose proof (measure_nn P W NW N BD n s R). lia.
Qed.

Lemma not_stuck P s : stuckb P s = false -> exists i c s', step P s i c = Some s'.
Proof.
  unfold stuckb. intros H.
  assert (X : exists st, In st (thr s) /\ match st with
                     | [] => match rdy s, emp s, ext s with [], [], [] => true | _, _, _ => false end
                     | f :: _ => match fstep P s f with None => true | _ => false end
                     end = false).
  { induction (thr s) as [|st l IH]; simpl in H; [discriminate|]. apply andb_false_iff in H as [H|H].
    - exists st. split; [now left|exact H].
    - destruct (IH H) as (x & Hx & Q). exists x. split; [now right|exact Q]. }
  destruct X as (st & Hst & X). apply In_nth_error in Hst as (i & Hi). exists i. unfold step. rewrite Hi.
  destruct st as [|f fs].
  - destruct (rdy s) eqn:E1; [destruct (emp s) eqn:E2; [destruct (ext s) as [|[]] eqn:E3; [discriminate|]|]|].
    + exists (PExt 0). simpl. rewrite E3. simpl. eauto.
    + exists (PNew 0). simpl. rewrite E2. simpl. eauto.
    + exists (PReady 0). simpl. rewrite E1. simpl. eauto.
  - exists (PNew 0). destruct (fstep P s f) as [[]|]; [eauto|discriminate].
Qed.

Lemma run_snoc P l : forall s s' i c s'', run P s l = Some s' -> step P s' i c = Some s'' -> run P s (l ++ [(i, c)]) = Some s''.
Proof.
  induction l as [|[j d] l IH]; simpl; intros s s' i c s'' H K.
  - injection H as ->. now rewrite K.
  - destruct (step P s j d); [eauto|discriminate].
Qed.
Lemma reach_run P n s : reach P n s -> exists l, run P (init P n) l = Some s.
Proof.
  induction 1 as [|s i c s' R [l IH] H]; [now exists []|]. exists (l ++ [(i, c)]). eapply run_snoc; eauto.
Qed.

(** from every reachable state, however the threads are scheduled, the program
    gets to its end: after at most [B] more steps nothing can move, and then
    (C16) every submitted task is complete *)
Theorem C17_every_schedule_ends :
  forall P n s, wfp P -> p_wrap P = false -> flat P -> reach P n s ->
  (exists B, forall l s', run P s l = Some s' -> length l <= B) /\
  (exists l s', run P s l = Some s' /\ stuck P s').
Proof.
  intros P n s W NW F R. destruct (reach_run P n s R) as (l0 & H0).
  destruct (C17_executions_are_bounded P n W NW F) as (B & HB).
  assert (CAT : forall l s', run P s l = Some s' -> run P (init P n) (l0 ++ l) = Some s').
  { intros l s'. clear - H0. revert H0. generalize (init P n). induction l0 as [|[i c] l1 IH]; simpl; intros s0 Q H.
    - now injection Q as ->.
    - destruct (step P s0 i c); [auto|discriminate]. }
  split.
  - exists B. intros l s' H. specialize (HB _ _ (CAT l s' H)). rewrite app_length in HB. lia.
  - assert (X : forall k l s', run P s l = Some s' -> B - length l <= k -> exists l s', run P s l = Some s' /\ stuck P s').
    { induction k as [|k IH]; intros l s' H L; destruct (stuckb P s') eqn:E;
        try (exists l, s'; split; [exact H|now apply stuckb_ok]);
        apply not_stuck in E as (i & c & s'' & E); pose proof (run_snoc _ _ _ _ _ _ _ H E) as H';
        pose proof (HB _ _ (CAT _ _ H')) as Q; rewrite !app_length in Q; simpl in Q.
      - lia.
      - apply (IH _ _ H'). rewrite app_length. simpl. lia. }
    apply (X B [] s); [reflexivity|lia].
Qed.
Example C17_ex : wf ex /\ flat ex /\ reach ex 2 ex_wait /\ ~ stuck ex ex_wait.
Proof.
  split; [exact ex_wf|]. split; [exact ex_flat|]. split; [exact ex_wait_reach|].
  intros H. specialize (H 1 (PExt 0)). apply (f_equal (fun x => match x with Some _ => 1 | None => 0 end)) in H.
  vm_compute in H. discriminate.
Qed.

(** ** C18 *)
(** a worker or a queue has [t] for execution *)
Definition handed_out (s : state) (t : nat) : Prop :=
  started s t \/ In t (rdy s) \/
  exists f, In f (all_frames s) /\
    (f = FExec t \/ f = FNotify3 (EPre t) 1%Z NInit \/ exists k, f = FNotify2 (EPre t) 1%Z k).
(** [p] is complete and a worker is telling the tasks behind it *)
Definition telling (s : state) (p : nat) : Prop :=
  exists f, In f (all_frames s) /\
    ((exists k, f = FNotify2 (EPost p) 0%Z k \/ f = FNotify3 (EPost p) 0%Z k) \/ (exists rs, f = FDelete p rs) \/
     exists l, f = FFollow (EPost p) l).
Definition no_empty_area (P : prog) : Prop :=
  forall t a, In a (u_acc (user P t)) -> nonempty (a_ty a) (a_val a) = true.

Lemma lt_before P (W : wfa P) (NW : p_wrap P = false) n s p t : greach P n s -> parent P p = parent P t -> p < t -> submitted s p -> submitted s t -> before s p t.
Proof.
  intros R E L Sp St. assert (Q := spawned_sorted P W NW n s R). apply in_split in St as (l1 & l2 & El). unfold before, submitted in *.
  rewrite El in *. apply in_app_iff in Sp as [Sp|[Sp|Sp]].
  - exfalso. apply in_split in Sp as (a & b & ->). rewrite !spawned_app in Q. simpl in Q.
    rewrite <- app_assoc in Q. simpl in Q. clear - Q E L. induction (spawned a) as [|x l IH]; simpl in Q.
    + inversion Q; subst. rewrite Forall_app in H2. destruct H2 as [_ H2]. inversion H2; subst. specialize (H3 E). lia.
    + inversion Q; subst. auto.
  - injection Sp as ->. lia.
  - apply in_split in Sp as (a & b & ->). exists l1, a, b. reflexivity.
Qed.

Lemma serial_conflict P p t : no_empty_area P -> user_is_serial (user P p) (user P t) = true -> tasks_conflict P p t.
Proof.
  intros NE H. apply user_is_serial_spec in H as (a & b & Ha & Hb & H).
  apply ra_is_serial_inv in H as (Er & T & v & w & Ea & Eb & H).
  assert (Na := NE p a Ha). assert (Nb := NE t b Hb). rewrite Ea in Na. rewrite Eb in Nb. simpl in Na, Nb.
  destruct (is_serial_complete T v w Na Nb H) as (x & y & Px & Py & C).
  exists a, b, T, v, w, x, y. auto 10.
Qed.

Theorem C18_a_waiting_task_waits_for_a_conflicting_one :
  forall P n s t, wfp P -> p_wrap P = false -> no_empty_area P -> patient P t -> runs P n s ->
  In (LInit t) (log s) -> ~ handed_out s t ->
  exists p, before s p t /\ parent P p = parent P t /\ tasks_conflict P p t /\ (~ completed s p \/ telling s p).
Proof.
  intros P n s t W NW NE PA R Hi NH. apply (runs_greach P n s W NW) in R.
  assert (T : tok s t = 0%Z).
  { unfold tok. assert (zsum (v_exec t) (log s) = 0)%Z.
    { assert (~ 1 <= zsum (v_exec t) (log s))%Z by (rewrite in_exec; intros X; apply NH; now left).
      assert (0 <= zsum (v_exec t) (log s))%Z; [|lia]. apply zsum_nonneg. intros [] _; simpl; unfold ni, zb; try lia. destruct (_ =? _); lia. }
    assert (zsum (ni t) (rdy s) = 0)%Z.
    { assert (Q : ~ In t (rdy s)) by (intros X; apply NH; right; now left). revert Q. clear. induction (rdy s) as [|x l IH]; simpl; auto.
      intros Q. rewrite IH by tauto. unfold ni, zb. destruct (Nat.eqb_spec x t); [tauto|lia]. }
    assert (zsum (w_token t) (frames s) = 0)%Z.
    { assert (Q : forall f, In f (frames s) -> w_token t f = 0%Z).
      { intros f Hf. assert (X : w_token t f = 0%Z \/ (f = FExec t \/ f = FNotify3 (EPre t) 1%Z NInit \/ exists k, f = FNotify2 (EPre t) 1%Z k)).
        { destruct f; simpl; auto.
          - destruct e; auto. destruct (Nat.eqb_spec t0 t), (Z.eqb_spec st 1); simpl; auto. subst. right; right; right. now exists k.
          - destruct e; auto. destruct k; auto. destruct (Nat.eqb_spec t0 t), (Z.eqb_spec st 1); simpl; auto. subst. auto.
          - unfold ni, zb. destruct (Nat.eqb_spec t0 t); subst; auto. }
        destruct X as [X|X]; auto. destruct NH. right; right. exists f. split; auto. }
      revert Q. clear. induction (frames s) as [|f l IH]; simpl; auto. intros Q. rewrite IH by auto. rewrite Q by auto. lia. }
    lia. }
  destruct (waits_for P W NW n s t R (proj2 (in_init t _) Hi) T) as (p & L & (Ep & Es) & Sp & St & D).
  destruct L as [L|[-> L]]; [|destruct PA; congruence].
  apply in_spawn in Sp, St. exists p. split; [now apply (lt_before P W NW n)|]. split; auto. split; [now apply serial_conflict|].
  destruct D as [D|D]; [left; intros X; apply D; now apply in_reach|right].
  destruct D as (f & Hf & D). exists f. split; auto. destruct D as [D|(l & ->)]; [|eauto].
  destruct f; simpl in D; try discriminate.
  - destruct (ev_eqb e (EPost p)) eqn:X; [|discriminate]. destruct e; try discriminate. apply Nat.eqb_eq in X. subst.
    destruct (Z.eqb_spec st 0); [|discriminate]. subst. eauto.
  - unfold ce, zb in D. simpl in D. destruct (Nat.eqb_spec t0 p); [|discriminate]. subst. eauto.
  - destruct (ev_eqb e (EPost p)) eqn:X; [|discriminate]. destruct e; try discriminate. apply Nat.eqb_eq in X. subst.
    destruct (Z.eqb_spec st 0); [|discriminate]. subst. eauto.
Qed.
Example C18_ex : wf ex /\ no_empty_area ex /\ patient ex 1 /\ runs ex 2 ex_wait /\ In (LInit 1) (log ex_wait) /\ ~ handed_out ex_wait 1.
Proof.
  split; [exact ex_wf|]. split.
  { intros t a H. destruct t as [|[|[|[|t]]]]; simpl in H; repeat (destruct H as [<-|H]; [reflexivity|]); try destruct H.
    destruct t; destruct H. }
  split; [apply ex_patient|]. split; [left; split; [exact ex_flat|exact ex_wait_reach]|]. split; [inlog|].
  intros [H|[H|(f & Hf & H)]].
  - revert H. notin.
  - revert H. notin.
  - vm_compute in Hf. destruct Hf as [<-|[]]. destruct H as [H|[H|(k & H)]]; discriminate.
Qed.

(** ** C19 *)
Theorem C19_counter_counts_the_reasons_to_wait :
  forall P n s t, wfp P -> p_wrap P = false -> runs P n s ->
  (ctr s (EPre t) + Z.of_nat (half_made s t) =
   Z.of_nat (unstarted s t + collecting s t + registered s t + announced s (EPre t) + arriving s (EPre t)))%Z.
Proof. intros P n s t W NW R. apply (runs_greach P n s W NW) in R. exact (counter P W NW n s t R). Qed.
(** no edge is added to an event after its followers were visited, and they are
    visited once: no notification is lost, none is sent twice *)
Theorem C19_followers_are_final_when_visited :
  forall P n s i c s' e, wfp P -> p_wrap P = false -> runs P n s -> step P s i c = Some s' ->
  In (LTake e) (log s) -> fol s' e = fol s e.
Proof. intros P n s i c s' e W NW R. apply (runs_greach P n s W NW) in R. exact (frozen P W NW n s i c s' e R). Qed.
Theorem C19_followers_are_visited_once :
  forall P n s e, wfp P -> p_wrap P = false -> runs P n s -> not_twice (LTake e) (log s).
Proof.
  intros P n s e W NW R. apply (runs_greach P n s W NW) in R.
  apply (sum_not_twice (v_take e)).
  - intros []; simpl; try lia. unfold ce, zb. destruct (ev_eqb _ _); lia.
  - simpl. unfold ce, zb. assert (ev_eqb e e = true) as -> by (destruct e; simpl; rewrite ?Nat.eqb_refl; auto). reflexivity.
  - exact (taken_once P W NW n s e R).
Qed.
Example C19_ex : wf ex /\ runs ex 2 ex_wait /\ registered ex_wait 2 = 1 /\ ctr ex_wait (EPre 2) = 2%Z.
Proof. split; [exact ex_wf|]. split; [left; split; [exact ex_flat|exact ex_wait_reach]|]. split; vm_compute; reflexivity. Qed.

(** ** C20 *)
Theorem C20_task_completes_after_its_events :
  forall P n s t, wfp P -> p_wrap P = false -> runs P n s -> completed s t ->
  ended s t /\ forall e, In (LEvent t e) (log s) -> In (LFire t e) (log s).
Proof.
  intros P n s t W NW R C. apply (runs_greach P n s W NW) in R. split; [exact (completed_ended P W NW n s t R C)|].
  intros e H. exact (events_first P W NW n s t e R C H).
Qed.
(** and so do the tasks that wait for it *)
Theorem C20_later_tasks_wait_for_events :
  forall P n s p t e, wfp P -> p_wrap P = false -> runs P n s ->
  parent P p = parent P t -> tasks_conflict P p t -> before s p t -> started s t ->
  In (LEvent p e) (log s) -> In (LFire p e) (log s).
Proof.
  intros P n s p t e W NW R E C B S H. apply (C20_task_completes_after_its_events P n s p W NW R); auto.
  exact (proj1 (C13_conflicting_tasks_run_in_submission_order P n s p t W NW R E C B S)).
Qed.
Example C20_ex : wf ex /\ runs ex 2 ex_end /\ completed ex_end 0 /\ In (LEvent 0 0) (log ex_end) /\
  runs ex 2 ex_wait /\ ended ex_wait 0 /\ ~ completed ex_wait 0 /\ In (LInit 1) (log ex_wait) /\ ~ started ex_wait 1.
Proof.
  split; [exact ex_wf|]. split; [left; split; [exact ex_flat|exact ex_end_reach]|]. split; [inlog|]. split; [inlog|].
  split; [left; split; [exact ex_flat|exact ex_wait_reach]|]. split; [inlog|]. split; [unfold completed; notin|]. split; [inlog|unfold started; notin].
Qed.

(** ** C21, C51: nested tasks *)
(** guarded runs *)
Definition end_okb (P : prog) (s : state) (i : nat) : bool :=
  match nth_error (thr s) i with
  | Some (FBody (Some q) [] :: _) =>
      forallb (fun c => negb (onat_eqb (parent P c) (Some q)) ||
                        existsb (fun l => match l with LInit d => Nat.eqb d c | _ => false end) (log s)) (submissions (log s))
  | _ => true
  end.
Lemma submissions_in l t : In t (submissions l) <-> In (LSpawn t) l.
Proof.
  unfold submissions. rewrite in_flat_map. split.
  - intros (x & Hx & H). destruct x; simpl in H; try easy. destruct H as [->|[]]. exact Hx.
  - intros H. exists (LSpawn t). split; [exact H|now left].
Qed.
Lemma end_okb_ok P s i : end_okb P s i = true -> end_ok P s i.
Proof.
  unfold end_okb, end_ok. intros H q fs E c Hc Hs. rewrite E in H. rewrite forallb_forall in H.
  specialize (H c (proj2 (submissions_in _ c) Hs)). rewrite Hc in H. simpl in H. rewrite Nat.eqb_refl in H. simpl in H.
  apply existsb_exists in H as (l & Hl & H). destruct l; try discriminate. apply Nat.eqb_eq in H. now subst.
Qed.
Fixpoint gfirst (P : prog) (s : state) (order : list (nat * pick)) : option state :=
  match order with
  | [] => None
  | (i, c) :: o => match step P s i c with Some s' => if end_okb P s i then Some s' else gfirst P s o | None => gfirst P s o end
  end.
Fixpoint gauto (P : prog) (order : list (nat * pick)) (k : nat) (s : state) : state :=
  match k with
  | O => s
  | S k => match gfirst P s order with Some s' => gauto P order k s' | None => s end
  end.
Lemma gauto_greach P n o k : forall s, greach P n s -> greach P n (gauto P o k s).
Proof.
  induction k as [|k IH]; simpl; intros s R; auto. destruct (gfirst P s o) as [s'|] eqn:E; auto.
  apply IH. clear IH. induction o as [|[i c] o IHo]; simpl in E; [easy|].
  destruct (step P s i c) eqn:E1; auto. destruct (end_okb P s i) eqn:E2; auto. injection E as <-.
  econstructor; eauto. now apply end_okb_ok.
Qed.

(** task 0 writes cell 0 and emplaces 1 (writes cell 0) and 2 (reads cell 0);
    task 3 of the main thread writes cell 0 *)
Definition nest_tasks : list tdef :=
  [mkTdef None (declare 0 [acc 0 MWrite] []) [ISpawn 1; ISpawn 2; IDrop 1; IDrop 2];
   mkTdef (Some 0) (declare 1 [acc 0 MWrite] []) [cell 0 KWrite 5%Z];
   mkTdef (Some 0) (declare 1 [acc 0 MRead] []) [cell 0 KRead 0];
   mkTdef None (declare 0 [acc 0 MWrite] []) [cell 0 KWrite 9]].
Definition nest_main : list instr := [ISpawn 0; ISpawn 3; IDrop 0; IDrop 3; IBarrier].
Definition nest : prog := lprog nest_main nest_tasks false.
Lemma nest_wf : wf nest. Proof. apply wfb_ok. vm_compute. reflexivity. Qed.
Definition nest_end : state := gauto nest (moves_of 0 ++ moves_of 1 ++ moves_of 2) 1000 (init nest 2).
Lemma nest_end_runs : runs nest 2 nest_end.
Proof. right. apply gauto_greach. constructor. Qed.

Theorem C21_parent_completes_after_its_children_partial :
  forall P n s c q, wfp P -> p_wrap P = false -> greach P n s ->
  parent P c = Some q -> submitted s c -> completed s q -> completed s c.
Proof. intros P n s c q W NW R E S C. exact (children_first P W NW n s c q R C E S). Qed.
Example C21_ex : wf nest /\ greach nest 2 nest_end /\ parent nest 1 = Some 0 /\ submitted nest_end 1 /\ completed nest_end 0.
Proof.
  split; [exact nest_wf|]. split; [apply gauto_greach; constructor|]. split; [reflexivity|]. split; inlog.
Qed.

(** Without the restriction it fails, already with one worker that takes tasks in
    the order of their submission: task 0 completes, task 3 (which conflicts with
    it) runs, and only then its child 1; completing a second time, task 0 frees
    itself before the main thread has given up its future; the barrier returns
    while child 2 has not run. *)
Definition nest_bad : state := auto_run nest [(1, PReady 0); (1, PNew 2); (1, PNew 1); (0, PNew 0)] 1000 (init nest 1).
Lemma nest_bad_reach : reach nest 1 nest_bad.
Proof. apply auto_reach. constructor. Qed.
Lemma later (l : list lev) i j x y : nth_error l i = Some x -> nth_error l j = Some y -> i < j ->
  exists l1 l2 l3, l = l1 ++ x :: l2 ++ y :: l3.
Proof.
  intros Hi Hj L. apply nth_error_split in Hi as (l1 & r & -> & <-). 
  rewrite nth_error_app2 in Hj by lia. replace (j - length l1) with (S (j - length l1 - 1)) in Hj by lia. simpl in Hj.
  apply nth_error_split in Hj as (l2 & l3 & -> & _). eauto.
Qed.
Theorem C21_parent_completes_after_its_children_refuted :
  exists P n s, wf P /\ p_wrap P = false /\ reach P n s /\
  (exists c q, parent P c = Some q /\ submitted s c /\ completed s q /\ ~ started s c) /\
  (exists q l1 l2 l3, log s = l1 ++ LReach (EPost q) :: l2 ++ LReach (EPost q) :: l3) /\
  (exists q l1 l2 l3, log s = l1 ++ LDrop q :: l2 ++ LFree q :: l3) /\
  In LBarrier (log s).
Proof.
  exists nest, 1, nest_bad. split; [exact nest_wf|]. split; [reflexivity|]. split; [exact nest_bad_reach|].
  split; [exists 2, 0; split; [reflexivity|]; split; [inlog|]; split; [inlog|unfold started; notin]|].
  split; [exists 0; apply (later _ 11 35); [vm_compute; reflexivity..|lia]|].
  split; [exists 0; apply (later _ 7 9); [vm_compute; reflexivity..|lia]|]. inlog.
Qed.

(** [c] was emplaced by [q], directly or through other tasks *)
Inductive descendant (P : prog) (c : nat) : nat -> Prop :=
| desc_child q : parent P c = Some q -> descendant P c q
| desc_more b q : descendant P c b -> parent P b = Some q -> descendant P c q.

Lemma parent_submitted P (W : wfa P) (NW : p_wrap P = false) n s c q :
  greach P n s -> parent P c = Some q -> submitted s c -> submitted s q.
Proof.
  intros R E S. assert (I := greach_Inv P W NW n s R). apply in_spawn in S. assert (Q := sp_parent P W s I c S).
  rewrite E in Q. apply in_spawn. simpl in Q.
  pose proof (f_start P s I q). pose proof (f_exec_init P s I q). pose proof (f_phase P s I q). lia.
Qed.

(** hypotheses of C16 and C17 for a nested program *)
Example C16_ex_nested : wf nest /\ (forall t, patient nest t) /\ runs nest 2 nest_end /\ stuck nest nest_end /\ submitted nest_end 2 /\
  (forall o c, In (ISpawn c) (body nest o) -> c < 4).
Proof.
  split; [exact nest_wf|]. split; [apply patientb_ok; vm_compute; reflexivity|]. split; [exact nest_end_runs|]. split; [apply stuckb_ok; vm_compute; reflexivity|]. split; [inlog|].
  intros [[|[|[|[|t]]]]|] c H; simpl in H; repeat (destruct H as [H|H]; [try discriminate; try (injection H as <-; lia)|]); try destruct H.
  unfold body, nest, lprog in H. simpl in H. destruct t; destruct H.
Qed.

Theorem C51_nested_work_runs_in_submission_order_partial :
  forall P n s p t c, wfp P -> p_wrap P = false -> greach P n s ->
  parent P p = parent P t -> tasks_conflict P p t -> before s p t -> started s t ->
  descendant P c p -> submitted s c -> completed s c /\ ended s c.
Proof.
  intros P n s p t c W NW R E C B S D.
  assert (Cp := order P W NW n s p t R E C B S). clear E C B S t.
  assert (X : forall q, descendant P c q -> completed s q -> submitted s c -> completed s c).
  { clear D Cp p. induction 1 as [q E|b q D IH E]; intros Cq S.
    - exact (children_first P W NW n s c q R Cq E S).
    - apply IH; auto. apply (children_first P W NW n s b q R Cq E).
      assert (Y : forall b, descendant P c b -> submitted s c -> submitted s b).
      { assert (Wa : wfa P) by apply W. induction 1; intros; eauto using parent_submitted. }
      auto. }
  intros S. assert (Cc : completed s c) by eauto. split; auto. exact (completed_ended P W NW n s c R Cc).
Qed.
Example C51_ex : wf nest /\ greach nest 2 nest_end /\ parent nest 0 = parent nest 3 /\ tasks_conflict nest 0 3 /\
  before nest_end 0 3 /\ started nest_end 3 /\ descendant nest 2 0 /\ submitted nest_end 2.
Proof.
  split; [exact nest_wf|]. split; [apply gauto_greach; constructor|]. split; [reflexivity|]. split.
  { exists (acc 0 MWrite), (acc 0 MWrite), TIO, MWrite, MWrite, KWrite, KWrite. repeat split; simpl; auto. }
  split; [apply beforeb_ok; vm_compute; reflexivity|]. split; [inlog|]. split; [now apply desc_child|inlog].
Qed.
Theorem C51_nested_work_runs_in_submission_order_refuted :
  exists P n s p t c, wf P /\ p_wrap P = false /\ reach P n s /\
  parent P p = parent P t /\ tasks_conflict P p t /\ tasks_conflict P c t /\ before s p t /\ descendant P c p /\
  exists l1 l2 l3, log s = l1 ++ LStart c :: l2 ++ LEnd t :: l3.
Proof.
  exists nest, 1, nest_bad, 0, 3, 1. split; [exact nest_wf|]. split; [reflexivity|]. split; [exact nest_bad_reach|].
  split; [reflexivity|].
  split; [exists (acc 0 MWrite), (acc 0 MWrite), TIO, MWrite, MWrite, KWrite, KWrite; repeat split; simpl; auto|].
  split; [exists (acc 0 MWrite), (acc 0 MWrite), TIO, MWrite, MWrite, KWrite, KWrite; repeat split; simpl; auto|].
  split; [apply beforeb_ok; vm_compute; reflexivity|]. split; [now apply desc_child|].
  apply (later _ 18 27); [vm_compute; reflexivity..|lia].
Qed.

(** ** C23: two threads that submit at the same time *)
Definition two_tasks : list tdef :=
  [mkTdef None (declare 0 [acc 0 MWrite; acc 1 MWrite] []) [cell 0 KWrite 5%Z];
   mkTdef None (declare 0 [acc 1 MWrite; acc 0 MWrite] []) [cell 0 KWrite 7%Z]].
Definition two : prog := lprog [ISpawn 0; ISpawn 1] two_tasks false.
(** the loops of the two submissions alternate *)
Definition two_moves : list (nat * pick) :=
  [(0, PNew 0); (1, PNew 0); (0, PNew 0); (1, PNew 0); (0, PNew 0); (1, PNew 0); (0, PNew 0); (1, PNew 0)].
Definition two_mid : state :=
  match run two (init_many two [[ISpawn 0]; [ISpawn 1]] 2) two_moves with Some s => s | None => init two 0 end.
Definition two_end : state := auto_run two (moves_of 2 ++ moves_of 3) 1000 two_mid.

Lemma auto_run_run P o k : forall s, exists l, run P s l = Some (auto_run P o k s).
Proof.
  induction k as [|k IH]; intros s; simpl; [now exists []|].
  destruct (first_move P s o) as [s'|] eqn:E; [|now exists []]. destruct (IH s') as (l & H).
  clear IH. induction o as [|[i c] o IHo]; simpl in E; [discriminate|]. destruct (step P s i c) eqn:E1.
  - injection E as ->. exists ((i, c) :: l). simpl. now rewrite E1.
  - (* the order below is fixed by the caller *) clear IHo. revert E. generalize o at 1. intros o1 E.
    assert (X : exists j d, step P s j d = Some s').
    { clear -E. induction o1 as [|[j d] o1 IH]; simpl in E; [discriminate|]. destruct (step P s j d) eqn:F; auto. injection E as ->. eauto. }
    destruct X as (j & d & X). exists ((j, d) :: l). simpl. now rewrite X.
Qed.
Lemma run_app P l1 l2 : forall s s' s'', run P s l1 = Some s' -> run P s' l2 = Some s'' -> run P s (l1 ++ l2) = Some s''.
Proof.
  induction l1 as [|[i c] l1 IH]; simpl; intros s s' s'' H K; [now injection H as ->|].
  destruct (step P s i c); [eauto|discriminate].
Qed.

Theorem C23_submission_from_several_threads_refuted :
  exists P mains n s l, wf P /\ flat P /\ p_wrap P = false /\ 1 <= n /\
  spawns (concat mains) = spawns (p_main P) /\
  run P (init_many P mains n) l = Some s /\ stuck P s /\
  (forall t, In t (spawns (p_main P)) -> submitted s t /\ In (LInit t) (log s) /\ ~ started s t).
Proof.
  destruct (auto_run_run two (moves_of 2 ++ moves_of 3) 1000 two_mid) as (l & H).
  exists two, [[ISpawn 0]; [ISpawn 1]], 2, two_end, (two_moves ++ l).
  split; [apply wfb_ok; vm_compute; reflexivity|]. split; [apply flatb_ok; vm_compute; reflexivity|].
  split; [reflexivity|]. split; [lia|]. split; [reflexivity|].
  split; [apply (run_app _ _ _ _ two_mid); [|exact H]|].
  { unfold two_mid. destruct (run two (init_many two [[ISpawn 0]; [ISpawn 1]] 2) two_moves) eqn:E; [reflexivity|].
    exfalso. apply (f_equal (fun x => match x with Some _ => 1 | None => 0 end)) in E. vm_compute in E. discriminate. }
  split; [apply stuckb_ok; vm_compute; reflexivity|].
  intros t [<-|[<-|[]]]; (split; [inlog|split; [inlog|unfold started; notin]]).
Qed.

(** ** C25 *)
Theorem C25_task_memory_is_freed_once_and_last :
  forall P n s t, wfp P -> p_wrap P = false -> runs P n s ->
  not_twice (LFree t) (log s) /\
  (In (LFree t) (log s) -> completed s t /\ ended s t /\ In (LTake (EPost t)) (log s) /\
                           (In (LGet t) (log s) \/ In (LDrop t) (log s))).
Proof.
  intros P n s t W NW R. apply (runs_greach P n s W NW) in R. split.
  - apply (sum_not_twice (v_free t)).
    + intros []; simpl; try lia. unfold ni, zb. destruct (_ =? _); lia.
    + simpl. unfold ni. now rewrite Nat.eqb_refl.
    + exact (free_once P W NW n s t R).
  - intros H. destruct (free_late P W NW n s t R H) as (A & B & C & D). split; auto. split; auto.
    exact (completed_ended P W NW n s t R C).
Qed.
Example C25_ex : wf ex /\ runs ex 2 ex_end /\ In (LFree 2) (log ex_end).
Proof. split; [exact ex_wf|]. split; [left; split; [exact ex_flat|exact ex_end_reach]|]. inlog. Qed.

(** ** C26 *)
(** reads of the waker id that follow the decrement of a counter to 1 *)
Theorem C26_freed_tasks_are_not_touched_partial :
  forall P n s i fs f t, wfp P -> p_wrap P = false -> runs P n s ->
  nth_error (thr s) i = Some (f :: fs) -> (forall e k, f = FNotify3 e 1%Z k -> k = NInit) ->
  In t (touches f) -> ~ In (LFree t) (log s).
Proof.
  intros P n s i fs f t W NW R Hi NL Ht. apply (runs_greach P n s W NW) in R.
  apply (untouched P W NW n s f t R); auto.
  - unfold frames. apply in_concat. exists (f :: fs). split; [now apply nth_error_In in Hi|now left].
  - intros (e & k & -> & Hk). apply Hk. now apply (NL e k).
Qed.
Definition ex_mid : state := auto_run ex ex_order 60 (init ex 2).
Example C26_ex : wf ex /\ runs ex 2 ex_mid /\ nth_error (thr ex_mid) 2 = Some [FDep3 2 1 1 [] []] /\
  touches (FDep3 2 1 1 [] []) = [2; 1].
Proof.
  split; [exact ex_wf|]. split; [left; split; [exact ex_flat|apply auto_reach; constructor]|].
  split; [vm_compute|]; reflexivity.
Qed.

(** Between the decrement that makes task 1 runnable and the read of its waker id
    (event.cpp:108, 160), another worker runs task 1 to its end and frees it. *)
Definition chain_tasks : list tdef :=
  [mkTdef None (declare 0 [acc 0 MWrite] []) [cell 0 KWrite 5%Z];
   mkTdef None (declare 0 [acc 0 MRead] []) [cell 0 KRead 0]].
Definition chain : prog := lprog [ISpawn 0; ISpawn 1; IDrop 0; IDrop 1] chain_tasks false.
Definition chain_mid : state :=
  auto_run chain (moves_of 2) 1000
 (auto_run chain [(1, PNew 0)] 16
 (auto_run chain [(2, PNew 0)] 1000
 (auto_run chain [(0, PNew 0); (1, PNew 1)] 30 (init chain 2)))).
(** The body of task 0 has ended and its event is still outstanding (counter 1);
    before the worker reads the waker id, the event is notified, which completes
    and frees the task. *)
Definition event_tasks : list tdef := [mkTdef None (declare 0 [acc 0 MWrite] []) [IEvent 0]].
Definition event : prog := lprog [ISpawn 0; IDrop 0] event_tasks false.
Definition event_mid : state :=
  auto_run event [(2, PExt 0)] 1000 (auto_run event [(0, PNew 0); (1, PNew 0)] 31 (init event 2)).
Theorem C26_freed_tasks_are_not_touched_refuted :
  (exists P n s i fs t, wf P /\ flat P /\ p_wrap P = false /\ reach P n s /\
     nth_error (thr s) i = Some (FNotify3 (EPre t) 1%Z NCall :: fs) /\
     In t (touches (FNotify3 (EPre t) 1%Z NCall)) /\ In (LFree t) (log s)) /\
  (exists P n s i fs t, wf P /\ flat P /\ p_wrap P = false /\ reach P n s /\
     nth_error (thr s) i = Some (FNotify3 (EPost t) 1%Z NBody :: fs) /\
     In t (touches (FNotify3 (EPost t) 1%Z NBody)) /\ In (LFree t) (log s)).
Proof.
  split.
  - exists chain, 2, chain_mid, 1, [FFollow (EPost 0) []], 1.
    split; [apply wfb_ok; vm_compute; reflexivity|]. split; [apply flatb_ok; vm_compute; reflexivity|]. split; [reflexivity|].
    split; [repeat apply auto_reach; constructor|]. split; [vm_compute; reflexivity|]. split; [simpl; auto|inlog].
  - exists event, 2, event_mid, 1, [], 0.
    split; [apply wfb_ok; vm_compute; reflexivity|]. split; [apply flatb_ok; vm_compute; reflexivity|]. split; [reflexivity|].
    split; [repeat apply auto_reach; constructor|]. split; [vm_compute; reflexivity|]. split; [simpl; auto|inlog].
Qed.

(** ** C29 *)
Lemma cons_ne {A} (x : A) l : l <> x :: l.
Proof. intros H. apply (f_equal (@length A)) in H. simpl in H. lia. Qed.
Theorem C29_barrier_returns_when_all_tasks_are_gone :
  forall P n s i c s', wfp P -> p_wrap P = false -> runs P n s ->
  step P s i c = Some s' -> log s' = LBarrier :: log s ->
  forall t, parent P t = None -> submitted s t -> In (LFree t) (log s) /\ completed s t /\ ended s t.
Proof.
  intros P n s i c s' W NW R H L t Ht St. apply (runs_greach P n s W NW) in R.
  assert (T : tcn s None = 0%Z).
  { unfold step in H. destruct (nth_error (thr s) i) as [[|f fs]|]; [| |discriminate].
    - destruct (istep s c) as [[s1 fr]|] eqn:E; [|discriminate]. injection H as <-. simpl in L.
      cases_i E; simpl in L; try discriminate; now apply cons_ne in L.
    - destruct (fstep P s f) as [[s1 fr]|] eqn:E; [|discriminate]. injection H as <-. simpl in L.
      cases_f E; simpl in L; try discriminate; try (now apply cons_ne in L);
        try (destruct (p_wrap P); simpl in L; discriminate L || now apply cons_ne in L); auto.
      all: try (apply Z.eqb_eq; assumption).
      all: repeat match type of L with context [match ?x with _ => _ end] => destruct x; simpl in L; try discriminate L end;
           try (now apply cons_ne in L). }
  assert (F := empty_all_free P W NW n s None R T t Ht St). split; auto.
  destruct (free_late P W NW n s t R F) as (_ & _ & C & _). split; auto. exact (completed_ended P W NW n s t R C).
Qed.
Definition ex_bar : state := auto_run ex ex_order 187 (init ex 2).
Example C29_ex : wf ex /\ runs ex 2 ex_bar /\ submitted ex_bar 3 /\
  match step ex ex_bar 0 (PNew 0) with Some s' => log s' = LBarrier :: log ex_bar | None => False end.
Proof.
  split; [exact ex_wf|]. split; [left; split; [exact ex_flat|apply auto_reach; constructor]|]. split; [inlog|vm_compute; reflexivity].
Qed.
(** "barrier() returns once all tasks have completed" fails for a program that
    keeps a future: the task is complete, nothing can move, the barrier waits. *)
Definition hold : prog := lprog [ISpawn 0; IBarrier; IDrop 0] chain_tasks false.
Definition hold_end : state := auto_run hold (moves_of 0 ++ moves_of 1) 1000 (init hold 1).
Theorem C29_barrier_waits_only_for_completion_refuted :
  exists P n s, wf P /\ flat P /\ p_wrap P = false /\ 1 <= n /\ reach P n s /\ stuck P s /\
  (forall t, submitted s t -> completed s t) /\ ~ In LBarrier (log s) /\
  exists is, all_frames s = [FBody None (IBarrier :: is)].
Proof.
  assert (W : wf hold) by (apply wfb_ok; vm_compute; reflexivity).
  assert (F : flat hold) by (apply flatb_ok; vm_compute; reflexivity).
  assert (PA : forall t, patient hold t) by (apply patientb_ok; vm_compute; reflexivity).
  assert (R : reach hold 1 hold_end) by (apply auto_reach; constructor).
  assert (K : stuck hold hold_end) by (apply stuckb_ok; vm_compute; reflexivity).
  exists hold, 1, hold_end. split; [exact W|]. split; [exact F|]. split; [reflexivity|]. split; [lia|]. split; [exact R|]. split; [exact K|].
  split; [intros t H; exact (proj1 (proj1 (progress hold W eq_refl 1 hold_end (le_n 1) PA F R K) t H))|].
  split; [notin|]. exists [IDrop 0]. vm_compute. reflexivity.
Qed.

(** ** C22: a task that names a resource twice in its arguments waits for itself,
    if its accesses are not compatible with each other *)
Theorem C22_impatient_tasks_never_run :
  forall P n s t, wfp P -> p_wrap P = false -> runs P n s -> ~ patient P t ->
  ~ started s t /\ ~ completed s t.
Proof.
  intros P n s t W NW R NP. apply (runs_greach P n s W NW) in R.
  assert (X := never_executed P W NW n s t R NP).
  split; intros H.
  - apply in_exec in H. lia.
  - apply in_reach in H. apply (rc_exec P s (greach_Inv P W NW n s R)) in H. lia.
Qed.

(** what stands at a place of the argument list is what the task declares *)
Lemma args_uniq args : forall u, map r_id (u_uniq (fold_left add_resource_access args u)) =
  rev (map (fun a => r_id (a_res a)) args) ++ map r_id (u_uniq u).
Proof.
  induction args as [|a args IH]; intros u; simpl; [reflexivity|]. rewrite IH. simpl. now rewrite <- app_assoc.
Qed.
(** The same in terms of the arguments of the task: two of them, at the places [i]
    and [j], name the same resource, and two of its accesses, possibly to another
    resource, conflict. *)
Theorem C22_self_conflicting_task_never_runs :
  forall P n s t d args i j a b, wfp P -> p_wrap P = false -> runs P n s ->
  user P t = declare d args [] ->
  i < j -> nth_error args i = Some a -> nth_error args j = Some b -> r_id (a_res a) = r_id (a_res b) ->
  tasks_conflict P t t ->
  ~ started s t /\ ~ completed s t.
Proof.
  intros P n s t d args i j a b W NW R E L Hi Hj Er C.
  apply (C22_impatient_tasks_never_run P n s t W NW R). intros [N|S].
  - unfold uniq in N. rewrite E in N. unfold declare in N. simpl fold_left in N. rewrite args_uniq in N.
    simpl in N. rewrite app_nil_r in N. apply NoDup_rev in N. rewrite rev_involutive in N.
    rewrite NoDup_nth_error in N. assert (i = j); [|lia]. apply N.
    + rewrite map_length. apply nth_error_Some. congruence.
    + rewrite (map_nth_error _ _ _ Hi), (map_nth_error _ _ _ Hj). now rewrite Er.
  - apply (conflict_serial P) in C. congruence.
Qed.

(** and so does everything behind it: a task that conflicts with it, a barrier *)
Theorem C22_what_waits_behind_it :
  forall P n s t, wfp P -> p_wrap P = false -> runs P n s -> ~ patient P t ->
  (forall u, parent P t = parent P u -> tasks_conflict P t u -> before s t u -> ~ started s u) /\
  (parent P t = None -> submitted s t ->
   forall i c s', step P s i c = Some s' -> log s' <> LBarrier :: log s).
Proof.
  intros P n s t W NW R NP. destruct (C22_impatient_tasks_never_run P n s t W NW R NP) as [_ NC]. split.
  - intros u E C B S. apply NC. exact (proj1 (C13_conflicting_tasks_run_in_submission_order P n s t u W NW R E C B S)).
  - intros E S i c s' H L. apply NC. exact (proj1 (proj2 (C29_barrier_returns_when_all_tasks_are_gone P n s i c s' W NW R H L t E S))).
Qed.

(** Without such tasks, everything that was submitted has run when nothing can
    move. *)
Theorem C22_patient_tasks_run :
  forall P n s t, wf P -> p_wrap P = false -> (forall t, patient P t) -> 1 <= n -> runs P n s -> stuck P s ->
  submitted s t -> started s t /\ ended s t /\ completed s t.
Proof.
  intros P n s t W NW PA N R K S. destruct (C16_no_deadlock P n s W NW PA N R K) as [A _].
  destruct (A t S) as [C _]. assert (D := completed_ended P W NW n s t (runs_greach P n s W NW R) C).
  split; [|split; auto]. assert (I := greach_Inv P W NW n s (runs_greach P n s W NW R)).
  apply in_end in D. apply in_exec. pose proof (f_end P s I t). pose proof (f_start P s I t). lia.
Qed.

Definition dup_tasks : list tdef := [mkTdef None (declare 0 [acc 0 MRead; acc 0 MWrite] []) [cell 0 KWrite 5%Z]].
Definition dup : prog := lprog [ISpawn 0; IDrop 0; IBarrier] dup_tasks false.
Definition dup_end : state := auto_run dup (moves_of 0 ++ moves_of 1 ++ moves_of 2) 1000 (init dup 2).
Theorem C22_every_submitted_task_runs_refuted :
  exists P n s t args, flat P /\ reach P n s /\ stuck P s /\ 1 <= n /\
  user P t = declare 0 args [] /\ (forall a, In a args -> a_ty a = TIO) /\
  (forall o c, In (ISpawn c) (body P o) -> o = None /\ c = t) /\
  submitted s t /\ ~ started s t.
Proof.
  exists dup, 2, dup_end, 0, [acc 0 MRead; acc 0 MWrite]. split; [apply flatb_ok; vm_compute; reflexivity|].
  split; [apply auto_reach; constructor|]. split; [apply stuckb_ok; vm_compute; reflexivity|]. split; [lia|].
  split; [reflexivity|]. split; [simpl; intros a [<-|[<-|[]]]; reflexivity|].
  split. { intros [[|[|t]]|] c H; simpl in H; repeat (destruct H as [H|H]; [try discriminate|]); try easy. injection H as <-. auto. }
  split; [inlog|unfold started; notin].
Qed.

(** task 0 reads cell 0 twice, task 1 reads cell 1 twice and writes cell 0, task 2 writes cell 0 *)
Definition self_tasks : list tdef :=
  [mkTdef None (declare 0 [acc 0 MRead; acc 0 MRead] []) [cell 0 KRead 0%Z];
   mkTdef None (declare 0 [acc 1 MRead; acc 0 MWrite; acc 1 MRead] []) [cell 0 KWrite 5%Z];
   mkTdef None (declare 0 [acc 0 MWrite] []) [cell 0 KWrite 6%Z]].
Definition self : prog := lprog [ISpawn 0; ISpawn 1; ISpawn 2; IDrop 0; IDrop 1; IDrop 2; IBarrier] self_tasks false.
Definition self_end : state := auto_run self (moves_of 0 ++ moves_of 1 ++ moves_of 2) 1000 (init self 2).
Lemma self_wf : wf self. Proof. apply wfb_ok. vm_compute. reflexivity. Qed.
Lemma self_runs : runs self 2 self_end.
Proof. left. split; [apply flatb_ok; vm_compute; reflexivity|apply auto_reach; constructor]. Qed.
Example C22_ex : wf self /\ runs self 2 self_end /\ ~ patient self 1 /\ patient self 0 /\ ~ NoDup (uniq self 0) /\
  user self 1 = declare 0 [acc 1 MRead; acc 0 MWrite; acc 1 MRead] [] /\
  tasks_conflict self 1 1 /\ tasks_conflict self 1 2 /\ before self_end 1 2 /\ submitted self_end 1 /\
  In (LInit 1) (log self_end) /\ completed self_end 0 /\ stuck self self_end.
Proof.
  split; [exact self_wf|]. split; [exact self_runs|].
  split. { intros [H|H]; [|vm_compute in H; discriminate]. vm_compute in H. inversion H as [|x l N _]; subst. apply N. simpl. auto. }
  split; [right; vm_compute; reflexivity|].
  split. { intros H. vm_compute in H. inversion H as [|x l N _]; subst. apply N. simpl. auto. }
  split; [reflexivity|].
  split; [exists (acc 0 MWrite), (acc 0 MWrite), TIO, MWrite, MWrite, KWrite, KWrite; repeat split; simpl; auto|].
  split; [exists (acc 0 MWrite), (acc 0 MWrite), TIO, MWrite, MWrite, KWrite, KWrite; repeat split; simpl; auto|].
  split; [apply beforeb_ok; vm_compute; reflexivity|]. split; [inlog|]. split; [inlog|]. split; [inlog|].
  apply stuckb_ok. vm_compute. reflexivity.
Qed.
(** a program in which such a task is harmless *)
Definition twice : prog := lprog [ISpawn 0; ISpawn 1; IDrop 0; IDrop 1; IBarrier] [nth 0 self_tasks no_task; nth 2 self_tasks no_task] false.
Definition twice_end : state := auto_run twice (moves_of 0 ++ moves_of 1 ++ moves_of 2) 1000 (init twice 2).
Example C22_ex_patient : wf twice /\ (forall t, patient twice t) /\ ~ NoDup (uniq twice 0) /\ runs twice 2 twice_end /\
  stuck twice twice_end /\ submitted twice_end 0 /\ In LBarrier (log twice_end).
Proof.
  split; [apply wfb_ok; vm_compute; reflexivity|]. split; [apply patientb_ok; vm_compute; reflexivity|].
  split. { intros H. vm_compute in H. inversion H as [|x l N _]; subst. apply N. simpl. auto. }
  split. { left. split; [apply flatb_ok; vm_compute; reflexivity|apply auto_reach; constructor]. }
  split; [apply stuckb_ok; vm_compute; reflexivity|]. split; inlog.
Qed.

(** ** C24 *)
(** With 16-bit event counters the machine has the same executions as with ideal
    ones, provided that no task can collect 65535 edges: [N] bounds the names of the
    tasks, and a task gets at most one edge for each mention of one of its resources
    in the arguments of a task. *)
Lemma mass_sum P N l : mass P N l = Z.of_nat (list_sum (map (mentions P N) l)).
Proof. unfold mass. induction l as [|r l IH]; simpl; [reflexivity|]. rewrite IH. lia. Qed.
Theorem C24_counters_do_not_overflow :
  forall P N n s, wf P -> flat P -> p_wrap P = true ->
  (forall c, In (ISpawn c) (p_main P) -> c < N) ->
  (forall t, (2 + Z.of_nat (list_sum (map (mentions P N) (uniq P t))) <= 65535)%Z /\
             (1 + Z.of_nat (length (made (body P (Some t)))) <= 65535)%Z) ->
  (reach P n s <-> reach (with_wrap P false) n s).
Proof.
  intros P N n s W F Wr B H. assert (E : P = with_wrap P true) by (destruct P; simpl in *; now subst).
  rewrite E at 1. apply (no_overflow P N n).
  - destruct W as [[[] ?] ?]. split; [split; [split|]|]; auto.
  - exact F.
  - intros [t|] c Hc; simpl in Hc; [|auto]. exfalso. specialize (F t). simpl in F.
    assert (Q : In c (spawns (t_body (p_task P t)))) by now apply spawns_in. rewrite F in Q. destruct Q.
  - intros t. rewrite mass_sum. exact (H t).
Qed.
(** with nested tasks, under the schedules of [greach] *)
Theorem C24_counters_do_not_overflow_nested :
  forall P N n s, wf P -> p_wrap P = true ->
  (forall o c, In (ISpawn c) (body P o) -> c < N) ->
  (forall t, (2 + Z.of_nat (list_sum (map (mentions P N) (uniq P t))) <= 65535)%Z /\
             (1 + Z.of_nat (length (made (body P (Some t)))) + Z.of_nat (length (spawns (body P (Some t)))) <= 65535)%Z) ->
  (greach P n s <-> greach (with_wrap P false) n s).
Proof.
  intros P N n s W Wr B H. assert (E : P = with_wrap P true) by (destruct P; simpl in *; now subst).
  rewrite E at 1. apply (no_overflow_nested P N n).
  - destruct W as [[[] ?] ?]. split; [split; [split|]|]; auto.
  - exact B.
  - intros t. rewrite mass_sum. exact (H t).
Qed.
Definition exw : prog := lprog ex_main ex_tasks true.
Example C24_ex : wf exw /\ flat exw /\ p_wrap exw = true /\ (forall c, In (ISpawn c) (p_main exw) -> c < 4) /\
  (forall t, (2 + Z.of_nat (list_sum (map (mentions exw 4) (uniq exw t))) <= 65535)%Z /\
             (1 + Z.of_nat (length (made (body exw (Some t)))) <= 65535)%Z).
Proof.
  split; [apply wfb_ok; vm_compute; reflexivity|]. split; [apply flatb_ok; vm_compute; reflexivity|]. split; [reflexivity|].
  split; [simpl; intros c H; repeat (destruct H as [H|H]; [try discriminate; try (injection H as <-; lia)|]); destruct H|].
  intros t. destruct t as [|[|[|[|t]]]]; simpl; try lia. destruct t; simpl; lia.
Qed.
Example C24_ex_nested : let P := lprog nest_main nest_tasks true in
  wf P /\ p_wrap P = true /\ (forall o c, In (ISpawn c) (body P o) -> c < 4) /\
  (forall t, (2 + Z.of_nat (list_sum (map (mentions P 4) (uniq P t))) <= 65535)%Z /\
             (1 + Z.of_nat (length (made (body P (Some t)))) + Z.of_nat (length (spawns (body P (Some t)))) <= 65535)%Z).
Proof.
  split; [apply wfb_ok; vm_compute; reflexivity|]. split; [reflexivity|]. split.
  - intros [[|[|[|[|t]]]]|] c H; simpl in H; repeat (destruct H as [H|H]; [try discriminate; try (injection H as <-; lia)|]); try destruct H.
    unfold body, lprog in H. simpl in H. destruct t; destruct H.
  - intros t. destruct t as [|[|[|[|t]]]]; simpl; try lia. destruct t; simpl; lia.
Qed.

(** A task that creates 65535 events before writing; a second task writes the same
    cell. *)
Definition many_tasks (k : nat) : list tdef :=
  [mkTdef None (declare 0 [acc 0 MWrite] []) (map IEvent (seq 0 k) ++ [cell 0 KWrite 5%Z]);
   mkTdef None (declare 0 [acc 0 MWrite] []) [cell 0 KWrite 7%Z]].
Definition many (k : nat) : prog := lprog [ISpawn 0; ISpawn 1] (many_tasks k) true.

Lemma many_spawns k : spawns (map IEvent k ++ [cell 0 KWrite 5%Z]) = [].
Proof. induction k; simpl; auto. Qed.
Lemma many_uses k c : uses c (map IEvent k ++ [cell 0 KWrite 5%Z]) = 0.
Proof. induction k; simpl; auto. Qed.
Lemma many_makes k : makes (map IEvent k ++ [cell 0 KWrite 5%Z]) = k.
Proof. induction k; simpl; auto. now rewrite IHk. Qed.
Lemma many_in k i : In i (map IEvent k ++ [cell 0 KWrite 5%Z]) -> (exists e, i = IEvent e) \/ i = cell 0 KWrite 5%Z.
Proof. rewrite in_app_iff, in_map_iff. intros [(e & <- & _)|[<-|[]]]; eauto. Qed.
Lemma many_body k o i : In i (body (many k) o) ->
  match o with None => i = ISpawn 0 \/ i = ISpawn 1 | Some t => (exists e, i = IEvent e) \/ exists a, i = IAct a end.
Proof.
  destruct o as [[|[|t]]|]; simpl.
  - intros H. apply many_in in H as [H|H]; eauto.
  - intros [<-|[]]. right. eexists. reflexivity.
  - destruct t; intros [].
  - intros [<-|[<-|[]]]; auto.
Qed.
Lemma many_wf k : wf (many k).
Proof.
  split; [split; [split|]|].
  - intros o c H. apply many_body in H. destruct o; [destruct H as [(e & H)|(a & H)]; discriminate|].
    destruct H as [H|H]; injection H as ->; reflexivity.
  - intros q c H. apply many_body in H. destruct H as [(e & H)|(a & H)]; discriminate.
  - intros [[|[|t]]|]; simpl; try (rewrite many_spawns; constructor); try (destruct t; constructor); repeat constructor.
  - intros [[|[|t]]|] c; simpl; try (rewrite many_uses; lia); try (destruct t; simpl; lia); lia.
  - intros o pre i post c E U. assert (H : In i (body (many k) o)) by (rewrite E; apply in_elt). apply many_body in H.
    destruct o; destruct U as [-> | ->]; try (destruct H as [(e & H)|(a & H)]; discriminate); destruct H; discriminate.
  - intros t e. apply creates_makes. destruct t as [|[|t]]; simpl; [rewrite many_makes; apply seq_NoDup|constructor|].
    destruct t; constructor.
  - intros [|[|t]] a; [vm_compute; intros [<-|[]]; now left..|]. destruct t; intros [].
  - intros [|[|t]] [|[|u]] a b Ha Hb; try (destruct t; destruct Ha); try (destruct u; destruct Hb);
      destruct Ha as [<-|[]]; destruct Hb as [<-|[]]; reflexivity.
  - intros [|[|t]] a; [intros [<-|[]]; reflexivity..|]. destruct t; intros [].
  - intros t H. apply many_body in H. destruct H as [(e & H)|(a & H)]; discriminate.
  - intros t c H. apply many_body in H. destruct H as [(e & H)|(a & H)]; discriminate.
Qed.
Lemma many_flat k : flat (many k).
Proof. intros [|[|t]]; simpl; [apply many_spawns|reflexivity|destruct t; reflexivity]. Qed.

(** the events are created *)
Lemma many_events P k : p_wrap P = true -> forall is s fs,
  nth_error (thr s) 1 = Some (FBody (Some 0) (map IEvent k ++ is) :: fs) ->
  (0 <= ctr s (EPost 0) < 65536)%Z ->
  exists s', run P s (repeat (1, PNew 0) (length k)) = Some s' /\
    thr s' = set_nth 1 (FBody (Some 0) is :: fs) (thr s) /\
    ctr s' (EPost 0) = ((ctr s (EPost 0) + Z.of_nat (length k)) mod 65536)%Z /\
    (forall e, e <> EPost 0 -> ctr s' e = ctr s e) /\
    users s' = users s /\ lck s' = lck s /\ emp s' = emp s /\ rdy s' = rdy s /\
    exists l, log s' = l ++ log s /\ forall x, In x l -> exists e, x = LEvent 0 e.
Proof.
  intros Wr. induction k as [|e k IH]; intros is s fs H C.
  - exists s. simpl. rewrite Z.add_0_r, Z.mod_small by exact C. repeat split; auto.
    + destruct (thr s) as [|a [|b l]]; try discriminate. simpl in H. injection H as ->. reflexivity.
    + exists []. split; [reflexivity|]. intros x [].
  - simpl app in H. cbn [map] in H. simpl repeat. simpl run. unfold step at 1. rewrite H. cbn [fstep app].
    set (s1 := set_thr _ _).
    destruct (IH is s1 fs) as (s' & R & T & Cp & Co & U & Lk & Em & Rd & lg & Lg & Lh).
    { unfold s1. simpl. destruct (thr s) as [|a [|b l]]; try discriminate. reflexivity. }
    { change (ctr s1 (EPost 0)) with (wrap P (ctr s (EPost 0) + 1)). unfold wrap. rewrite Wr. apply Z.mod_pos_bound. lia. }
    exists s'. split; [exact R|]. split.
    { rewrite T. unfold s1. simpl. destruct (thr s) as [|a [|b l]]; try discriminate. reflexivity. }
    split. { rewrite Cp. change (ctr s1 (EPost 0)) with (wrap P (ctr s (EPost 0) + 1)). unfold wrap. rewrite Wr. rewrite Zplus_mod_idemp_l. f_equal. cbn [length]. lia. }
    split. { intros x Hx. rewrite Co by exact Hx. unfold s1. simpl. unfold eupd. destruct (ev_eqb x (EPost 0)) eqn:Q; auto.
             destruct x; simpl in Q; try discriminate. apply Nat.eqb_eq in Q. subst. now destruct Hx. }
    rewrite U, Lk, Em, Rd. repeat split; auto. exists (lg ++ [LEvent 0 e]). split; [rewrite Lg, <- app_assoc; reflexivity|].
    intros x Hx. apply in_app_iff in Hx as [Hx|[<-|[]]]; eauto.
Qed.
(** main submits both tasks, worker 1 starts task 0 *)
Definition many_start (k : nat) : state := auto_run (many k) [(0, PNew 0); (1, PNew 1)] 20 (init (many k) 2).
Lemma many_start_reach k : reach (many k) 2 (many_start k).
Proof. exact (auto_reach (many k) 2 _ 20 (init (many k) 2) (reach_init (many k) 2)). Qed.
(** task 1 is initialised and finds the counter of task 0 at 0 *)
Definition second (b : list frame) (s : state) (frs : list frame) (held : bool) (pre : Z) (lg : list lev) : Prop :=
  users s 0 = [(1, 0); (0, 0)] /\ lck s 0 = held /\ ctr s (EPost 0) = 0%Z /\ ctr s (EPre 1) = pre /\
  thr s = [[FBody None []]; b; frs] /\ log s = lg.
Lemma second_step P b s f fs held pre lg s1 fr :
  second b s (f :: fs) held pre lg -> fstep P s f = Some (s1, fr) ->
  step P s 2 (PNew 0) = Some (set_thr s1 [[FBody None []]; b; fr ++ fs]).
Proof. intros (_ & _ & _ & _ & T & _) H. unfold step. rewrite T. simpl nth_error. cbv iota. rewrite H. reflexivity. Qed.
Lemma many_second k b s lg : second b s [] false 1 lg -> emp s = [1] ->
  exists s', run (many k) s (repeat (2, PNew 0) 10) = Some s' /\
  thr s' = [[FBody None []]; b; [FNotify (EPre 1) NExec; FRun 1]] /\ log s' = LExec 1 :: LInit 1 :: lg.
Proof.
  intros A E.
  assert (U : uniq (many k) 1 = [0]) by reflexivity.
  assert (Q0 : parent (many k) 0 = None) by reflexivity.
  assert (Q : parent (many k) 1 = None) by reflexivity.
  assert (S : user_is_serial (user (many k) 0) (user (many k) 1) = true) by reflexivity.
  assert (Y : sync_on (many k) 0 0 = true) by reflexivity.
  assert (X : forall z, wrap (many k) z = (z mod 65536)%Z) by reflexivity.
  generalize dependent (many k). intros P U Q0 Q S Y X. cbn [repeat run].
  assert (E1 : exists s1, step P s 2 (PNew 0) = Some s1 /\ second b s1 [FInitUp 1] false 1 lg).
  { destruct A as (A1 & A2 & A3 & A4 & A5 & A6). unfold step. rewrite A5. simpl nth_error. cbv iota. simpl istep. rewrite E. simpl.
    eexists. split; [reflexivity|]. repeat split; auto. }
  destruct E1 as (s1 & -> & A1). clear s A E. rename s1 into s.
  assert (E1 : exists s1, step P s 2 (PNew 0) = Some s1 /\ second b s1 [FInit 1 [0]] false 2 lg).
  { eexists. split; [eapply second_step; [exact A1|reflexivity]|]. rewrite U.
    destruct A1 as (A1 & A2 & A3 & A4 & A5 & A6). repeat split; auto. simpl. unfold eupd. simpl. rewrite X, A4. reflexivity. }
  destruct E1 as (s1 & -> & A). clear s A1. rename s1 into s.
  assert (E1 : exists s1, step P s 2 (PNew 0) = Some s1 /\ second b s1 [FIter 1 0 [(0, 0)] []] true 2 lg).
  { assert (F : fstep P s (FInit 1 [0]) = Some (set_lck s (upd (lck s) 0 true), [FIter 1 0 [(0, 0)] []])).
    { destruct A as (A1 & A2 & A3 & A4 & A5 & A6). simpl. rewrite A2, A1. reflexivity. }
    eexists. split; [eapply second_step; [exact A|exact F]|].
    destruct A as (A1 & A2 & A3 & A4 & A5 & A6). repeat split; auto. }
  destruct E1 as (s1 & -> & A1). clear s A. rename s1 into s.
  assert (E1 : exists s1, step P s 2 (PNew 0) = Some s1 /\ second b s1 [FDep1 1 0 0 [] []] true 2 lg).
  { assert (F : fstep P s (FIter 1 0 [(0, 0)] []) = Some (s, [FDep1 1 0 0 [] []])) by (simpl; rewrite Q, Q0, S; reflexivity).
    eexists. split; [eapply second_step; [exact A1|exact F]|]. 
    destruct A1 as (A1 & A2 & A3 & A4 & A5 & A6). repeat split; auto. }
  destruct E1 as (s1 & -> & A). clear s A1. rename s1 into s.
  assert (E1 : exists s1, step P s 2 (PNew 0) = Some s1 /\ second b s1 [FInit 1 []] false 2 lg).
  { assert (F : fstep P s (FDep1 1 0 0 [] []) = Some (set_lck s (upd (lck s) 0 false), [FInit 1 []])).
    { destruct A as (A1 & A2 & A3 & A4 & A5 & A6). simpl. rewrite A3. simpl. unfold after_dep. rewrite Y. reflexivity. }
    eexists. split; [eapply second_step; [exact A|exact F]|].
    destruct A as (A1 & A2 & A3 & A4 & A5 & A6). repeat split; auto. }
  destruct E1 as (s1 & -> & A1). clear s A. rename s1 into s.
  assert (E1 : exists s1, step P s 2 (PNew 0) = Some s1 /\ second b s1 [FNotify (EPre 1) NInit] false 2 lg).
  { assert (F : fstep P s (FInit 1 []) = Some (s, [FNotify (EPre 1) NInit])) by (simpl; rewrite Q; reflexivity).
    eexists. split; [eapply second_step; [exact A1|exact F]|]. 
    destruct A1 as (A1 & A2 & A3 & A4 & A5 & A6). repeat split; auto. }
  destruct E1 as (s1 & -> & A). clear s A1. rename s1 into s.
  assert (E1 : exists s1, step P s 2 (PNew 0) = Some s1 /\ second b s1 [FNotify2 (EPre 1) 1%Z NInit] false 1 (LInit 1 :: lg)).
  { assert (F : fstep P s (FNotify (EPre 1) NInit) = Some (add_log (set_ctr s (eupd (ctr s) (EPre 1) 1%Z)) (LInit 1), [FNotify2 (EPre 1) 1%Z NInit])).
    { destruct A as (A1 & A2 & A3 & A4 & A5 & A6). simpl. rewrite A4, X. reflexivity. }
    eexists. split; [eapply second_step; [exact A|exact F]|].
    destruct A as (A1 & A2 & A3 & A4 & A5 & A6). repeat split; auto. simpl. now rewrite A6. }
  destruct E1 as (s1 & -> & A1). clear s A. rename s1 into s.
  assert (E1 : exists s1, step P s 2 (PNew 0) = Some s1 /\ second b s1 [FNotify3 (EPre 1) 1%Z NInit] false 1 (LInit 1 :: lg)).
  { eexists. split; [eapply second_step; [exact A1|reflexivity]|].
    destruct A1 as (A1 & A2 & A3 & A4 & A5 & A6). repeat split; auto. }
  destruct E1 as (s1 & -> & A). clear s A1. rename s1 into s.
  assert (E1 : exists s1, step P s 2 (PNew 0) = Some s1 /\ second b s1 [FExec 1] false 1 (LInit 1 :: lg)).
  { eexists. split; [eapply second_step; [exact A|reflexivity]|].
    destruct A as (A1 & A2 & A3 & A4 & A5 & A6). repeat split; auto. }
  destruct E1 as (s1 & -> & A1). clear s A. rename s1 into s.
  rewrite (second_step P b s (FExec 1) [] _ _ _ _ _ A1 eq_refl). eexists. split; [reflexivity|]. split; [reflexivity|].
  destruct A1 as (_ & _ & _ & _ & _ & A6). simpl. now rewrite A6.
Qed.

Theorem C24_counters_do_not_overflow_refuted :
  exists P n s p t, wf P /\ flat P /\ p_wrap P = true /\ reach P n s /\
  parent P p = parent P t /\ tasks_conflict P p t /\ before s p t /\ started s t /\ ~ ended s p /\
  exists i fs, nth_error (thr s) i = Some (FBody (Some p) [cell 0 KWrite 5%Z] :: fs).
Proof.
  assert (K : exists k, Z.of_nat k = 65535%Z) by (exists (N.to_nat 65535); now rewrite N_nat_Z).
  destruct K as (k & K). exists (many k), 2.
  destruct (many_events (many k) (seq 0 k) eq_refl [cell 0 KWrite 5%Z] (many_start k) [])
    as (s & R & T & Cp & Co & U & Lk & Em & Rd & lg & Lg & Lh).
  { vm_compute. reflexivity. }
  { vm_compute. split; [discriminate|reflexivity]. }
  destruct (many_second k [FBody (Some 0) [cell 0 KWrite 5%Z]] s (log s)) as (s' & R2 & T2 & L2).
  { split; [rewrite U; vm_compute; reflexivity|]. split; [rewrite Lk; vm_compute; reflexivity|].
    split; [rewrite Cp, seq_length, K; vm_compute; reflexivity|]. split; [rewrite Co by discriminate; vm_compute; reflexivity|].
    split; [rewrite T; vm_compute; reflexivity|reflexivity]. }
  { rewrite Em. vm_compute. reflexivity. }
  assert (Ls : exists l', log (many_start k) = l' /\ l' = log (many_start 0)) by (eexists; split; [reflexivity|vm_compute; reflexivity]).
  destruct Ls as (l' & E1 & E2). rewrite E1, E2 in Lg. clear E1 E2.
  exists s', 0, 1. split; [apply many_wf|]. split; [apply many_flat|]. split; [reflexivity|].
  split. { eapply run_reach; [|exact R2]. eapply run_reach; [|exact R]. exact (many_start_reach k). }
  split; [reflexivity|].
  split; [exists (acc 0 MWrite), (acc 0 MWrite), TIO, MWrite, MWrite, KWrite, KWrite; repeat split; simpl; auto|].
  split. { apply beforeb_ok. rewrite L2, Lg. assert (B : beforeb 0 1 (log (many_start 0)) = true) by (vm_compute; reflexivity).
           clear - Lh B. revert B. generalize (log (many_start 0)). intros l B. simpl. induction lg as [|y lg IH]; simpl.
           - exact B.
           - destruct (Lh y (or_introl eq_refl)) as (e & ->). apply IH. intros x Hx. apply Lh. now right. }
  split; [unfold started; rewrite L2; now left|].
  split. { unfold ended. rewrite L2, Lg. assert (B : ~ In (LEnd 0) (log (many_start 0))) by notin.
           clear - Lh B. revert B. generalize (log (many_start 0)). intros l B.
           intros [H|[H|H]]; try discriminate. apply in_app_iff in H as [H|H]; auto.
           destruct (Lh _ H) as (e & Q). discriminate. }
  exists 1, []. rewrite T2. reflexivity.
Qed.

(** ** What the theorems rest on: the conjunction of all of them is closed *)
Definition all_sched := (@C13_conflicting_tasks_run_in_submission_order, @C14_same_result_as_one_by_one, @C14_same_result_when_all_complete, @C15_body_runs_at_most_once, @C16_no_deadlock, @C17_executions_are_bounded, @C17_nested_executions_are_bounded, @C17_every_schedule_ends, @C18_a_waiting_task_waits_for_a_conflicting_one, @C19_counter_counts_the_reasons_to_wait, @C19_followers_are_final_when_visited, @C19_followers_are_visited_once, @C20_task_completes_after_its_events, @C20_later_tasks_wait_for_events, @C21_parent_completes_after_its_children_partial, @C21_parent_completes_after_its_children_refuted, @C51_nested_work_runs_in_submission_order_partial, @C51_nested_work_runs_in_submission_order_refuted, @C22_impatient_tasks_never_run, @C22_self_conflicting_task_never_runs, @C22_what_waits_behind_it, @C22_patient_tasks_run, @C22_every_submitted_task_runs_refuted, @C23_submission_from_several_threads_refuted, @C25_task_memory_is_freed_once_and_last, @C26_freed_tasks_are_not_touched_partial, @C26_freed_tasks_are_not_touched_refuted, @C29_barrier_returns_when_all_tasks_are_gone, @C29_barrier_waits_only_for_completion_refuted, @C24_counters_do_not_overflow, @C24_counters_do_not_overflow_nested, @C24_counters_do_not_overflow_refuted).
Print Assumptions all_sched.
