(** Several threads of the user that submit into the root space: what holds (C23).

    PropertiesSched refutes C23 in general.  The results here are for the runs [creach]:
    a task begins to enter user lists only when every task of its space that has begun
    has already entered the lists both name.  [C23_locked_submissions_are_covered] and
    [C23_single_resource_tasks_are_covered] show two ways to stay inside: a lock around
    every [emplace_task], or tasks that name at most one resource. *)
From Coq Require Import Bool List Arith NArith ZArith Lia Permutation.
From Verif Require Import AccessModel AccessSpec AccessProof UserModel UserProof SchedModel SchedSpec SchedBase SchedInv1 SchedInv2 SchedInv3 SchedInv8 SchedFront SchedThm SchedLive SchedTerm SchedStack SchedSeq SchedMore SchedEx SchedMany PropertiesSched.
Import ListNotations.
Open Scope nat_scope.

(** ** Checkers *)
Definition begin_okb (P : prog) (s : state) (i : nat) : bool :=
  match nth_error (thr s) i with
  | Some (FSub _ c rs _ :: _) =>
      negb (Nat.eqb (length rs) (length (uniq P c))) ||
      forallb (fun f => match f with
                        | FSub _ c' rs' _ => negb (onat_eqb (parent P c') (parent P c)) || negb (Nat.ltb (length rs') (length (uniq P c'))) ||
                                             forallb (fun r => negb (existsb (Nat.eqb r) (uniq P c))) rs'
                        | _ => true
                        end) (concat (thr s))
  | _ => true
  end.
Lemma onat_refl o : onat_eqb o o = true. Proof. destruct o; simpl; auto using Nat.eqb_refl. Qed.
Lemma begin_okb_ok P s i : begin_okb P s i = true -> begin_ok P s i.
Proof.
  unfold begin_okb. intros H o c is fs E. rewrite E, Nat.eqb_refl in H. simpl in H. rewrite forallb_forall in H.
  intros o' c' rs is' Hf Ep L r Hr Q. specialize (H _ Hf). simpl in H. rewrite Ep, onat_refl in H.
  apply Nat.ltb_lt in L. rewrite L in H. simpl in H. rewrite forallb_forall in H. specialize (H r Hr).
  apply negb_true_iff in H. assert (existsb (Nat.eqb r) (uniq P c) = true); [|congruence].
  apply existsb_exists. exists r. split; auto. apply Nat.eqb_refl.
Qed.
Definition loneb (P : prog) (s : state) (i : nat) : bool :=
  match nth_error (thr s) i with
  | Some (FBody _ (ISpawn c :: _) :: _) =>
      forallb (fun f => match f with FSub _ c' _ _ => negb (onat_eqb (parent P c') (parent P c)) | _ => true end) (concat (thr s))
  | _ => true
  end.
Lemma loneb_ok P s i : loneb P s i = true -> lone P s i.
Proof.
  unfold loneb. intros H o c is fs E. rewrite E in H. rewrite forallb_forall in H.
  intros o' c' rs is' Hf Q. specialize (H _ Hf). simpl in H. rewrite Q, onat_refl in H. discriminate.
Qed.

(** runs that keep to a checked rule; [None] when a move is not possible or not allowed *)
Fixpoint crun (ok : state -> nat -> bool) (P : prog) (s : state) (l : list (nat * pick)) : option state :=
  match l with
  | [] => Some s
  | (i, c) :: l => if ok s i && end_okb P s i then match step P s i c with Some s' => crun ok P s' l | None => None end else None
  end.
(** [k] times the first move of [o] that is possible and allowed; with the moves made *)
Fixpoint cfirst (ok : state -> nat -> bool) (P : prog) (s : state) (o : list (nat * pick)) : option ((nat * pick) * state) :=
  match o with
  | [] => None
  | (i, c) :: o => if ok s i && end_okb P s i then match step P s i c with Some s' => Some ((i, c), s') | None => cfirst ok P s o end else cfirst ok P s o
  end.
Fixpoint cauto (ok : state -> nat -> bool) (P : prog) (o : list (nat * pick)) (k : nat) (s : state) : list (nat * pick) :=
  match k with
  | O => []
  | S k => match cfirst ok P s o with Some (m, s') => m :: cauto ok P o k s' | None => [] end
  end.
Lemma crun_creach P ms n l : forall s k s', creach P ms n k s -> crun (begin_okb P) P s l = Some s' -> creach P ms n (k + length l) s'.
Proof.
  induction l as [|[i c] l IH]; intros s k s' R; simpl; [intros H; injection H as <-; now rewrite Nat.add_0_r|].
  destruct (begin_okb P s i) eqn:B; [|discriminate]. destruct (end_okb P s i) eqn:E; [|discriminate]. simpl.
  destruct (step P s i c) as [s1|] eqn:S; [|discriminate]. intros H. rewrite Nat.add_succ_r, <- Nat.add_succ_l.
  eapply IH; [|exact H]. econstructor; eauto using end_okb_ok, begin_okb_ok.
Qed.
Lemma crun_locked P ms n l : forall s k s', locked_runs P ms n k s -> crun (loneb P) P s l = Some s' -> locked_runs P ms n (k + length l) s'.
Proof.
  induction l as [|[i c] l IH]; intros s k s' R; simpl; [intros H; injection H as <-; now rewrite Nat.add_0_r|].
  destruct (loneb P s i) eqn:B; [|discriminate]. destruct (end_okb P s i) eqn:E; [|discriminate]. simpl.
  destruct (step P s i c) as [s1|] eqn:S; [|discriminate]. intros H. rewrite Nat.add_succ_r, <- Nat.add_succ_l.
  eapply IH; [|exact H]. econstructor; eauto using end_okb_ok, loneb_ok.
Qed.
Lemma wf_wf_many P ms : wf P -> p_main P = concat ms -> forallb (use_after []) ms = true -> wf_many P ms.
Proof.
  intros W E H. split; [split; try apply W; auto|apply W].
  - intros o. apply sorted_lt_NoDup, W.
  - intros o m pre i post c C Em Hu. destruct o as [t|]; simpl in C.
    + apply (wf_use_after P W (Some t) pre i post c); auto. simpl. now rewrite <- C.
    + rewrite forallb_forall in H. specialize (H m C). exact (use_after_ok m [] H pre i post c Em Hu).
Qed.

(** ** The example: two threads; task 1 of the first and task 2 of the second both write
    cell 1, all names of the second thread are larger, but task 2 enters the list first *)
Definition duo_tasks : list tdef :=
  [mkTdef None (declare 0 [acc 0 MWrite] []) [cell 0 KWrite 5%Z];
   mkTdef None (declare 0 [acc 0 MRead; acc 1 MWrite] []) [cell 0 KRead 0; cell 1 KWrite 7];
   mkTdef None (declare 0 [acc 1 MWrite; acc 2 MWrite] []) [cell 1 KWrite 3; cell 2 KWrite 4];
   mkTdef None (declare 0 [acc 1 MRead; acc 2 MAadd] []) [cell 1 KRead 0; cell 2 KAdd 2]].
Definition duo_ms : list (list instr) := [[ISpawn 0; ISpawn 1; IDrop 0; IGet 1]; [ISpawn 2; ISpawn 3; IDrop 3; IDrop 2; IBarrier]].
Definition duo : prog := lprog (concat duo_ms) duo_tasks false.
(** both threads inside their first submission at the same time *)
Definition duo_prefix : list (nat * pick) :=
  [(0, PNew 0); (1, PNew 0); (1, PNew 0); (0, PNew 0); (1, PNew 0); (0, PNew 0); (0, PNew 0); (0, PNew 0); (1, PNew 0)].
Definition duo_mid : state := match crun (begin_okb duo) duo (init_many duo duo_ms 2) duo_prefix with Some s => s | None => init duo 0 end.
Definition duo_moves : list (nat * pick) := duo_prefix ++ cauto (begin_okb duo) duo (moves_of 2 ++ moves_of 3 ++ moves_of 0 ++ moves_of 1) 300 duo_mid.
Definition duo_end : state := match crun (begin_okb duo) duo (init_many duo duo_ms 2) duo_moves with Some s => s | None => init duo 0 end.
Lemma duo_creach : creach duo duo_ms 2 (length duo_moves) duo_end.
Proof.
  unfold duo_end. destruct (crun (begin_okb duo) duo (init_many duo duo_ms 2) duo_moves) as [s|] eqn:E.
  - exact (crun_creach duo duo_ms 2 duo_moves _ 0 s (creach_init _ _ _) E).
  - exfalso. apply (f_equal (fun x => match x with Some _ => true | None => false end)) in E. vm_compute in E. discriminate.
Qed.
Lemma duo_wf : wf_many duo duo_ms.
Proof. apply wf_wf_many; [apply wfb_ok; vm_compute; reflexivity|reflexivity|vm_compute; reflexivity]. Qed.
Lemma duo_flat : flat duo. Proof. apply flatb_ok. vm_compute. reflexivity. Qed.
Lemma duo_patient : forall t, patient duo t. Proof. apply patientb_ok. vm_compute. reflexivity. Qed.
Lemma duo_stuck : stuck duo duo_end. Proof. apply stuckb_ok. vm_compute. reflexivity. Qed.
Lemma duo_conflict : tasks_conflict duo 1 2.
Proof. exists (acc 1 MWrite), (acc 1 MWrite), TIO, MWrite, MWrite, KWrite, KWrite. repeat split; simpl; auto. Qed.
Lemma duo_behaved : behaved duo.
Proof.
  intros t a H. destruct t as [|[|[|[|t]]]]; simpl in H.
  - destruct H as [H|[]]; injection H as <-. exists (mkRes 0 0), MWrite. simpl. auto.
  - destruct H as [H|[H|[]]]; injection H as <-; [exists (mkRes 0 0), MRead|exists (mkRes 1 0), MWrite]; simpl; auto.
  - destruct H as [H|[H|[]]]; injection H as <-; [exists (mkRes 1 0), MWrite|exists (mkRes 2 0), MWrite]; simpl; auto.
  - destruct H as [H|[H|[]]]; injection H as <-; [exists (mkRes 1 0), MRead|exists (mkRes 2 0), MAadd]; simpl; auto.
  - destruct t; simpl in H; destruct H.
Qed.

(** ** C23: what holds *)
Theorem C23_conflicting_tasks_never_overlap_partial :
  forall P ms n k s p t, wf_any P ms -> p_wrap P = false -> creach P ms n k s ->
  parent P p = parent P t -> tasks_conflict P p t -> p <> t ->
  started s p -> started s t -> completed s p \/ completed s t.
Proof. intros P ms n k s p t W NW R. exact (many_exclusive P ms W NW n k s p t R). Qed.
(** at this point of the run task 2 is complete and task 1 runs *)
Definition duo_first : list (nat * pick) := firstn 90 duo_moves.
Definition duo_part : state := match crun (begin_okb duo) duo (init_many duo duo_ms 2) duo_first with Some s => s | None => init duo 0 end.
Lemma duo_part_creach : creach duo duo_ms 2 (length duo_first) duo_part.
Proof.
  unfold duo_part. destruct (crun (begin_okb duo) duo (init_many duo duo_ms 2) duo_first) as [s|] eqn:E.
  - exact (crun_creach duo duo_ms 2 duo_first _ 0 s (creach_init _ _ _) E).
  - exfalso. apply (f_equal (fun x => match x with Some _ => true | None => false end)) in E. vm_compute in E. discriminate.
Qed.
Example C23_overlap_ex : wf_many duo duo_ms /\ p_wrap duo = false /\ creach duo duo_ms 2 (length duo_first) duo_part /\
  parent duo 1 = parent duo 2 /\ tasks_conflict duo 1 2 /\ started duo_part 1 /\ started duo_part 2 /\ ~ completed duo_part 1.
Proof.
  split; [exact duo_wf|]. split; [reflexivity|]. split; [exact duo_part_creach|]. split; [reflexivity|].
  split; [exact duo_conflict|]. split; [inlog|]. split; [inlog|]. unfold completed. notin.
Qed.

Theorem C23_each_thread_keeps_its_order_partial :
  forall P ms n k s p t, wf_any P ms -> p_wrap P = false -> creach P ms n k s ->
  comes_before P ms p t -> tasks_conflict P p t -> started s t -> completed s p.
Proof. intros P ms n k s p t W NW R. exact (many_thread_order P ms W NW n k s p t R). Qed.
Lemma duo_before : comes_before duo duo_ms 2 3.
Proof. exists None, [ISpawn 2; ISpawn 3; IDrop 3; IDrop 2; IBarrier], [], [], []. split; [simpl; auto|reflexivity]. Qed.
Example C23_thread_ex : wf_many duo duo_ms /\ creach duo duo_ms 2 (length duo_moves) duo_end /\
  comes_before duo duo_ms 2 3 /\ tasks_conflict duo 2 3 /\ started duo_end 3.
Proof.
  split; [exact duo_wf|]. split; [exact duo_creach|]. split; [exact duo_before|]. split; [|inlog].
  exists (acc 1 MWrite), (acc 1 MRead), TIO, MWrite, MRead, KWrite, KRead. repeat split; simpl; auto.
Qed.

Theorem C23_bodies_run_once_partial :
  forall P ms n k s t, wf_any P ms -> p_wrap P = false -> creach P ms n k s ->
  not_twice (LExec t) (log s) /\ not_twice (LStart t) (log s) /\ not_twice (LEnd t) (log s) /\
  (started s t -> In (LInit t) (log s)).
Proof.
  intros P ms n k s t W NW R. destruct (many_once P ms W NW n k s t R) as (A & B & C & D & _).
  split; [|split; [|split]].
  - apply (sum_not_twice (v_exec t)); auto; [intros []; simpl; try lia; unfold ni, zb; destruct (_ =? _); lia|].
    simpl. unfold ni. now rewrite Nat.eqb_refl.
  - apply (sum_not_twice (v_start t)); auto; [intros []; simpl; try lia; unfold ni, zb; destruct (_ =? _); lia|].
    simpl. unfold ni. now rewrite Nat.eqb_refl.
  - apply (sum_not_twice (v_end t)); auto; [intros []; simpl; try lia; unfold ni, zb; destruct (_ =? _); lia|].
    simpl. unfold ni. now rewrite Nat.eqb_refl.
  - intros Q. apply in_init, D, in_exec, Q.
Qed.
Example C23_once_ex : wf_many duo duo_ms /\ creach duo duo_ms 2 (length duo_moves) duo_end /\ started duo_end 1 /\ ended duo_end 1.
Proof. split; [exact duo_wf|]. split; [exact duo_creach|]. split; inlog. Qed.

Theorem C23_no_deadlock_partial :
  forall P ms n k s, wf_many P ms -> p_wrap P = false -> no_get P -> (forall t, patient P t) -> 1 <= n -> creach P ms n k s -> stuck P s ->
  (forall t, submitted s t -> completed s t /\ (In (LGet t) (log s) \/ In (LDrop t) (log s) -> In (LFree t) (log s))) /\
  (forall t e, In (LEvent t e) (log s) -> In (LFire t e) (log s)) /\
  (forall f, In f (all_frames s) -> exists is, f = FBody None is /\
     (is = [] \/ exists is' t, is = IBarrier :: is' /\ submitted s t /\ parent P t = None /\
                               ~ (In (LGet t) (log s) \/ In (LDrop t) (log s)))).
Proof. intros P ms n k s W NW NG PA N R K. exact (many_progress P ms W NW n k s (m_no_barrier P W) NG N PA R K). Qed.
Example C23_no_deadlock_ex : wf_many duo duo_ms /\ no_get duo /\ (forall t, patient duo t) /\ creach duo duo_ms 2 (length duo_moves) duo_end /\
  stuck duo duo_end /\ submitted duo_end 3 /\ all_frames duo_end = [FBody None []; FBody None []].
Proof.
  split; [exact duo_wf|]. split; [exact (flat_no_get duo duo_ms duo_wf duo_flat)|]. split; [exact duo_patient|]. split; [exact duo_creach|]. split; [exact duo_stuck|].
  split; [inlog|vm_compute; reflexivity].
Qed.

Theorem C23_executions_are_bounded_partial :
  forall P ms n N, wf_any P ms -> p_wrap P = false -> (forall o c, In (ISpawn c) (body P o) -> c < N) ->
  exists B, forall k s, creach P ms n k s -> k <= B.
Proof.
  intros P ms n N W NW BD. exists (Z.to_nat (measure P N (init_many P ms n))). intros k s R.
  pose proof (many_bounded P ms W NW n N k s BD R). lia.
Qed.
Example C23_bounded_ex : wf_many duo duo_ms /\ (forall o c, In (ISpawn c) (body duo o) -> c < 4) /\ 150 <= length duo_moves.
Proof.
  split; [exact duo_wf|]. split; [|apply Nat.leb_le; vm_compute; reflexivity].
  intros [t|] c H.
  - apply spawns_In in H. now rewrite duo_flat in H.
  - simpl in H. repeat (destruct H as [H|H]; [first [discriminate H | injection H as <-; lia]|]). destruct H.
Qed.

(** The result is that of running the bodies one after another, in an order of the submitted
    tasks in which the tasks of each thread keep their order. *)
Theorem C23_same_result_as_some_order_partial :
  forall P ms n k s, wf_any P ms -> p_wrap P = false -> flat P -> behaved P -> creach P ms n k s ->
  (forall t, submitted s t -> completed s t) ->
  exists ts, NoDup ts /\ (forall t, In t ts <-> submitted s t) /\
    (forall p t, comes_before P ms p t -> In t ts -> exists a b d, ts = a ++ p :: b ++ t :: d) /\
    forall (S : semantics) g m, sensible S -> same_result (exec S (performed (log s)) g m) (exec S (one_by_one P ts) g m).
Proof. intros P ms n k s W NW F BH R A. exact (many_result P ms W NW n k s F BH R A). Qed.
Example C23_result_ex : wf_many duo duo_ms /\ flat duo /\ behaved duo /\ sensible cells /\ creach duo duo_ms 2 (length duo_moves) duo_end /\
  (forall t, submitted duo_end t -> completed duo_end t) /\
  snd (exec cells (performed (log duo_end)) (fun _ => []) [0; 0; 0]%Z) = [5; 7; 6]%Z.
Proof.
  split; [exact duo_wf|]. split; [exact duo_flat|]. split; [exact duo_behaved|]. split; [exact cells_sensible|].
  split; [exact duo_creach|]. split; [|vm_compute; reflexivity].
  intros t H. exact (proj1 (proj1 (many_progress duo duo_ms duo_wf eq_refl 2 _ duo_end (m_no_barrier duo duo_wf) (flat_no_get duo duo_ms duo_wf duo_flat) (le_S _ _ (le_n 1)) duo_patient duo_creach duo_stuck) t H)).
Qed.

(** ** Two ways to stay inside [creach] *)
(** a lock around every submission: no submission into a space starts while another is under way *)
Theorem C23_locked_submissions_are_covered :
  forall P ms n k s, wf_any P ms -> p_wrap P = false -> locked_runs P ms n k s -> creach P ms n k s.
Proof. intros P ms n k s W NW R. exact (proj1 (locked_alone P ms W NW n k s R)). Qed.
Definition duo_locked : list (nat * pick) := cauto (loneb duo) duo ([(1, PNew 0); (0, PNew 0)] ++ moves_of 2 ++ moves_of 3) 300 (init_many duo duo_ms 2).
Definition duo_lend : state := match crun (loneb duo) duo (init_many duo duo_ms 2) duo_locked with Some s => s | None => init duo 0 end.
Example C23_locked_ex : wf_many duo duo_ms /\ locked_runs duo duo_ms 2 (length duo_locked) duo_lend /\ stuck duo duo_lend /\
  submitted duo_lend 0 /\ submitted duo_lend 1 /\ submitted duo_lend 2 /\ submitted duo_lend 3.
Proof.
  split; [exact duo_wf|]. split.
  { unfold duo_lend. destruct (crun (loneb duo) duo (init_many duo duo_ms 2) duo_locked) as [s|] eqn:E.
    - exact (crun_locked duo duo_ms 2 duo_locked _ 0 s (locked_init _ _ _) E).
    - exfalso. apply (f_equal (fun x => match x with Some _ => true | None => false end)) in E. vm_compute in E. discriminate. }
  split; [apply stuckb_ok; vm_compute; reflexivity|]. split; [inlog|]. split; [inlog|]. split; inlog.
Qed.

(** tasks that name at most one resource each, under every interleaving *)
Theorem C23_single_resource_tasks_are_covered :
  forall P ms n l s, wf_any P ms -> p_wrap P = false -> flat P -> (forall t, length (uniq P t) <= 1) ->
  run P (init_many P ms n) l = Some s -> creach P ms n (length l) s.
Proof. intros P ms n l s W NW F SM H. exact (small_creach P ms W NW n l s F SM H). Qed.
(** ... so that they cannot block each other *)
Theorem C23_single_resource_tasks_all_run :
  forall P ms n l s t, wf_many P ms -> p_wrap P = false -> flat P -> (forall t, length (uniq P t) <= 1) -> 1 <= n ->
  run P (init_many P ms n) l = Some s -> stuck P s -> submitted s t -> completed s t.
Proof.
  intros P ms n l s t W NW F SM N H K Hs.
  assert (PA : forall t, patient P t).
  { intros x. left. specialize (SM x). destruct (uniq P x) as [|a [|b q]]; simpl in SM; [constructor|constructor; [easy|constructor]|lia]. }
  exact (proj1 (proj1 (C23_no_deadlock_partial P ms n _ s W NW (flat_no_get P ms W F) PA N (small_creach P ms W NW n l s F SM H) K) t Hs)).
Qed.
Definition solo_tasks : list tdef :=
  [mkTdef None (declare 0 [acc 0 MWrite] []) [cell 0 KWrite 5%Z];
   mkTdef None (declare 0 [acc 0 MRead] []) [cell 0 KRead 0%Z];
   mkTdef None (declare 0 [acc 0 MWrite] []) [cell 0 KWrite 7%Z]].
Definition solo_ms : list (list instr) := [[ISpawn 0; ISpawn 1]; [ISpawn 2]].
Definition solo : prog := lprog (concat solo_ms) solo_tasks false.
Definition solo_moves : list (nat * pick) :=
  [(0, PNew 0); (1, PNew 0); (1, PNew 0); (0, PNew 0); (1, PNew 0); (0, PNew 0); (0, PNew 0); (0, PNew 0); (0, PNew 0)].
Definition solo_mid : state := match run solo (init_many solo solo_ms 2) solo_moves with Some s => s | None => init solo 0 end.
Definition solo_end : state := auto_run solo (moves_of 2 ++ moves_of 3) 300 solo_mid.
Example C23_single_ex : wf_many solo solo_ms /\ flat solo /\ (forall t, length (uniq solo t) <= 1) /\
  (exists l, run solo (init_many solo solo_ms 2) l = Some solo_end) /\ stuck solo solo_end /\
  submitted solo_end 0 /\ submitted solo_end 1 /\ submitted solo_end 2.
Proof.
  split; [apply wf_wf_many; [apply wfb_ok; vm_compute; reflexivity|reflexivity|vm_compute; reflexivity]|].
  split; [apply flatb_ok; vm_compute; reflexivity|].
  split; [intros [|[|[|t]]]; apply Nat.leb_le; [vm_compute; reflexivity..|]; unfold solo, lprog, uniq, user; simpl; now destruct t|].
  split.
  { destruct (auto_run_run solo (moves_of 2 ++ moves_of 3) 300 solo_mid) as (l & H).
    exists (solo_moves ++ l). apply (run_app _ _ _ _ solo_mid); [|exact H].
    unfold solo_mid. destruct (run solo (init_many solo solo_ms 2) solo_moves) eqn:E; [reflexivity|].
    exfalso. apply (f_equal (fun x => match x with Some _ => 1 | None => 0 end)) in E. vm_compute in E. discriminate. }
  split; [apply stuckb_ok; vm_compute; reflexivity|]. split; [inlog|]. split; inlog.
Qed.

(** ** Sharing at most one resource between any two tasks is not enough *)
Definition tri_tasks : list tdef :=
  [mkTdef None (declare 0 [acc 0 MWrite; acc 1 MWrite] []) [cell 0 KWrite 5%Z];
   mkTdef None (declare 0 [acc 1 MWrite; acc 2 MWrite] []) [cell 1 KWrite 6%Z];
   mkTdef None (declare 0 [acc 2 MWrite; acc 0 MWrite] []) [cell 2 KWrite 7%Z]].
Definition tri_ms : list (list instr) := [[ISpawn 0]; [ISpawn 1]; [ISpawn 2]].
Definition tri : prog := lprog (concat tri_ms) tri_tasks false.
(** each task enters its first list before any enters its second *)
Definition tri_moves : list (nat * pick) :=
  let round := [(0, PNew 0); (1, PNew 0); (2, PNew 0)] in round ++ round ++ round ++ round.
Definition tri_mid : state := match run tri (init_many tri tri_ms 2) tri_moves with Some s => s | None => init tri 0 end.
Definition tri_end : state := auto_run tri (moves_of 3 ++ moves_of 4) 300 tri_mid.
Theorem C23_sharing_one_resource_pairwise_refuted :
  exists P ms n s l, wf_many P ms /\ flat P /\ p_wrap P = false /\ (forall t, patient P t) /\ 1 <= n /\
  (forall p t r r', p <> t -> In r (uniq P p) -> In r (uniq P t) -> In r' (uniq P p) -> In r' (uniq P t) -> r = r') /\
  run P (init_many P ms n) l = Some s /\ stuck P s /\
  (forall t, In t (spawns (p_main P)) -> submitted s t /\ ~ started s t).
Proof.
  destruct (auto_run_run tri (moves_of 3 ++ moves_of 4) 300 tri_mid) as (l & H).
  exists tri, tri_ms, 2, tri_end, (tri_moves ++ l).
  split; [apply wf_wf_many; [apply wfb_ok; vm_compute; reflexivity|reflexivity|vm_compute; reflexivity]|].
  split; [apply flatb_ok; vm_compute; reflexivity|]. split; [reflexivity|].
  split; [apply patientb_ok; vm_compute; reflexivity|]. split; [lia|].
  split.
  { assert (U0 : uniq tri 0 = [1; 0]) by (vm_compute; reflexivity).
    assert (U1 : uniq tri 1 = [2; 1]) by (vm_compute; reflexivity).
    assert (U2 : uniq tri 2 = [0; 2]) by (vm_compute; reflexivity).
    assert (U3 : forall t, uniq tri (S (S (S t))) = []) by (intros t; unfold tri, lprog, uniq, user; simpl; now destruct t).
    intros p t r r' D. destruct p as [|[|[|p]]], t as [|[|[|t]]]; try (exfalso; apply D; reflexivity);
      rewrite ?U0, ?U1, ?U2, ?U3; cbn [In]; lia. }
  split; [apply (run_app _ _ _ _ tri_mid); [|exact H]|].
  { unfold tri_mid. destruct (run tri (init_many tri tri_ms 2) tri_moves) eqn:E; [reflexivity|].
    exfalso. apply (f_equal (fun x => match x with Some _ => 1 | None => 0 end)) in E. vm_compute in E. discriminate. }
  split; [apply stuckb_ok; vm_compute; reflexivity|].
  intros t [<-|[<-|[<-|[]]]]; (split; [inlog|unfold started; notin]).
Qed.

Definition all_many := (@C23_conflicting_tasks_never_overlap_partial, @C23_each_thread_keeps_its_order_partial, @C23_bodies_run_once_partial,
  @C23_no_deadlock_partial, @C23_executions_are_bounded_partial, @C23_same_result_as_some_order_partial,
  @C23_locked_submissions_are_covered, @C23_single_resource_tasks_are_covered, @C23_single_resource_tasks_all_run, @C23_sharing_one_resource_pairwise_refuted).
Print Assumptions all_many.
