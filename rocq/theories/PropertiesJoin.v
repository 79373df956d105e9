(** Tasks that wait in their bodies, and what the program computes (C64).

    The machine of C63, one submitting thread.  The result is that of running every task on the
    spot, where it is emplaced, if a body leaves alone what its tasks use between emplacing them
    and having waited for them; what a task sees is settled when its body has ended, whatever
    else is under way. *)
From Coq Require Import Bool List Arith NArith ZArith Lia Permutation Sorting.Sorted.
From Verif Require Import AccessModel AccessSpec AccessProof UserModel UserProof SchedModel SchedSpec SchedBase SchedInv1 SchedInv2 SchedInv3 SchedInv8 SchedFront SchedThm SchedLive SchedTerm SchedStack SchedSeq SchedMore SchedEx SchedMany SchedValue SchedFree NestSpec SchedNest NestValue PoolModel PoolProof PropertiesPool PropertiesSched PropertiesMany PropertiesNest PropertiesFree PauseModel PauseSpec PauseProof PauseInv PauseThm PauseLive PauseJoin PauseTerm PropertiesPause.
Import ListNotations.
Open Scope nat_scope.

Lemma wfw_many P : wfw P -> wf_many P [p_main P].
Proof. intros W. exact (wf_wfm P W). Qed.
Lemma freach_greach P n k s ord : freach P [p_main P] n k s ord -> greach P n s.
Proof. induction 1; [exact (greach_init P n)|econstructor; eauto]. Qed.
Lemma yreach_greach P n a k y ord : wfw P -> p_wrap P = false -> (forall q, NoDup (uniq P q)) -> yreach P [p_main P] n a k y ord ->
  exists n' s, greach P n' s /\ corr y s.
Proof.
  intros W NW ND R. destruct (pause_refines P [p_main P] (wfw_many P W) NW ND n a k y ord R) as (k' & n' & s & ord' & R' & EQ & C & T).
  exists n', s. split; [exact (freach_greach P n' k' s ord' R')|exact C].
Qed.

(** ** The result *)
Theorem C64_result_of_running_on_the_spot_partial :
  forall P n k y ord, wfw P -> p_wrap P = false -> (forall q, NoDup (uniq P q)) -> 1 <= n ->
  behaved P -> children_covered P -> inner_private P -> keeps_clear P ->
  yreach P [p_main P] n true k y ord -> ystuck P y -> In (YF (FBody None [])) (yframes y) ->
  (exists l, on_the_spot P None (p_main P) l) /\
  forall l (S : semantics) g m, on_the_spot P None (p_main P) l -> sensible S ->
  same_result (exec S (performed (log (yst y))) g m) (exec S l g m).
Proof.
  intros P n k y ord W NW ND N BH CC IP KC R K E.
  destruct (C63_no_deadlock_with_one_submitting_thread_partial P (p_main P) n k y ord (wfw_many P W) NW ND N R K) as (D & _ & YC & F).
  destruct (yreach_greach P n true k y ord W NW ND R) as (n' & s & G & C). assert (LG := sm_log _ _ _ (co_sim y s C)).
  rewrite <- LG. apply (nested_done P W NW n' s); auto.
  - assert (I := greach_Inv P W NW n' s G). assert (LM := law_main P s (i_laws P s I)). simpl in LM.
    assert (PF := co_frames y s C). rewrite YC in PF. simpl in PF. rewrite app_nil_r in PF.
    assert (A : forall f, In f (frames s) -> is_body None f = 1%Z).
    { intros f Hf. apply (Permutation_in _ PF) in Hf. apply in_flat_map in Hf as (g & Hg & Hf).
      destruct (F g Hg) as (is & -> & _). simpl in Hf. destruct Hf as [<-|[]]. reflexivity. }
    assert (Hin : In (FBody None []) (frames s)).
    { apply (Permutation_in _ (Permutation_sym PF)). apply in_flat_map. exists (YF (FBody None [])). simpl. auto. }
    destruct (frames s) as [|f [|f' l]]; [destruct Hin|destruct Hin as [->|[]]; reflexivity|].
    exfalso. simpl in LM. rewrite (A f), (A f') in LM by (simpl; auto).
    assert (0 <= zsum (is_body None) l)%Z by (apply zsum_nonneg; intros; apply w_nn4). lia.
  - intros t Ht. unfold submitted, completed in *. rewrite LG in *. now apply D.
Qed.

(** ** Values *)
(** What a task whose body has ended has seen is what it sees on the spot, at any time and
    whatever the others have done. *)
Theorem C64_values_are_final_when_the_body_ends_partial :
  forall P n a k y ord l (S : semantics) g m c, wfw P -> p_wrap P = false -> (forall q, NoDup (uniq P q)) ->
  behaved P -> children_covered P -> inner_private P -> keeps_clear P -> sensible S ->
  yreach P [p_main P] n a k y ord -> on_the_spot P None (p_main P) l -> ended (yst y) c ->
  fst (exec S (performed (log (yst y))) g m) c = fst (exec S l g m) c.
Proof.
  intros P n a k y ord l S g m c W NW ND BH CC IP KC OK R L En. destruct (yreach_greach P n a k y ord W NW ND R) as (n' & s & G & C).
  unfold ended in En. rewrite <- (sm_log _ _ _ (co_sim y s C)) in *. exact (nested_value P W NW n' s l S g m c CC IP KC BH G L OK En).
Qed.
(** ... in particular when get() gives its result, in a body or in the thread that submits *)
Theorem C64_get_returns_the_value_on_the_spot_partial :
  forall P n a k y ord l (S : semantics) g m c l1 l2, wfw P -> p_wrap P = false -> (forall q, NoDup (uniq P q)) ->
  behaved P -> children_covered P -> inner_private P -> keeps_clear P -> sensible S ->
  yreach P [p_main P] n a k y ord -> on_the_spot P None (p_main P) l -> log (yst y) = l1 ++ LGet c :: l2 ->
  fst (exec S (performed l2) g m) c = fst (exec S l g m) c.
Proof.
  intros P n a k y ord l S g m c l1 l2 W NW ND BH CC IP KC OK R L E. destruct (yreach_greach P n a k y ord W NW ND R) as (n' & s & G & C).
  rewrite <- (sm_log _ _ _ (co_sim y s C)) in *. destruct (get_waits P W NW n' s c l1 l2 G E) as (s0 & G0 & <- & En & _).
  exact (nested_value P W NW n' s0 l S g m c CC IP KC BH G0 L OK En).
Qed.
(** What has been done so far can be completed, by operations of tasks that have not ended, to
    the run on the spot. *)
Theorem C64_what_is_done_leads_to_the_run_on_the_spot_partial :
  forall P n a k y ord l, wfw P -> p_wrap P = false -> (forall q, NoDup (uniq P q)) ->
  behaved P -> children_covered P -> inner_private P -> keeps_clear P ->
  yreach P [p_main P] n a k y ord -> on_the_spot P None (p_main P) l ->
  exists rest, (forall x, In x rest -> ~ ended (yst y) (fst x)) /\
  forall (S : semantics) g m, sensible S -> same_result (exec S (performed (log (yst y)) ++ rest) g m) (exec S l g m).
Proof.
  intros P n a k y ord l W NW ND BH CC IP KC R L. destruct (yreach_greach P n a k y ord W NW ND R) as (n' & s & G & C).
  unfold ended. rewrite <- (sm_log _ _ _ (co_sim y s C)). exact (nested_so_far P W NW n' s l CC IP KC BH G L).
Qed.

(** ** Bodies that wait for every task they emplace *)
(** The condition on the ends of bodies is void there, and between emplacing a task and its
    get() only that task's work has to be left alone. *)
Definition clear_forks (P : prog) : Prop :=
  forall q pre c mid a post, body P (Some q) = pre ++ ISpawn c :: mid ++ IAct a :: post -> In (IGet c) mid \/
  forall t b, within P c t -> In (IAct b) (body P (Some t)) -> ~ acts_conflict a b.
Lemma forks_clear P : (forall t c, In (ISpawn c) (body P (Some t)) -> In (IGet c) (body P (Some t))) -> clear_forks P -> keeps_clear P.
Proof.
  intros FJ CF q pre c mid a post t b E Wt Hb. destruct (CF q pre c mid a post E) as [H|H]; [left|right; eauto].
  clear Hb. induction Wt as [|d e Wd IH Hs]; [now constructor|]. apply (joined_step P mid d); auto.
Qed.
Theorem C64_fork_join_programs_partial :
  forall P n a k y ord l (S : semantics) g m, wfw P -> p_wrap P = false -> (forall q, NoDup (uniq P q)) ->
  (forall t c, In (ISpawn c) (body P (Some t)) -> In (IGet c) (body P (Some t))) -> clear_forks P ->
  behaved P -> children_covered P -> inner_private P -> sensible S ->
  yall P [p_main P] n a k y ord -> on_the_spot P None (p_main P) l ->
  (forall c, ended (yst y) c -> fst (exec S (performed (log (yst y))) g m) c = fst (exec S l g m) c) /\
  (1 <= n -> a = true -> ystuck P y -> In (YF (FBody None [])) (yframes y) -> same_result (exec S (performed (log (yst y))) g m) (exec S l g m)).
Proof.
  intros P n a k y ord l S g m W NW ND FJ CF BH CC IP OK R L. assert (KC := forks_clear P FJ CF).
  apply (C63_fork_join_programs_are_covered P [p_main P] n a k y ord (wfw_many P W) NW ND FJ) in R. split.
  - intros c En. exact (C64_values_are_final_when_the_body_ends_partial P n a k y ord l S g m c W NW ND BH CC IP KC OK R L En).
  - intros N -> K E. exact (proj2 (C64_result_of_running_on_the_spot_partial P n k y ord W NW ND N BH CC IP KC R K E) l S g m L OK).
Qed.

(** ** Bodies that do not wait: the values in the machines of C59 *)
Theorem C64_values_of_nested_tasks_partial :
  forall P n s l (S : semantics) g m c, wf P -> p_wrap P = false ->
  behaved P -> children_covered P -> inner_private P -> keeps_off P -> sensible S -> runs P n s ->
  on_the_spot P None (p_main P) l -> ended s c -> fst (exec S (performed (log s)) g m) c = fst (exec S l g m) c.
Proof.
  intros P n s l S g m c W NW BH CC IP KO OK R L En.
  exact (nested_value P W NW n s l S g m c CC IP (off_clear P KO) BH (runs_greach P n s W NW R) L OK En).
Qed.
Theorem C64_values_in_the_pool_partial :
  forall P n m h k c l (S : semantics) g mem t, wf P -> p_wrap P = false ->
  behaved P -> children_covered P -> inner_private P -> keeps_off P -> sensible S -> pruns P n m h k c ->
  on_the_spot P None (p_main P) l -> ended (core c) t -> fst (exec S (performed (log (core c))) g mem) t = fst (exec S l g mem) t.
Proof.
  intros P n m h k c l S g mem t W NW BH CC IP KO OK H L En.
  destruct (pruns_greach P n m h k c W NW H) as (I & a & s & G & Sm & _). apply gsteps_greach in G. destruct Sm as (e & r & -> & _ & _).
  exact (nested_value P W NW (n + m) _ l S g mem t CC IP (off_clear P KO) BH G L OK En).
Qed.

(** ** Example *)
(** Task 0 sets cell 0, emplaces 1 and 2, waits for 1, reads cell 0 while 2 may be running, waits
    for 2 and reads cell 1.  Task 1 adds to cell 0, has 3 double it, waits, and adds again;
    cell 2 is created in task 0 and shared by 1 and 3.  Task 4 of the main thread reads all. *)
Definition tree_tasks : list tdef :=
  [mkTdef None (declare 0 [acc 0 MWrite; acc 1 MWrite] []) [cell 0 KWrite 5; ISpawn 1; ISpawn 2; IGet 1; cell 0 KRead 0; IGet 2; cell 1 KRead 0];
   mkTdef (Some 0) (declare 1 [acc 0 MWrite; own 2 MWrite] []) [cell 0 KAdd 1; ISpawn 3; IGet 3; cell 0 KAdd 4; cell 2 KRead 0];
   mkTdef (Some 0) (declare 1 [acc 1 MWrite] []) [cell 1 KWrite 4];
   mkTdef (Some 1) (declare 2 [acc 0 MWrite; own 2 MWrite] []) [cell 0 KMul 2; cell 2 KWrite 8];
   mkTdef None (declare 0 [acc 0 MRead; acc 1 MRead] []) [cell 0 KRead 0; cell 1 KRead 0]].
Definition tree_main : list instr := [ISpawn 0; ISpawn 4; IDrop 0; IGet 4; IBarrier].
Definition tree : prog := lprog tree_main tree_tasks false.
Definition tree_order : list (nat * act) :=
  [(0, mkAct 0 TIO KWrite 5); (1, mkAct 0 TIO KAdd 1); (3, mkAct 0 TIO KMul 2); (3, mkAct 2 TIO KWrite 8); (1, mkAct 0 TIO KAdd 4);
   (1, mkAct 2 TIO KRead 0); (2, mkAct 1 TIO KWrite 4); (0, mkAct 0 TIO KRead 0); (0, mkAct 1 TIO KRead 0);
   (4, mkAct 0 TIO KRead 0); (4, mkAct 1 TIO KRead 0)].
(** [wfw] by computation *)
Lemma wfb_wfw main ds w : wfb main (map hushed ds) = true -> wfw (lprog main ds w).
Proof.
  intros H. assert (W := wfb_ok _ _ w H). assert (M : wf_many (lprog main ds w) [main]).
  { assert (X := wfb_many [main] ds w). simpl concat in X. rewrite app_nil_r in X. apply X; auto. 
    apply andb_true_iff. split; [|reflexivity]. unfold wfb in H. apply andb_true_iff in H as [H _]. rewrite forallb_forall in H.
    specialize (H None (or_introl eq_refl)). repeat rewrite andb_true_iff in H. exact (proj2 H). }
  split; [split; try apply M|apply M].
  - intros o. assert (S := wf_sorted _ W o). destruct o as [t|]; [|exact S].
    assert (E : body (lprog main (map hushed ds) w) (Some t) = map hush (body (lprog main ds w) (Some t))).
    { unfold body. simpl. change no_task with (hushed no_task) at 1. rewrite map_nth. reflexivity. }
    rewrite E, hush_spawns in S. exact S.
  - intros o pre i post c E. apply (m_use_after _ M o (body (lprog main ds w) o) pre i post c); auto. destruct o; simpl; auto.
Qed.
Lemma tree_wf : wfw tree. Proof. apply wfb_wfw. vm_compute. reflexivity. Qed.
Lemma tree_nodup t : NoDup (uniq tree t).
Proof.
  few t.
  1-5: unfold uniq, user, tree, lprog; simpl; repeat (constructor; [simpl; lia|]); constructor.
  all: unfold tree, lprog, uniq, user; simpl; constructor.
Qed.
Lemma tree_behaved : behaved tree.
Proof.
  intros t a H. few t; ins H.
  all: simpl; eexists; eexists; first
    [solve [split; [left; reflexivity|simpl; auto]] | solve [split; [right; left; reflexivity|simpl; auto]]].
Qed.
Lemma tree_covered : children_covered tree.
Proof. intros q c H. few q; ins H; vm_compute; reflexivity. Qed.
Lemma tree_within q t : within tree q t -> q = t \/ q = 0 /\ (t = 1 \/ t = 2 \/ t = 3) \/ q = 1 /\ t = 3.
Proof. induction 1 as [|b c H IH Q]; auto. few b; ins Q; lia. Qed.
Lemma tree_private : inner_private tree.
Proof.
  intros q c a H Ha L t a' Ht E.
  assert (X : within tree 0 1) by (econstructor; [constructor|simpl; auto]).
  assert (Y : within tree 0 3) by (apply (within_step tree 0 1 3 X); simpl; auto).
  few q; ins H; ins Ha; simpl in L; try lia; simpl in E; few t; ins Ht; simpl in E; try discriminate; assumption.
Qed.
Lemma tree_joins t c : In (ISpawn c) (body tree (Some t)) -> In (IGet c) (body tree (Some t)).
Proof. intros H. few t; ins H; simpl; auto 10. Qed.
Lemma tree_clear : clear_forks tree.
Proof.
  intros q pre c mid a post E.
  assert (Hc : In (ISpawn c) (body tree (Some q))) by (rewrite E, in_app_iff; simpl; auto).
  clear Hc. few q; simpl in E; repeat (destruct pre as [|? pre]; simpl in E; [first [discriminate E|injection E as <- E]|first [discriminate E|injection E as _ E]]).
  all: repeat (destruct mid as [|? mid]; simpl in E; [first [discriminate E|injection E as <- E]|first [discriminate E|injection E as <- E]]).
  all: try solve [left; simpl; auto 10].
  all: right; intros t b Wt Hb; apply tree_within in Wt; few t; ins Hb; try lia; apply other_cell; discriminate.
Qed.
Lemma tree_spot : on_the_spot tree None (p_main tree) tree_order.
Proof.
  assert (H : exists l, on_the_spot tree None (p_main tree) l /\ l = tree_order); [|now destruct H as (l & H & <-)].
  eexists. split; [simpl p_main; unfold tree_main; spot|reflexivity].
Qed.
Definition tree_moves : list (nat * pick) :=
  yphases tree (okb tree true) [([(0, PNew 0)], 30); (moves_of 2 ++ moves_of 1 ++ moves_of 0, 500)] (yinit tree [tree_main] 2).
Definition tree_end : ystate := match yrunc tree true (yinit tree [tree_main] 2) tree_moves with Some y => y | None => yinit tree [tree_main] 0 end.
Lemma tree_yreach : exists ord, yreach tree [tree_main] 2 true (length tree_moves) tree_end ord.
Proof.
  unfold tree_end. destruct (yrunc tree true (yinit tree [tree_main] 2) tree_moves) as [y|] eqn:E.
  - destruct (yrunc_init tree [tree_main] 2 true tree_moves y E) as (ord & R & _). exists ord. exact R.
  - exfalso. apply (f_equal (fun x => match x with Some _ => true | None => false end)) in E. vm_compute in E. discriminate.
Qed.
Lemma yreach_yall P ms n a k y ord : yreach P ms n a k y ord -> yall P ms n a k y ord.
Proof. induction 1; econstructor; eauto. Qed.
Lemma tree_stuck : ystuck tree tree_end.
Proof. intros i c _ _. apply ystuckb_ok. vm_compute. reflexivity. Qed.
Example C64_ex : wfw tree /\ p_wrap tree = false /\ (forall q, NoDup (uniq tree q)) /\ behaved tree /\ children_covered tree /\
  inner_private tree /\ keeps_clear tree /\ ~ keeps_off tree /\ sensible cells /\
  (exists ord, yreach tree [p_main tree] 2 true (length tree_moves) tree_end ord) /\ length tree_moves = 271 /\
  ystuck tree tree_end /\ In (YF (FBody None [])) (yframes tree_end) /\ on_the_spot tree None (p_main tree) tree_order /\
  performed (log (yst tree_end)) <> tree_order /\
  snd (exec cells (performed (log (yst tree_end))) (fun _ => []) [0; 0; 0]%Z) = [16; 4; 8]%Z /\
  snd (exec cells tree_order (fun _ => []) [0; 0; 0]%Z) = [16; 4; 8]%Z.
Proof.
  split; [exact tree_wf|]. split; [reflexivity|]. split; [exact tree_nodup|]. split; [exact tree_behaved|]. split; [exact tree_covered|].
  split; [exact tree_private|]. split; [exact (forks_clear tree tree_joins tree_clear)|]. split.
  { intros K. refine (K 1 [cell 0 KAdd 1] 3 [IGet 3; cell 0 KAdd 4; cell 2 KRead 0] (mkAct 0 TIO KAdd 4) 3 (mkAct 0 TIO KMul 2) eq_refl _ (within_self _ _) _ _); [simpl; auto|simpl; auto|].
    exists 0, TIO, KAdd, KMul, 4%Z, 2%Z. repeat split. }
  split; [exact cells_sensible|]. split; [exact tree_yreach|]. split; [vm_compute; reflexivity|]. split; [exact tree_stuck|].
  split; [vm_compute; auto|]. split; [exact tree_spot|]. split; [vm_compute; discriminate|]. split; vm_compute; reflexivity.
Qed.
Example C64_ex_fork_join : (forall t c, In (ISpawn c) (body tree (Some t)) -> In (IGet c) (body tree (Some t))) /\ clear_forks tree /\
  (exists ord, yall tree [p_main tree] 2 true (length tree_moves) tree_end ord).
Proof.
  split; [exact tree_joins|]. split; [exact tree_clear|]. destruct tree_yreach as (ord & R). exists ord. exact (yreach_yall _ _ _ _ _ _ _ R).
Qed.
(** half way: task 1 has ended and was waited for, tasks 0 and 4 are not done *)
Definition tree_half : ystate := match yrunc tree true (yinit tree [tree_main] 2) (firstn 209 tree_moves) with Some y => y | None => yinit tree [tree_main] 0 end.
Example C64_ex_half : (exists ord, yreach tree [p_main tree] 2 true 209 tree_half ord) /\ ended (yst tree_half) 1 /\ ~ ended (yst tree_half) 0 /\
  ~ started (yst tree_half) 4 /\ (exists l1 l2, log (yst tree_half) = l1 ++ LGet 1 :: l2) /\
  fst (exec cells (performed (log (yst tree_half))) (fun _ => []) [0; 0; 0]%Z) 1 = [8]%Z /\
  fst (exec cells tree_order (fun _ => []) [0; 0; 0]%Z) 1 = [8]%Z.
Proof.
  split.
  - unfold tree_half. destruct (yrunc tree true (yinit tree [tree_main] 2) (firstn 209 tree_moves)) as [y|] eqn:E.
    + destruct (yrunc_init tree [tree_main] 2 true _ y E) as (ord & R & _). exists ord. exact R.
    + exfalso. apply (f_equal (fun x => match x with Some _ => true | None => false end)) in E. vm_compute in E. discriminate.
  - split; [inlog|]. split; [notin|]. split; [notin|]. split; [apply in_split; inlog|]. split; vm_compute; reflexivity.
Qed.
(** the example of C59 for the machines without waiting bodies *)
Example C64_ex_nested : wf kids /\ behaved kids /\ children_covered kids /\ inner_private kids /\ keeps_off kids /\ runs kids 2 kids_end /\
  on_the_spot kids None (p_main kids) kids_order /\ ended kids_end 2 /\ fst (exec cells kids_order (fun _ => []) [0; 0; 0]%Z) 2 = [8; 10]%Z /\
  (exists k, pruns kids 3 1 true k kids_asleep) /\ ended (core kids_asleep) 2.
Proof.
  destruct C59_ex as (A1 & _ & _ & A2 & A3 & A4 & A5 & A6 & _ & _ & _ & A7 & _). destruct C59_ex_pool as (B & _).
  do 7 (split; [assumption|]). split; [inlog|]. split; [vm_compute; reflexivity|]. split; [exact B|inlog].
Qed.

(** ** A body that touches what a task uses before it has waited for it *)
Definition hasty_tasks : list tdef :=
  [mkTdef None (declare 0 [acc 0 MWrite] []) [ISpawn 1; cell 0 KWrite 1; IGet 1];
   mkTdef (Some 0) (declare 1 [acc 0 MWrite] []) [cell 0 KWrite 2]].
Definition hasty_main : list instr := [ISpawn 0; IDrop 0].
Definition hasty : prog := lprog hasty_main hasty_tasks false.
Definition hasty_moves : list (nat * pick) := yphases hasty (okb hasty true) [([(0, PNew 0)], 30); (moves_of 1, 300)] (yinit hasty [hasty_main] 1).
Definition hasty_end : ystate := match yrunc hasty true (yinit hasty [hasty_main] 1) hasty_moves with Some y => y | None => yinit hasty [hasty_main] 0 end.
Theorem C64_any_body_that_waits_refuted :
  exists P n k y ord l (S : semantics) g m, wfw P /\ p_wrap P = false /\ (forall q, NoDup (uniq P q)) /\ 1 <= n /\
  behaved P /\ children_covered P /\ inner_private P /\ (forall t c, In (ISpawn c) (body P (Some t)) -> In (IGet c) (body P (Some t))) /\
  yreach P [p_main P] n true k y ord /\ ystuck P y /\ In (YF (FBody None [])) (yframes y) /\
  on_the_spot P None (p_main P) l /\ sensible S /\ ~ same_result (exec S (performed (log (yst y))) g m) (exec S l g m).
Proof.
  destruct (yrunc hasty true (yinit hasty [hasty_main] 1) hasty_moves) as [y|] eqn:E.
  2:{ exfalso. apply (f_equal (fun x => match x with Some _ => true | None => false end)) in E. vm_compute in E. discriminate. }
  assert (Q : hasty_end = y) by (unfold hasty_end; now rewrite E).
  destruct (yrunc_init hasty [hasty_main] 1 true _ y E) as (ord & R & _). rewrite <- Q in R.
  exists hasty, 1, (length hasty_moves), hasty_end, ord, [(1, mkAct 0 TIO KWrite 2); (0, mkAct 0 TIO KWrite 1)], cells, (fun _ => []), [0%Z].
  split; [apply wfb_wfw; vm_compute; reflexivity|]. split; [reflexivity|].
  split. { intros t. few t; unfold hasty, lprog, uniq, user; simpl; repeat (constructor; [simpl; lia|]); constructor. }
  split; [auto|].
  split. { intros t a H. few t; ins H; simpl; eexists; eexists; (split; [left; reflexivity|simpl; auto]). }
  split. { intros q c H. few q; ins H; vm_compute; reflexivity. }
  split. { intros q c a H Ha L. few q; ins H; ins Ha; simpl in L; lia. }
  split. { intros t c H. few t; ins H; simpl; auto. }
  split; [exact R|]. split; [intros i c _ _; apply ystuckb_ok; vm_compute; reflexivity|]. split; [vm_compute; auto|].
  split.
  { assert (H : exists l, on_the_spot hasty None (p_main hasty) l /\ l = [(1, mkAct 0 TIO KWrite 2); (0, mkAct 0 TIO KWrite 1)]); [|now destruct H as (l & H & <-)].
    eexists. split; [simpl p_main; unfold hasty_main; spot|reflexivity]. }
  split; [exact cells_sensible|]. intros [_ H]. vm_compute in H. discriminate H.
Qed.

Definition all_join := (@C64_result_of_running_on_the_spot_partial, @C64_values_are_final_when_the_body_ends_partial, @C64_get_returns_the_value_on_the_spot_partial,
  @C64_what_is_done_leads_to_the_run_on_the_spot_partial, @C64_fork_join_programs_partial, @C64_values_of_nested_tasks_partial, @C64_values_in_the_pool_partial,
  @C64_any_body_that_waits_refuted).
Print Assumptions all_join.
