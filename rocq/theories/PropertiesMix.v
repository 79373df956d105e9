(** Several submitting threads, nested tasks, tasks that wait (C65).

    The machine of C63 with any number of submitting threads.  Every execution gives the result
    of running the root tasks one after another, in the order in which workers took up their
    bodies, every nested task on the spot, where it is emplaced. *)
From Coq Require Import Bool List Arith NArith ZArith Lia Permutation Sorting.Sorted.
From Verif Require Import AccessModel AccessSpec AccessProof UserModel UserProof SchedModel SchedSpec SchedBase SchedInv1 SchedInv2 SchedInv3 SchedInv8 SchedFront SchedThm SchedLive SchedTerm SchedStack SchedSeq SchedMore SchedEx SchedMany SchedValue SchedFree NestSpec SchedNest NestValue FreeNest PropertiesSched PropertiesMany PropertiesNest PropertiesHb PropertiesFree PauseModel PauseSpec PauseProof PauseInv PauseThm PauseLive PauseJoin PauseTerm PropertiesPause PropertiesJoin.
Import ListNotations.
Open Scope nat_scope.

Lemma free_get_waits P ms (W : wf_any P ms) (NW : p_wrap P = false) n (ND : forall t, NoDup (uniq P t)) k s ord c l1 l2 :
  freach P ms n k s ord -> log s = l1 ++ LGet c :: l2 -> exists k0 s0 ord0, freach P ms n k0 s0 ord0 /\ log s0 = l2 /\ ended s0 c.
Proof.
  intros R. revert l1. induction R as [|k s ord i x s' R IH G H]; intros l1 E; [destruct l1; discriminate|].
  destruct (step_get P s i x s' c l1 l2 H E) as [(l & Q)|(Q & Z)]; [exact (IH l Q)|].
  exists k, s, ord. split; [exact R|]. split; [exact Q|].
  exact (proj1 (rset_end P s c (mreach_Inv P (wff P ms W ord) NW n s (freach_mreach P ms W NW n ND k s ord R)) Z)).
Qed.

(** ** The result *)
Theorem C65_root_tasks_one_after_another_partial :
  forall P ms n a k y ord, wf_many P ms -> p_wrap P = false -> (forall q, NoDup (uniq P q)) ->
  behaved P -> children_covered P -> inner_private P -> keeps_clear P ->
  yreach P ms n a k y ord -> (forall t, submitted (yst y) t -> completed (yst y) t) ->
  let ts := roots P (log (yst y)) in
  NoDup ts /\ (forall t, In t ts <-> submitted (yst y) t /\ parent P t = None) /\
  (exists l, on_the_spot P None (map ISpawn ts) l) /\
  forall l (S : semantics) g m, on_the_spot P None (map ISpawn ts) l -> sensible S ->
  same_result (exec S (performed (log (yst y))) g m) (exec S l g m).
Proof.
  intros P ms n a k y ord W NW ND BH CC IP KC R AC.
  destruct (C63_as_if_waiting_bodies_had_threads_partial P ms n a k y ord W NW ND R) as (n' & k' & s & ord' & F & _ & L & _).
  unfold submitted, completed in *. rewrite <- L in *.
  destruct (roots_all P ms W NW n' ND k' s ord' F AC) as [A B]. split; [exact A|]. split; [exact B|].
  exact (f_nested_result P ms W NW n' ND CC IP KC BH k' s ord' F AC).
Qed.
(** The order of the root tasks is that of each thread, for those that conflict. *)
Theorem C65_the_order_is_that_of_each_thread_partial :
  forall P ms n a k y ord p t, wf_many P ms -> p_wrap P = false -> (forall q, NoDup (uniq P q)) ->
  yreach P ms n a k y ord -> comes_before P ms p t -> tasks_conflict P p t -> In t (roots P (log (yst y))) ->
  exists l1 l2 l3, roots P (log (yst y)) = l1 ++ p :: l2 ++ t :: l3.
Proof.
  intros P ms n a k y ord p t W NW ND R B C Ht.
  destruct (C63_as_if_waiting_bodies_had_threads_partial P ms n a k y ord W NW ND R) as (n' & k' & s & ord' & F & _ & L & _).
  rewrite <- L in *. apply filter_In in Ht as [Ht Rt]. assert (Ep := before_parent P ms W p t B).
  apply (filter_prec (is_root P) (execs (log s)) p t); auto.
  - apply (m_ahead_prec P (wff P ms W ord') NW n' s p t (freach_mreach P ms W NW n' ND k' s ord' F)).
    apply (free_thread_order P ms W NW n' ND k' s ord' p t F B C). now apply execs_in.
  - apply is_root_spec in Rt. apply is_root_spec. congruence.
Qed.
(** With at least one worker, and lists whose orders agree for the root tasks, every execution
    that cannot go on has this result. *)
Theorem C65_result_of_every_execution_partial :
  forall P ms n k y ord f, wf_many P ms -> p_wrap P = false -> (forall q, NoDup (uniq P q)) -> 1 <= n ->
  behaved P -> children_covered P -> inner_private P -> keeps_clear P ->
  yreach P ms n true k y ord -> ystuck P y ->
  (forall r l1 p l2 t l3, ord r = l1 ++ p :: l2 ++ t :: l3 -> parent P p = None -> parent P t = None -> f p < f t) ->
  (exists l, on_the_spot P None (map ISpawn (roots P (log (yst y)))) l) /\
  forall l (S : semantics) g m, on_the_spot P None (map ISpawn (roots P (log (yst y)))) l -> sensible S ->
  same_result (exec S (performed (log (yst y))) g m) (exec S l g m).
Proof.
  intros P ms n k y ord f W NW ND N BH CC IP KC R K AG.
  destruct (C63_no_deadlock_when_the_lists_agree_partial P ms n k y ord f W NW ND N R AG K) as (D & _).
  apply (C65_root_tasks_one_after_another_partial P ms n true k y ord); auto. intros t Ht. now apply D.
Qed.

(** ** Values *)
(** What a task whose body has ended has seen is what it sees in that sequence, at any time and
    whatever the others have done. *)
Theorem C65_values_are_final_when_the_body_ends_partial :
  forall P ms n a k y ord l (S : semantics) g m c, wf_many P ms -> p_wrap P = false -> (forall q, NoDup (uniq P q)) ->
  behaved P -> children_covered P -> inner_private P -> keeps_clear P -> sensible S ->
  yreach P ms n a k y ord -> on_the_spot P None (map ISpawn (roots P (log (yst y)))) l -> ended (yst y) c ->
  fst (exec S (performed (log (yst y))) g m) c = fst (exec S l g m) c.
Proof.
  intros P ms n a k y ord l S g m c W NW ND BH CC IP KC OK R H En.
  destruct (C63_as_if_waiting_bodies_had_threads_partial P ms n a k y ord W NW ND R) as (n' & k' & s & ord' & F & _ & L & _).
  unfold ended in En. rewrite <- L in *. exact (f_nested_value P ms W NW n' ND CC IP KC BH k' s ord' l S g m c F H OK En).
Qed.
(** ... in particular when get() gives its result, in a body or in a thread that submits *)
Theorem C65_get_returns_the_value_of_the_sequence_partial :
  forall P ms n a k y ord l (S : semantics) g m c l1 l2, wf_many P ms -> p_wrap P = false -> (forall q, NoDup (uniq P q)) ->
  behaved P -> children_covered P -> inner_private P -> keeps_clear P -> sensible S ->
  yreach P ms n a k y ord -> log (yst y) = l1 ++ LGet c :: l2 -> on_the_spot P None (map ISpawn (roots P l2)) l ->
  fst (exec S (performed l2) g m) c = fst (exec S l g m) c.
Proof.
  intros P ms n a k y ord l S g m c l1 l2 W NW ND BH CC IP KC OK R E H.
  destruct (C63_as_if_waiting_bodies_had_threads_partial P ms n a k y ord W NW ND R) as (n' & k' & s & ord' & F & _ & L & _).
  rewrite <- L in *. destruct (free_get_waits P ms W NW n' ND k' s ord' c l1 l2 F E) as (k0 & s0 & ord0 & F0 & <- & En).
  exact (f_nested_value P ms W NW n' ND CC IP KC BH k0 s0 ord0 l S g m c F0 H OK En).
Qed.
(** What has been done so far can be completed, by operations of tasks that have not ended and
    belong to root tasks that were taken up, to that sequence. *)
Theorem C65_what_is_done_leads_to_the_sequence_partial :
  forall P ms n a k y ord l, wf_many P ms -> p_wrap P = false -> (forall q, NoDup (uniq P q)) ->
  behaved P -> children_covered P -> inner_private P -> keeps_clear P ->
  yreach P ms n a k y ord -> on_the_spot P None (map ISpawn (roots P (log (yst y)))) l ->
  exists rest, (forall x, In x rest -> ~ ended (yst y) (fst x) /\ exists c, In c (roots P (log (yst y))) /\ within P c (fst x)) /\
  forall (S : semantics) g m, sensible S -> same_result (exec S (performed (log (yst y)) ++ rest) g m) (exec S l g m).
Proof.
  intros P ms n a k y ord l W NW ND BH CC IP KC R H.
  destruct (C63_as_if_waiting_bodies_had_threads_partial P ms n a k y ord W NW ND R) as (n' & k' & s & ord' & F & _ & L & _).
  unfold ended. rewrite <- L in *. exact (f_nested_so_far P ms W NW n' ND CC IP KC BH k' s ord' l F H).
Qed.

(** ** Bodies that do not wait: the machine of C62 *)
Theorem C65_nested_tasks_of_several_threads :
  forall P ms n k s ord, wf_any P ms -> p_wrap P = false -> (forall q, NoDup (uniq P q)) ->
  behaved P -> children_covered P -> inner_private P -> keeps_off P -> freach P ms n k s ord ->
  (forall l (S : semantics) g m c, on_the_spot P None (map ISpawn (roots P (log s))) l -> sensible S -> ended s c ->
     fst (exec S (performed (log s)) g m) c = fst (exec S l g m) c) /\
  ((forall t, submitted s t -> completed s t) ->
   (exists l, on_the_spot P None (map ISpawn (roots P (log s))) l) /\
   forall l (S : semantics) g m, on_the_spot P None (map ISpawn (roots P (log s))) l -> sensible S ->
   same_result (exec S (performed (log s)) g m) (exec S l g m)).
Proof.
  intros P ms n k s ord W NW ND BH CC IP KO R. assert (KC := off_clear P KO). split.
  - intros l S g m c. exact (f_nested_value P ms W NW n ND CC IP KC BH k s ord l S g m c R).
  - exact (f_nested_result P ms W NW n ND CC IP KC BH k s ord R).
Qed.

(** ** Bodies that wait for every task they emplace *)
Theorem C65_fork_join_programs_partial :
  forall P ms n a k y ord l (S : semantics) g m, wf_many P ms -> p_wrap P = false -> (forall q, NoDup (uniq P q)) ->
  (forall t c, In (ISpawn c) (body P (Some t)) -> In (IGet c) (body P (Some t))) -> clear_forks P ->
  behaved P -> children_covered P -> inner_private P -> sensible S ->
  yall P ms n a k y ord -> on_the_spot P None (map ISpawn (roots P (log (yst y)))) l ->
  (forall c, ended (yst y) c -> fst (exec S (performed (log (yst y))) g m) c = fst (exec S l g m) c) /\
  ((forall t, submitted (yst y) t -> completed (yst y) t) -> same_result (exec S (performed (log (yst y))) g m) (exec S l g m)).
Proof.
  intros P ms n a k y ord l S g m W NW ND FJ CF BH CC IP OK R H. assert (KC := forks_clear P FJ CF).
  apply (C63_fork_join_programs_are_covered P ms n a k y ord W NW ND FJ) in R. split.
  - intros c En. exact (C65_values_are_final_when_the_body_ends_partial P ms n a k y ord l S g m c W NW ND BH CC IP KC OK R H En).
  - intros AC. destruct (C65_root_tasks_one_after_another_partial P ms n a k y ord W NW ND BH CC IP KC R AC) as (_ & _ & _ & X). exact (X l S g m H OK).
Qed.

(** ** Example *)
(** Two threads.  The first emplaces 0, which sets cell 0, has 2 add to it, waits and reads; the
    second emplaces 1, which doubles cell 0, has 3 read it and add to it, reads cell 1 meanwhile,
    waits and adds.  Task 1 is taken up first. *)
Definition duo_tasks : list tdef :=
  [mkTdef None (declare 0 [acc 0 MWrite] []) [cell 0 KWrite 5; ISpawn 2; IGet 2; cell 0 KRead 0];
   mkTdef None (declare 0 [acc 0 MWrite; acc 1 MWrite] []) [cell 0 KMul 2; ISpawn 3; cell 1 KRead 0; IGet 3; cell 0 KAdd 1];
   mkTdef (Some 0) (declare 1 [acc 0 MWrite] []) [cell 0 KAdd 3];
   mkTdef (Some 1) (declare 1 [acc 0 MWrite] []) [cell 0 KRead 0; cell 0 KAdd 7]].
Definition duo_ms : list (list instr) := [[ISpawn 0; IGet 0]; [ISpawn 1; IDrop 1; IBarrier]].
Definition duo : prog := lprog (concat duo_ms) duo_tasks false.
Definition duo_moves : list (nat * pick) :=
  yphases duo (okb duo true) [([(1, PNew 0)], 9); (moves_of 0 ++ moves_of 1 ++ moves_of 2 ++ moves_of 3, 500)] (yinit duo duo_ms 2).
Definition duo_end : ystate := match yrunc duo true (yinit duo duo_ms 2) duo_moves with Some y => y | None => yinit duo duo_ms 0 end.
Definition duo_order : list (nat * act) :=
  [(1, mkAct 0 TIO KMul 2); (3, mkAct 0 TIO KRead 0); (3, mkAct 0 TIO KAdd 7); (1, mkAct 1 TIO KRead 0); (1, mkAct 0 TIO KAdd 1);
   (0, mkAct 0 TIO KWrite 5); (2, mkAct 0 TIO KAdd 3); (0, mkAct 0 TIO KRead 0)].
Definition duo_entries : list (nat * nat) := [(1, 1); (0, 1); (0, 0); (0, 3); (0, 2)].
Lemma duo_yreach : exists ord, yreach duo duo_ms 2 true (length duo_moves) duo_end ord /\ forall r, ord r = order_in duo_entries r.
Proof.
  unfold duo_end. destruct (yrunc duo true (yinit duo duo_ms 2) duo_moves) as [y|] eqn:E.
  - destruct (yrunc_init duo duo_ms 2 true duo_moves y E) as (ord & R & O). exists ord. split; [exact R|].
    intros r. rewrite O. assert (X : yentries duo (yinit duo duo_ms 2) duo_moves = duo_entries) by (vm_compute; reflexivity). now rewrite X.
  - exfalso. apply (f_equal (fun x => match x with Some _ => true | None => false end)) in E. vm_compute in E. discriminate.
Qed.
Lemma duo_wf : wf_many duo duo_ms.
Proof. apply wfb_many; vm_compute; reflexivity. Qed.
Lemma duo_nodup t : NoDup (uniq duo t).
Proof.
  few t.
  1-4: unfold uniq, user, duo, lprog; simpl; repeat (constructor; [simpl; lia|]); constructor.
  all: unfold duo, lprog, uniq, user; simpl; constructor.
Qed.
Lemma duo_behaved : behaved duo.
Proof.
  intros t a H. few t; ins H.
  all: simpl; eexists; eexists; first
    [solve [split; [left; reflexivity|simpl; auto]] | solve [split; [right; left; reflexivity|simpl; auto]]].
Qed.
Lemma duo_covered : children_covered duo.
Proof. intros q c H. few q; ins H; vm_compute; reflexivity. Qed.
Lemma duo_within q t : within duo q t -> q = t \/ q = 0 /\ t = 2 \/ q = 1 /\ t = 3.
Proof. induction 1 as [|b c H IH Q]; auto. few b; ins Q; lia. Qed.
Lemma duo_private : inner_private duo.
Proof. intros q c a H Ha L. few q; ins H; ins Ha; simpl in L; lia. Qed.
Lemma duo_joins t c : In (ISpawn c) (body duo (Some t)) -> In (IGet c) (body duo (Some t)).
Proof. intros H. few t; ins H; simpl; auto 10. Qed.
Lemma duo_clear : clear_forks duo.
Proof.
  intros q pre c mid a post E.
  few q; simpl in E; repeat (destruct pre as [|? pre]; simpl in E; [first [discriminate E|injection E as <- E]|first [discriminate E|injection E as _ E]]).
  all: repeat (destruct mid as [|? mid]; simpl in E; [first [discriminate E|injection E as <- E]|first [discriminate E|injection E as <- E]]).
  all: try solve [left; simpl; auto 10].
  all: right; intros t b Wt Hb; apply duo_within in Wt; few t; ins Hb; try lia; apply other_cell; discriminate.
Qed.
Lemma duo_spot : on_the_spot duo None (map ISpawn [1; 0]) duo_order.
Proof.
  assert (H : exists l, on_the_spot duo None (map ISpawn [1; 0]) l /\ l = duo_order); [|now destruct H as (l & H & <-)].
  eexists. split; [simpl map; spot|reflexivity].
Qed.
Lemma duo_stuck : ystuck duo duo_end.
Proof. intros i c _ _. apply ystuckb_ok. vm_compute. reflexivity. Qed.
Lemma duo_agrees r l1 p l2 t l3 : order_in duo_entries r = l1 ++ p :: l2 ++ t :: l3 -> rk_of [1; 0; 3; 2] p < rk_of [1; 0; 3; 2] t.
Proof. apply sorted_between. destruct r as [|[|r]]; unfold order_in; simpl; repeat constructor. Qed.
Example C65_ex : wf_many duo duo_ms /\ p_wrap duo = false /\ (forall q, NoDup (uniq duo q)) /\ behaved duo /\ children_covered duo /\
  inner_private duo /\ keeps_clear duo /\ sensible cells /\
  (exists ord, yreach duo duo_ms 2 true (length duo_moves) duo_end ord /\
     forall r l1 p l2 t l3, ord r = l1 ++ p :: l2 ++ t :: l3 -> parent duo p = None -> parent duo t = None -> rk_of [1; 0; 3; 2] p < rk_of [1; 0; 3; 2] t) /\
  ystuck duo duo_end /\ (forall t, submitted (yst duo_end) t -> completed (yst duo_end) t) /\
  roots duo (log (yst duo_end)) = [1; 0] /\ on_the_spot duo None (map ISpawn (roots duo (log (yst duo_end)))) duo_order /\
  performed (log (yst duo_end)) <> duo_order /\
  snd (exec cells (performed (log (yst duo_end))) (fun _ => []) [1; 0]%Z) = [8; 0]%Z /\
  snd (exec cells duo_order (fun _ => []) [1; 0]%Z) = [8; 0]%Z /\
  fst (exec cells duo_order (fun _ => []) [1; 0]%Z) 3 = [2]%Z.
Proof.
  assert (RO : roots duo (log (yst duo_end)) = [1; 0]) by (vm_compute; reflexivity).
  assert (AG : exists ord, yreach duo duo_ms 2 true (length duo_moves) duo_end ord /\
     forall r l1 p l2 t l3, ord r = l1 ++ p :: l2 ++ t :: l3 -> parent duo p = None -> parent duo t = None -> rk_of [1; 0; 3; 2] p < rk_of [1; 0; 3; 2] t).
  { destruct duo_yreach as (ord & R & O). exists ord. split; auto. intros r l1 p l2 t l3 E _ _. rewrite O in E. exact (duo_agrees r l1 p l2 t l3 E). }
  split; [exact duo_wf|]. split; [reflexivity|]. split; [exact duo_nodup|]. split; [exact duo_behaved|]. split; [exact duo_covered|].
  split; [exact duo_private|]. split; [exact (forks_clear duo duo_joins duo_clear)|]. split; [exact cells_sensible|].
  split; [exact AG|]. split; [exact duo_stuck|]. split.
  { destruct AG as (ord & R & A).
    destruct (C63_no_deadlock_when_the_lists_agree_partial duo duo_ms 2 _ duo_end ord (rk_of [1; 0; 3; 2]) duo_wf eq_refl duo_nodup ltac:(lia) R A duo_stuck) as (D & _).
    intros t Ht. exact (proj1 (D t Ht)). }
  split; [exact RO|]. split; [rewrite RO; exact duo_spot|]. split; [vm_compute; discriminate|]. repeat split; vm_compute; reflexivity.
Qed.
Example C65_ex_fork_join : (forall t c, In (ISpawn c) (body duo (Some t)) -> In (IGet c) (body duo (Some t))) /\ clear_forks duo /\
  (exists ord, yall duo duo_ms 2 true (length duo_moves) duo_end ord).
Proof.
  split; [exact duo_joins|]. split; [exact duo_clear|]. destruct duo_yreach as (ord & R & _). exists ord. exact (yreach_yall _ _ _ _ _ _ _ R).
Qed.
(** half way: task 3 has ended and was waited for, 1 has not ended, 0 has not started *)
Definition duo_half : ystate := match yrunc duo true (yinit duo duo_ms 2) (firstn 98 duo_moves) with Some y => y | None => yinit duo duo_ms 0 end.
Example C65_ex_half : (exists ord, yreach duo duo_ms 2 true 98 duo_half ord) /\ ended (yst duo_half) 3 /\ ~ ended (yst duo_half) 1 /\
  ~ started (yst duo_half) 0 /\ (exists l1 l2, log (yst duo_half) = l1 ++ LGet 3 :: l2 /\ roots duo l2 = [1]) /\
  on_the_spot duo None (map ISpawn (roots duo (log (yst duo_half)))) (firstn 5 duo_order) /\
  fst (exec cells (performed (log (yst duo_half))) (fun _ => []) [1; 0]%Z) 3 = [2]%Z.
Proof.
  split.
  - unfold duo_half. destruct (yrunc duo true (yinit duo duo_ms 2) (firstn 98 duo_moves)) as [y|] eqn:E.
    + destruct (yrunc_init duo duo_ms 2 true _ y E) as (ord & R & _). exists ord. exact R.
    + exfalso. apply (f_equal (fun x => match x with Some _ => true | None => false end)) in E. vm_compute in E. discriminate.
  - split; [inlog|]. split; [notin|]. split; [notin|]. split; [|split; [|vm_compute; reflexivity]].
    + exists (firstn 1 (log (yst duo_half))), (skipn 2 (log (yst duo_half))). split; vm_compute; reflexivity.
    + assert (RO : roots duo (log (yst duo_half)) = [1]) by (vm_compute; reflexivity). rewrite RO.
      assert (H : exists l, on_the_spot duo None (map ISpawn [1]) l /\ l = firstn 5 duo_order); [|now destruct H as (l & H & <-)].
      eexists. split; [simpl map; spot|reflexivity].
Qed.

(** bodies that do not wait: 0 has 2 add to what it wrote, 1 has 3 read what it doubled *)
Definition quads_tasks : list tdef :=
  [mkTdef None (declare 0 [acc 0 MWrite] []) [cell 0 KWrite 5; ISpawn 2; IDrop 2];
   mkTdef None (declare 0 [acc 0 MWrite; acc 1 MWrite] []) [cell 0 KMul 2; ISpawn 3; IDrop 3; cell 1 KWrite 9];
   mkTdef (Some 0) (declare 1 [acc 0 MWrite] []) [cell 0 KAdd 3];
   mkTdef (Some 1) (declare 1 [acc 0 MRead] []) [cell 0 KRead 0]].
Definition quads_ms : list (list instr) := [[ISpawn 0; IGet 0]; [ISpawn 1; IDrop 1; IBarrier]].
Definition quads : prog := lprog (concat quads_ms) quads_tasks false.
(** [k] times the first possible move of [o] that leaves no child behind *)
Fixpoint ffirst (P : prog) (s : state) (o : list (nat * pick)) : option ((nat * pick) * state) :=
  match o with
  | [] => None
  | (i, c) :: o => if end_okb P s i then match step P s i c with Some s' => Some ((i, c), s') | None => ffirst P s o end else ffirst P s o
  end.
Fixpoint fplan (P : prog) (o : list (nat * pick)) (k : nat) (s : state) : list (nat * pick) * state :=
  match k with
  | O => ([], s)
  | S k => match ffirst P s o with Some (m, s') => let (l, z) := fplan P o k s' in (m :: l, z) | None => ([], s) end
  end.
Fixpoint fphases (P : prog) (l : list (list (nat * pick) * nat)) (s : state) : list (nat * pick) :=
  match l with
  | [] => []
  | (o, k) :: l => let (m, z) := fplan P o k s in m ++ fphases P l z
  end.
Definition quads_moves : list (nat * pick) :=
  fphases quads [([(1, PNew 0)], 9); (moves_of 2 ++ moves_of 3 ++ [(1, PNew 0); (0, PNew 0)], 300)] (init_many quads quads_ms 2).
Definition quads_end : state := match crun any quads (init_many quads quads_ms 2) quads_moves with Some s => s | None => init quads 0 end.
Definition quads_order : list (nat * act) :=
  [(1, mkAct 0 TIO KMul 2); (3, mkAct 0 TIO KRead 0); (1, mkAct 1 TIO KWrite 9); (0, mkAct 0 TIO KWrite 5); (2, mkAct 0 TIO KAdd 3)].
Lemma crun_init P ms n l s : crun any P (init_many P ms n) l = Some s ->
  exists ord, freach P ms n (length l) s ord /\ forall r, ord r = order_in (entries P (init_many P ms n) l) r.
Proof. intros E. destruct (crun_freach P ms n l _ 0 _ s (freach_init _ _ _) E) as (ord & R & O). exists ord. split; [exact R|]. intros r. now rewrite O. Qed.
Lemma quads_freach : exists ord, freach quads quads_ms 2 (length quads_moves) quads_end ord /\ forall r, ord r = order_in [(1, 1); (0, 1); (0, 3); (0, 0); (0, 2)] r.
Proof.
  unfold quads_end. destruct (crun any quads (init_many quads quads_ms 2) quads_moves) as [s|] eqn:E.
  - destruct (crun_init _ _ _ _ _ E) as (ord & R & O). exists ord. split; [exact R|].
    intros r. rewrite O. assert (X : entries quads (init_many quads quads_ms 2) quads_moves = [(1, 1); (0, 1); (0, 3); (0, 0); (0, 2)]) by (vm_compute; reflexivity). now rewrite X.
  - exfalso. apply (f_equal (fun x => match x with Some _ => true | None => false end)) in E. vm_compute in E. discriminate.
Qed.
Lemma quads_wf : wf_many quads quads_ms.
Proof. apply wfb_many; vm_compute; reflexivity. Qed.
Lemma quads_nodup t : NoDup (uniq quads t).
Proof.
  few t.
  1-4: unfold uniq, user, quads, lprog; simpl; repeat (constructor; [simpl; lia|]); constructor.
  all: unfold quads, lprog, uniq, user; simpl; constructor.
Qed.
Lemma quads_within q t : within quads q t -> q = t \/ q = 0 /\ t = 2 \/ q = 1 /\ t = 3.
Proof. induction 1 as [|b c H IH Q]; auto. few b; ins Q; lia. Qed.
Lemma quads_no_get : no_get quads.
Proof. intros t c H. few t; ins H. Qed.
Example C65_ex_no_waiting : wf_many quads quads_ms /\ p_wrap quads = false /\ (forall q, NoDup (uniq quads q)) /\ behaved quads /\
  children_covered quads /\ inner_private quads /\ keeps_off quads /\ (exists ord, freach quads quads_ms 2 (length quads_moves) quads_end ord) /\
  (forall t, submitted quads_end t -> completed quads_end t) /\ roots quads (log quads_end) = [1; 0] /\
  on_the_spot quads None (map ISpawn (roots quads (log quads_end))) quads_order /\ performed (log quads_end) <> quads_order /\ ended quads_end 3 /\
  fst (exec cells quads_order (fun _ => []) [3; 0]%Z) 3 = [6]%Z /\ fst (exec cells (performed (log quads_end)) (fun _ => []) [3; 0]%Z) 3 = [6]%Z.
Proof.
  assert (RO : roots quads (log quads_end) = [1; 0]) by (vm_compute; reflexivity). destruct quads_freach as (ord & R & O).
  split; [exact quads_wf|]. split; [reflexivity|]. split; [exact quads_nodup|].
  split. { intros t a H. few t; ins H; simpl; eexists; eexists; first
    [solve [split; [left; reflexivity|simpl; auto]] | solve [split; [right; left; reflexivity|simpl; auto]]]. }
  split. { intros q c H. few q; ins H; vm_compute; reflexivity. }
  split. { intros q c a H Ha L. few q; ins H; ins Ha; simpl in L; lia. }
  split.
  { intros q pre c post a t b E Ha Wt Hb.
    few q; simpl in E; repeat (destruct pre as [|? pre]; simpl in E; [first [discriminate E|injection E as <- E]|first [discriminate E|injection E as _ E]]).
    all: subst post; ins Ha; apply quads_within in Wt; few t; ins Hb; try lia; apply other_cell; discriminate. }
  split; [eauto|]. split.
  { intros t H. refine (proj1 (proj1 (C62_no_deadlock_when_the_lists_agree quads quads_ms 2 _ quads_end ord (rk_of [1; 3; 0; 2]) quads_wf eq_refl quads_nodup quads_no_get _ R _ _) t H)); [lia| |].
    - intros r l1 p l2 q l3 E _ _. revert E. apply sorted_between. rewrite O. destruct r as [|[|r]]; unfold order_in; simpl; repeat constructor.
    - apply stuckb_ok. vm_compute. reflexivity. }
  split; [exact RO|]. split.
  { rewrite RO. assert (H : exists l, on_the_spot quads None (map ISpawn [1; 0]) l /\ l = quads_order); [|now destruct H as (l & H & <-)].
    eexists. split; [simpl map; spot|reflexivity]. }
  split; [vm_compute; discriminate|]. split; [inlog|]. split; vm_compute; reflexivity.
Qed.

Definition all_mix := (@C65_root_tasks_one_after_another_partial, @C65_the_order_is_that_of_each_thread_partial, @C65_result_of_every_execution_partial,
  @C65_values_are_final_when_the_body_ends_partial, @C65_get_returns_the_value_of_the_sequence_partial, @C65_what_is_done_leads_to_the_sequence_partial,
  @C65_nested_tasks_of_several_threads, @C65_fork_join_programs_partial).
Print Assumptions all_mix.
