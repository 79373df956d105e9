(** C59: nested tasks in parallel give the result of running each task on the
    spot, where it is emplaced. *)
From Coq Require Import Bool List Arith NArith ZArith Lia Permutation.
From Verif Require Import AccessModel AccessSpec AccessProof UserModel UserProof SchedModel SchedSpec SchedBase SchedInv1 SchedInv2 SchedInv3 SchedInv8 SchedFront SchedThm SchedLive SchedTerm SchedSeq SchedEx NestSpec SchedNest PropertiesSched PoolModel PoolProof PropertiesPool.
Import ListNotations.
Open Scope nat_scope.

(** Running on the spot is one order of the operations. *)
Theorem C59_on_the_spot_is_determined :
  forall P o b l l', on_the_spot P o b l -> on_the_spot P o b l' -> l = l'.
Proof.
  intros P o b l l' H. revert l'. induction H as [o|a b l H IH|t a b l H IH|o c b l1 l2 H1 IH1 H2 IH2|o j b l N1 N2 H IH]; intros l' Q;
    inversion Q; subst; auto;
    try solve [exfalso; match goal with H : forall a, _ <> _ |- _ => eapply H; reflexivity end].
  - f_equal. auto.
  - f_equal; auto.
Qed.

(** for programs without nested tasks it is the order of C14 *)
Theorem C59_on_the_spot_of_flat_programs :
  forall P, flat P -> on_the_spot P None (p_main P) (one_by_one P (spawns (p_main P))).
Proof.
  intros P F.
  assert (A : forall t b, spawns b = [] -> on_the_spot P (Some t) b (map (pair t) (acts_of b))).
  { intros t. induction b as [|[] b IH]; simpl; intros E; try discriminate;
      try (apply spot_other; [discriminate|discriminate|now apply IH]); constructor; auto. }
  generalize (p_main P). induction l as [|[] l IH]; cbn [spawns one_by_one flat_map];
    try (apply spot_other; [discriminate|discriminate|exact IH]); constructor; auto.
Qed.

Theorem C59_result_of_running_on_the_spot_partial :
  forall P n s, wf P -> p_wrap P = false -> (forall t, patient P t) -> 1 <= n ->
  behaved P -> children_covered P -> inner_private P -> keeps_off P ->
  runs P n s -> stuck P s -> In (FBody None []) (all_frames s) ->
  (exists l, on_the_spot P None (p_main P) l) /\
  forall l (S : semantics) g m, on_the_spot P None (p_main P) l -> sensible S ->
  same_result (exec S (performed (log s)) g m) (exec S l g m).
Proof.
  intros P n s W NW PA N B CC IP KO R K E.
  exact (nested_result P W NW n s N PA CC IP KO B (runs_greach P n s W NW R) K E).
Qed.

(** the same for workers with queues of their own, stealing and sleeping (C58) *)
Theorem C59_result_in_the_pool_partial :
  forall P n m g k c, wf P -> p_wrap P = false -> (forall t, patient P t) -> 1 <= n -> 1 <= m ->
  behaved P -> children_covered P -> inner_private P -> keeps_off P ->
  pruns P n m g k c -> pstuck P n m c -> In (FBody None []) (all_frames (core c)) ->
  exists l, on_the_spot P None (p_main P) l /\
  forall (S : semantics) v mem, sensible S ->
  same_result (exec S (performed (log (core c))) v mem) (exec S l v mem).
Proof.
  intros P n m g k c W NW PA Hn Hm B CC IP KO H K E.
  destruct (pruns_greach P n m g k c W NW H) as (I & a & s & G & Sm & _).
  apply gsteps_greach in G. assert (ST := pstuck_stuck P n m c s W NW Hn Hm I G Sm K).
  destruct Sm as (e & r & -> & _ & _).
  destruct (nested_result P W NW (n + m) _ ltac:(lia) PA CC IP KO B G ST E) as ((l & L) & R).
  exists l. split; [exact L|]. intros S v mem Q. exact (R l S v mem L Q).
Qed.

(** At any time: an operation that is done before one that comes first on the spot
    belongs to another task and does not conflict with it. *)
Definition done_before (s : state) (t : nat) (a : act) (u : nat) (b : act) : Prop :=
  exists l1 l2 l3, log s = l1 ++ LAct (Some u) b :: l2 ++ LAct (Some t) a :: l3.
(** the operations of a task are different, so that they can be named *)
Definition distinct_ops (P : prog) : Prop := forall t, NoDup (acts_of (body P (Some t))).

Lemma done_before_prec s t a u b : done_before s t a u b ->
  exists i j, prec (tperformed (log s)) ((t, i), a) ((u, j), b).
Proof.
  intros (l1 & l2 & l3 & ->).
  assert (A : forall l m, exists k, tperformed (l ++ m) = tperformed m ++ k).
  { induction l as [|x l IH]; intros m; [exists []; now rewrite app_nil_r|]. destruct (IH m) as (k & E).
    destruct x; simpl; eauto. destruct t0; eauto. rewrite E. eexists. now rewrite <- app_assoc. }
  destruct (A l1 (LAct (Some u) b :: l2 ++ LAct (Some t) a :: l3)) as (k1 & E1). rewrite E1. simpl.
  destruct (A l2 (LAct (Some t) a :: l3)) as (k2 & E2). rewrite E2. simpl.
  exists (length (done t l3)), (length (done u (l2 ++ LAct (Some t) a :: l3))).
  exists (tperformed l3), k2, k1. now rewrite <- !app_assoc.
Qed.
Lemma prec_of_map {A B} (f : A -> B) l x y : prec (map f l) x y -> exists x' y', f x' = x /\ f y' = y /\ prec l x' y'.
Proof.
  intros (a & b & c & E). apply map_eq_app in E as (a' & r & -> & <- & E).
  destruct r as [|x' r]; [discriminate|]. simpl in E. injection E as Ex E.
  apply map_eq_app in E as (b' & r' & -> & <- & E). destruct r' as [|y' c']; [discriminate|]. simpl in E. injection E as Ey E.
  exists x', y'. split; auto. split; auto. exists a', b', c'. reflexivity.
Qed.

Theorem C59_conflicting_operations_keep_their_order_partial :
  forall P n s l t a u b, wfp P -> p_wrap P = false -> distinct_ops P ->
  behaved P -> children_covered P -> inner_private P -> keeps_off P -> runs P n s ->
  on_the_spot P None (p_main P) l -> prec l (u, b) (t, a) -> (t = u \/ acts_conflict a b) ->
  ~ done_before s t a u b.
Proof.
  intros P n s l t a u b W NW DO B CC IP KO R L Pr C DB. apply (runs_greach P n s W NW) in R.
  apply done_before_prec in DB as (i & j & DB).
  assert (Ta := tpairs P W NW n s CC IP (off_clear P KO) B R). assert (Q := fop_prec _ _ _ _ Ta DB).
  destruct (tag_spot P None _ l L 0) as (l' & L' & <-). apply prec_of_map in Pr as ([[u' j'] b'] & [[t' i'] a'] & E1 & E2 & Pr).
  unfold untag in E1, E2. simpl in E1, E2. injection E1 as -> ->. injection E2 as -> ->.
  assert (Er := spot_prec P None 0 _ l' L' [] eq_refl eq_refl _ _ Pr).
  (* the numbers within the tasks agree, since operations are distinct *)
  assert (Id : forall t i i' a, nth_error (acts_of (body P (Some t))) i = Some a ->
                              nth_error (acts_of (body P (Some t))) i' = Some a -> i = i').
  { intros t0 i0 i1 a0 Q1 Q2. apply (NoDup_nth_error (acts_of (body P (Some t0)))); [apply DO|apply nth_error_Some; congruence|congruence]. }
  assert (It : forall t i a, In ((t, i), a) (tperformed (log s)) -> nth_error (acts_of (body P (Some t))) i = Some a).
  { clear -W NW R. intros t i a H. apply in_tperformed in H. exact (done_nth P W NW n s t i a R H). }
  assert (Is : forall t i a, In ((t, i), a) l' -> nth_error (acts_of (body P (Some t))) i = Some a).
  { clear -W L'. intros t i a H. apply (spot_items P None 0 (p_main P) l' L') in H as [(t' & k & Z & _)|(c & t' & k & _ & _ & E & Q)]; [discriminate|].
    simpl in *. injection E as -> ->. auto. }
  assert (Hi : i' = i). { apply (Id t i' i a); [apply Is|apply It].
    - destruct Pr as (p1 & p2 & p3 & ->). rewrite in_app_iff; simpl; rewrite in_app_iff; simpl; auto.
    - destruct DB as (q1 & q2 & q3 & ->). rewrite in_app_iff; simpl; auto. }
  assert (Hj : j' = j). { apply (Id u j' j b); [apply Is|apply It].
    - destruct Pr as (p1 & p2 & p3 & ->). rewrite in_app_iff; simpl; auto.
    - destruct DB as (q1 & q2 & q3 & ->). rewrite in_app_iff; simpl; rewrite in_app_iff; simpl; auto. }
  subst. destruct (Q Er) as [D1 D2]. simpl in *. destruct C; auto.
Qed.

(** The example: task 0 sets cell 1, emplaces 1, goes on with cell 1, emplaces 2;
    task 1 writes cell 0 and emplaces 3, which doubles it; task 2 reads cell 0; they
    share cell 7, created inside task 0.  Task 4 of the main thread reads cell 0 and
    sets cell 1. *)
Definition own (r : nat) (m : iomode) : raccess := mkAcc (mkRes r 1) TIO m.
Definition kids_tasks : list tdef :=
  [mkTdef None (declare 0 [acc 0 MWrite; acc 1 MWrite] []) [cell 1 KWrite 2; ISpawn 1; cell 1 KAdd 3; ISpawn 2; IDrop 1; IDrop 2];
   mkTdef (Some 0) (declare 1 [acc 0 MWrite; own 2 MWrite] []) [cell 0 KWrite 5; ISpawn 3; cell 2 KWrite 8; IDrop 3];
   mkTdef (Some 0) (declare 1 [acc 0 MRead; own 2 MRead] []) [cell 0 KRead 0; cell 2 KRead 0];
   mkTdef (Some 1) (declare 2 [acc 0 MAmul] []) [cell 0 KMul 2];
   mkTdef None (declare 0 [acc 0 MRead; acc 1 MWrite] []) [cell 0 KRead 0; cell 1 KWrite 9]].
Definition kids : prog := lprog [ISpawn 0; ISpawn 4; IDrop 0; IDrop 4; IBarrier] kids_tasks false.
Lemma kids_wf : wf kids. Proof. apply wfb_ok. vm_compute. reflexivity. Qed.
Lemma kids_patient : forall t, patient kids t. Proof. apply patientb_ok. vm_compute. reflexivity. Qed.
Definition kids_end : state := gauto kids (moves_of 0 ++ moves_of 2 ++ moves_of 1) 1000 (init kids 2).
Definition kids_order : list (nat * act) :=
  [(0, mkAct 1 TIO KWrite 2); (1, mkAct 0 TIO KWrite 5); (3, mkAct 0 TIO KMul 2); (1, mkAct 2 TIO KWrite 8);
   (0, mkAct 1 TIO KAdd 3); (2, mkAct 0 TIO KRead 0); (2, mkAct 2 TIO KRead 0);
   (4, mkAct 0 TIO KRead 0); (4, mkAct 1 TIO KWrite 9)].

Ltac spot := repeat first
  [ apply spot_nil
  | apply spot_act
  | match goal with |- on_the_spot _ _ (ISpawn ?c :: _) _ => eapply spot_spawn; [simpl body|] end
  | apply spot_other; [discriminate|discriminate|] ].
Lemma kids_spot : on_the_spot kids None (p_main kids) kids_order.
Proof.
  assert (H : exists l, on_the_spot kids None (p_main kids) l /\ l = kids_order); [|now destruct H as (l & H & <-)].
  eexists. split; [simpl p_main; spot|reflexivity].
Qed.

(** all instances of the hypotheses are about finitely many tasks *)
Ltac few t := destruct t as [|[|[|[|[|t]]]]]; [..|destruct t].
Ltac ins H := simpl in H; repeat (destruct H as [H|H]; [first [discriminate H | injection H as <- | subst]|]); try contradiction H.

Lemma kids_behaved : behaved kids.
Proof.
  intros t a H. few t; ins H.
  all: simpl; eexists; eexists; first
    [solve [split; [left; reflexivity|simpl; auto]] | solve [split; [right; left; reflexivity|simpl; auto]]].
Qed.
Lemma kids_covered : children_covered kids.
Proof. intros q c H. few q; ins H; vm_compute; reflexivity. Qed.
Lemma kids_within q t : within kids q t -> q = t \/ q = 0 /\ (t = 1 \/ t = 2 \/ t = 3) \/ q = 1 /\ t = 3.
Proof. induction 1 as [|b c H IH S]; auto. few b; ins S; lia. Qed.
Lemma kids_private : inner_private kids.
Proof.
  intros q c a H Ha L t a' Ht E. 
  assert (X : within kids 0 1) by (econstructor; [constructor|simpl; auto]).
  assert (Y : within kids 0 2) by (econstructor; [constructor|simpl; auto 6]).
  few q; ins H; ins Ha; simpl in L; try lia; simpl in E; few t; ins Ht; simpl in E; try discriminate; assumption.
Qed.
Lemma other_cell r s x y c d : r <> s -> ~ acts_conflict (mkAct r TIO x c) (mkAct s TIO y d).
Proof. intros D (q & T & x' & y' & c' & d' & E1 & E2 & _). apply D. injection E1; injection E2; intros; congruence. Qed.
Lemma kids_keeps_off : keeps_off kids.
Proof.
  intros q pre c post a t b E Ha Wt Hb.
  assert (Hq : In (IAct a) (body kids (Some q))) by (rewrite E, in_app_iff; simpl; auto).
  assert (Hc : In (ISpawn c) (body kids (Some q))) by (rewrite E, in_app_iff; simpl; auto).
  apply kids_within in Wt.
  few q; ins Hc; ins Hq; few t; ins Hb; try lia; try (apply other_cell; discriminate).
  (* an operation before the emplacement *)
  simpl in E. destruct pre as [|i1 [|i2 [|i3 [|i4 [|i5 pre]]]]]; try discriminate E.
  injection E as _ <-. ins Ha.
Qed.

Example C59_ex :
  wf kids /\ p_wrap kids = false /\ (forall t, patient kids t) /\ behaved kids /\ children_covered kids /\
  inner_private kids /\ keeps_off kids /\ runs kids 2 kids_end /\ stuck kids kids_end /\
  In (FBody None []) (all_frames kids_end) /\ sensible cells /\ on_the_spot kids None (p_main kids) kids_order /\
  performed (log kids_end) <> kids_order /\
  snd (exec cells (performed (log kids_end)) (fun _ => []) [0; 0; 0]%Z) = [10; 9; 8]%Z /\
  snd (exec cells kids_order (fun _ => []) [0; 0; 0]%Z) = [10; 9; 8]%Z.
Proof.
  split; [exact kids_wf|]. split; [reflexivity|]. split; [exact kids_patient|]. split; [exact kids_behaved|].
  split; [exact kids_covered|]. split; [exact kids_private|]. split; [exact kids_keeps_off|].
  split; [right; apply gauto_greach; constructor|]. split; [apply stuckb_ok; vm_compute; reflexivity|].
  split; [vm_compute; auto|]. split; [exact cells_sensible|]. split; [exact kids_spot|].
  split; [vm_compute; discriminate|]. split; vm_compute; reflexivity.
Qed.
Lemma kids_distinct : distinct_ops kids.
Proof.
  intros t. few t; simpl acts_of; repeat first [apply NoDup_nil | apply NoDup_cons];
    simpl; intros Q; repeat (destruct Q as [Q|Q]; [apply (f_equal ac_code) in Q as Q1; apply (f_equal ac_res) in Q; first [discriminate Q|discriminate Q1]|]); contradiction.
Qed.
Example C59_ex_order : distinct_ops kids /\ runs kids 2 kids_end /\
  prec kids_order (1, mkAct 2 TIO KWrite 8) (2, mkAct 2 TIO KRead 0) /\
  acts_conflict (mkAct 2 TIO KRead 0) (mkAct 2 TIO KWrite 8) /\
  In (LAct (Some 2) (mkAct 2 TIO KRead 0)) (log kids_end).
Proof.
  split; [exact kids_distinct|]. split; [right; apply gauto_greach; constructor|]. split.
  { exists (firstn 3 kids_order), (firstn 2 (skipn 4 kids_order)), (skipn 7 kids_order). reflexivity. }
  split; [|inlog]. exists 2, TIO, KRead, KWrite, 0%Z, 8%Z. repeat split. 
Qed.

(** three workers with their own queues and one outside thread run it *)
Definition guardb (P : prog) (c : pool) (mv : move) : bool :=
  match mv with MStep i _ => end_okb P (core c) i | _ => true end.
Fixpoint gfirst_of (P : prog) (n m : nat) (c : pool) (o : list move) : option pool :=
  match o with
  | [] => None
  | mv :: o => match pstep P n m c mv with
               | Some c' => if guardb P c mv then Some c' else gfirst_of P n m c o
               | None => gfirst_of P n m c o
               end
  end.
Fixpoint gdrive (P : prog) (n m : nat) (o : list move) (fuel : nat) (c : pool) : pool :=
  match fuel with
  | O => c
  | S fuel => match gfirst_of P n m c o with Some c' => gdrive P n m o fuel c' | None => c end
  end.
Lemma gdrive_steps P n m o fuel : forall k c, psteps P n m true k c ->
  exists k', psteps P n m true k' (gdrive P n m o fuel c).
Proof.
  induction fuel as [|fuel IH]; intros k c H; simpl; eauto. destruct (gfirst_of P n m c o) as [c'|] eqn:E; eauto.
  apply (IH (S k)). clear IH. induction o as [|mv o IHo]; simpl in E; [easy|].
  destruct (pstep P n m c mv) eqn:E1; auto. destruct (guardb P c mv) eqn:E2; auto. injection E as <-.
  econstructor; eauto. intros _. destruct mv; simpl in *; auto. now apply end_okb_ok.
Qed.
Definition kids_asleep : pool :=
  gdrive kids 3 1 [MStep 0 1; MWake 0; MWake 1; MWake 2; MWake 3; MStep 1 2; MTake 1 0; MSteal 1 2 0; MSteal 1 3 0; MStep 2 3; MTake 2 0;
                   MSteal 2 3 0; MStep 3 1; MTake 3 0; MMiss 1; MMiss 2; MMiss 3] 2000 (pinit kids 3 1).
Example C59_ex_pool : (exists k, pruns kids 3 1 true k kids_asleep) /\ pstuck kids 3 1 kids_asleep /\
  In (FBody None []) (all_frames (core kids_asleep)) /\
  snd (exec cells (performed (log (core kids_asleep))) (fun _ => []) [0; 0; 0]%Z) = [10; 9; 8]%Z.
Proof.
  assert (H : exists k, psteps kids 3 1 true k kids_asleep) by (apply (gdrive_steps kids 3 1) with (k := 0); constructor).
  destruct H as (k & H). split; [exists k; split; auto|].
  split; [apply pstuckb_ok; [exact (proj1 (pool_run _ _ _ _ _ _ H))|vm_compute; reflexivity]|].
  split; [vm_compute; auto|vm_compute; reflexivity].
Qed.

(** Under all schedules it is false: the parent completes before its child is
    initialised, and task 2 of the main thread, which should come last, runs before
    the child. *)
Definition late_tasks : list tdef :=
  [mkTdef None (declare 0 [acc 0 MWrite] []) [ISpawn 1; IDrop 1];
   mkTdef (Some 0) (declare 1 [acc 0 MWrite] []) [cell 0 KWrite 5];
   mkTdef None (declare 0 [acc 0 MWrite] []) [cell 0 KWrite 9]].
Definition late : prog := lprog [ISpawn 0; ISpawn 2; IDrop 0; IDrop 2] late_tasks false.
Definition late_end : state :=
  auto_run late [(1, PReady 0); (1, PNew 2); (1, PNew 1); (0, PNew 0); (1, PNew 0)] 1000 (init late 1).
Theorem C59_result_of_running_on_the_spot_refuted :
  exists P n s l (S : semantics) g m, wf P /\ p_wrap P = false /\ (forall t, patient P t) /\ 1 <= n /\
  behaved P /\ children_covered P /\ inner_private P /\ keeps_off P /\
  reach P n s /\ stuck P s /\ In (FBody None []) (all_frames s) /\
  on_the_spot P None (p_main P) l /\ sensible S /\
  ~ same_result (exec S (performed (log s)) g m) (exec S l g m).
Proof.
  exists late, 1, late_end, [(1, mkAct 0 TIO KWrite 5); (2, mkAct 0 TIO KWrite 9)], cells, (fun _ => []), [0%Z].
  split; [apply wfb_ok; vm_compute; reflexivity|]. split; [reflexivity|].
  split; [apply patientb_ok; vm_compute; reflexivity|]. split; [auto|].
  split. { intros t a H. few t; ins H; simpl; eexists; eexists; (split; [left; reflexivity|simpl; auto]). }
  split. { intros q c H. few q; ins H; vm_compute; reflexivity. }
  split. { intros q c a H Ha L. few q; ins H; ins Ha; simpl in L; lia. }
  split. { intros q pre c post a t b E Ha _ _.
    assert (Hq : In (IAct a) (body late (Some q))) by (rewrite E, in_app_iff; simpl; auto).
    assert (Hc : In (ISpawn c) (body late (Some q))) by (rewrite E, in_app_iff; simpl; auto).
    few q; ins Hc; ins Hq. }
  split; [apply auto_reach; constructor|]. split; [apply stuckb_ok; vm_compute; reflexivity|].
  split; [vm_compute; auto|].
  split.
  { assert (H : exists l, on_the_spot late None (p_main late) l /\ l = [(1, mkAct 0 TIO KWrite 5); (2, mkAct 0 TIO KWrite 9)]); [|now destruct H as (l & H & <-)].
    eexists. split; [simpl p_main; spot|reflexivity]. }
  split; [exact cells_sensible|]. intros [_ H]. vm_compute in H. discriminate H.
Qed.

(** The runtime does not order a body against the tasks it has emplaced: without
    [keeps_off] the result depends on the schedule, even if children are initialised
    in time. *)
Definition race_tasks : list tdef :=
  [mkTdef None (declare 0 [acc 0 MWrite] []) [ISpawn 1; cell 0 KWrite 1; IDrop 1];
   mkTdef (Some 0) (declare 1 [acc 0 MWrite] []) [cell 0 KWrite 2]].
Definition race : prog := lprog [ISpawn 0; IDrop 0] race_tasks false.
Definition race_end : state := gauto race (moves_of 0 ++ moves_of 1 ++ moves_of 2) 1000 (init race 2).
Theorem C59_parent_runs_on_the_spot_refuted :
  exists P n s l (S : semantics) g m, wf P /\ p_wrap P = false /\ (forall t, patient P t) /\ 1 <= n /\
  behaved P /\ children_covered P /\ inner_private P /\
  runs P n s /\ stuck P s /\ In (FBody None []) (all_frames s) /\
  on_the_spot P None (p_main P) l /\ sensible S /\
  ~ same_result (exec S (performed (log s)) g m) (exec S l g m).
Proof.
  exists race, 2, race_end, [(1, mkAct 0 TIO KWrite 2); (0, mkAct 0 TIO KWrite 1)], cells, (fun _ => []), [0%Z].
  split; [apply wfb_ok; vm_compute; reflexivity|]. split; [reflexivity|].
  split; [apply patientb_ok; vm_compute; reflexivity|]. split; [auto|].
  split. { intros t a H. few t; ins H; simpl; eexists; eexists; (split; [left; reflexivity|simpl; auto]). }
  split. { intros q c H. few q; ins H; vm_compute; reflexivity. }
  split. { intros q c a H Ha L. few q; ins H; ins Ha; simpl in L; lia. }
  split; [right; apply gauto_greach; constructor|]. split; [apply stuckb_ok; vm_compute; reflexivity|].
  split; [vm_compute; auto|].
  split.
  { assert (H : exists l, on_the_spot race None (p_main race) l /\ l = [(1, mkAct 0 TIO KWrite 2); (0, mkAct 0 TIO KWrite 1)]); [|now destruct H as (l & H & <-)].
    eexists. split; [simpl p_main; spot|reflexivity]. }
  split; [exact cells_sensible|]. intros [_ H]. vm_compute in H. discriminate H.
Qed.

Definition all_nest := (C59_on_the_spot_is_determined, C59_on_the_spot_of_flat_programs,
  C59_result_of_running_on_the_spot_partial, C59_result_in_the_pool_partial, C59_conflicting_operations_keep_their_order_partial,
  C59_result_of_running_on_the_spot_refuted, C59_parent_runs_on_the_spot_refuted, C59_ex, C59_ex_order, C59_ex_pool).
Print Assumptions all_nest.
