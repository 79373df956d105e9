(** Happens-before across suspensions (C70).

    A body that waits with get() is left by one thread and taken up again by another.  As far
    as the order between threads goes, that changes nothing: what a body does, and the accesses
    to its continuation, happen one after the other; what C61 shows of the order between tasks
    holds as well.  Executions as in C63 (the races of C30 left out). *)
From Coq Require Import Bool List Arith NArith ZArith Lia.
From Verif Require Import AccessModel AccessSpec UserModel SchedModel SchedSpec SchedBase SchedStack SchedEx SchedMany SchedFree NestSpec HbModel HbSpec HbBase HbFree HbJoin PropertiesSched PropertiesMany PropertiesNest PropertiesFree PropertiesHb PauseModel PauseSpec PauseThm PauseJoin PropertiesPause PropertiesJoin PauseHb PauseHbProof PauseHbThm.
Import ListNotations.
Open Scope nat_scope.

(** ** Runs with their histories *)
Fixpoint yhgo (P : prog) (a : bool) (y : ystate) (tr : list yrec) (l : list (nat * pick)) : option (ystate * list yrec) :=
  match l with
  | [] => Some (y, tr)
  | (i, c) :: l => if okb P a y i then match ystep P y i c with Some y' => yhgo P a y' (tr ++ [ymkrec P y i c y']) l | None => None end else None
  end.
Lemma yhgo_yhist P ms n a l : forall y tr y' tr', yhist P ms n a y tr -> yhgo P a y tr l = Some (y', tr') -> yhist P ms n a y' tr'.
Proof.
  induction l as [|[i c] l IH]; intros y tr y' tr' R; simpl; [intros H; injection H as <- <-; auto|].
  destruct (okb P a y i) eqn:E; [|discriminate]. destruct (ystep P y i c) as [y1|] eqn:S; [|discriminate]. apply IH.
  unfold okb in E. rewrite !andb_true_iff in E. destruct E as [[E1 E2] E3]. constructor; auto using yend_okb_ok, visit_okb_ok.
  intros ->. now apply take_okb_ok.
Qed.
Definition yout (P : prog) (x : option (ystate * list yrec)) : ystate * list yrec :=
  match x with Some p => p | None => (yinit P [] 0, []) end.
Lemma yout_yhist P ms n a l : is_some (yhgo P a (yinit P ms n) [] l) = true ->
  yhist P ms n a (fst (yout P (yhgo P a (yinit P ms n) [] l))) (snd (yout P (yhgo P a (yinit P ms n) [] l))).
Proof.
  intros H. eapply (yhgo_yhist P ms n a l); [constructor|]. destruct (yhgo P a (yinit P ms n) [] l) as [[s tr]|]; [reflexivity|discriminate].
Qed.
Lemma ydoes_at tr m l : match nth_error tr m with Some a => In l (r_log (y_rec a)) | None => False end -> ydoes tr m l.
Proof. unfold ydoes. destruct (nth_error tr m) as [a|]; [eauto|easy]. Qed.
Ltac ydid := apply ydoes_at; inlog.
Lemma yturns_at tr m t : match nth_error tr m with Some a => option_map turn_of (y_turn a) = Some t | None => False end -> yturns tr m t.
Proof.
  unfold yturns. destruct (nth_error tr m) as [a|]; [|easy]. destruct (y_turn a) as [x|] eqn:E; [|discriminate]. simpl. intros H. injection H as <-. eauto.
Qed.

(** Worker 1 runs task 0 up to the get(); worker 2 runs tasks 1 and 2, takes up task 0, ends it,
    and runs task 3. *)
Definition away_moves : list (nat * pick) :=
  yphases fork (okb fork true) [([(0, PNew 0)], 20); (moves_of 1, 38); (moves_of 2 ++ moves_of 0, 400); (moves_of 1, 400); (moves_of 2 ++ moves_of 0, 400)] (yinit fork fork_ms 2).
Definition away_hist := yhgo fork true (yinit fork fork_ms 2) [] away_moves.
Definition away_end := fst (yout fork away_hist).
Definition away_tr := snd (yout fork away_hist).
Lemma away_yhist : yhist fork fork_ms 2 true away_end away_tr.
Proof. unfold away_end, away_tr, away_hist. apply yout_yhist. vm_compute. reflexivity. Qed.
Definition who (tr : list yrec) (m : nat) : option nat := option_map (fun a => r_who (y_rec a)) (nth_error tr m).

(** ** Histories *)
Theorem C70_every_execution_has_a_history :
  forall P ms n a y k, (exists ord, yreach P ms n a k y ord) <-> exists tr, yhist P ms n a y tr /\ length tr = k.
Proof.
  intros P ms n a y k. split.
  - intros [ord R]. induction R as [|k y ord i c y' R (tr & H & L) EO VO TO S]; [exists []; split; [constructor|reflexivity]|].
    exists (tr ++ [ymkrec P y i c y']). split; [constructor; auto|]. rewrite app_length. simpl. lia.
  - intros (tr & H & <-). induction H as [|y tr i c y' H (ord & R) EO VO TO S]; [eexists; constructor|].
    exists (fun r => ord r ++ yenters y i r). rewrite app_length, Nat.add_1_r. apply (yreach_step P ms n a _ y ord i c); auto.
Qed.
Lemma yfstep_log P y g y1 fr : yfstep P y g = Some (y1, fr) -> exists l, log (yst y1) = l ++ log (yst y).
Proof.
  intros F. destruct g as [f|t q|t q|t q|t q|t q p|t|t st|t|t|t].
  1: { assert (N : (match fstep P (yst y) f with Some (s', r) => Some (ycore y s', map YF r) | None => None end) = Some (y1, fr) ->
                   exists l, log (yst y1) = l ++ log (yst y)).
       { destruct (fstep P (yst y) f) as [[s1 r]|] eqn:E; [|discriminate]. intros X; injection X as <- _.
         destruct (HbStep.causes P (yst y) f s1 r E) as (l & L & _). exists l. exact L. }
       destruct f; try exact (N F).
       - destruct o as [t|]; [|exact (N F)]. destruct s as [|[] is]; try exact (N F).
         simpl in F. destruct (_ =? 0)%Z; injection F as <- _; [eexists [_]|exists []]; reflexivity.
       - destruct e; try exact (N F). destruct l as [|[] l]; try exact (N F). simpl in F. injection F as <- _. exists []. reflexivity. }
  all: simpl in F; exists []; repeat match type of F with context [match ?e with _ => _ end] => destruct e; simpl in F end;
    try discriminate; injection F as <- _; try reflexivity.
Qed.
Lemma ystep_log P y i c y' : ystep P y i c = Some y' -> log (yst y') = r_log (y_rec (ymkrec P y i c y')) ++ log (yst y).
Proof.
  intros H. assert (X : exists l, log (yst y') = l ++ log (yst y)).
  { unfold ystep in H. destruct (nth_error (ythr y) i) as [[|g gs]|] eqn:E; [..|discriminate].
    - destruct (yistep y c) as [[y1 fr]|] eqn:F; [|discriminate]. injection H as <-. simpl.
      unfold yistep, istep in F. destruct c as [k|k|k]; simpl in F.
      + destruct (nth_error (rdy (yst y)) k); [|discriminate]. injection F as <- _. exists []; reflexivity.
      + destruct (nth_error (emp (yst y)) k); [|discriminate]. injection F as <- _. exists []; reflexivity.
      + destruct (nth_error (ext (yst y)) k) as [[t e]|]; [|discriminate]. injection F as <- _. eexists [_]. reflexivity.
    - destruct (yfstep P y g) as [[y1 fr]|] eqn:F; [|discriminate]. injection H as <-. simpl. exact (yfstep_log P y g y1 fr F). }
  destruct X as (l & L). assert (R : r_log (y_rec (ymkrec P y i c y')) = l).
  { unfold ymkrec. destruct (nth_error (ythr y) i) as [[|g gs]|]; simpl;
      rewrite L, app_length, Nat.add_sub, firstn_app, firstn_all, Nat.sub_diag, firstn_O, app_nil_r; reflexivity. }
  now rewrite R.
Qed.
Theorem C70_the_history_is_the_log :
  forall P ms n a y tr, yhist P ms n a y tr -> log (yst y) = concat (rev (map (fun b => r_log (y_rec b)) tr)).
Proof.
  intros P ms n a y tr H. induction H as [|y tr i c y' H IH EO VO TO S]; [reflexivity|].
  rewrite map_app, rev_app_distr. simpl. rewrite <- IH. now apply (ystep_log P y i c y').
Qed.
Example C70_history_ex : yhist fork fork_ms 2 true away_end away_tr /\ length away_tr = 193 /\
  completed (yst away_end) 0 /\ completed (yst away_end) 3.
Proof. split; [exact away_yhist|]. split; [vm_compute; reflexivity|]. split; inlog. Qed.

(** ** One body *)
(** Everything a body does, and every access to its continuation, is ordered, whichever
    threads do it. *)
Theorem C70_a_body_goes_on_where_it_was_left_partial :
  forall P ms n a y tr m k t, wf_any P ms -> p_wrap P = false -> (forall q, NoDup (uniq P q)) -> yhist P ms n a y tr ->
  of_body P tr m t -> of_body P tr k t -> m < k -> yhb tr m k.
Proof. intros P ms n a y tr m k t W NW ND H. exact (body_yhb P ms W NW ND n a y tr H m k t). Qed.
Example C70_body_ex : wf_any fork fork_ms /\ (forall q, NoDup (uniq fork q)) /\ yhist fork fork_ms 2 true away_end away_tr /\
  of_body fork away_tr 38 0 /\ of_body fork away_tr 45 0 /\ of_body fork away_tr 136 0 /\ of_body fork away_tr 149 0 /\
  map (who away_tr) [38; 45; 136; 149] = [Some 1; Some 1; Some 2; Some 2] /\
  option_map y_turn (nth_error away_tr 45) = Some (Some (TPause 0)) /\ option_map y_turn (nth_error away_tr 136) = Some (Some (TResume 0)).
Proof.
  split; [exact fork_wf|]. split; [exact fork_nodup|]. split; [exact away_yhist|].
  split. { right. exists (LAct (Some 0) (mkAct 0 TIO KWrite 5)). split; [ydid|reflexivity]. }
  split. { left. apply yturns_at. vm_compute. reflexivity. }
  split. { left. apply yturns_at. vm_compute. reflexivity. }
  split. { right. exists (LAct (Some 0) (mkAct 0 TIO KRead 0)). split; [ydid|reflexivity]. }
  repeat split; vm_compute; reflexivity.
Qed.

(** ** Between tasks *)
Theorem C70_each_thread_keeps_its_order_partial :
  forall P ms n a y tr p t d e m k l1 l2, wf_any P ms -> p_wrap P = false -> (forall q, NoDup (uniq P q)) -> yhist P ms n a y tr ->
  comes_before P ms p t -> tasks_conflict P p t -> within P p d -> within P t e ->
  ydoes tr m l1 -> made_by P l1 = Some d -> ydoes tr k l2 -> made_by P l2 = Some e -> yhb tr m k.
Proof. intros P ms n a y tr p t d e m k l1 l2 W NW ND H. exact (order_yhb P ms W NW ND n a y tr H p t d e m k l1 l2). Qed.
Theorem C70_no_data_race_partial :
  forall P ms n a y tr u t m k x b, wf_any P ms -> p_wrap P = false -> (forall q, NoDup (uniq P q)) ->
  behaved P -> children_covered P -> inner_private P -> keeps_clear P -> yhist P ms n a y tr ->
  ydoes tr m (LAct (Some u) b) -> ydoes tr k (LAct (Some t) x) -> acts_conflict b x -> m = k \/ yhb tr m k \/ yhb tr k m.
Proof. intros P ms n a y tr u t m k x b W NW ND BH CC IP KC H. exact (race_yhb P ms W NW ND n a y tr H u t m k x b BH CC IP KC). Qed.
Lemma fork_within q t : within fork q t -> q = t \/ q = 0 /\ (t = 1 \/ t = 2).
Proof. induction 1 as [|b c H IH S]; auto. destruct b as [|[|[|[|b]]]]; [..|destruct b]; ins S; lia. Qed.
Lemma fork_behaved : behaved fork.
Proof. intros t a H. destruct t as [|[|[|[|t]]]]; [..|destruct t]; ins H; eexists; eexists; (split; [left; reflexivity|simpl; auto]). Qed.
Lemma fork_nested : children_covered fork /\ inner_private fork.
Proof.
  split.
  - intros q c H. destruct q as [|[|[|[|q]]]]; [..|destruct q]; ins H; vm_compute; reflexivity.
  - intros q c a H Ha L. destruct q as [|[|[|[|q]]]]; [..|destruct q]; ins H; ins Ha; simpl in L; lia.
Qed.
Lemma fork_clear : keeps_clear fork.
Proof.
  apply forks_clear; [exact fork_joins|]. intros q pre c mid a post E.
  destruct q as [|[|[|[|q]]]]; [..|destruct q].
  - destruct pre as [|i0 [|i1 [|i2 pre]]]; simpl in E; try discriminate E.
    + left. destruct mid as [|j1 [|j2 [|j3 [|j4 mid]]]]; simpl in E; try discriminate E; injection E; intros; subst; simpl; auto;
        try (destruct mid; discriminate).
    + left. destruct mid as [|j1 [|j2 [|j3 mid]]]; simpl in E; try discriminate E; injection E; intros; subst; simpl; auto;
        try (destruct mid; discriminate).
    + destruct pre as [|i3 [|i4 [|i5 pre]]]; simpl in E; try discriminate E; destruct pre; discriminate E.
  - destruct pre as [|i0 [|i1 pre]]; discriminate E.
  - destruct pre as [|i0 [|i1 pre]]; discriminate E.
  - destruct pre as [|i0 [|i1 pre]]; discriminate E.
  - destruct pre; discriminate E.
  - destruct pre; discriminate E.
Qed.
(** task 1 writes the cell between the write of task 0 before, and its read after the wait; task 3
    reads it *)
Example C70_race_ex : wf_any fork fork_ms /\ behaved fork /\ children_covered fork /\ inner_private fork /\ keeps_clear fork /\ ~ keeps_off fork /\
  yhist fork fork_ms 2 true away_end away_tr /\
  ydoes away_tr 38 (LAct (Some 0) (mkAct 0 TIO KWrite 5)) /\ ydoes away_tr 83 (LAct (Some 1) (mkAct 0 TIO KWrite 7)) /\
  ydoes away_tr 149 (LAct (Some 0) (mkAct 0 TIO KRead 0)) /\ ydoes away_tr 173 (LAct (Some 3) (mkAct 0 TIO KRead 0)) /\
  acts_conflict (mkAct 0 TIO KWrite 5) (mkAct 0 TIO KWrite 7) /\ acts_conflict (mkAct 0 TIO KWrite 7) (mkAct 0 TIO KRead 0) /\
  map (who away_tr) [38; 83; 149; 173] = [Some 1; Some 2; Some 2; Some 2] /\
  comes_before fork fork_ms 0 3 /\ tasks_conflict fork 0 3.
Proof.
  split; [exact fork_wf|]. split; [exact fork_behaved|]. split; [exact (proj1 fork_nested)|]. split; [exact (proj2 fork_nested)|].
  split; [exact fork_clear|]. split.
  { intros K. refine (K 0 [cell 0 KWrite 5%Z] 1 [ISpawn 2; IGet 1; IGet 2; cell 0 KRead 0] (mkAct 0 TIO KRead 0) 1 (mkAct 0 TIO KWrite 7) eq_refl _ (within_self _ _) _ _); [simpl; auto 6|simpl; auto|].
    exists 0, TIO, KRead, KWrite, 0%Z, 7%Z. repeat split. }
  split; [exact away_yhist|]. split; [ydid|]. split; [ydid|]. split; [ydid|]. split; [ydid|].
  split; [exists 0, TIO, KWrite, KWrite, 5%Z, 7%Z; repeat split|]. split; [exists 0, TIO, KWrite, KRead, 7%Z, 0%Z; repeat split|].
  split; [vm_compute; reflexivity|]. destruct C63_order_ex as (_ & _ & _ & _ & _ & _ & _ & B & C & _). auto.
Qed.
(** In programs whose bodies wait for all tasks they emplace the condition on the ends of bodies
    is no restriction. *)
Theorem C70_no_data_race_in_fork_join_programs_partial :
  forall P ms n a k y ord, wf_any P ms -> p_wrap P = false -> (forall q, NoDup (uniq P q)) ->
  (forall t c, In (ISpawn c) (body P (Some t)) -> In (IGet c) (body P (Some t))) -> clear_forks P ->
  behaved P -> children_covered P -> inner_private P -> yall P ms n a k y ord ->
  exists tr, yhist P ms n a y tr /\ length tr = k /\ forall u t m j x b,
  ydoes tr m (LAct (Some u) b) -> ydoes tr j (LAct (Some t) x) -> acts_conflict b x -> m = j \/ yhb tr m j \/ yhb tr j m.
Proof.
  intros P ms n a k y ord W NW ND FJ CF BH CC IP R. apply (C63_fork_join_programs_are_covered P ms n a k y ord W NW ND FJ) in R.
  destruct (proj1 (C70_every_execution_has_a_history P ms n a y k) (ex_intro _ ord R)) as (tr & H & L). exists tr. split; [exact H|]. split; [exact L|].
  intros u t m j x b. exact (C70_no_data_race_partial P ms n a y tr u t m j x b W NW ND BH CC IP (forks_clear P FJ CF) H).
Qed.

(** ** Submission, waiting, memory *)
(** What the body of a task did before it emplaces another one, on whichever threads, and what
    the thread did that emplaces it, happens before what the new task and its descendants do. *)
Theorem C70_submission_hands_over_partial :
  forall P ms n a y tr c t i k l, wf_any P ms -> p_wrap P = false -> (forall q, NoDup (uniq P q)) -> yhist P ms n a y tr ->
  ydoes tr i (LSpawn c) -> within P c t -> ydoes tr k l -> made_by P l = Some t ->
  yhb tr i k /\ (forall q m, parent P c = Some q -> of_body P tr m q -> m < i -> yhb tr m k) /\
  (forall m, m < i -> who tr m = who tr i -> yhb tr m k).
Proof.
  intros P ms n a y tr c t i k l W NW ND H D1 Wd D2 A. assert (B := submit_yhb P ms W NW ND n a y tr H c t i k l D1 Wd D2 A). split; [exact B|]. split.
  - intros q m Pc O L. apply (yhb_trans tr m i k); auto. apply (body_yhb P ms W NW ND n a y tr H m i q); auto. right. exists (LSpawn c). split; auto.
  - intros m L E. apply (yhb_trans tr m i k); auto. destruct D1 as (b & Eb & _). unfold who in E. rewrite Eb in E. simpl in E.
    destruct (nth_error tr m) as [b'|] eqn:Eb'; [|discriminate]. injection E as E. eapply yhb_po; eauto.
Qed.
(** get() returns after everything the task did; barrier() after everything the tasks did that
    were emplaced before it, and their descendants *)
Theorem C70_waiting_sees_the_bodies_partial :
  forall P ms n a y tr, wf_any P ms -> p_wrap P = false -> (forall q, NoDup (uniq P q)) -> yhist P ms n a y tr ->
  (forall c m k l, ydoes tr k (LGet c) -> ydoes tr m l -> made_by P l = Some c -> yhb tr m k) /\
  (forall p d i m k l, ydoes tr k LBarrier -> ydoes tr i (LSpawn p) -> i < k -> parent P p = None -> within P p d ->
    ydoes tr m l -> made_by P l = Some d -> yhb tr m k).
Proof.
  intros P ms n a y tr W NW ND H. split.
  - exact (get_yhb P ms W NW ND n a y tr H).
  - exact (barrier_yhb P ms W NW ND n a y tr H).
Qed.
Theorem C70_memory_is_freed_after_the_last_use_partial :
  forall P ms n a y tr t k, wf_any P ms -> p_wrap P = false -> (forall q, NoDup (uniq P q)) -> yhist P ms n a y tr -> ydoes tr k (LFree t) ->
  (forall d m l, within P t d -> ydoes tr m l -> made_by P l = Some d -> yhb tr m k) /\
  (forall m, ydoes tr m (LGet t) \/ ydoes tr m (LDrop t) -> yhb tr m k).
Proof. intros P ms n a y tr t k W NW ND H. exact (free_yhb P ms W NW ND n a y tr H t k). Qed.
Example C70_waiting_ex : wf_any fork fork_ms /\ yhist fork fork_ms 2 true away_end away_tr /\
  ydoes away_tr 42 (LSpawn 2) /\ of_body fork away_tr 38 0 /\ ydoes away_tr 117 (LAct (Some 2) (mkAct 0 TIO KRead 0)) /\ map (who away_tr) [42; 117] = [Some 1; Some 2] /\
  ydoes away_tr 186 (LGet 3) /\ ydoes away_tr 173 (LAct (Some 3) (mkAct 0 TIO KRead 0)) /\ map (who away_tr) [173; 186] = [Some 2; Some 0] /\
  ydoes away_tr 192 LBarrier /\ ydoes away_tr 0 (LSpawn 0) /\ within fork 0 1 /\ ydoes away_tr 83 (LAct (Some 1) (mkAct 0 TIO KWrite 7)) /\ parent fork 0 = None /\
  ydoes away_tr 165 (LFree 0) /\ ydoes away_tr 6 (LDrop 0).
Proof.
  split; [exact fork_wf|]. split; [exact away_yhist|]. split; [ydid|].
  split. { right. exists (LAct (Some 0) (mkAct 0 TIO KWrite 5)). split; [ydid|reflexivity]. }
  split; [ydid|]. split; [vm_compute; reflexivity|]. split; [ydid|]. split; [ydid|]. split; [vm_compute; reflexivity|].
  split; [ydid|]. split; [ydid|]. split. { apply (within_step fork 0 0 1); [constructor|simpl; auto]. }
  split; [ydid|]. split; [reflexivity|]. split; ydid.
Qed.

(** ** The counter of the pre event is needed *)
(** the same history, some objects not synchronising (relaxed memory order) *)
Definition yrelaxed (sync : obj -> bool) (tr : list yrec) : list yrec :=
  map (fun b => mkYRec (mkRec (r_who (y_rec b)) (filter sync (r_acq (y_rec b))) (filter sync (r_rel (y_rec b))) (r_log (y_rec b))) (y_set b) (y_turn b)) tr.
Definition not_pre (x : obj) : bool := match x with OCtr (EPre _) => false | _ => true end.
Lemma yhb_hb tr m k : yhb tr m k -> hb (map y_rec tr) m k.
Proof.
  induction 1 as [m n a b Ea Eb L E|m n a b x Ea Eb L R A _|l m n _ H1 _ H2].
  - eapply hb_po; eauto using map_nth_error.
  - eapply hb_sw; eauto using map_nth_error.
  - eapply hb_trans; eauto.
Qed.
(** Leaving the body, and taking it up again, by two threads: not ordered without the counter of
    the pre event. *)
Theorem C70_a_body_goes_on_without_the_counter_refuted :
  exists P ms n y tr m k t, wf_any P ms /\ p_wrap P = false /\ (forall q, NoDup (uniq P q)) /\ yhist P ms n true y tr /\
  option_map y_turn (nth_error tr m) = Some (Some (TPause t)) /\ option_map y_turn (nth_error tr k) = Some (Some (TResume t)) /\
  m < k /\ yhb tr m k /\ ~ yhb (yrelaxed not_pre tr) m k /\ ~ yhb (yrelaxed not_pre tr) k m.
Proof.
  exists fork, fork_ms, 2, away_end, away_tr, 45, 136, 0.
  destruct C70_body_ex as (W & ND & H & _ & B1 & B2 & _ & _ & T1 & T2).
  split; [exact W|]. split; [reflexivity|]. split; [exact ND|]. split; [exact H|]. split; [exact T1|]. split; [exact T2|]. split; [lia|].
  split; [apply (C70_a_body_goes_on_where_it_was_left_partial fork fork_ms 2 true away_end away_tr 45 136 0 W eq_refl ND H B1 B2); lia|].
  split; intros X; apply yhb_hb in X; revert X; apply not_hb; vm_compute; reflexivity.
Qed.

Definition all_pause_hb := (@C70_every_execution_has_a_history, @C70_the_history_is_the_log, @C70_history_ex, @C70_a_body_goes_on_where_it_was_left_partial,
  @C70_body_ex, @C70_each_thread_keeps_its_order_partial, @C70_no_data_race_partial, @C70_race_ex, @C70_no_data_race_in_fork_join_programs_partial,
  @C70_submission_hands_over_partial, @C70_waiting_sees_the_bodies_partial, @C70_memory_is_freed_after_the_last_use_partial, @C70_waiting_ex,
  @C70_a_body_goes_on_without_the_counter_refuted).
Print Assumptions all_pause_hb.
