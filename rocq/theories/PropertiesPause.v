(** Task bodies that wait for futures (C63).

    get() inside a task leaves the task; the worker goes on with other work.  With the two
    races of C30 ([visit_ok], [take_ok]) left out, every execution is, as far as the history
    tells, one in which the waiting body blocks a thread of its own, and what C62 shows about
    those holds here; with one worker already nothing gets stuck.  With either race that is
    lost. *)
From Coq Require Import Bool List Arith NArith ZArith Lia Permutation Sorting.Sorted.
From Verif Require Import AccessModel AccessSpec AccessProof UserModel UserProof SchedModel SchedSpec SchedBase SchedInv1 SchedInv2 SchedInv3 SchedInv8 SchedFront SchedThm SchedLive SchedTerm SchedStack SchedSeq SchedMore SchedEx SchedMany SchedValue SchedFree NestSpec PropertiesSched PropertiesMany PropertiesNest PropertiesFree PauseModel PauseSpec PauseProof PauseInv PauseThm PauseLive PauseJoin PauseTerm.
Import ListNotations.
Open Scope nat_scope.

(** ** Checkers *)
Definition yend_okb (P : prog) (y : ystate) (i : nat) : bool :=
  match nth_error (ythr y) i with
  | Some (YF (FBody (Some q) []) :: _) =>
      forallb (fun c => negb (onat_eqb (parent P c) (Some q)) ||
                        existsb (fun l => match l with LInit d => Nat.eqb d c | _ => false end) (log (yst y))) (submissions (log (yst y)))
  | _ => true
  end.
Lemma yend_okb_ok P y i : yend_okb P y i = true -> yend_ok P y i.
Proof.
  unfold yend_okb. intros H q gs E c Hp Hs. rewrite E in H. rewrite forallb_forall in H. apply submissions_in in Hs. specialize (H c Hs).
  rewrite Hp in H. simpl in H. rewrite Nat.eqb_refl in H. simpl in H. apply existsb_exists in H as (x & Hx & X). destruct x; try discriminate.
  apply Nat.eqb_eq in X. now subst.
Qed.
Definition visit_okb (y : ystate) (i : nat) : bool :=
  match nth_error (ythr y) i with
  | Some (YNote t :: _) => forallb (fun g => match g with YUp q _ true => negb (Nat.eqb q t) | _ => true end) (yframes y)
  | _ => true
  end.
Lemma visit_okb_ok y i : visit_okb y i = true -> visit_ok y i.
Proof.
  unfold visit_okb. intros H t gs E c Hc. rewrite E in H. rewrite forallb_forall in H. specialize (H _ Hc). simpl in H. rewrite Nat.eqb_refl in H. discriminate.
Qed.
Definition take_okb (y : ystate) (i : nat) : bool :=
  match nth_error (ythr y) i with
  | Some (YF (FNotify3 (ERSet c) Z0 _) :: _) => forallb (fun g => match g with YPush _ d => negb (Nat.eqb d c) | _ => true end) (yframes y)
  | _ => true
  end.
Lemma take_okb_ok y i : take_okb y i = true -> take_ok y i.
Proof.
  unfold take_okb. intros H c k gs E t Ht. rewrite E in H. rewrite forallb_forall in H. specialize (H _ Ht). simpl in H. rewrite Nat.eqb_refl in H. discriminate.
Qed.
(** runs that respect the conditions; [a] as in [yreach] *)
Definition okb (P : prog) (a : bool) (y : ystate) (i : nat) : bool := yend_okb P y i && visit_okb y i && (negb a || take_okb y i).
Fixpoint yrunc (P : prog) (a : bool) (y : ystate) (l : list (nat * pick)) : option ystate :=
  match l with
  | [] => Some y
  | (i, c) :: l => if okb P a y i then match ystep P y i c with Some y' => yrunc P a y' l | None => None end else None
  end.
Fixpoint yentries (P : prog) (y : ystate) (l : list (nat * pick)) : list (nat * nat) :=
  match l with
  | [] => []
  | (i, c) :: l => match nth_error (ythr y) i with Some (YF (FSub _ t (r :: _) _) :: _) => [(r, t)] | _ => [] end
                   ++ match ystep P y i c with Some y' => yentries P y' l | None => [] end
  end.
Lemma yrunc_yreach P ms n a l : forall y k ord y', yreach P ms n a k y ord -> yrunc P a y l = Some y' ->
  exists ord', yreach P ms n a (k + length l) y' ord' /\ forall r, ord' r = ord r ++ order_in (yentries P y l) r.
Proof.
  induction l as [|[i c] l IH]; intros y k ord y' R; simpl.
  - intros H; injection H as <-. exists ord. rewrite Nat.add_0_r. split; auto. intros r. unfold order_in. simpl. now rewrite app_nil_r.
  - destruct (okb P a y i) eqn:E; [|discriminate]. destruct (ystep P y i c) as [y1|] eqn:S; [|discriminate]. intros H.
    unfold okb in E. rewrite !andb_true_iff in E. destruct E as [[E1 E2] E3].
    assert (R1 : yreach P ms n a (Datatypes.S k) y1 (fun r => ord r ++ yenters y i r)).
    { apply (yreach_step P ms n a k y ord i c); auto using yend_okb_ok, visit_okb_ok. intros ->. now apply take_okb_ok. }
    destruct (IH y1 (Datatypes.S k) _ y' R1 H) as (ord' & R' & O).
    exists ord'. rewrite Nat.add_succ_r. split; auto. intros r. rewrite O, <- app_assoc. f_equal. unfold order_in, yenters.
    destruct (nth_error (ythr y) i) as [[|g gs]|]; auto. destruct g; auto. destruct f; auto. destruct rs as [|x rs]; auto.
    simpl. destruct (Nat.eqb x r); reflexivity.
Qed.
Lemma yrunc_init P ms n a l y : yrunc P a (yinit P ms n) l = Some y ->
  exists ord, yreach P ms n a (length l) y ord /\ forall r, ord r = order_in (yentries P (yinit P ms n) l) r.
Proof. intros H. destruct (yrunc_yreach P ms n a l _ 0 _ y (yreach_init _ _ _ _) H) as (ord & R & O). exists ord. auto. Qed.
(** moves: [k] times the first of [o] that is possible *)
Fixpoint yfirst (P : prog) (ok : ystate -> nat -> bool) (y : ystate) (o : list (nat * pick)) : option ((nat * pick) * ystate) :=
  match o with
  | [] => None
  | (i, c) :: o => if ok y i then match ystep P y i c with Some y' => Some ((i, c), y') | None => yfirst P ok y o end else yfirst P ok y o
  end.
Fixpoint yplan (P : prog) (ok : ystate -> nat -> bool) (o : list (nat * pick)) (k : nat) (y : ystate) : list (nat * pick) * ystate :=
  match k with
  | O => ([], y)
  | S k => match yfirst P ok y o with Some (m, y') => let (l, z) := yplan P ok o k y' in (m :: l, z) | None => ([], y) end
  end.
Fixpoint yphases (P : prog) (ok : ystate -> nat -> bool) (l : list (list (nat * pick) * nat)) (y : ystate) : list (nat * pick) :=
  match l with
  | [] => []
  | (o, k) :: l => let (m, z) := yplan P ok o k y in m ++ yphases P ok l z
  end.
Definition ystuckb (P : prog) (y : ystate) : bool :=
  forallb (fun i => match nth_error (ythr y) i with
                    | Some [] => match rdy (yst y), emp (yst y), ext (yst y) with [], [], [] => true | _, _, _ => false end
                    | Some (g :: _) => match yfstep P y g with None => true | _ => false end
                    | None => true
                    end) (seq 0 (length (ythr y))).
Lemma ystuckb_ok P y : ystuckb P y = true -> forall i c, ystep P y i c = None.
Proof.
  unfold ystuckb. rewrite forallb_forall. intros H i c. unfold ystep. destruct (nth_error (ythr y) i) as [st|] eqn:E; auto.
  assert (L : i < length (ythr y)) by (apply nth_error_Some; congruence). specialize (H i (proj2 (in_seq _ _ _) (conj (Nat.le_0_l i) L))).
  rewrite E in H. destruct st as [|g gs].
  - destruct (rdy (yst y)) eqn:E1, (emp (yst y)) eqn:E2, (ext (yst y)) eqn:E3; try discriminate.
    unfold yistep, istep. rewrite E1, E2, E3. destruct c as [[]|[]|[]]; reflexivity.
  - destruct (yfstep P y g); [discriminate|reflexivity].
Qed.
(** programs with bodies that wait: as [wfb] asks, but for that *)
Definition hush (i : instr) : instr := match i with IGet c => IDrop c | _ => i end.
Definition hushed (d : tdef) : tdef := mkTdef (t_parent d) (t_user d) (map hush (t_body d)).
Lemma hush_spawns m : spawns (map hush m) = spawns m.
Proof. induction m as [|[] m IH]; simpl; auto. now rewrite IH. Qed.
Lemma hush_uses c m : uses c (map hush m) = uses c m.
Proof. induction m as [|[] m IH]; simpl; auto. Qed.
Lemma hush_creates c m : creates c (map hush m) = creates c m.
Proof. induction m as [|[] m IH]; simpl; auto. Qed.
Lemma wfb_many ms ds w : wfb (concat ms) (map hushed ds) = true -> forallb (use_after []) ms = true -> wf_many (lprog (concat ms) ds w) ms.
Proof.
  intros H U. assert (W := wf_wf_many _ ms (wfb_ok _ _ w H) eq_refl U).
  assert (TK : forall t, p_task (lprog (concat ms) (map hushed ds) w) t = hushed (p_task (lprog (concat ms) ds w) t)).
  { intros t. simpl. change no_task with (hushed no_task) at 1. apply map_nth. }
  assert (BT : forall t, body (lprog (concat ms) (map hushed ds) w) (Some t) = map hush (body (lprog (concat ms) ds w) (Some t))).
  { intros t. unfold body. now rewrite TK. }
  assert (US : forall t, user (lprog (concat ms) (map hushed ds) w) t = user (lprog (concat ms) ds w) t) by (intros; unfold user; now rewrite TK).
  assert (UQ : forall t, uniq (lprog (concat ms) (map hushed ds) w) t = uniq (lprog (concat ms) ds w) t) by (intros; unfold uniq; now rewrite US).
  assert (SP : forall o, spawns (body (lprog (concat ms) (map hushed ds) w) o) = spawns (body (lprog (concat ms) ds w) o)).
  { intros [t|]; [|reflexivity]. rewrite BT. apply hush_spawns. }
  assert (IS : forall o c, In (ISpawn c) (body (lprog (concat ms) ds w) o) -> In (ISpawn c) (body (lprog (concat ms) (map hushed ds) w) o)).
  { intros o c Hc. apply spawns_In. rewrite SP. now apply spawns_In. }
  destruct W as [[A1 A2 A3 A4 A5 A6 A7 A8 A10 A11 A12] A9]. split; [split; auto|].
  - intros o c Hc. rewrite <- (A3 o c (IS o c Hc)). unfold parent. now rewrite TK.
  - intros o. rewrite <- SP. apply A5.
  - intros [t|] c; [|exact (A6 None c)]. rewrite <- hush_uses, <- BT. apply A6.
  - intros [t|] m pre i post c C E Hu; simpl in C.
    + assert (X := A7 (Some t) (map hush (body (lprog (concat ms) ds w) (Some t))) (map hush pre) (hush i) (map hush post) c).
      rewrite hush_spawns in X. apply X.
      * simpl. symmetry. apply (BT t).
      * unfold body. simpl. rewrite <- C, E, map_app. reflexivity.
      * destruct Hu as [-> | ->]; [now left|]. now left.
    + exact (A7 None m pre i post c C E Hu).
  - intros t e. rewrite <- hush_creates, <- BT. apply A8.
  - intros t b Hb. rewrite <- UQ. apply A10. now rewrite US.
  - intros t1 t2 b1 b2 H1 H2. apply (A11 t1 t2 b1 b2); now rewrite US.
  - intros t b Hb. apply (A12 t). now rewrite US.
  - intros t Hb. apply (A9 t). rewrite BT. apply in_map_iff. exists IBarrier. auto.
Qed.

(** ** Examples *)
(** task 0 emplaces 1 and 2, which conflict, waits for both and uses what they did; task 3 follows it *)
Definition fork_tasks : list tdef :=
  [mkTdef None (declare 0 [acc 0 MWrite] []) [cell 0 KWrite 5%Z; ISpawn 1; ISpawn 2; IGet 1; IGet 2; cell 0 KRead 0];
   mkTdef (Some 0) (declare 0 [acc 0 MWrite] []) [cell 0 KWrite 7%Z];
   mkTdef (Some 0) (declare 0 [acc 0 MRead] []) [cell 0 KRead 0%Z];
   mkTdef None (declare 0 [acc 0 MRead] []) [cell 0 KRead 0]].
Definition fork_ms : list (list instr) := [[ISpawn 0; ISpawn 3; IDrop 0; IGet 3; IBarrier]].
Definition fork : prog := lprog (concat fork_ms) fork_tasks false.
Definition fork_moves : list (nat * pick) := yphases fork (okb fork true) [([(0, PNew 0)], 20); (moves_of 1 ++ moves_of 0, 400)] (yinit fork fork_ms 1).
Definition fork_end : ystate := match yrunc fork true (yinit fork fork_ms 1) fork_moves with Some y => y | None => yinit fork fork_ms 0 end.
Lemma fork_yreach : exists ord, yreach fork fork_ms 1 true (length fork_moves) fork_end ord /\ forall r, ord r = order_in [(0, 0); (0, 3); (0, 1); (0, 2)] r.
Proof.
  unfold fork_end. destruct (yrunc fork true (yinit fork fork_ms 1) fork_moves) as [y|] eqn:E.
  - destruct (yrunc_init fork fork_ms 1 true fork_moves y E) as (ord & R & O). exists ord. split; [exact R|].
    intros r. rewrite O. assert (X : yentries fork (yinit fork fork_ms 1) fork_moves = [(0, 0); (0, 3); (0, 1); (0, 2)]) by (vm_compute; reflexivity). now rewrite X.
  - exfalso. apply (f_equal (fun x => match x with Some _ => true | None => false end)) in E. vm_compute in E. discriminate.
Qed.
Lemma fork_wf : wf_many fork fork_ms.
Proof. apply wfb_many; vm_compute; reflexivity. Qed.
Lemma fork_nodup t : NoDup (uniq fork t).
Proof.
  destruct t as [|[|[|[|t]]]].
  1-4: unfold uniq, user, fork, lprog; simpl; repeat (constructor; [simpl; lia|]); constructor.
  unfold fork, lprog, uniq, user; simpl. destruct t; constructor.
Qed.
Lemma fork_joins : fork_join fork.
Proof.
  intros t c H. destruct t as [|[|[|[|t]]]]; simpl in H |- *.
  1-4: repeat (destruct H as [H|H]; [first [discriminate H | injection H as <-; auto 10]|]); destruct H.
  destruct t; destruct H.
Qed.
Lemma fork_stuck : forall i c, ystep fork fork_end i c = None.
Proof. apply ystuckb_ok. vm_compute. reflexivity. Qed.
Lemma fork_sorted r : StronglySorted (fun a b => rk_of [0; 3; 1; 2] a < rk_of [0; 3; 1; 2] b) (order_in [(0, 0); (0, 3); (0, 1); (0, 2)] r).
Proof. destruct r as [|r]; unfold order_in; simpl; repeat constructor. Qed.

(** [_partial]: executions without the two races ([yreach]); the claims for all executions
    are refuted at the end. *)
(** ** Blocking threads *)
(** Every execution has the history and the orders of entry of one of the machine of C62, in
    which a body that waits keeps a thread, in no more steps. *)
Theorem C63_as_if_waiting_bodies_had_threads_partial :
  forall P ms n a k y ord, wf_any P ms -> p_wrap P = false -> (forall q, NoDup (uniq P q)) -> yreach P ms n a k y ord ->
  exists n' k' s ord', freach P ms n' k' s ord' /\ k' <= k /\ log s = log (yst y) /\ users s = users (yst y) /\ forall r, ord' r = ord r.
Proof.
  intros P ms n a k y ord W NW ND R.
  assert (X : exists k', k' <= k /\ refines P ms a k' y ord).
  { induction R as [|k y ord i c y' R IH EO VO TO H]; [exists 0; split; auto; apply ref_init|].
    destruct IH as (k' & L & n' & s & ord' & R' & EQ & C & T).
    destruct (ref_step P ms W NW ND a y n' k' s ord' R' C T i c y' EO VO TO H) as (n2 & s2 & ord2 & R2 & EQ2 & C2 & T2).
    eexists. split; [|exists n2, s2, ord2; split; [exact R2|]; split; [intros r; now rewrite EQ2, EQ|]; auto]. destruct (visible y i c); lia. }
  destruct X as (k' & L & n' & s & ord' & R' & EQ & C & T). exists n', k', s, ord'. split; [exact R'|]. split; [exact L|].
  split; [exact (sm_log _ _ _ (co_sim y s C))|]. split; [exact (sm_users _ _ _ (co_sim y s C))|exact EQ].
Qed.
(** In programs whose bodies wait for all the tasks they emplace, the condition on the ends of
    bodies is no restriction. *)
Theorem C63_fork_join_programs_are_covered :
  forall P ms n a k y ord, wf_any P ms -> p_wrap P = false -> (forall q, NoDup (uniq P q)) ->
  (forall t c, In (ISpawn c) (body P (Some t)) -> In (IGet c) (body P (Some t))) ->
  yall P ms n a k y ord -> yreach P ms n a k y ord.
Proof. intros P ms n a k y ord W NW ND FJ. exact (join_covers P ms W NW ND n a k y ord FJ). Qed.
Example C63_covered_ex : wf_many fork fork_ms /\ p_wrap fork = false /\ (forall q, NoDup (uniq fork q)) /\
  (forall t c, In (ISpawn c) (body fork (Some t)) -> In (IGet c) (body fork (Some t))) /\
  (exists ord, yreach fork fork_ms 1 true (length fork_moves) fork_end ord /\ yall fork fork_ms 1 true (length fork_moves) fork_end ord) /\
  length fork_moves = 193.
Proof.
  split; [exact fork_wf|]. split; [reflexivity|]. split; [exact fork_nodup|]. split; [exact fork_joins|]. split; [|vm_compute; reflexivity].
  destruct fork_yreach as (ord & R & _). exists ord. split; [exact R|]. clear -R. generalize dependent (length fork_moves). intros k R.
  induction R; econstructor; eauto.
Qed.

(** ** One place *)
Definition at_body (t : nat) (g : yframe) : bool := match g with YF (FBody (Some q) _ | FSub (Some q) _ _ _) => Nat.eqb q t | _ => false end.
(** A body is on one stack or suspended; no two workers resume it. *)
Theorem C63_a_body_is_at_one_place_partial :
  forall P ms n a k y ord t, wf_any P ms -> p_wrap P = false -> (forall q, NoDup (uniq P q)) -> yreach P ms n a k y ord ->
  length (filter (at_body t) (yframes y)) + length (filter (fun p => Nat.eqb (fst p) t) (ycont y)) <= 1 /\ ~ In (YTwice t) (yframes y).
Proof.
  intros P ms n a k y ord t W NW ND R. destruct (pause_refines P ms W NW ND n a k y ord R) as (k' & n' & s & ord' & R' & EQ & C & T).
  split; [|exact (tk_twice T t)].
  destruct (free_once P ms W NW n' ND k' s ord' t R') as (_ & _ & _ & _ & B).
  assert (Q : (zsum (is_body (Some t)) (frames s) <= 1)%Z).
  { assert (0 <= zsum (w_token t) (frames s))%Z by (apply zsum_nonneg; intros f _; pose proof (w_nn t f); tauto).
    assert (0 <= zsum (w_run t) (frames s))%Z by (apply zsum_nonneg; intros f _; pose proof (w_nn t f); tauto).
    pose proof (rdy_nonneg t (rdy s)). lia. }
  rewrite (zsum_perm _ _ _ (co_frames y s C)), zsum_app in Q.
  assert (L1 : zsum (is_body (Some t)) (erase (yframes y)) = Z.of_nat (length (filter (at_body t) (yframes y)))).
  { clear. induction (yframes y) as [|g l IH]; [reflexivity|]. unfold erase in *. simpl flat_map. rewrite zsum_app, IH. destruct g; simpl; try lia.
    destruct f; simpl; try lia; try (destruct e; simpl; lia). all: destruct o as [q|]; simpl; [|lia]; destruct (q =? t); simpl length; unfold zb; lia. }
  assert (L2 : zsum (is_body (Some t)) (map (fun p => FBody (Some (fst p)) (snd p)) (ycont y)) = Z.of_nat (length (filter (fun p => Nat.eqb (fst p) t) (ycont y)))).
  { clear. induction (ycont y) as [|p l IH]; [reflexivity|]. simpl map. cbn [zsum]. rewrite IH. simpl. destruct (fst p =? t); simpl length; unfold zb; lia. }
  lia.
Qed.
Theorem C63_bodies_run_once_partial :
  forall P ms n a k y ord t, wf_many P ms -> p_wrap P = false -> (forall q, NoDup (uniq P q)) -> yreach P ms n a k y ord ->
  not_twice (LExec t) (log (yst y)) /\ not_twice (LStart t) (log (yst y)) /\ not_twice (LEnd t) (log (yst y)) /\
  (started (yst y) t -> In (LInit t) (log (yst y))).
Proof.
  intros P ms n a k y ord t W NW ND R. destruct (pause_refines P ms W NW ND n a k y ord R) as (k' & n' & s & ord' & R' & _ & C & _).
  unfold started. rewrite <- (sm_log _ _ _ (co_sim y s C)). exact (C62_bodies_run_once P ms n' k' s ord' t W NW ND R').
Qed.
(** ** Order *)
Theorem C63_conflicting_tasks_are_ordered_partial :
  forall P ms n a k y ord p t, wf_many P ms -> p_wrap P = false -> (forall q, NoDup (uniq P q)) -> yreach P ms n a k y ord ->
  parent P p = parent P t -> tasks_conflict P p t -> p <> t -> started (yst y) p -> started (yst y) t ->
  ahead (log (yst y)) p t \/ ahead (log (yst y)) t p.
Proof.
  intros P ms n a k y ord p t W NW ND R. destruct (pause_refines P ms W NW ND n a k y ord R) as (k' & n' & s & ord' & R' & _ & C & _).
  unfold started. rewrite <- (sm_log _ _ _ (co_sim y s C)). exact (C62_conflicting_tasks_are_ordered P ms n' k' s ord' p t W NW ND R').
Qed.
Theorem C63_each_thread_keeps_its_order_partial :
  forall P ms n a k y ord p t, wf_many P ms -> p_wrap P = false -> (forall q, NoDup (uniq P q)) -> yreach P ms n a k y ord ->
  comes_before P ms p t -> tasks_conflict P p t -> started (yst y) t -> ahead (log (yst y)) p t.
Proof.
  intros P ms n a k y ord p t W NW ND R. destruct (pause_refines P ms W NW ND n a k y ord R) as (k' & n' & s & ord' & R' & _ & C & _).
  unfold started. rewrite <- (sm_log _ _ _ (co_sim y s C)). exact (C62_each_thread_keeps_its_order P ms n' k' s ord' p t W NW ND R').
Qed.
(** When get(), in a thread or in a body, gives the value of [c], the body of [c] has ended, and a task is complete only
    after its children, however it waited for them. *)
Theorem C63_get_waits_and_children_come_first_partial :
  forall P ms n a k y ord, wf_any P ms -> p_wrap P = false -> (forall q, NoDup (uniq P q)) -> yreach P ms n a k y ord ->
  (forall c l1 l2, log (yst y) = l1 ++ LGet c :: l2 -> In (LEnd c) l2) /\
  (forall c q, completed (yst y) q -> parent P c = Some q -> submitted (yst y) c -> completed (yst y) c /\ ended (yst y) c).
Proof.
  intros P ms n a k y ord W NW ND R. destruct (pause_refines P ms W NW ND n a k y ord R) as (k' & n' & s & ord' & R' & _ & C & _).
  assert (MR := freach_mreach P ms W NW n' ND k' s ord' R'). unfold completed, submitted, ended. rewrite <- (sm_log _ _ _ (co_sim y s C)). split.
  - intros c l1 l2 E. destruct (mr_get_waits P (wff P ms W ord') NW n' s c l1 l2 MR E) as (s0 & _ & L & En & _). unfold ended in En. now rewrite L in En.
  - intros c q Cq Hp Hs. assert (Cc : completed s c) by exact (mr_children_first P (wff P ms W ord') NW n' s c q MR Cq Hp Hs).
    split; [exact Cc|]. exact (mr_completed_ended P (wff P ms W ord') NW n' s c MR Cc).
Qed.
Example C63_order_ex : wf_many fork fork_ms /\ (forall q, NoDup (uniq fork q)) /\
  (exists ord, yreach fork fork_ms 1 true (length fork_moves) fork_end ord) /\
  parent fork 1 = parent fork 2 /\ tasks_conflict fork 1 2 /\ started (yst fork_end) 1 /\ started (yst fork_end) 2 /\
  comes_before fork fork_ms 0 3 /\ tasks_conflict fork 0 3 /\ started (yst fork_end) 3 /\
  (exists l1 l2, log (yst fork_end) = l1 ++ LGet 1 :: l2) /\ completed (yst fork_end) 0 /\ parent fork 2 = Some 0 /\ submitted (yst fork_end) 2.
Proof.
  split; [exact fork_wf|]. split; [exact fork_nodup|]. split; [destruct fork_yreach as (ord & R & _); eauto|]. split; [reflexivity|].
  split; [exists (acc 0 MWrite), (acc 0 MRead), TIO, MWrite, MRead, KWrite, KRead; repeat split; simpl; auto|].
  split; [inlog|]. split; [inlog|].
  split; [exists None, (nth 0 fork_ms []), [], [], []; split; simpl; auto|].
  split; [exists (acc 0 MWrite), (acc 0 MRead), TIO, MWrite, MRead, KWrite, KRead; repeat split; simpl; auto|].
  split; [inlog|]. split; [apply in_split; inlog|]. split; [inlog|]. split; [reflexivity|inlog].
Qed.
(** half way: task 0 is suspended, its child 1 not yet run *)
Definition fork_half : ystate := match yrunc fork true (yinit fork fork_ms 1) (firstn 60 fork_moves) with Some y => y | None => yinit fork fork_ms 0 end.
Example C63_suspended_ex : (exists ord, yreach fork fork_ms 1 true 60 fork_half ord) /\ map fst (ycont fork_half) = [0] /\
  started (yst fork_half) 0 /\ ~ ended (yst fork_half) 0 /\ ~ started (yst fork_half) 1.
Proof.
  split.
  - unfold fork_half. destruct (yrunc fork true (yinit fork fork_ms 1) (firstn 60 fork_moves)) as [y|] eqn:E.
    + destruct (yrunc_init fork fork_ms 1 true _ y E) as (ord & R & _). exists ord. exact R.
    + exfalso. apply (f_equal (fun x => match x with Some _ => true | None => false end)) in E. vm_compute in E. discriminate.
  - split; [vm_compute; reflexivity|]. split; [inlog|]. split; notin.
Qed.

(** ** Progress *)
Theorem C63_executions_are_bounded_partial :
  forall P ms N, wf_any P ms -> p_wrap P = false -> (forall q, NoDup (uniq P q)) -> (forall o c, In (ISpawn c) (body P o) -> c < N) ->
  exists B, forall n a k y ord, yreach P ms n a k y ord -> k <= B.
Proof.
  intros P ms N W NW ND BD. exists (Z.to_nat (18 * measure P N (init_many P ms 0))). intros n a k y ord R.
  pose proof (pause_bounded P ms W NW ND N BD n a k y ord R). lia.
Qed.
(** With one worker already: if there is an order of the root tasks that their entries into every
    list follow, then everything gets done and no task stays suspended. *)
Theorem C63_no_deadlock_when_the_lists_agree_partial :
  forall P ms n k y ord f, wf_many P ms -> p_wrap P = false -> (forall q, NoDup (uniq P q)) -> 1 <= n -> yreach P ms n true k y ord ->
  (forall r l1 p l2 t l3, ord r = l1 ++ p :: l2 ++ t :: l3 -> parent P p = None -> parent P t = None -> f p < f t) -> ystuck P y ->
  (forall t, submitted (yst y) t -> completed (yst y) t /\ (In (LGet t) (log (yst y)) \/ In (LDrop t) (log (yst y)) -> In (LFree t) (log (yst y)))) /\
  (forall t e, In (LEvent t e) (log (yst y)) -> In (LFire t e) (log (yst y))) /\
  ycont y = [] /\
  (forall g, In g (yframes y) -> exists is, g = YF (FBody None is) /\
     (is = [] \/ exists is' t, is = IBarrier :: is' /\ submitted (yst y) t /\ parent P t = None /\
                               ~ (In (LGet t) (log (yst y)) \/ In (LDrop t) (log (yst y))))).
Proof. intros P ms n k y ord f W NW ND N R SS K. exact (pause_progress P ms W NW ND n k y ord f N R SS K). Qed.
(** One thread submits: nothing is asked of the lists. *)
Theorem C63_no_deadlock_with_one_submitting_thread_partial :
  forall P m n k y ord, wf_many P [m] -> p_wrap P = false -> (forall q, NoDup (uniq P q)) -> 1 <= n -> yreach P [m] n true k y ord -> ystuck P y ->
  (forall t, submitted (yst y) t -> completed (yst y) t /\ (In (LGet t) (log (yst y)) \/ In (LDrop t) (log (yst y)) -> In (LFree t) (log (yst y)))) /\
  (forall t e, In (LEvent t e) (log (yst y)) -> In (LFire t e) (log (yst y))) /\
  ycont y = [] /\
  (forall g, In g (yframes y) -> exists is, g = YF (FBody None is) /\
     (is = [] \/ exists is' t, is = IBarrier :: is' /\ submitted (yst y) t /\ parent P t = None /\
                               ~ (In (LGet t) (log (yst y)) \/ In (LDrop t) (log (yst y))))).
Proof.
  intros P m n k y ord W NW ND N R K. exact (pause_progress P [m] W NW ND n k y ord _ N R (pause_one P [m] W NW ND n true k y ord m eq_refl R) K).
Qed.
Example C63_progress_ex : wf_many fork fork_ms /\ (forall q, NoDup (uniq fork q)) /\ (forall o c, In (ISpawn c) (body fork o) -> c < 4) /\
  (exists ord, yreach fork fork_ms 1 true (length fork_moves) fork_end ord /\
               forall r l1 p l2 t l3, ord r = l1 ++ p :: l2 ++ t :: l3 -> rk_of [0; 3; 1; 2] p < rk_of [0; 3; 1; 2] t) /\
  ystuck fork fork_end /\ submitted (yst fork_end) 1.
Proof.
  split; [exact fork_wf|]. split; [exact fork_nodup|]. split; [|split; [|split; [intros i c _ _; apply fork_stuck|inlog]]].
  - intros [t|] c H; [destruct t as [|[|[|[|t]]]]|]; simpl in H.
    1-4,6: repeat (destruct H as [H|H]; [first [discriminate H | injection H as <-; lia]|]); destruct H.
    destruct t; destruct H.
  - destruct fork_yreach as (ord & R & O). exists ord. split; auto. intros r l1 p l2 t l3. apply sorted_between. rewrite O. apply fork_sorted.
Qed.

(** ** The two races *)
(** task 0 emplaces 1 and waits for it *)
Definition duet_tasks : list tdef :=
  [mkTdef None (declare 0 [acc 0 MWrite] []) [cell 0 KWrite 5%Z; ISpawn 1; IGet 1; cell 0 KRead 0];
   mkTdef (Some 0) (declare 0 [acc 0 MWrite] []) [cell 0 KWrite 7%Z]].
Definition duet_ms : list (list instr) := [[ISpawn 0; IDrop 0; IBarrier]].
Definition duet : prog := lprog (concat duet_ms) duet_tasks false.
Lemma duet_wf : wf_many duet duet_ms.
Proof. apply wfb_many; vm_compute; reflexivity. Qed.
Lemma duet_nodup t : NoDup (uniq duet t).
Proof.
  destruct t as [|[|t]].
  1-2: unfold uniq, user, duet, lprog; simpl; repeat (constructor; [simpl; lia|]); constructor.
  unfold duet, lprog, uniq, user; simpl. destruct t; constructor.
Qed.
Definition twice_moves : list (nat * pick) :=
  yphases duet (fun _ _ => true) [([(0, PNew 0)], 20); ([(1, PNew 0)], 23); ([(2, PNew 0)], 100); ([(1, PNew 0)], 3); ([(1, PReady 0)], 2); ([(2, PReady 0)], 3); ([(1, PNew 0)], 1)] (yinit duet duet_ms 2).
Definition twice_end : ystate := match yrun duet (yinit duet duet_ms 2) twice_moves with Some y => y | None => yinit duet duet_ms 0 end.
(** If the result is set between the count and [up()], two workers resume the task. *)
Theorem C63_one_place_in_every_execution_refuted :
  exists P ms n l y t, wf_many P ms /\ p_wrap P = false /\ (forall q, NoDup (uniq P q)) /\ yrun P (yinit P ms n) l = Some y /\ In (YTwice t) (yframes y).
Proof.
  exists duet, duet_ms, 2, twice_moves, twice_end, 0. split; [exact duet_wf|]. split; [reflexivity|]. split; [exact duet_nodup|].
  split; [vm_compute; reflexivity|]. vm_compute. auto.
Qed.
Definition lost_moves : list (nat * pick) :=
  yphases duet (okb duet false) [([(0, PNew 0)], 20); ([(1, PNew 0)], 21); ([(2, PNew 0)], 100); (moves_of 1 ++ moves_of 2 ++ moves_of 0, 50)] (yinit duet duet_ms 2).
Definition lost_end : ystate := match yrunc duet false (yinit duet duet_ms 2) lost_moves with Some y => y | None => yinit duet duet_ms 0 end.
(** If the followers of the result are visited between the test and the push, the task stays
    suspended, with nothing left to do for anybody. *)
Theorem C63_no_deadlock_in_every_execution_refuted :
  exists P ms n k y ord f t, wf_many P ms /\ p_wrap P = false /\ (forall q, NoDup (uniq P q)) /\ 1 <= n /\ yreach P ms n false k y ord /\
  (forall r, StronglySorted (fun a b => f a < f b) (ord r)) /\ (forall i c, ystep P y i c = None) /\
  submitted (yst y) t /\ ~ completed (yst y) t /\ ycont y <> [].
Proof.
  destruct (yrunc duet false (yinit duet duet_ms 2) lost_moves) as [y|] eqn:E.
  2:{ exfalso. apply (f_equal (fun x => match x with Some _ => true | None => false end)) in E. vm_compute in E. discriminate. }
  assert (Q : lost_end = y) by (unfold lost_end; now rewrite E). 
  destruct (yrunc_init duet duet_ms 2 false _ y E) as (ord & R & O). rewrite <- Q in R.
  exists duet, duet_ms, 2, (length lost_moves), lost_end, ord, (fun t => t), 0.
  split; [exact duet_wf|]. split; [reflexivity|]. split; [exact duet_nodup|]. split; [lia|]. split; [exact R|]. split.
  - intros r. rewrite O. assert (X : yentries duet (yinit duet duet_ms 2) lost_moves = [(0, 0); (0, 1)]) by (vm_compute; reflexivity). rewrite X.
    destruct r as [|r]; unfold order_in; simpl; repeat constructor.
  - split; [apply ystuckb_ok; vm_compute; reflexivity|]. split; [inlog|]. split; [notin|]. vm_compute. discriminate.
Qed.

Definition all_pause := (@C63_as_if_waiting_bodies_had_threads_partial, @C63_fork_join_programs_are_covered, @C63_a_body_is_at_one_place_partial,
  @C63_bodies_run_once_partial, @C63_conflicting_tasks_are_ordered_partial, @C63_each_thread_keeps_its_order_partial, @C63_get_waits_and_children_come_first_partial,
  @C63_executions_are_bounded_partial, @C63_no_deadlock_when_the_lists_agree_partial, @C63_no_deadlock_with_one_submitting_thread_partial, @C63_one_place_in_every_execution_refuted,
  @C63_no_deadlock_in_every_execution_refuted).
Print Assumptions all_pause.
