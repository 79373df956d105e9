(** C30: a suspended task is resumed exactly once. C31: a body without stack switching runs once. *)
From Coq Require Import List Arith Bool Lia.
From Verif Require Import YieldModel YieldProof YieldThm.
Import ListNotations.

(** Vocabulary: [rdy s t] how often [t] lies in the ready queues; [hold (wp s w) = Some t] worker [w]
    works on [t]; [pauses], [acts] how often [t] was suspended / handed to the scheduler (the first time
    included); [last] the event it was last suspended on; [est s e = 0]: [e] is reached. [calm]: the
    notification of an event does not begin its iteration between test and push of the edge of a
    pausing task, and does not visit the edge between its count and [up()]. *)
Section Ex.
Variables (body : nat -> list nat) (ss : nat -> bool) (est0 : nat -> nat).
(** worker [w] goes on; worker [w] takes task [t]; an edge of [e] is removed; the notification of [e] goes on *)
Inductive act := W (w : nat) | Take (w t : nat) | Dn (e : nat) | Nfy (e : nat).
Definition exec (s : st) (a : act) : option (lab * st) :=
  match a with
  | Take w t => match wp s w, rdy s t with
      | WFree, S k => Some (LWork, set_w (mkS (wp s) (pre s) (est s) (fol s) (vp s) (upd (rdy s) t k) (todo s) (ev s) (fin s) (acts s) (pauses s) (last s) (runs s)) w (WStart t))
      | _, _ => None end
  | Dn e => match est s e with
      | S k => Some (LEnv, mkS (wp s) (pre s) (upd (est s) e k) (fol s) (if k =? 0 then upd (vp s) e VDue else vp s) (rdy s) (todo s) (ev s) (fin s) (acts s) (pauses s) (last s) (runs s))
      | 0 => None end
  | Nfy e => match vp s e with
      | VDue => Some (LBegin e, set_v s e (VWalk (length (fol s e))))
      | VWalk (S i) => match nth_error (fol s e) i with Some t => Some (LVisit e t, notify (set_v s e (VWalk i)) t) | None => None end
      | VWalk 0 => Some (LEnv, set_v s e VDone)
      | _ => None end
  | W w => match wp s w with
      | WFree => None
      | WStart t => Some (LWork, set_w (notify s t) w (WRun t))
      | WRun t => Some (LWork, body_step body ss s w t)
      | WStore t e => Some (LWork, set_w (mkS (wp s) (upd (pre s) t 1) (est s) (fol s) (vp s) (rdy s) (todo s) (ev s) (fin s) (acts s) (upd (pauses s) t (S (pauses s t))) (upd (last s) t (Some e)) (runs s)) w (WCheck t e))
      | WCheck t e => Some (LWork, set_w s w (if est s e =? 0 then WUp t e false else WPush t e))
      | WPush t e => Some (LWork, set_w (mkS (wp s) (pre s) (est s) (upd (fol s) e (fol s e ++ [t])) (vp s) (rdy s) (todo s) (ev s) (fin s) (acts s) (pauses s) (last s) (runs s)) w (WInc t e))
      | WInc t e => Some (LWork, set_w (set_pre s t (S (pre s t))) w (WUp t e true))
      | WUp t e p => Some (LWork, set_w (set_pre s t (S (pre s t))) w (WNote t e))
      | WNote t e => Some (LWork, set_w (notify s t) w WFree)
      | WPost t => Some (LWork, set_w (mkS (wp s) (pre s) (est s) (fol s) (vp s) (rdy s) (todo s) (ev s) (upd (fin s) t (S (fin s t))) (acts s) (pauses s) (last s) (runs s)) w WFree)
      end
  end.
Lemma exec_step : forall s a l s', exec s a = Some (l, s') -> step body ss s l s'.
Proof.
  intros s a l s' H. destruct a as [w|w t|e|e]; simpl in H.
  - destruct (wp s w) eqn:E; try discriminate; injection H as <- <-; econstructor; eauto.
  - destruct (wp s w) eqn:E; try discriminate. destruct (rdy s t) eqn:R; try discriminate. injection H as <- <-. now apply s_take.
  - destruct (est s e) eqn:E; try discriminate. injection H as <- <-. now apply s_dn.
  - destruct (vp s e) as [| |[|i]|] eqn:E; try discriminate.
    + injection H as <- <-. now apply s_begin.
    + injection H as <- <-. now apply s_end.
    + destruct (nth_error (fol s e) i) as [t|] eqn:N; try discriminate. injection H as <- <-. now apply s_visit.
Qed.
(** [calm], for the workers below 4 (the examples use no others) *)
Definition calmb (s : st) (l : lab) : bool :=
  match l with
  | LBegin e => forallb (fun w => match wp s w with WPush _ e' => negb (Nat.eqb e e') | _ => true end) [0; 1; 2; 3]
  | LVisit e t => forallb (fun w => match wp s w with WUp t' e' true => negb (Nat.eqb e e' && Nat.eqb t t') | _ => true end) [0; 1; 2; 3]
  | _ => true
  end.
Definition small (a : act) : bool := match a with W w | Take w _ => w <? 4 | _ => true end.
Fixpoint run (okb : st -> lab -> bool) (s : st) (l : list act) : option st :=
  match l with [] => Some s | a :: r => if small a then match exec s a with Some (b, s') => if okb s b then run okb s' r else None | None => None end else None end.
Definition few (s : st) : Prop := forall w, 4 <= w -> wp s w = WFree.
Lemma few_step : forall s a l s', small a = true -> exec s a = Some (l, s') -> few s -> few s'.
Proof.
  intros s a l s' Sm H F w L. assert (U : forall v p, v < 4 -> upd (wp s) v p w = WFree) by (intros v p V; rewrite upd_neq by lia; auto).
  destruct a as [v|v t|e|e]; simpl in *.
  - apply Nat.ltb_lt in Sm. destruct (wp s v) eqn:E; try discriminate; injection H as <- <-; cbn [wp set_w set_pre]; auto;
      try (destruct (notify_other s t) as (-> & _); auto).
    unfold body_step. destruct (todo s t) as [|y ys]; [destruct (ss t); [|cbn [ev]; destruct (ev s t)]|destruct (est s y =? 0); [|destruct (ss t)]]; cbn [wp set_w set_ev set_todo]; auto.
  - apply Nat.ltb_lt in Sm. destruct (wp s v) eqn:E; try discriminate. destruct (rdy s t) eqn:R; try discriminate. injection H as <- <-. simpl. auto.
  - destruct (est s e) eqn:E; try discriminate. injection H as <- <-. simpl. auto.
  - destruct (vp s e) as [| |[|i]|] eqn:E; try discriminate; try (injection H as <- <-; simpl; auto; fail).
    destruct (nth_error (fol s e) i) as [t|] eqn:N; try discriminate. injection H as <- <-. destruct (notify_other (set_v s e (VWalk i)) t) as (-> & _). simpl. auto.
Qed.
Lemma calmb_ok : forall s l, few s -> calmb s l = true -> calm s l.
Proof.
  intros s l F H. assert (L4 : forall w, In w [0; 1; 2; 3] \/ wp s w = WFree). { intros w. destruct (Nat.lt_ge_cases w 4) as [X|X]; [left|right; auto]. destruct w as [|[|[|[|w]]]]; simpl; auto; lia. }
  destruct l as [|e|e t|]; simpl; auto; unfold calmb in H.
  - intros w t X. destruct (L4 w) as [I|I]; [|congruence]. apply (proj1 (forallb_forall (fun w => match wp s w with WPush _ e' => negb (Nat.eqb e e') | _ => true end) [0; 1; 2; 3]) H) in I.
    simpl in I. rewrite X, Nat.eqb_refl in I. discriminate.
  - intros w X. destruct (L4 w) as [I|I]; [|congruence]. apply (proj1 (forallb_forall (fun w => match wp s w with WUp t' e' true => negb (Nat.eqb e e' && Nat.eqb t t') | _ => true end) [0; 1; 2; 3]) H) in I.
    simpl in I. rewrite X, !Nat.eqb_refl in I. discriminate.
Qed.
Lemma run_reach : forall okb (ok : st -> lab -> Prop), (forall s l, few s -> okb s l = true -> ok s l) -> forall l s s', few s -> reach body ss est0 ok s -> run okb s l = Some s' -> reach body ss est0 ok s'.
Proof.
  intros okb ok OK. induction l as [|a l IH]; intros s s' F R H; simpl in H; [congruence|]. destruct (small a) eqn:Sm; [|discriminate]. destruct (exec s a) as [(b & s1)|] eqn:E; [|discriminate]. destruct (okb s b) eqn:O; [|discriminate].
  apply (IH s1 s'); [eapply few_step; eauto| |exact H]. exact (r_step body ss est0 ok s b s1 R (OK s b F O) (exec_step s a b s1 E)).
Qed.
Lemma run_some : forall okb (ok : st -> lab -> Prop) l (Q : st -> Prop), (forall s l, few s -> okb s l = true -> ok s l) ->
  match run okb (init body est0) l with Some s => Q s | None => False end -> exists s, reach body ss est0 ok s /\ Q s.
Proof. intros okb ok l Q OK H. destruct (run okb (init body est0) l) as [s|] eqn:E; [|destruct H]. exists s. split; [|exact H]. eapply run_reach; eauto; [intros w _; reflexivity|constructor]. Qed.
End Ex.
Definition ws (w n : nat) : list act := repeat (W w) n.

(** ** C30 *)
(** a task is in at most one place: at most one worker has it, it is queued at most once, not both;
    its end is announced at most once and nobody has it afterwards *)
Theorem C30_one_place_partial : forall body ss est0 s t, reach body ss est0 calm s ->
  rdy s t + fin s t <= 1 /\ (forall w, hold (wp s w) = Some t -> rdy s t = 0 /\ fin s t = 0) /\ forall w w', hold (wp s w) = Some t -> hold (wp s w') = Some t -> w = w'.
Proof.
  intros body ss est0 s t R. assert (I := reach_inv body ss est0 s R). split; [|split].
  - destruct (i_place s I t) as [P|[(w & P)|[(e & P)|P]]]; destruct P as (P1 & P2 & _); lia.
  - intros w H. destruct (holder s t w (i_place s I t) H) as (P1 & P2 & _). auto.
  - intros w w' H H'. destruct (holder s t w (i_place s I t) H) as (_ & _ & _ & O & _). symmetry. auto.
Qed.
(** after each suspension it is handed to the scheduler at most once, and only once its event is reached *)
Theorem C30_resumed_at_most_once_partial : forall body ss est0 s t, reach body ss est0 calm s ->
  pauses s t <= acts s t <= S (pauses s t) /\ (acts s t = S (pauses s t) -> forall e, last s t = Some e -> est s e = 0).
Proof.
  intros body ss est0 s t R. assert (I := reach_inv body ss est0 s R). destruct (i_place s I t) as [P|[(w & P)|[(e & P)|P]]].
  - destruct P as (_ & _ & _ & _ & _ & B & A). split; [lia|auto].
  - destruct P as (_ & _ & _ & _ & C). destruct (wp s w); simpl in C; try contradiction; split; try lia; intros X; try (exfalso; lia); apply C.
  - destruct P as (_ & _ & _ & _ & _ & _ & A). split; [lia|]. intros; lia.
  - destruct P as (_ & _ & _ & _ & _ & A & B). split; [lia|auto].
Qed.
(** and at least once: when a task was handed over no more often than it was suspended, a worker is
    still busy suspending it, or its event is not reached, or the rest of the notification of its
    event, alone, hands it over *)
Theorem C30_resumed_partial : forall body ss est0 s t, reach body ss est0 calm s -> acts s t = pauses s t -> (forall w, hold (wp s w) <> Some t) ->
  exists e, last s t = Some e /\ (est s e = 0 -> exists s', walk body ss e s s' /\ rdy s' t = 1).
Proof.
  intros body ss est0 s t R A F. assert (I := reach_inv body ss est0 s R). destruct (i_place s I t) as [P|[(w & P)|[(e & P)|P]]].
  - destruct P as (_ & _ & _ & _ & _ & _ & X). lia.
  - destruct P as (_ & _ & X & _). now destruct (F w).
  - exists e. split; [apply P|]. apply waiting_resumed; auto.
  - destruct P as (_ & _ & _ & _ & _ & X & _). lia.
Qed.
(** the assertions [is_ready()] (execute.cpp 32) and [old_state > 0] (event.cpp 138) hold, and the counter stays small *)
Theorem C30_counter_bounded : forall body ss est0 s t, reach body ss est0 calm s -> pre s t <= 3 /\
  (forall w, wp s w = WStart t -> pre s t = 1) /\ (forall w e, wp s w = WNote t e -> pre s t >= 2) /\ (forall e i, vp s e = VWalk (S i) -> nth_error (fol s e) i = Some t -> pre s t >= 1).
Proof.
  intros body ss est0 s t R. assert (I := reach_inv body ss est0 s R). split; [|split; [|split]].
  - destruct (i_place s I t) as [P|[(w & P)|[(e & P)|P]]].
    + destruct P as (_ & _ & _ & X & _). lia.
    + destruct P as (_ & _ & _ & _ & C). destruct (wp s w); simpl in C; try contradiction; lia.
    + destruct P as (_ & _ & _ & X & _). lia.
    + destruct P as (_ & _ & _ & X & _). lia.
  - intros w W. destruct (holder s t w (i_place s I t)) as (_ & _ & _ & _ & C); [now rewrite W|]. rewrite W in C. apply C.
  - intros w e W. destruct (holder s t w (i_place s I t)) as (_ & _ & _ & _ & C); [now rewrite W|]. rewrite W in C. simpl in C. lia.
  - intros e i V N. assert (Pd : pending s e i t) by (split; [exact N|rewrite V; auto]).
    assert (Z : est s e = 0) by (apply (i_ev s I); congruence).
    destruct (i_place s I t) as [P|[(w & P)|[(f & P)|P]]].
    + destruct P as (_ & _ & _ & X & _). lia.
    + destruct P as (_ & _ & _ & _ & C). destruct (wp s w); simpl in C; try contradiction; try (destruct C as (_ & X & _); now destruct (X e i)).
      * destruct C as (_ & _ & [X|(_ & X & _)]); [lia|now destruct (X e i)].
      * destruct C as (_ & _ & [X|(_ & X & _)]); [lia|now destruct (X e i)].
      * destruct C as (_ & _ & [X|(_ & X & _)]); [lia|now destruct (X e i)].
    + destruct P as (_ & _ & _ & X & _). lia.
    + destruct P as (_ & _ & _ & _ & X & _). now destruct (X e i).
Qed.
(** in every run: a body goes past a yield only when its event is reached *)
Theorem C30_yield_waits : forall body ss est0 ok s t, reach body ss est0 ok s -> exists d, body t = d ++ todo s t /\ forall e, In e d -> est s e = 0.
Proof. intros body ss est0 ok s t R. exact (reach_part body ss est0 ok s t R). Qed.

(** Tasks 0 and 1 yield on event 0, task 0 then on event 1 as well; task 2 does not yield. The
    notification of event 0 falls between push and count of task 1's edge. *)
Definition body1 (t : nat) : list nat := match t with 0 => [0; 1] | 1 => [0] | _ => [] end.
Definition pre1 : list act := Take 0 0 :: Take 1 1 :: Take 2 2 :: ws 0 8 ++ ws 2 3 ++ ws 1 5 ++ [Dn 0; Dn 0; Nfy 0; Nfy 0].
Example C30_ex : exists s, reach body1 (fun _ => true) (fun _ => 2) calm s /\
  (wp s 1, pre s 1, acts s 0, pauses s 0, rdy s 0, fin s 2, est s 0, fol s 0, vp s 0) = (WInc 1 0, 0, 1, 1, 0, 1, 0, [0; 1], VWalk 1).
Proof. apply (run_some body1 (fun _ => true) (fun _ => 2) calmb calm pre1); [apply calmb_ok|vm_compute; reflexivity]. Qed.
Example C30_ex_all_over : exists s, reach body1 (fun _ => true) (fun _ => 2) calm s /\
  (fin s 0, fin s 1, fin s 2, acts s 0, pauses s 0, acts s 1, pauses s 1, runs s 0) = (1, 1, 1, 3, 2, 2, 1, 1).
Proof.
  apply (run_some body1 (fun _ => true) (fun _ => 2) calmb calm (pre1 ++ ws 1 3 ++ [Nfy 0; Nfy 0; Take 3 0] ++ ws 3 9 ++ [Take 1 1] ++ ws 1 4 ++ [Dn 1; Dn 1; Nfy 1; Nfy 1; Nfy 1; Take 2 0] ++ ws 2 4)); [apply calmb_ok|vm_compute; reflexivity].
Qed.
(** The iteration over the followers begins between test and push: the event is reached, its
    notification over, and the task is never resumed, whatever happens. *)
Theorem C30_lost_wakeup_refuted : exists s, reach (fun _ => [0]) (fun _ => true) (fun _ => 1) any s /\ est s 0 = 0 /\ vp s 0 = VDone /\ last s 0 = Some 0 /\
  forall s', steps (fun _ => [0]) (fun _ => true) s s' -> rdy s' 0 = 0 /\ fin s' 0 = 0 /\ forall w, hold (wp s' w) <> Some 0.
Proof.
  destruct (run_some (fun _ => [0]) (fun _ => true) (fun _ => 1) (fun s l => true) any (Take 0 0 :: ws 0 4 ++ [Dn 0; Nfy 0; Nfy 0] ++ ws 0 4)
    (fun s => (est s 0, vp s 0, last s 0, rdy s 0, fin s 0, wp s 0, fol s 0) = (0, VDone, Some 0, 0, 0, WFree, [0]) /\ (forall w, wp s (S w) = WFree) /\ (forall e, est s (S e) = 1 /\ fol s (S e) = [] /\ vp s (S e) = VWait))) as (s & R & E & E' & E'').
  - intros; exact Logic.I.
  - vm_compute. repeat split.
  - injection E as E1 E2 E3 E4 E5 E6 E7. exists s. split; [exact R|]. split; [exact E1|]. split; [exact E2|]. split; [exact E3|]. intros s' St.
    assert (L : lost s 0).
    { unfold lost, free, none, pending. repeat split; auto.
      - intros [|w]; [now rewrite E6|now rewrite E'].
      - intros [|e] k; [rewrite E2; tauto|]. destruct (E'' e) as (_ & -> & _). destruct k; intros (X & _); discriminate.
      - destruct e as [|e]; [congruence|]. destruct (E'' e) as (-> & _ & ->). discriminate.
      - destruct e as [|e]; [congruence|]. destruct (E'' e) as (-> & _ & ->). congruence. }
    destruct (lost_for_ever _ _ (fun _ => 1) s s' 0 St L) as (L1 & L2 & L3 & _). auto.
Qed.
(** The edge is visited between its count and [up()]: the task is handed over twice and two workers
    resume the same continuation at the same time. *)
Theorem C30_one_worker_refuted : exists s, reach (fun _ => [0]) (fun _ => true) (fun _ => 1) any s /\ wp s 1 = WRun 0 /\ wp s 2 = WRun 0 /\ acts s 0 = 3 /\ pauses s 0 = 1.
Proof.
  destruct (run_some (fun _ => [0]) (fun _ => true) (fun _ => 1) (fun s l => true) any (Take 0 0 :: ws 0 6 ++ [Dn 0; Nfy 0; Nfy 0] ++ ws 0 2 ++ [Take 1 0; W 1; Take 2 0; W 2])
    (fun s => (wp s 1, wp s 2, acts s 0, pauses s 0) = (WRun 0, WRun 0, 3, 1))) as (s & R & E).
  - intros; exact Logic.I.
  - vm_compute. reflexivity.
  - injection E as E1 E2 E3 E4. eauto 10.
Qed.

(** ** C31 *)
(** with stack switching, or if no yield met an unreached event, the body comes to its end at most once,
    exactly once (with nothing left) when the end of the task is announced *)
Theorem C31_body_ends_once_partial : forall body ss est0 s t, reach body ss est0 calm s -> ss t = true \/ ev s t = None ->
  runs s t <= 1 /\ (fin s t = 1 -> runs s t = 1 /\ todo s t = []).
Proof.
  intros body ss est0 s t R H. assert (B := reach_binv body ss est0 s R). split.
  - destruct (b_not ss s B t H) as [E|E]; [destruct (b_ended ss s B t E) as (_ & X & _)|]; lia.
  - intros F. destruct (b_ended ss s B t (or_introl F)) as (_ & X & Y). auto.
Qed.
(** otherwise the task never ends: its end is not announced, now or later (the mark stays) *)
Theorem C31_marked_task_never_ends : forall body ss est0 s t, reach body ss est0 calm s -> ss t = false -> ev s t <> None -> fin s t = 0 /\
  forall l s', step body ss s l s' -> ev s' t <> None.
Proof.
  intros body ss est0 s t R H N. assert (B := reach_binv body ss est0 s R). assert (I := reach_inv body ss est0 s R). split.
  - destruct (i_place s I t) as [P|[(w & P)|[(e & P)|P]]]; try apply P. destruct (b_ended ss s B t) as ([X|X] & _); [left; apply P|congruence|contradiction].
  - intros l s' S. exact (mark_stays body ss s l s' t S H N).
Qed.
(** and its body is run again and again: [again] holds with any number of completed runs *)
Theorem C31_marked_body_repeats : forall body ss est0 s t w n, reach body ss est0 calm s -> again body ss s t w -> exists s', reach body ss est0 calm s' /\ again body ss s' t w /\ runs s' t = n + runs s t.
Proof. intros body ss est0 s t w n R A. exact (again_for_ever body ss est0 n s t w R A). Qed.
Example C31_ex : exists s, reach body1 (fun t => Nat.eqb t 1) (fun e => match e with 0 => 2 | _ => 0 end) calm s /\ (fin s 1, ev s 1, runs s 1, fin s 2, runs s 2) = (1, None, 1, 1, 1).
Proof.
  apply (run_some body1 (fun t => Nat.eqb t 1) (fun e => match e with 0 => 2 | _ => 0 end) calmb calm (Take 0 1 :: ws 0 8 ++ [Dn 0; Dn 0; Nfy 0; Nfy 0; Nfy 0; Take 1 1] ++ ws 1 4 ++ [Take 2 2] ++ ws 2 3)); [apply calmb_ok|vm_compute; reflexivity].
Qed.
(** one yield on an event that is not yet reached suffices *)
Lemma marked : exists s, reach (fun _ => [0]) (fun _ => false) (fun _ => 1) calm s /\ again (fun _ => [0]) (fun _ => false) s 0 0 /\ runs s 0 = 1.
Proof.
  destruct (run_some (fun _ => [0]) (fun _ => false) (fun _ => 1) calmb calm (Take 0 0 :: ws 0 2 ++ [Dn 0] ++ ws 0 6)
    (fun s => (rdy s 0, wp s 0, pre s 0, todo s 0, est s 0, ev s 0, runs s 0) = (1, WFree, 1, [0], 0, Some 0, 1))) as (s & R & E).
  - apply calmb_ok.
  - vm_compute. reflexivity.
  - injection E as E1 E2 E3 E4 E5 E6 E7. exists s. split; [exact R|]. split; [|exact E7]. unfold again. repeat split; auto; [|eauto]. intros x [<-|[]]. exact E5.
Qed.
Theorem C31_body_runs_once_refuted : forall n, exists s, reach (fun _ => [0]) (fun _ => false) (fun _ => 1) calm s /\ runs s 0 = S n /\ fin s 0 = 0.
Proof.
  intros n. destruct marked as (s & R & A & E). destruct (C31_marked_body_repeats _ _ _ s 0 0 n R A) as (s' & R' & A' & E'). exists s'. split; [exact R'|]. split; [lia|].
  apply (C31_marked_task_never_ends _ _ _ s' 0 R' eq_refl). destruct A' as (_ & _ & _ & _ & _ & _ & e & X & _). congruence.
Qed.

Definition all_yield := (C30_one_place_partial, C30_resumed_at_most_once_partial, C30_resumed_partial, C30_counter_bounded, C30_yield_waits, C30_lost_wakeup_refuted, C30_one_worker_refuted,
  C31_body_ends_once_partial, C31_marked_task_never_ends, C31_marked_body_repeats, C31_body_runs_once_refuted).
Print Assumptions all_yield.
