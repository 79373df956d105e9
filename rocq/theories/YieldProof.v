(** Invariant of the yield model for calm runs. *)
From Coq Require Import List Arith Bool Lia.
From Verif Require Import YieldModel.
Import ListNotations.

Lemma upd_eq : forall A (f : nat -> A) k v, upd f k v k = v.
Proof. intros. unfold upd. now rewrite Nat.eqb_refl. Qed.
Lemma upd_neq : forall A (f : nat -> A) k v x, x <> k -> upd f k v x = f x.
Proof. intros A f k v x H. unfold upd. apply Nat.eqb_neq in H. now rewrite H. Qed.

Definition hold (p : wpc) : option nat :=
  match p with
  | WFree => None
  | WStart t | WRun t | WStore t _ | WCheck t _ | WPush t _ | WInc t _ | WUp t _ _ | WNote t _ | WPost t => Some t
  end.
(** entry [k] of the follower list of [e] is the task [t], and is still to be visited *)
Definition pending (s : st) (e k t : nat) : Prop :=
  nth_error (fol s e) k = Some t /\ match vp s e with VWait | VDue => True | VWalk i => k < i | VDone => False end.
Definition none (s : st) (t : nat) : Prop := forall e k, ~ pending s e k t.
Definition one (s : st) (t e : nat) : Prop := exists k, pending s e k t /\ forall e' k', pending s e' k' t -> e' = e /\ k' = k.
Definition free (s : st) (t : nat) : Prop := forall w, hold (wp s w) <> Some t.
Definition only (s : st) (t w : nat) : Prop := forall w', hold (wp s w') = Some t -> w' = w.
Definition back (s : st) (t : nat) : Prop := forall e, last s t = Some e -> est s e = 0.
Definition early (v : vpc) : Prop := match v with VWait | VDue => True | _ => False end.
(** the three ways a pause goes on: with the edge, or without as the event is reached *)
Definition cond (s : st) (t : nat) (p : wpc) : Prop :=
  match p with
  | WFree => False
  | WStart _ => pre s t = 1 /\ none s t /\ acts s t = S (pauses s t) /\ back s t
  | WRun _ | WStore _ _ | WPost _ => pre s t = 0 /\ none s t /\ acts s t = S (pauses s t) /\ back s t
  | WCheck _ e => pre s t = 1 /\ none s t /\ acts s t = pauses s t /\ last s t = Some e
  | WPush _ e => pre s t = 1 /\ none s t /\ acts s t = pauses s t /\ last s t = Some e /\ early (vp s e)
  | WInc _ e => acts s t = pauses s t /\ last s t = Some e /\ (pre s t = 1 /\ one s t e \/ pre s t = 0 /\ none s t /\ est s e = 0)
  | WUp _ e p => acts s t = pauses s t /\ last s t = Some e /\ (p = true /\ pre s t = 2 /\ one s t e \/ pre s t = 1 /\ none s t /\ est s e = 0)
  | WNote _ e => acts s t = pauses s t /\ last s t = Some e /\ (pre s t = 3 /\ one s t e \/ pre s t = 2 /\ none s t /\ est s e = 0)
  end.
Definition inQ (s : st) (t : nat) : Prop := rdy s t = 1 /\ fin s t = 0 /\ free s t /\ pre s t = 1 /\ none s t /\ back s t /\ acts s t = S (pauses s t).
Definition inH (s : st) (t w : nat) : Prop := rdy s t = 0 /\ fin s t = 0 /\ hold (wp s w) = Some t /\ only s t w /\ cond s t (wp s w).
Definition inP (s : st) (t e : nat) : Prop := rdy s t = 0 /\ fin s t = 0 /\ free s t /\ pre s t = 2 /\ last s t = Some e /\ one s t e /\ acts s t = pauses s t.
Definition inF (s : st) (t : nat) : Prop := rdy s t = 0 /\ fin s t = 1 /\ free s t /\ pre s t = 0 /\ none s t /\ acts s t = S (pauses s t) /\ back s t.
Definition place (s : st) (t : nat) : Prop := inQ s t \/ (exists w, inH s t w) \/ (exists e, inP s t e) \/ inF s t.
Record inv (s : st) : Prop := {
  i_ev : forall e, est s e = 0 <-> vp s e <> VWait;
  i_walk : forall e i, vp s e = VWalk i -> i <= length (fol s e);
  i_place : forall t, place s t
}.

Lemma none_ext : forall s s' t, (forall e k, pending s' e k t -> pending s e k t) -> none s t -> none s' t.
Proof. intros s s' t H N e k P. exact (N e k (H e k P)). Qed.
Lemma one_ext : forall s s' t e, (forall e k, pending s' e k t <-> pending s e k t) -> one s t e -> one s' t e.
Proof. intros s s' t e H (k & P & U). exists k. split; [now apply H|]. intros e' k' P'. apply U. now apply H. Qed.
Lemma cond_ext : forall s s' t p, pre s' t = pre s t -> acts s' t = acts s t -> pauses s' t = pauses s t -> last s' t = last s t ->
  (forall e k, pending s' e k t <-> pending s e k t) -> (forall e, est s e = 0 -> est s' e = 0) -> (forall e, p = WPush t e -> early (vp s e) -> early (vp s' e)) -> hold p = Some t ->
  cond s t p -> cond s' t p.
Proof.
  intros s s' t p E1 E2 E3 E4 EP EE EV Hp C.
  assert (N : none s t -> none s' t) by (apply none_ext; intros; now apply EP).
  assert (O : forall e, one s t e -> one s' t e) by (intros e; now apply one_ext).
  assert (B : back s t -> back s' t) by (intros B e L; apply EE, B; congruence).
  destruct p; simpl in *; rewrite ?E1, ?E2, ?E3, ?E4; try tauto.
  - injection Hp as ->. destruct C as (C1 & C2 & C3 & C4 & C5). pose proof (EV e eq_refl C5). auto 10.
  - destruct C as (C1 & C2 & [(C3 & C4)|(C3 & C4 & C5)]); auto 10.
  - destruct C as (C1 & C2 & [(C3 & C4 & C5)|(C3 & C4 & C5)]); auto 10.
  - destruct C as (C1 & C2 & [(C3 & C4)|(C3 & C4 & C5)]); auto 10.
Qed.
(** a step that does not touch [t] *)
Lemma frame : forall s s' t, rdy s' t = rdy s t -> fin s' t = fin s t -> pre s' t = pre s t -> acts s' t = acts s t -> pauses s' t = pauses s t -> last s' t = last s t ->
  (forall e k, pending s' e k t <-> pending s e k t) -> (forall e, est s e = 0 -> est s' e = 0) ->
  (forall w, hold (wp s' w) = Some t \/ hold (wp s w) = Some t -> wp s' w = wp s w) ->
  (forall w e, wp s w = WPush t e -> early (vp s e) -> early (vp s' e)) ->
  place s t -> place s' t.
Proof.
  intros s s' t E1 E2 E3 E4 E5 E6 EP EE EW EV P.
  assert (N : none s t -> none s' t) by (apply none_ext; intros; now apply EP).
  assert (O : forall e, one s t e -> one s' t e) by (intros e; now apply one_ext).
  assert (B : back s t -> back s' t) by (intros B e L; apply EE, B; congruence).
  assert (F : free s t -> free s' t) by (intros F w H; apply (F w); rewrite <- (EW w); auto).
  destruct P as [P|[(w & P)|[(e & P)|P]]].
  - left. unfold inQ in *. rewrite E1, E2, E3, E4, E5. tauto.
  - right. left. exists w. destruct P as (P1 & P2 & P3 & P4 & P5). assert (X : wp s' w = wp s w) by auto. unfold inH. rewrite E1, E2, X. split; [exact P1|]. split; [exact P2|]. split; [exact P3|].
    split; [intros w' H; apply P4; rewrite <- (EW w'); auto|]. apply (cond_ext s); auto. intros e Q. apply (EV w). exact Q.
  - right. right. left. exists e. unfold inP in *. rewrite E1, E2, E3, E4, E5, E6. destruct P as (P1 & P2 & P3 & P4 & P5 & P6 & P7). auto 10.
  - right. right. right. unfold inF in *. rewrite E1, E2, E3, E4, E5. tauto.
Qed.
(** the holder is the one in question *)
Lemma holder : forall s t w, place s t -> hold (wp s w) = Some t -> inH s t w.
Proof.
  intros s t w P H. destruct P as [P|[(w' & P)|[(e & P)|P]]].
  - destruct P as (_ & _ & F & _). now destruct (F w).
  - destruct P as (P1 & P2 & P3 & P4 & P5). assert (w = w') by now apply P4. subst w'. unfold inH. auto.
  - destruct P as (_ & _ & F & _). now destruct (F w).
  - destruct P as (_ & _ & F & _). now destruct (F w).
Qed.
Lemma queued : forall s t k, place s t -> rdy s t = S k -> inQ s t.
Proof.
  intros s t k P H. destruct P as [P|[(w & P)|[(e & P)|P]]]; [exact P| | |]; destruct P as (P1 & _); congruence.
Qed.
Lemma only_set : forall s t w p, only s t w -> forall x, hold (wp (set_w x w p) w) = Some t -> wp x = wp s -> only (set_w x w p) t w.
Proof. intros s t w p O x H E w' H'. destruct (Nat.eq_dec w' w) as [|N]; [assumption|]. simpl in H'. rewrite upd_neq, E in H'; auto. Qed.
Lemma free_set : forall s t w p x, only s t w -> hold p <> Some t -> wp x = wp s -> free (set_w x w p) t.
Proof. intros s t w p x O H E w' H'. simpl in H'. destruct (Nat.eq_dec w' w) as [->|N]; [now rewrite upd_eq in H'|]. rewrite upd_neq, E in H'; auto. Qed.

Section Inv.
Variables (body : nat -> list nat) (ss : nat -> bool) (est0 : nat -> nat).
Notation reach := (reach body ss est0).
Notation step := (step body ss).

Lemma init_inv : inv (init body est0).
Proof.
  split.
  - intros e. simpl. destruct (est0 e =? 0) eqn:E; [apply Nat.eqb_eq in E|apply Nat.eqb_neq in E]; split; congruence.
  - intros e i. simpl. destruct (est0 e =? 0); discriminate.
  - intros t. left. unfold inQ, free, none, back, pending. simpl. repeat split; try discriminate. intros e [|k] (H & _); discriminate.
Qed.
Lemma notify_other : forall s t, wp (notify s t) = wp s /\ est (notify s t) = est s /\ fol (notify s t) = fol s /\ vp (notify s t) = vp s /\ todo (notify s t) = todo s /\ ev (notify s t) = ev s /\
  fin (notify s t) = fin s /\ pauses (notify s t) = pauses s /\ last (notify s t) = last s /\ runs (notify s t) = runs s /\ pre (notify s t) = upd (pre s) t (pre s t - 1).
Proof. intros s t. unfold notify. destruct (_ =? 1); simpl; repeat split. Qed.
Lemma notify_neq : forall s t x, x <> t -> rdy (notify s t) x = rdy s x /\ acts (notify s t) x = acts s x /\ pre (notify s t) x = pre s x.
Proof. intros s t x N. unfold notify. destruct (_ =? 1); simpl; rewrite ?upd_neq; auto. Qed.
Lemma notify_act : forall s t, pre s t = 2 -> rdy (notify s t) t = S (rdy s t) /\ acts (notify s t) t = S (acts s t) /\ pre (notify s t) t = 1.
Proof. intros s t H. unfold notify. rewrite H. simpl. now rewrite !upd_eq. Qed.
Lemma notify_no : forall s t, pre s t <> 2 -> rdy (notify s t) t = rdy s t /\ acts (notify s t) t = acts s t /\ pre (notify s t) t = pre s t - 1.
Proof. intros s t H. unfold notify. destruct (pre s t - 1 =? 1) eqn:E; [apply Nat.eqb_eq in E; lia|]. simpl. now rewrite !upd_eq. Qed.

(** a step of the worker [w], which holds [t], that leaves everything of the other tasks as it is *)
Lemma worker_step : forall s s' w t, inv s -> hold (wp s w) = Some t ->
  (forall w', w' <> w -> wp s' w' = wp s w') -> (hold (wp s' w) = Some t \/ wp s' w = WFree) -> est s' = est s -> vp s' = vp s ->
  (forall e, fol s' e = fol s e \/ fol s' e = fol s e ++ [t] /\ early (vp s e)) ->
  (forall x, x <> t -> rdy s' x = rdy s x /\ fin s' x = fin s x /\ pre s' x = pre s x /\ acts s' x = acts s x /\ pauses s' x = pauses s x /\ last s' x = last s x) ->
  place s' t -> inv s'.
Proof.
  intros s s' w t I H W HW E V F O P. split.
  - intros e. rewrite E, V. apply (i_ev s I).
  - intros e i. rewrite V. intros X. apply (i_walk s I) in X. destruct (F e) as [->|(-> & _)]; [exact X|]. rewrite app_length. lia.
  - intros x. destruct (Nat.eq_dec x t) as [->|N]; [exact P|]. destruct (O x N) as (O1 & O2 & O3 & O4 & O5 & O6). apply (frame s); auto.
    + intros e k. unfold pending. rewrite V. destruct (F e) as [->|(-> & Y)]; [tauto|]. destruct (Nat.lt_ge_cases k (length (fol s e))) as [L|L]; [rewrite nth_error_app1; [tauto|exact L]|].
      rewrite nth_error_app2; [|exact L]. split; intros (A & B).
      * destruct (k - length (fol s e)) as [|[|j]]; simpl in A; congruence.
      * apply nth_error_None in L. congruence.
    + now rewrite E.
    + intros w' [X|X]; destruct (Nat.eq_dec w' w) as [->|NW]; auto; exfalso; [destruct HW as [HW|HW]|]; try congruence. rewrite HW in X. discriminate.
    + now rewrite V.
    + apply (i_place s I).
Qed.
Lemma step_inv : forall s l s', inv s -> calm s l -> step s l s' -> inv s'.
Proof.
  intros s l s' I C S. destruct S.
  - (* up *) split.
    + intros x. simpl. rewrite <- (i_ev s I). destruct (Nat.eq_dec x e) as [->|N]; [rewrite upd_eq|rewrite upd_neq by auto; tauto]. split; [discriminate|tauto].
    + apply (i_walk s I).
    + intros x. apply (frame s); auto; simpl; try tauto; try apply (i_place s I). intros y Y. destruct (Nat.eq_dec y e) as [->|N]; [tauto|now rewrite upd_neq].
  - (* dn *) assert (Wt : vp s e = VWait). { destruct (vp s e) eqn:E; auto; exfalso; assert (X : est s e = 0) by (apply (i_ev s I); congruence); congruence. }
    destruct k as [|k]; simpl; split; cbn [est vp fol wp].
    + intros x. destruct (Nat.eq_dec x e) as [->|N]; [rewrite !upd_eq; split; congruence|rewrite !upd_neq by auto; apply (i_ev s I)].
    + intros x i. destruct (Nat.eq_dec x e) as [->|N]; [rewrite upd_eq; discriminate|rewrite upd_neq by auto; apply (i_walk s I)].
    + intros x. apply (frame s); auto; simpl; try apply (i_place s I).
      * intros y k. unfold pending. simpl. destruct (Nat.eq_dec y e) as [->|N]; [rewrite upd_eq, Wt; tauto|rewrite upd_neq by auto; tauto].
      * intros y Y. destruct (Nat.eq_dec y e) as [->|N]; [now rewrite upd_eq|now rewrite upd_neq].
      * intros w y _ Y. destruct (Nat.eq_dec y e) as [->|N]; [now rewrite upd_eq|now rewrite upd_neq].
    + intros x. destruct (Nat.eq_dec x e) as [->|N]; [rewrite upd_eq; split; congruence|rewrite upd_neq by auto; apply (i_ev s I)].
    + apply (i_walk s I).
    + intros x. apply (frame s); auto; simpl; try apply (i_place s I); try tauto.
      intros y Y. destruct (Nat.eq_dec y e) as [->|N]; [congruence|now rewrite upd_neq].
  - (* begin *) split; cbn [est vp fol wp set_v].
    + intros x. rewrite (i_ev s I). destruct (Nat.eq_dec x e) as [->|N]; [rewrite upd_eq; split; congruence|rewrite upd_neq by auto; tauto].
    + intros x i. destruct (Nat.eq_dec x e) as [->|N]; [rewrite upd_eq; intros Q; injection Q as <-; auto|rewrite upd_neq by auto; apply (i_walk s I)].
    + intros x. apply (frame s); auto; simpl; try apply (i_place s I).
      * intros y k. unfold pending. simpl. destruct (Nat.eq_dec y e) as [->|N]; [rewrite upd_eq, H|rewrite upd_neq by auto; tauto]. split; [tauto|]. intros (A & _). split; [exact A|]. apply nth_error_Some. congruence.
      * intros w y Q. destruct (Nat.eq_dec y e) as [->|N]; [now destruct (C w x)|now rewrite upd_neq].
  - (* visit *) set (s1 := set_v s e (VWalk i)). destruct (notify_other s1 t) as (N1 & N2 & N3 & N4 & N5 & N6 & N7 & N8 & N9 & N10 & N11).
    assert (Pd : pending s e i t) by (split; [exact H0|rewrite H; auto]).
    assert (PE : forall y k x, pending (notify s1 t) y k x <-> pending s y k x /\ ~ (y = e /\ k = i)).
    { intros y k x. unfold pending. rewrite N3, N4. unfold s1. simpl. destruct (Nat.eq_dec y e) as [->|NE]; [rewrite upd_eq, H|rewrite upd_neq by auto; tauto]. split; intros X; repeat split; try tauto; try lia. }
    split.
    + intros x. rewrite N2, N4. unfold s1. simpl. rewrite (i_ev s I). destruct (Nat.eq_dec x e) as [->|NE]; [rewrite upd_eq, H; split; congruence|rewrite upd_neq by auto; tauto].
    + intros x j. rewrite N3, N4. unfold s1. simpl. destruct (Nat.eq_dec x e) as [->|NE]; [rewrite upd_eq; intros Q; injection Q as <-; apply (i_walk s I) in H; lia|rewrite upd_neq by auto; apply (i_walk s I)].
    + intros x. destruct (Nat.eq_dec x t) as [->|NX].
      * assert (Z : est s e = 0) by (apply (i_ev s I); congruence).
        assert (NN : forall f, one s t f -> f = e /\ none (notify s1 t) t).
        { intros f (k & P & U). destruct (U _ _ Pd) as (-> & ->). split; [reflexivity|]. intros y j P'. apply PE in P' as (P' & NP). apply U in P'. tauto. }
        assert (FR : free s t -> free (notify s1 t) t) by (intros F w X; rewrite N1 in X; exact (F w X)).
        destruct (i_place s I t) as [P|[(w & P)|[(f & P)|P]]].
        -- destruct P as (_ & _ & _ & _ & P & _). now destruct (P e i).
        -- right. left. exists w. destruct P as (P1 & P2 & P3 & P4 & P5). unfold inH. rewrite N1, N7. unfold only. rewrite N1. simpl wp. 
           assert (K : rdy (notify s1 t) t = 0 /\ cond (notify s1 t) t (wp s w)).
           { destruct (wp s w) eqn:W; simpl in P3; try discriminate; injection P3 as ->; simpl in P5;
               try (destruct P5 as (_ & P5 & _); now destruct (P5 e i)).
             - destruct P5 as (A & L & [(B & O)|(_ & B & _)]); [|now destruct (B e i)]. destruct (NN _ O) as (-> & NO). destruct (notify_no s1 t) as (Q1 & Q2 & Q3); [unfold s1; simpl; lia|]. rewrite Q1. split; [exact P1|].
               simpl. rewrite Q2, Q3, N8, N9, N2. unfold s1. simpl. rewrite B. auto 10.
             - destruct P5 as (A & L & [(Bp & B & O)|(_ & B & _)]); [|now destruct (B e i)]. destruct (NN _ O) as (-> & NO). exfalso. subst p. exact (C w W).
             - destruct P5 as (A & L & [(B & O)|(_ & B & _)]); [|now destruct (B e i)]. destruct (NN _ O) as (-> & NO). destruct (notify_no s1 t) as (Q1 & Q2 & Q3); [unfold s1; simpl; lia|]. rewrite Q1. split; [exact P1|].
               simpl. rewrite Q2, Q3, N8, N9, N2. unfold s1. simpl. rewrite B. auto 10. }
           destruct K as (K1 & K2). auto 10.
        -- left. destruct P as (P1 & P2 & P3 & P4 & P5 & P6 & P7). destruct (NN _ P6) as (-> & NO). destruct (notify_act s1 t) as (Q1 & Q2 & Q3); [exact P4|]. unfold inQ, back. rewrite Q1, Q2, Q3, N7, N8, N9, N2. unfold s1 in *. simpl in *. rewrite P1, P7.
           repeat split; auto. intros y Y. congruence.
        -- destruct P as (_ & _ & _ & _ & P & _). now destruct (P e i).
      * destruct (notify_neq s1 t x NX) as (Q1 & Q2 & Q3). apply (frame s); rewrite ?N1, ?N2, ?N7, ?N8, ?N9; auto; try apply (i_place s I).
        -- intros y k. rewrite PE. split; [tauto|]. intros P. split; [exact P|]. intros (-> & ->). destruct P as (P & _). congruence.
        -- intros w y _. rewrite N4. unfold s1. simpl. destruct (Nat.eq_dec y e) as [->|NE]; [rewrite H; intros []|now rewrite upd_neq].
  - (* walk over *) split; cbn [est vp fol wp set_v].
    + intros x. rewrite (i_ev s I). destruct (Nat.eq_dec x e) as [->|N]; [rewrite upd_eq; split; congruence|rewrite upd_neq by auto; tauto].
    + intros x i. destruct (Nat.eq_dec x e) as [->|N]; [rewrite upd_eq; discriminate|rewrite upd_neq by auto; apply (i_walk s I)].
    + intros x. apply (frame s); auto; simpl; try apply (i_place s I).
      * intros y k. unfold pending. simpl. destruct (Nat.eq_dec y e) as [->|N]; [rewrite upd_eq, H|rewrite upd_neq by auto; tauto]. split; [tauto|]. intros (_ & A). lia.
      * intros w y Q. destruct (Nat.eq_dec y e) as [->|N]; [rewrite H; intros []|now rewrite upd_neq].
  - (* take *) set (s' := set_w _ w (WStart t)). assert (Q := queued s t k (i_place s I t) H0). destruct Q as (Q1 & Q2 & Q3 & Q4 & Q5 & Q6 & Q7).
    assert (k = 0) by congruence. subst k. split; [apply (i_ev s I)|apply (i_walk s I)|]. intros x. destruct (Nat.eq_dec x t) as [->|N].
    + right. left. exists w. unfold inH, only, s'. simpl. rewrite !upd_eq. simpl. split; [reflexivity|]. split; [exact Q2|]. split; [reflexivity|].
      split; [|split; [exact Q4|split; [exact Q5|split; [exact Q7|exact Q6]]]]. intros w' X. destruct (Nat.eq_dec w' w) as [->|NW]; [reflexivity|]. rewrite upd_neq in X by auto. now destruct (Q3 w').
    + apply (frame s); auto; unfold s'; simpl; try tauto; try apply (i_place s I).
      * now rewrite upd_neq.
      * intros w' X. destruct (Nat.eq_dec w' w) as [->|NW]; [rewrite upd_eq in *|now rewrite upd_neq]. simpl in X. rewrite H in X. simpl in X. destruct X; congruence.
  - (* start *) assert (HH : hold (wp s w) = Some t) by now rewrite H. destruct (notify_other s t) as (N1 & N2 & N3 & N4 & N5 & N6 & N7 & N8 & N9 & N10 & N11).
    destruct (holder s t w (i_place s I t) HH) as (P1 & P2 & P3 & P4 & P5). rewrite H in P5. destruct P5 as (P5 & P6 & P7 & P8).
    destruct (notify_no s t) as (Q1 & Q2 & Q3); [lia|]. apply (worker_step s _ w t); simpl; auto; rewrite ?N1; auto.
    + intros w' N. now rewrite upd_neq.
    + rewrite upd_eq. simpl. auto.
    + intros e. rewrite N3. auto.
    + intros x N. destruct (notify_neq s t x N) as (-> & -> & ->). now rewrite N7, N8, N9.
    + right. left. exists w. unfold inH. cbn [rdy fin wp set_w]. rewrite Q1, N7, N1, upd_eq. split; [exact P1|]. split; [exact P2|]. split; [reflexivity|].
      split; [apply (only_set s); auto; simpl; now rewrite upd_eq|]. simpl. rewrite Q2, Q3, N8, P5. split; [reflexivity|]. split; [|split; [exact P7|]]. { apply (none_ext s); [|exact P6]. intros y k. unfold pending. simpl. now rewrite N3, N4. } intros y. simpl. rewrite N9, N2. apply P8.
  - (* body *) assert (HH : hold (wp s w) = Some t) by now rewrite H.
    destruct (holder s t w (i_place s I t) HH) as (P1 & P2 & P3 & P4 & P5). rewrite H in P5.
    assert (G : forall s1 p, wp s1 = upd (wp s) w p -> (p = WRun t \/ p = WPost t \/ exists e, p = WStore t e) -> pre s1 = pre s -> est s1 = est s -> fol s1 = fol s -> vp s1 = vp s -> rdy s1 = rdy s -> fin s1 = fin s ->
      acts s1 = acts s -> pauses s1 = pauses s -> last s1 = last s -> inv s1).
    { intros s1 p W1 Pp E1 E2 E3 E4 E5 E6 E7 E8 E9. assert (Hp : hold p = Some t) by (destruct Pp as [->|[->|(e & ->)]]; reflexivity).
      apply (worker_step s _ w t); auto.
      - intros w' N. now rewrite W1, upd_neq.
      - rewrite W1, upd_eq. auto.
      - intros e. rewrite E3. auto.
      - intros x N. now rewrite E1, E5, E6, E7, E8, E9.
      - right. left. exists w. unfold inH. rewrite E5, E6, W1, upd_eq. split; [exact P1|]. split; [exact P2|]. split; [exact Hp|]. split.
        + intros w' X. rewrite W1 in X. destruct (Nat.eq_dec w' w) as [|N]; [assumption|]. rewrite upd_neq in X; auto.
        + assert (C' : cond s1 t (WRun t)). { apply (cond_ext s); rewrite ?E1, ?E2, ?E7, ?E8, ?E9; auto; [|discriminate]. intros y k. unfold pending. now rewrite E3, E4. }
          destruct Pp as [->|[->|(e & ->)]]; exact C'. }
    assert (Gsame : forall s1, wp s1 = wp s -> pre s1 = pre s -> est s1 = est s -> fol s1 = fol s -> vp s1 = vp s -> rdy s1 = rdy s -> fin s1 = fin s -> acts s1 = acts s -> pauses s1 = pauses s -> last s1 = last s -> inv s1).
    { intros s1 W1 E1 E2 E3 E4 E5 E6 E7 E8 E9. split.
      - intros e. rewrite E2, E4. apply (i_ev s I).
      - intros e i. rewrite E3, E4. apply (i_walk s I).
      - intros x. apply (frame s); rewrite ?W1, ?E1, ?E2, ?E4, ?E5, ?E6, ?E7, ?E8, ?E9; auto; try apply (i_place s I). intros y k. unfold pending. now rewrite E3, E4. }
    unfold body_step. destruct (todo s t) as [|e es].
    + destruct (ss t); [|cbn [ev]; destruct (ev s t) as [e|]].
      * apply (G _ (WPost t)); simpl; auto.
      * apply (G _ (WStore t e)); simpl; auto. right. right. now exists e.
      * apply (G _ (WPost t)); simpl; auto.
    + destruct (est s e =? 0); [apply Gsame; reflexivity|]. destruct (ss t); [|apply Gsame; reflexivity].
      apply (G _ (WStore t e)); simpl; auto. right. right. now exists e.
  - (* store *) assert (HH : hold (wp s w) = Some t) by now rewrite H.
    destruct (holder s t w (i_place s I t) HH) as (P1 & P2 & P3 & P4 & P5). rewrite H in P5. destruct P5 as (P5 & P6 & P7 & P8).
    apply (worker_step s _ w t); simpl; auto.
    + intros w' N. now rewrite upd_neq.
    + rewrite upd_eq. simpl. auto.
    + intros x N. now rewrite !upd_neq by auto.
    + right. left. exists w. unfold inH. cbn [rdy fin wp set_w]. rewrite upd_eq. split; [exact P1|]. split; [exact P2|]. split; [reflexivity|].
      split; [apply (only_set s); auto; simpl; now rewrite upd_eq|]. simpl. rewrite !upd_eq. auto.
  - (* check *) assert (HH : hold (wp s w) = Some t) by now rewrite H.
    destruct (holder s t w (i_place s I t) HH) as (P1 & P2 & P3 & P4 & P5). rewrite H in P5. destruct P5 as (P5 & P6 & P7 & P8).
    apply (worker_step s _ w t); simpl; auto.
    + intros w' N. now rewrite upd_neq.
    + rewrite upd_eq. left. now destruct (est s e =? 0).
    + intros x N. repeat split.
    + right. left. exists w. unfold inH. cbn [rdy fin wp set_w]. rewrite upd_eq. split; [exact P1|]. split; [exact P2|]. split; [now destruct (est s e =? 0)|].
      split; [apply (only_set s); auto; simpl; rewrite upd_eq; now destruct (est s e =? 0)|]. destruct (est s e =? 0) eqn:Z; simpl.
      * apply Nat.eqb_eq in Z. split; [exact P7|]. split; [exact P8|]. right. auto.
      * apply Nat.eqb_neq in Z. repeat split; auto. rewrite (i_ev s I) in Z. destruct (vp s e); simpl; auto; apply Z; discriminate.
  - (* push *) assert (HH : hold (wp s w) = Some t) by now rewrite H.
    destruct (holder s t w (i_place s I t) HH) as (P1 & P2 & P3 & P4 & P5). rewrite H in P5. destruct P5 as (P5 & P6 & P7 & P8 & P9).
    apply (worker_step s _ w t); simpl; auto.
    + intros w' N. now rewrite upd_neq.
    + rewrite upd_eq. simpl. auto.
    + intros x. destruct (Nat.eq_dec x e) as [->|N]; [rewrite upd_eq; auto|rewrite upd_neq by auto; auto].
    + intros x N. repeat split.
    + right. left. exists w. unfold inH. cbn [rdy fin wp set_w]. rewrite upd_eq. split; [exact P1|]. split; [exact P2|]. split; [reflexivity|].
      split; [apply (only_set s); auto; simpl; now rewrite upd_eq|]. simpl. split; [exact P7|]. split; [exact P8|]. left. split; [exact P5|].
      exists (length (fol s e)). unfold pending. simpl. split.
      * rewrite upd_eq, nth_error_app2, Nat.sub_diag by auto. split; [reflexivity|]. destruct (vp s e); simpl in P9; tauto.
      * intros y k (A & B). destruct (Nat.eq_dec y e) as [->|N]; [|rewrite upd_neq in A by auto; now destruct (P6 y k)]. rewrite upd_eq in A. split; [reflexivity|].
        destruct (Nat.lt_ge_cases k (length (fol s e))) as [L|L]; [rewrite nth_error_app1 in A by auto; now destruct (P6 e k)|]. rewrite nth_error_app2 in A by auto.
        destruct (k - length (fol s e)) as [|[|j]] eqn:K; simpl in A; try discriminate. lia.
  - (* inc *) assert (HH : hold (wp s w) = Some t) by now rewrite H.
    destruct (holder s t w (i_place s I t) HH) as (P1 & P2 & P3 & P4 & P5). rewrite H in P5. destruct P5 as (P5 & P6 & P7).
    apply (worker_step s _ w t); simpl; auto.
    + intros w' N. now rewrite upd_neq.
    + rewrite upd_eq. simpl. auto.
    + intros x N. now rewrite !upd_neq by auto.
    + right. left. exists w. unfold inH. cbn [rdy fin wp set_w set_pre]. rewrite upd_eq. split; [exact P1|]. split; [exact P2|]. split; [reflexivity|].
      split; [apply (only_set s); auto; simpl; now rewrite upd_eq|]. simpl. rewrite !upd_eq. split; [exact P5|]. split; [exact P6|]. destruct P7 as [(-> & O)|(-> & O & Z)]; [left|right]; auto.
  - (* up *) assert (HH : hold (wp s w) = Some t) by now rewrite H.
    destruct (holder s t w (i_place s I t) HH) as (P1 & P2 & P3 & P4 & P5). rewrite H in P5. destruct P5 as (P5 & P6 & P7).
    apply (worker_step s _ w t); simpl; auto.
    + intros w' N. now rewrite upd_neq.
    + rewrite upd_eq. simpl. auto.
    + intros x N. now rewrite !upd_neq by auto.
    + right. left. exists w. unfold inH. cbn [rdy fin wp set_w set_pre]. rewrite upd_eq. split; [exact P1|]. split; [exact P2|]. split; [reflexivity|].
      split; [apply (only_set s); auto; simpl; now rewrite upd_eq|]. simpl. rewrite !upd_eq. split; [exact P5|]. split; [exact P6|]. destruct P7 as [(_ & -> & O)|(-> & O & Z)]; [left|right]; auto.
  - (* note *) assert (HH : hold (wp s w) = Some t) by now rewrite H. destruct (notify_other s t) as (N1 & N2 & N3 & N4 & N5 & N6 & N7 & N8 & N9 & N10 & N11).
    destruct (holder s t w (i_place s I t) HH) as (P1 & P2 & P3 & P4 & P5). rewrite H in P5. destruct P5 as (P5 & P6 & P7).
    assert (PE : forall y k, pending (set_w (notify s t) w WFree) y k t <-> pending s y k t) by (intros y k; unfold pending; simpl; now rewrite N3, N4).
    apply (worker_step s _ w t); simpl; auto; rewrite ?N1; auto.
    + intros w' N. now rewrite upd_neq.
    + rewrite upd_eq. auto.
    + intros y. rewrite N3. auto.
    + intros x N. destruct (notify_neq s t x N) as (-> & -> & ->). now rewrite N7, N8, N9.
    + destruct P7 as [(Q & O)|(Q & O & Z)].
      * right. right. left. exists e. destruct (notify_no s t) as (Q1 & Q2 & Q3); [lia|]. unfold inP. cbn [rdy fin pre last acts pauses set_w]. rewrite Q1, Q2, Q3, N7, N8, N9, Q. repeat split; auto.
        -- apply (free_set s); auto. discriminate.
        -- now apply (one_ext s).
      * left. destruct (notify_act s t Q) as (Q1 & Q2 & Q3). unfold inQ. cbn [rdy fin pre acts pauses set_w]. rewrite Q1, Q2, Q3, N7, N8, P1, P5. repeat split; auto.
        -- apply (free_set s); auto. discriminate.
        -- apply (none_ext s); auto. intros y k. apply PE.
        -- intros y Y. simpl in *. rewrite N9 in Y. rewrite N2. congruence.
  - (* post *) assert (HH : hold (wp s w) = Some t) by now rewrite H.
    destruct (holder s t w (i_place s I t) HH) as (P1 & P2 & P3 & P4 & P5). rewrite H in P5. destruct P5 as (P5 & P6 & P7 & P8).
    apply (worker_step s _ w t); simpl; auto.
    + intros w' N. now rewrite upd_neq.
    + rewrite upd_eq. auto.
    + intros x N. now rewrite !upd_neq by auto.
    + right. right. right. unfold inF. cbn [rdy fin pre acts pauses set_w]. rewrite upd_eq, P2. repeat split; auto. apply (free_set s); auto. discriminate.
Qed.
Theorem reach_inv : forall s, reach calm s -> inv s.
Proof. intros s R. induction R as [|s l s' R IH C S]; [apply init_inv|eapply step_inv; eauto]. Qed.
End Inv.
