(** Resumption, the end of bodies and the ways it goes wrong. *)
From Coq Require Import List Arith Bool Lia.
From Verif Require Import YieldModel YieldProof.
Import ListNotations.

Section Thm.
Variables (body : nat -> list nat) (ss : nat -> bool) (est0 : nat -> nat).
Notation reach := (reach body ss est0).
Notation step := (step body ss).

(** ** The steps of one event's notification *)
Inductive walk (e : nat) : st -> st -> Prop :=
| wk_refl : forall s, walk e s s
| wk_step : forall s l s1 s2, (l = LBegin e \/ exists t, l = LVisit e t) -> step s l s1 -> walk e s1 s2 -> walk e s s2.
Lemma walk_to : forall e t i s k, vp s e = VWalk i -> i <= length (fol s e) -> k < i -> nth_error (fol s e) k = Some t -> (forall j, j < i -> nth_error (fol s e) j = Some t -> j = k) ->
  pre s t = 2 -> rdy s t = 0 -> exists s', walk e s s' /\ rdy s' t = 1.
Proof.
  intros e t. induction i as [|i IH]; intros s k V L K N U P R; [lia|]. destruct (nth_error (fol s e) i) as [x|] eqn:X; [|apply nth_error_None in X; lia].
  set (s1 := notify (set_v s e (VWalk i)) x). assert (S1 : step s (LVisit e x) s1) by now apply s_visit.
  destruct (notify_other (set_v s e (VWalk i)) x) as (N1 & N2 & N3 & N4 & _). destruct (Nat.eq_dec x t) as [->|NX].
  - destruct (notify_act (set_v s e (VWalk i)) t P) as (Q & _). exists s1. split; [eapply wk_step; [right; exists t; reflexivity|exact S1|apply wk_refl]|]. unfold s1. rewrite Q. simpl. now rewrite R.
  - assert (NT : t <> x) by congruence. destruct (notify_neq (set_v s e (VWalk i)) x t NT) as (Q1 & Q2 & Q3).
    assert (NK : k <> i) by congruence.
    destruct (IH s1 k) as (s' & Wk & Rs); unfold s1; rewrite ?N3, ?N4, ?Q1, ?Q3; simpl; rewrite ?upd_eq; auto; try lia. exists s'. split; [|exact Rs]. eapply wk_step; [right; exists x; reflexivity|exact S1|exact Wk].
Qed.
Lemma waiting_resumed : forall s t e, inv s -> inP s t e -> est s e = 0 -> exists s', walk e s s' /\ rdy s' t = 1.
Proof.
  intros s t e I (P1 & P2 & P3 & P4 & P5 & (k & Pk & U) & P7) Z. assert (V : vp s e <> VWait) by now apply (i_ev s I).
  destruct Pk as (N & Pk). destruct (vp s e) as [| |i|] eqn:E; try tauto.
  - set (s1 := set_v s e (VWalk (length (fol s e)))). assert (S1 : step s (LBegin e) s1) by now apply s_begin.
    destruct (walk_to e t (length (fol s e)) s1 k) as (s' & W & R); unfold s1; simpl; rewrite ?upd_eq; auto.
    + apply nth_error_Some. congruence.
    + intros j J NJ. apply (U e j). split; [exact NJ|now rewrite E].
    + exists s'. split; [|exact R]. eapply wk_step; [left; reflexivity|exact S1|exact W].
  - destruct (walk_to e t i s k) as (s' & W & R); auto.
    + now apply (i_walk s I).
    + intros j J NJ. apply (U e j). split; [exact NJ|now rewrite E].
    + eauto.
Qed.

(** ** The body *)
(** what is still to do is the rest of the body, and everything before is reached; in every run *)
Definition part (s : st) (t : nat) : Prop := exists d, body t = d ++ todo s t /\ forall e, In e d -> est s e = 0.
Lemma est_stays : forall s l s' e, step s l s' -> est s e = 0 -> est s' e = 0.
Proof.
  intros s l s' e S Z. destruct S; simpl; auto; try (destruct (notify_other s t) as (_ & X & _)); try (rewrite X; assumption).
  - destruct (Nat.eq_dec e e0) as [->|N]; [congruence|now rewrite upd_neq].
  - destruct (Nat.eq_dec e e0) as [->|N]; [congruence|now rewrite upd_neq].
  - destruct (notify_other (set_v s e0 (VWalk i)) t) as (_ & -> & _). exact Z.
  - unfold body_step. destruct (todo s t) as [|x xs]; [destruct (ss t); [|cbn [ev]; destruct (ev s t)]|destruct (est s x =? 0); [|destruct (ss t)]]; exact Z.
Qed.
Lemma part_step : forall s l s' t, step s l s' -> part s t -> part s' t.
Proof.
  intros s l s' t S (d & E & D).
  assert (K : todo s' t = todo s t -> part s' t). { intros X. exists d. rewrite X. split; [exact E|]. intros e I. eapply est_stays; eauto. }
  destruct S; try (apply K; reflexivity).
  - apply K. destruct (notify_other (set_v s e (VWalk i)) t0) as (_ & _ & _ & _ & -> & _). reflexivity.
  - apply K. simpl. destruct (notify_other s t0) as (_ & _ & _ & _ & -> & _). reflexivity.
  - unfold body_step in *. destruct (todo s t0) as [|x xs] eqn:T.
    + destruct (ss t0); [apply K; reflexivity|]. cbn [ev] in *. destruct (ev s t0); [|apply K; reflexivity]. destruct (Nat.eq_dec t t0) as [->|N].
      * exists []. simpl. rewrite upd_eq. split; [reflexivity|intros ? []].
      * apply K. simpl. now rewrite upd_neq.
    + destruct (est s x =? 0) eqn:Z; [|destruct (ss t0); apply K; reflexivity]. apply Nat.eqb_eq in Z. destruct (Nat.eq_dec t t0) as [->|N]; [|apply K; simpl; now rewrite upd_neq].
      exists (d ++ [x]). simpl. rewrite upd_eq, <- app_assoc. simpl. rewrite T in E. split; [exact E|]. intros y I. apply in_app_or in I as [I|[->|[]]]; auto.
  - apply K. simpl. destruct (notify_other s t0) as (_ & _ & _ & _ & -> & _). reflexivity.
Qed.
Lemma reach_part : forall ok s t, reach ok s -> part s t.
Proof. intros ok s t R. induction R as [|s l s' R IH C S]; [exists []; split; [reflexivity|intros ? []]|eapply part_step; eauto]. Qed.

(** how often the body came to its end, and when *)
Definition ended (s : st) (t : nat) : Prop := fin s t = 1 \/ exists w, wp s w = WPost t.
Record binv (s : st) : Prop := {
  b_ended : forall t, ended s t -> (ss t = true \/ ev s t = None) /\ runs s t = 1 /\ todo s t = [];
  b_not : forall t, ss t = true \/ ev s t = None -> ended s t \/ runs s t = 0
}.
Lemma binv_init : binv (init body est0).
Proof. split; simpl; [intros t [H|(w & H)]; discriminate|auto]. Qed.
Lemma binv_frame : forall s s', (forall t, ended s' t <-> ended s t) -> ev s' = ev s -> runs s' = runs s -> todo s' = todo s -> binv s -> binv s'.
Proof.
  intros s s' E V R T B. split; intros t.
  - rewrite E, V, R, T. apply (b_ended s B).
  - rewrite E, V, R. apply (b_not s B).
Qed.
Lemma ended_set : forall s w p q x, wp s w = p -> wp x = wp s -> fin x = fin s -> (forall t, p <> WPost t) -> (forall t, q <> WPost t) -> forall t, ended (set_w x w q) t <-> ended s t.
Proof.
  intros s w p q x W E F Hp Hq t. unfold ended. simpl. rewrite E, F. split; intros [A|(v & A)]; auto; right; exists v.
  - destruct (Nat.eq_dec v w) as [->|N]; [rewrite upd_eq in A; now apply Hq in A|now rewrite upd_neq in A].
  - rewrite upd_neq; [exact A|]. intros ->. rewrite W in A. now apply Hp in A.
Qed.
Lemma binv_step : forall s l s', inv s -> binv s -> step s l s' -> binv s'.
Proof.
  intros s l s' I B S. destruct S.
  1-3: apply (binv_frame s); auto; intros; tauto.
  - destruct (notify_other (set_v s e (VWalk i)) t) as (N1 & N2 & N3 & N4 & N5 & N6 & N7 & N8 & N9 & N10 & _). apply (binv_frame s); auto. intros x. unfold ended. rewrite N1, N7. tauto.
  - apply (binv_frame s); auto. intros; tauto.
  - apply (binv_frame s); auto. apply (ended_set s w WFree); auto; discriminate.
  - destruct (notify_other s t) as (N1 & N2 & N3 & N4 & N5 & N6 & N7 & N8 & N9 & N10 & _). apply (binv_frame s); auto. apply (ended_set s w (WStart t)); auto; discriminate.
  - (* body *)
    assert (HH : hold (wp s w) = Some t) by now rewrite H. destruct (holder s t w (i_place s I t) HH) as (P1 & P2 & P3 & P4 & P5).
    assert (NE : ~ ended s t). { intros [X|(v & X)]; [lia|]. assert (v = w) by (apply P4; now rewrite X). subst v. congruence. }
    unfold body_step. destruct (todo s t) as [|e es] eqn:T.
    + cbn [ev]. assert (G : forall o, (ss t = true /\ o = None) \/ (ss t = false /\ ev s t = None /\ o = ev s t) ->
        forall s1, fin s1 = fin s -> wp s1 = upd (wp s) w (WPost t) -> todo s1 = todo s -> (forall x, ev s1 x = if Nat.eqb x t then o else ev s x) -> runs s1 = upd (runs s) t (S (runs s t)) -> binv s1).
      { intros o Ho s1 F1 W1 T1 V1 R1.
        assert (EO : forall x, x <> t -> (ended s1 x <-> ended s x)).
        { intros x N. unfold ended. rewrite F1, W1. split; intros [A|(v & A)]; auto; right; exists v.
          - destruct (Nat.eq_dec v w) as [->|NW]; [rewrite upd_eq in A; congruence|now rewrite upd_neq in A].
          - rewrite upd_neq; [exact A|]. intros ->. congruence. }
        assert (R0 : runs s t = 0). { destruct (b_not s B t) as [X|X]; [destruct Ho as [(X & _)|(_ & X & _)]; auto|contradiction|exact X]. }
        split; intros x; destruct (Nat.eq_dec x t) as [->|N].
        - intros _. rewrite V1, T1, R1, Nat.eqb_refl, upd_eq, R0. split; [destruct Ho as [(X & _)|(_ & X & ->)]; auto|auto].
        - rewrite EO, V1, T1, R1, upd_neq by auto. apply Nat.eqb_neq in N. rewrite N. apply (b_ended s B).
        - intros _. left. right. exists w. now rewrite W1, upd_eq.
        - rewrite EO, V1, R1, upd_neq by auto. apply Nat.eqb_neq in N. rewrite N. apply (b_not s B). }
      destruct (ss t) eqn:SS.
      * apply (G None); auto.
      * destruct (ev s t) as [e|] eqn:V.
        -- split; intros x; unfold ended; simpl; destruct (Nat.eq_dec x t) as [->|N]; rewrite ?upd_eq; rewrite ?(upd_neq _ (todo s)), ?(upd_neq _ (runs s)) by auto.
           ++ intros [X|(v & X)]; [lia|]. destruct (Nat.eq_dec v w) as [->|NW]; [rewrite upd_eq in X; discriminate|]. rewrite upd_neq in X by auto. destruct NE. right. eauto.
           ++ intros E. apply (b_ended s B). destruct E as [X|(v & X)]; [now left|right]. exists v. destruct (Nat.eq_dec v w) as [->|NW]; [rewrite upd_eq in X; discriminate|]. now rewrite upd_neq in X by auto.
           ++ intros [X|X]; congruence.
           ++ intros X. destruct (b_not s B x X) as [[Y|(v & Y)]|Y]; auto. left. right. exists v. rewrite upd_neq; [exact Y|]. intros ->. congruence.
        -- apply (G None); auto. intros x. simpl. destruct (x =? t) eqn:XT; [apply Nat.eqb_eq in XT; now subst|reflexivity].
    + destruct (est s e =? 0).
      * split; intros x; unfold ended; simpl; [|apply (b_not s B)]. intros E. destruct (b_ended s B x E) as (E1 & E2 & E3). split; [exact E1|]. split; [exact E2|]. rewrite upd_neq; [exact E3|]. intros ->. contradiction.
      * destruct (ss t) eqn:SS.
        -- assert (EE := ended_set s w (WRun t) (WStore t e) (set_ev s t (Some e)) H eq_refl eq_refl ltac:(discriminate) ltac:(discriminate)).
           split; intros x; rewrite EE; simpl; destruct (Nat.eq_dec x t) as [->|N]; rewrite ?upd_eq; rewrite ?upd_neq by auto.
           ++ intros X. contradiction.
           ++ apply (b_ended s B).
           ++ intros _. apply (b_not s B). auto.
           ++ apply (b_not s B).
        -- split; intros x; unfold ended; simpl; destruct (Nat.eq_dec x t) as [->|N]; rewrite ?upd_eq; rewrite ?upd_neq by auto.
           ++ intros X. contradiction.
           ++ apply (b_ended s B).
           ++ intros [X|X]; congruence.
           ++ apply (b_not s B).
  - apply (binv_frame s); auto. apply (ended_set s w (WStore t e)); auto; discriminate.
  - apply (binv_frame s); auto. apply (ended_set s w (WCheck t e)); auto; [discriminate|destruct (est s e =? 0); discriminate].
  - apply (binv_frame s); auto. apply (ended_set s w (WPush t e)); auto; discriminate.
  - apply (binv_frame s); auto. apply (ended_set s w (WInc t e)); auto; discriminate.
  - apply (binv_frame s); auto. apply (ended_set s w (WUp t e p)); auto; discriminate.
  - destruct (notify_other s t) as (N1 & N2 & N3 & N4 & N5 & N6 & N7 & N8 & N9 & N10 & _). apply (binv_frame s); auto. apply (ended_set s w (WNote t e)); auto; discriminate.
  - assert (HH : hold (wp s w) = Some t) by now rewrite H. destruct (holder s t w (i_place s I t) HH) as (P1 & P2 & P3 & P4 & P5).
    apply (binv_frame s); auto. intros x. unfold ended. simpl. destruct (Nat.eq_dec x t) as [->|N].
    + rewrite upd_eq, P2. split; intros _; [right; eauto|left; reflexivity].
    + rewrite upd_neq by auto. split; intros [A|(v & A)]; auto; right; exists v.
      * destruct (Nat.eq_dec v w) as [->|NW]; [rewrite upd_eq in A; discriminate|now rewrite upd_neq in A].
      * rewrite upd_neq; [exact A|]. intros ->. congruence.
Qed.
Lemma reach_binv : forall s, reach calm s -> binv s.
Proof.
  intros s R. induction R as [|s l s' R IH C S]; [apply binv_init|]. apply (binv_step s l); auto. now apply (reach_inv body ss est0).
Qed.
(** the mark of a yield without stack switching stays *)
Lemma mark_stays : forall s l s' t, step s l s' -> ss t = false -> ev s t <> None -> ev s' t <> None.
Proof.
  intros s l s' t S F N. destruct S; simpl; auto.
  - destruct (notify_other (set_v s e (VWalk i)) t0) as (_ & _ & _ & _ & _ & -> & _). exact N.
  - destruct (notify_other s t0) as (_ & _ & _ & _ & _ & -> & _). exact N.
  - unfold body_step. destruct (Nat.eq_dec t t0) as [->|NT]; destruct (todo s t0) as [|x xs]; try (destruct (est s x =? 0)); rewrite ?F; simpl; auto.
    + destruct (ev s t0) eqn:V; simpl; rewrite V; [discriminate|congruence].
    + rewrite upd_eq. discriminate.
    + destruct (ss t0); simpl; [now rewrite upd_neq|destruct (ev s t0); exact N].
    + destruct (ss t0); simpl; now rewrite upd_neq.
  - destruct (notify_other s t0) as (_ & _ & _ & _ & _ & -> & _). exact N.
Qed.

(** ** A task nobody will ever resume *)
Definition lost (s : st) (t : nat) : Prop := rdy s t = 0 /\ fin s t = 0 /\ free s t /\ none s t /\ forall e, est s e = 0 <-> vp s e <> VWait.
Lemma ev_step : forall s l s', step s l s' -> (forall e, est s e = 0 <-> vp s e <> VWait) -> forall e, est s' e = 0 <-> vp s' e <> VWait.
Proof.
  intros s l s' S I x. destruct S; try apply I; cbn [est vp set_v set_w].
  - destruct (Nat.eq_dec x e) as [->|N]; [rewrite upd_eq|rewrite upd_neq by auto; apply I]. rewrite <- I. split; [discriminate|tauto].
  - assert (Wt : vp s e = VWait). { destruct (vp s e) eqn:E; auto; exfalso; assert (X : est s e = 0) by (apply I; congruence); congruence. }
    destruct (Nat.eq_dec x e) as [->|N]; [rewrite upd_eq|rewrite upd_neq by auto; destruct (k =? 0); rewrite ?upd_neq by auto; apply I].
    destruct k; simpl; rewrite ?upd_eq; split; congruence.
  - rewrite I. destruct (Nat.eq_dec x e) as [->|N]; [rewrite upd_eq; split; congruence|rewrite upd_neq by auto; tauto].
  - destruct (notify_other (set_v s e (VWalk i)) t) as (_ & -> & _ & -> & _). simpl. rewrite I. destruct (Nat.eq_dec x e) as [->|N]; [rewrite upd_eq; split; congruence|rewrite upd_neq by auto; tauto].
  - rewrite I. destruct (Nat.eq_dec x e) as [->|N]; [rewrite upd_eq; split; congruence|rewrite upd_neq by auto; tauto].
  - destruct (notify_other s t) as (_ & -> & _ & -> & _). apply I.
  - unfold body_step. destruct (todo s t) as [|y ys]; [destruct (ss t); [|cbn [ev]; destruct (ev s t)]|destruct (est s y =? 0); [|destruct (ss t)]]; apply I.
  - destruct (notify_other s t) as (_ & -> & _ & -> & _). apply I.
Qed.
Lemma lost_step : forall s l s' t, step s l s' -> lost s t -> lost s' t.
Proof.
  intros s l s' t S (R & F & Fr & N & I). assert (I' := ev_step s l s' S I).
  assert (G : rdy s' t = rdy s t -> fin s' t = fin s t -> (forall w, hold (wp s' w) = Some t -> hold (wp s w) = Some t) -> (forall e k, pending s' e k t -> pending s e k t) -> lost s' t).
  { intros E1 E2 E3 E4. unfold lost. rewrite E1, E2. repeat split; auto; try apply I'. - intros w X. exact (Fr w (E3 w X)). - intros e k X. exact (N e k (E4 e k X)). }
  assert (SW : forall w x q u, hold q = Some u \/ q = WFree -> u <> t -> wp x = wp s -> forall v, hold (wp (set_w x w q) v) = Some t -> hold (wp s v) = Some t).
  { intros w x q u Hq NU E v X. simpl in X. destruct (Nat.eq_dec v w) as [->|NV]; [rewrite upd_eq in X; destruct Hq as [Hq| ->]; [congruence|discriminate]|]. now rewrite upd_neq, E in X. }
  assert (NH : forall w u, hold (wp s w) = Some u -> u <> t). { intros w u X ->. exact (Fr w X). }
  destruct S.
  - apply G; auto.
  - apply G; auto. intros y j. unfold pending. simpl. destruct k; simpl; auto. destruct (Nat.eq_dec y e) as [->|NE]; [|now rewrite upd_neq].
    assert (Wt : vp s e = VWait). { destruct (vp s e) eqn:E; auto; exfalso; assert (X : est s e = 0) by (apply I; congruence); congruence. } rewrite upd_eq, Wt. tauto.
  - apply G; auto. intros y j. unfold pending. simpl. destruct (Nat.eq_dec y e) as [->|NE]; [rewrite upd_eq, H|rewrite upd_neq by auto; tauto]. tauto.
  - assert (NT : t <> t0). { intros <-. apply (N e i). split; [exact H0|rewrite H; auto]. }
    destruct (notify_other (set_v s e (VWalk i)) t0) as (N1 & N2 & N3 & N4 & N5 & N6 & N7 & _). destruct (notify_neq (set_v s e (VWalk i)) t0 t NT) as (Q1 & Q2 & Q3). apply G; rewrite ?N1, ?N7; auto.
    intros y j. unfold pending. rewrite N3, N4. simpl. destruct (Nat.eq_dec y e) as [->|NE]; [rewrite upd_eq, H; intros (A & B); split; [exact A|lia]|rewrite upd_neq by auto; tauto].
  - apply G; auto. intros y j. unfold pending. simpl. destruct (Nat.eq_dec y e) as [->|NE]; [rewrite upd_eq; tauto|rewrite upd_neq by auto; tauto].
  - assert (NT : t0 <> t) by congruence. apply G; auto; simpl; [now rewrite upd_neq by auto|]. apply (SW w s (WStart t0) t0); auto.
  - assert (NT : t0 <> t) by (apply (NH w); now rewrite H). destruct (notify_other s t0) as (N1 & N2 & N3 & N4 & N5 & N6 & N7 & _). destruct (notify_neq s t0 t) as (Q1 & Q2 & Q3); [auto|].
    apply G; simpl; rewrite ?N7; auto; [apply (SW w (notify s t0) (WRun t0) t0); auto|]. intros y j. unfold pending. simpl. now rewrite N3, N4.
  - assert (NT : t0 <> t) by (apply (NH w); now rewrite H). unfold body_step in *.
    destruct (todo s t0) as [|y ys]; [destruct (ss t0); [|cbn [ev] in *; destruct (ev s t0)]|destruct (est s y =? 0); [|destruct (ss t0)]]; apply G; auto.
    + apply (SW w (set_ev s t0 None) (WPost t0) t0); auto.
    + apply (SW w s (WStore t0 n) t0); auto.
    + apply (SW w s (WPost t0) t0); auto.
    + apply (SW w (set_ev s t0 (Some y)) (WStore t0 y) t0); auto.
  - assert (NT : t0 <> t) by (apply (NH w); now rewrite H). apply G; auto. apply (SW w s (WCheck t0 e) t0); auto.
  - assert (NT : t0 <> t) by (apply (NH w); now rewrite H). apply G; auto. destruct (est s e =? 0); [apply (SW w s (WUp t0 e false) t0)|apply (SW w s (WPush t0 e) t0)]; auto.
  - assert (NT : t0 <> t) by (apply (NH w); now rewrite H). apply G; auto; [apply (SW w s (WInc t0 e) t0); auto|]. intros y j. unfold pending. simpl. destruct (Nat.eq_dec y e) as [->|NE]; [rewrite upd_eq|now rewrite upd_neq].
    intros (A & B). split; [|exact B]. destruct (Nat.lt_ge_cases j (length (fol s e))) as [L|L]; [now rewrite nth_error_app1 in A|]. rewrite nth_error_app2 in A by auto. destruct (j - length (fol s e)) as [|[|z]]; simpl in A; congruence.
  - assert (NT : t0 <> t) by (apply (NH w); now rewrite H). apply G; auto. apply (SW w s (WUp t0 e true) t0); auto.
  - assert (NT : t0 <> t) by (apply (NH w); now rewrite H). apply G; auto. apply (SW w s (WNote t0 e) t0); auto.
  - assert (NT : t0 <> t) by (apply (NH w); now rewrite H). destruct (notify_other s t0) as (N1 & N2 & N3 & N4 & N5 & N6 & N7 & _). destruct (notify_neq s t0 t) as (Q1 & Q2 & Q3); [auto|].
    apply G; simpl; rewrite ?N7; auto; [apply (SW w (notify s t0) WFree t0); auto|]. intros y j. unfold pending. simpl. now rewrite N3, N4.
  - assert (NT : t0 <> t) by (apply (NH w); now rewrite H). apply G; auto; simpl; [now rewrite upd_neq by auto|]. apply (SW w s WFree t0); auto.
Qed.
Inductive steps : st -> st -> Prop :=
| st_refl : forall s, steps s s
| st_step : forall s l s1 s2, step s l s1 -> steps s1 s2 -> steps s s2.
Lemma lost_for_ever : forall s s' t, steps s s' -> lost s t -> lost s' t.
Proof. intros s s' t H. induction H; intros L; [exact L|]. apply IHsteps. eapply lost_step; eauto. Qed.

(** ** The body without stack switching: once marked, it runs again and again *)
Definition again (s : st) (t w : nat) : Prop :=
  rdy s t = 1 /\ wp s w = WFree /\ pre s t = 1 /\ ss t = false /\ todo s t = body t /\ (forall x, In x (body t) -> est s x = 0) /\ exists e, ev s t = Some e /\ est s e = 0.
Lemma body_through : forall w t s l, wp s w = WRun t -> todo s t = l -> (forall x, In x l -> est s x = 0) -> reach calm s ->
  exists s', reach calm s' /\ wp s' = wp s /\ todo s' t = [] /\ rdy s' = rdy s /\ pre s' = pre s /\ est s' = est s /\ ev s' = ev s /\ runs s' = runs s.
Proof.
  intros w t s l. revert s. induction l as [|x l IH]; intros s W T Z R; [exists s; repeat split; auto|].
  assert (X : est s x =? 0 = true) by (apply Nat.eqb_eq, Z; now left).
  assert (S1 : step s LWork (set_todo s t l)). { assert (Q := s_body body ss s w t W). unfold body_step in Q. now rewrite T, X in Q. }
  destruct (IH (set_todo s t l)) as (s' & R' & A1 & A2 & A3 & A4 & A5 & A6 & A7); auto.
  - simpl. now rewrite upd_eq.
  - intros y Y. apply Z. now right.
  - exact (r_step body ss est0 calm s LWork _ R Logic.I S1).
  - exists s'. auto 10.
Qed.
Lemma again_step : forall s t w, reach calm s -> again s t w -> exists s', reach calm s' /\ again s' t w /\ runs s' t = S (runs s t).
Proof.
  intros s t w R (A1 & A2 & A3 & A4 & A5 & A6 & e & A7 & A8).
  set (s1 := set_w (mkS (wp s) (pre s) (est s) (fol s) (vp s) (upd (rdy s) t 0) (todo s) (ev s) (fin s) (acts s) (pauses s) (last s) (runs s)) w (WStart t)).
  assert (R1 : reach calm s1) by exact (r_step body ss est0 calm s LWork _ R Logic.I (s_take body ss s w t 0 A2 A1)).
  set (s2 := set_w (notify s1 t) w (WRun t)).
  assert (R2 : reach calm s2). { refine (r_step body ss est0 calm s1 LWork _ R1 Logic.I (s_start body ss s1 w t _)). simpl. now rewrite upd_eq. }
  destruct (notify_other s1 t) as (N1 & N2 & N3 & N4 & N5 & N6 & N7 & N8 & N9 & N10 & N11). destruct (notify_no s1 t) as (Q1 & Q2 & Q3); [simpl; lia|].
  assert (P2 : pre s2 t = 0) by (unfold s2; simpl; rewrite Q3; simpl; lia).
  assert (D2 : rdy s2 t = 0) by (unfold s2; simpl; rewrite Q1; simpl; now rewrite upd_eq).
  assert (V2 : ev s2 = ev s) by (unfold s2; simpl; now rewrite N6). assert (E2 : est s2 = est s) by (unfold s2; simpl; now rewrite N2).
  assert (T2 : todo s2 t = body t) by (unfold s2; simpl; now rewrite N5). assert (U2 : runs s2 = runs s) by (unfold s2; simpl; now rewrite N10).
  assert (W2 : wp s2 w = WRun t) by (unfold s2; simpl; now rewrite upd_eq). clearbody s2.
  destruct (body_through w t s2 (body t) W2 T2) as (s3 & R3 & B1 & B2 & B3 & B4 & B5 & B6 & B7); auto. { now rewrite E2. }
  set (s4 := set_w (set_todo (mkS (wp s3) (pre s3) (est s3) (fol s3) (vp s3) (rdy s3) (todo s3) (ev s3) (fin s3) (acts s3) (pauses s3) (last s3) (upd (runs s3) t (S (runs s3 t)))) t (body t)) w (WStore t e)).
  assert (R4 : reach calm s4). { assert (Q := s_body body ss s3 w t). rewrite B1 in Q. specialize (Q W2). unfold body_step in Q. rewrite B2, A4 in Q. cbn [ev] in Q. rewrite B6, V2, A7 in Q. unfold s4. rewrite B6, V2. exact (r_step body ss est0 calm s3 LWork _ R3 Logic.I Q). }
  set (s5 := set_w (mkS (wp s4) (upd (pre s4) t 1) (est s4) (fol s4) (vp s4) (rdy s4) (todo s4) (ev s4) (fin s4) (acts s4) (upd (pauses s4) t (S (pauses s4 t))) (upd (last s4) t (Some e)) (runs s4)) w (WCheck t e)).
  assert (R5 : reach calm s5). { refine (r_step body ss est0 calm s4 LWork _ R4 Logic.I (s_store body ss s4 w t e _)). simpl. now rewrite upd_eq. }
  set (s6 := set_w s5 w (WUp t e false)).
  assert (R6 : reach calm s6). { assert (Q := s_check body ss s5 w t e). simpl in Q. rewrite upd_eq in Q. specialize (Q eq_refl). rewrite B5, E2, A8 in Q. exact (r_step body ss est0 calm s5 LWork _ R5 Logic.I Q). }
  set (s7 := set_w (set_pre s6 t (S (pre s6 t))) w (WNote t e)).
  assert (R7 : reach calm s7). { refine (r_step body ss est0 calm s6 LWork _ R6 Logic.I (s_upp body ss s6 w t e false _)). simpl. now rewrite upd_eq. }
  set (s8 := set_w (notify s7 t) w WFree).
  assert (R8 : reach calm s8). { refine (r_step body ss est0 calm s7 LWork _ R7 Logic.I (s_note body ss s7 w t e _)). simpl. now rewrite upd_eq. }
  exists s8. split; [exact R8|]. destruct (notify_other s7 t) as (M1 & M2 & M3 & M4 & M5 & M6 & M7 & M8 & M9 & M10 & M11). destruct (notify_act s7 t) as (K1 & K2 & K3); [simpl; now rewrite !upd_eq|].
  split; [|unfold s8; simpl; rewrite M10; simpl; now rewrite upd_eq, B7, U2].
  unfold again, s8. cbn [rdy wp pre todo est ev set_w]. rewrite K1, K3, M5, M2, M6, upd_eq. simpl. rewrite upd_eq, B3, D2, B5, E2, B6, V2. repeat split; auto. exists e. auto.
Qed.
Lemma again_for_ever : forall n s t w, reach calm s -> again s t w -> exists s', reach calm s' /\ again s' t w /\ runs s' t = n + runs s t.
Proof.
  induction n as [|n IH]; intros s t w R A; [exists s; auto|]. destruct (IH s t w R A) as (s1 & R1 & A1 & E1). destruct (again_step s1 t w R1 A1) as (s2 & R2 & A2 & E2). exists s2. split; [exact R2|]. split; [exact A2|]. lia.
Qed.
End Thm.
