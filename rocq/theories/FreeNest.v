(** Nested tasks, tasks that wait, and several submitting threads: the run on the spot of the
    root tasks in the order in which their bodies were handed out. *)
From Coq Require Import Bool List Arith NArith ZArith Lia Permutation Sorting.Sorted.
From Verif Require Import AccessModel AccessSpec AccessProof UserModel UserProof SchedModel SchedSpec SchedBase SchedInv1 SchedInv2 SchedInv3 SchedInv4 SchedInv5 SchedInv6 SchedInv7 SchedInv8 SchedFront SchedThm SchedLive SchedTerm SchedSeq SchedMany SchedValue SchedFree NestSpec SchedNest NestValue.
Import ListNotations.
Open Scope Z_scope.

(** ** The same tasks under another main program *)
Definition with_main (P : prog) (m : list instr) : prog := mkProg m (p_task P) (p_wrap P).

Lemma main_within P m q t : within P q t <-> within (with_main P m) q t.
Proof. split; (induction 1 as [|b c H IH S]; [constructor|econstructor; [exact IH|exact S]]). Qed.
Lemma main_spot P m o b l : on_the_spot P o b l -> on_the_spot (with_main P m) o b l.
Proof. induction 1; constructor; auto. Qed.

(** the tasks of the root space among those whose bodies were handed out, in that order *)
Definition is_root (P : prog) (t : nat) : bool := match parent P t with None => true | Some _ => false end.
Definition roots (P : prog) (l : list lev) : list nat := filter (is_root P) (execs l).

Lemma spawns_map ts : spawns (map ISpawn ts) = ts.
Proof. induction ts; simpl; congruence. Qed.
Lemma is_root_spec P t : is_root P t = true <-> parent P t = None.
Proof. unfold is_root. destruct (parent P t); split; congruence. Qed.
Lemma filter_prec {A} (f : A -> bool) l x y : prec l x y -> f x = true -> f y = true -> prec (filter f l) x y.
Proof.
  intros (a & b & c & ->) Fx Fy. exists (filter f a), (filter f b), (filter f c).
  rewrite filter_app. simpl. rewrite Fx, filter_app. simpl. now rewrite Fy.
Qed.
Lemma prec_filter {A} (f : A -> bool) l x y : prec (filter f l) x y -> prec l x y.
Proof.
  induction l as [|z l IH]; simpl; [intros (a & b & c & E); destruct a; discriminate|].
  destruct (f z) eqn:E; [|intros H; now apply prec_cons, IH].
  intros (a & b & c & Q). destruct a as [|z' a]; simpl in Q; injection Q as -> Q.
  - apply prec_head. assert (In y (filter f l)) as Hy by (rewrite Q; apply in_or_app; right; now left). now apply filter_In in Hy.
  - apply prec_cons, IH. now exists a, b, c.
Qed.

(** ** Machine *)
Section Gen.
  Context (P : prog) {U : front} (W : wfc P U) (NW : p_wrap P = false).

  Lemma wfm_main ts : NoDup ts -> (forall t, In t ts -> parent P t = None) -> wfo (with_main P (map ISpawn ts)).
  Proof.
    intros N H. split.
    - intros [q|] c Hc; [exact (m_parent P W (Some q) c Hc)|]. simpl in Hc. apply in_map_iff in Hc as (t & E & Ht). injection E as <-. exact (H t Ht).
    - intros q c Hc. exact (m_lt P W q c Hc).
    - intros [q|]; [exact (m_once P W (Some q))|]. simpl. now rewrite spawns_map.
  Qed.
  Lemma wfm_le q t : within P q t -> (q <= t)%nat.
  Proof. induction 1 as [|b c H IH S]; auto. apply (m_lt P W) in S. lia. Qed.

  Lemma m_sp_within n s q t : mreach P U n s -> within P q t -> sp s t -> sp s q.
  Proof.
    intros R. induction 1 as [|b c H IH S]; auto. intros Q. apply IH.
    assert (I := mreach_Inv P W NW n s R). assert (E := m_parent P W _ _ S).
    assert (X := sp_parent P W s I c Q). rewrite E in X. simpl in X.
    apply (mr_exec_sp P W NW n s b R). pose proof (f_start P s I b). lia.
  Qed.
  Lemma m_rc_within n s q t : mreach P U n s -> within P q t -> rc s q -> sp s t -> rc s t.
  Proof.
    intros R. induction 1 as [|b c H IH S]; auto. intros Q Sc.
    assert (E := m_parent P W _ _ S).
    apply in_reach. eapply (mr_children_first P W NW n s c b); eauto.
    - apply in_reach. apply IH; auto. eapply m_sp_within; eauto. econstructor; [constructor|eauto].
    - now apply in_spawn.
  Qed.
  Lemma m_exec_within n s q t : mreach P U n s -> within P q t -> 1 <= zsum (v_exec t) (log s) -> 1 <= zsum (v_exec q) (log s).
  Proof.
    intros R. induction 1 as [|b c H IH S]; auto. intros Q. apply IH.
    assert (I := mreach_Inv P W NW n s R). assert (E := m_parent P W _ _ S).
    assert (X := sp_parent P W s I c (mr_exec_sp P W NW n s c R Q)). rewrite E in X. simpl in X.
    pose proof (f_start P s I b). lia.
  Qed.

  Lemma m_body_frame s q : Inv P U s -> 1 <= zsum (v_start q) (log s) -> ~ 1 <= zsum (v_end q) (log s) ->
    exists f, In f (frames s) /\ is_body (Some q) f = 1.
  Proof.
    intros I B E. pose proof (f_end P s I q). assert (LB := law_body P s (i_laws P s I) q).
    assert (Q0 : 0 < zsum (is_body (Some q)) (frames s)) by lia. apply zsum_pos_ex in Q0 as (f & Hf & Q).
    exists f. split; auto. unfold is_body in Q |- *. destruct f; try lia; match goal with |- zb ?b = 1 => destruct b; simpl in *; lia end.
  Qed.
  Lemma m_left_piece s q f : Inv P U s -> In f (frames s) -> is_body (Some q) f = 1 -> suffix_of (left_of f) (body P (Some q)).
  Proof.
    intros I Hf Q. assert (Sf := law_suffix P s (i_laws P s I) _ Hf). unfold is_body in Q.
    destruct f; try lia; destruct (onat_eqb o (Some q)) eqn:E; simpl in Q; try lia; apply onat_eq in E; subst o;
      destruct Sf as (m & C & Sf); cbn [code] in C; subst m; cbn [left_of].
    - exact Sf.
    - destruct Sf as [l Sf]. exists (l ++ [ISpawn c]). rewrite <- app_assoc. exact Sf.
  Qed.
  Lemma m_done_nth n s t k a : mreach P U n s -> nth_error (done t (log s)) k = Some a ->
    nth_error (acts_of (body P (Some t))) k = Some a.
  Proof.
    intros R Ht. assert (I := mreach_Inv P W NW n s R). destruct (mr_done_ok P W NW n s R t) as (D1 & D2 & D3).
    pose proof (f_start P s I t). pose proof (f_exec P s I t). pose proof (f_end P s I t).
    destruct (Z.eq_dec (zsum (v_start t) (log s)) 0) as [e|e]; [rewrite D1 in Ht by easy; destruct k; discriminate|].
    destruct (Z_le_dec 1 (zsum (v_end t) (log s))) as [l|l]; [now rewrite <- D3|].
    destruct (m_body_frame s t I) as (f & Hf & Q); [lia|lia|].
    rewrite <- (D2 f Hf Q). rewrite nth_error_app1; auto. apply nth_error_Some. congruence.
  Qed.
  Lemma m_joined_ended n s b t : mreach P U n s -> (forall c, In (IGet c) b -> In (LGet c) (log s)) -> joined P b t -> ended s t.
  Proof.
    intros R A. induction 1 as [c H|c d H IH S].
    - exact (got_ended P W NW n s c R (A c H)).
    - apply (got_ended P W NW n s d R). exact (mr_end_got P n s c d R IH S).
  Qed.
  Lemma m_done_gets n s t k x a y : mreach P U n s -> body P (Some t) = x ++ IAct a :: y -> length (acts_of x) = k ->
    nth_error (done t (log s)) k = Some a -> forall c, In (IGet c) x -> In (LGet c) (log s).
  Proof.
    intros R E L H c Hc. assert (I := mreach_Inv P W NW n s R).
    destruct (mr_done_ok P W NW n s R t) as (D1 & D2 & D3).
    pose proof (f_start P s I t). pose proof (f_exec P s I t). pose proof (f_end P s I t).
    destruct (Z.eq_dec (zsum (v_start t) (log s)) 0) as [e|e]; [rewrite D1 in H by easy; destruct k; discriminate|].
    destruct (Z_le_dec 1 (zsum (v_end t) (log s))) as [l|l].
    { apply (mr_end_got P n s t c R); [now apply in_end|]. rewrite E. apply in_or_app. auto. }
    destruct (m_body_frame s t I) as (f & Hf' & Q1); [lia|lia|].
    assert (D := D2 f Hf' Q1). assert (G := mr_got P n s R f Hf').
    assert (X : exists pre is, body P (Some t) = pre ++ is /\ (forall c, In (IGet c) pre -> In (LGet c) (log s)) /\ left_of f = is).
    { destruct f; simpl in Q1; try lia; unfold zb in Q1; destruct o as [o'|]; simpl in Q1; try lia;
        destruct (Nat.eqb_spec o' t) as [->|]; try lia; destruct G as (m & pre & C & Em & A); simpl in C; subst m; exists pre; eexists; split; eauto. }
    destruct X as (pre & is & EB & A & LF). rewrite LF in D. rewrite EB, acts_app in D.
    assert (LD : length (done t (log s)) = length (acts_of pre)) by (apply (f_equal (@length _)) in D; rewrite !app_length in D; lia).
    assert (K : (k < length (acts_of pre))%nat) by (rewrite <- LD; apply nth_error_Some; congruence).
    rewrite E in EB. destruct (longer_prefix _ _ _ _ EB) as [r ->]; [lia|]. apply A. apply in_or_app. auto.
  Qed.

  (** the instructions of a body before one that has emplaced [c] are over *)
  Lemma m_spawned_split n s q A c B : mreach P U n s -> sp s c -> body P (Some q) = A ++ ISpawn c :: B ->
    ended s q \/ exists f r, In f (frames s) /\ is_body (Some q) f = 1 /\ body P (Some q) = (A ++ ISpawn c :: r) ++ left_of f.
  Proof.
    intros R Sc E. assert (I := mreach_Inv P W NW n s R).
    assert (Pc : parent P c = Some q) by (apply (m_parent P W); rewrite E; apply in_or_app; right; now left).
    destruct (Z_le_dec 1 (zsum (v_end q) (log s))) as [l|l]; [left; now apply in_end|right].
    assert (X := sp_parent P W s I c Sc). rewrite Pc in X. simpl in X.
    destruct (m_body_frame s q I) as (f & Hf & Q); [lia|lia|]. destruct (m_left_piece s q f I Hf Q) as [pre Ef].
    assert (NI : ~ In (ISpawn c) (left_of f)).
    { intros Y. pose proof (law_spawn P s (i_laws P s I) c) as LS. pose proof (spawns_once P W c (parent P c)). pose proof (f_startedz P s I (parent P c)).
      assert (Z1 : n_spawn c f <= zsum (n_spawn c) (frames s)) by (apply in_w; auto; intro; apply w_nn).
      assert (Z2 : 1 <= n_spawn c f) by (unfold n_spawn; apply spawns_In, ni_pos in Y; lia).
      unfold sp in Sc. nia. }
    rewrite E in Ef. destruct (split_out _ _ _ _ _ Ef NI) as [r ->]. exists f, r. rewrite E. auto.
  Qed.
  Lemma m_ended_spawned n s q c : mreach P U n s -> ended s q -> In (ISpawn c) (body P (Some q)) -> sp s c.
  Proof.
    intros R En Hc. assert (I := mreach_Inv P W NW n s R). assert (Pc := m_parent P W _ _ Hc).
    apply in_end in En. pose proof (f_end P s I q) as E0. pose proof (f_start P s I q). pose proof (f_exec P s I q). pose proof (law_body P s (i_laws P s I) q) as LB.
    assert (LS := law_spawn P s (i_laws P s I) c). rewrite Pc in LS. simpl startedz in LS.
    assert (X := proj2 (spawns_In c (body P (Some q))) Hc). apply ni_pos in X.
    assert (Z : zsum (n_spawn c) (frames s) = 0).
    { apply zsum_zero. intros f Hf. unfold n_spawn. destruct (Z.eq_dec (zsum (ni c) (spawns (left_of f))) 0) as [e|e]; auto. exfalso.
      assert (Hi : In c (spawns (left_of f))) by (apply ni_pos; pose proof (zsum_nonneg (ni c) (spawns (left_of f)) ltac:(intros; unfold ni, zb; destruct (_ =? _)%nat; lia)); lia).
      apply spawns_In in Hi.
      assert (Q : exists o, is_body o f = 1 /\ In (ISpawn c) (body P o)).
      { assert (Sf := law_suffix P s (i_laws P s I) _ Hf).
        destruct f; simpl in Hi; try easy; exists o; (split; [simpl; now rewrite onat_same|]);
          destruct Sf as (m & C & pre & Em); apply (code_In P W o m); auto; rewrite Em; apply in_or_app; right; [exact Hi|now right]. }
      destruct Q as (o & Q1 & Hj). apply (m_parent P W) in Hj. rewrite Pc in Hj. subst o.
      assert (B : is_body (Some q) f <= zsum (is_body (Some q)) (frames s)) by (apply in_w; auto; intro; apply w_nn4). lia. }
    unfold sp. nia.
  Qed.
  Lemma m_rc_all n s q t : mreach P U n s -> rc s q -> within P q t -> sp s t /\ rc s t.
  Proof.
    intros R C. assert (I := mreach_Inv P W NW n s R). induction 1 as [|b c H [IH1 IH2] S].
    - split; auto. assert (X := rc_exec P s I q C). exact (mr_exec_sp P W NW n s q R ltac:(lia)).
    - assert (Sc : sp s c). { apply (m_ended_spawned n s b c R); auto. apply in_end. apply (rc_end P s I) in IH2. lia. }
      split; auto. apply (m_rc_within n s b c R); auto. econstructor; [constructor|exact S].
  Qed.
  Lemma m_ended_done n s t k a : mreach P U n s -> ended s t -> nth_error (acts_of (body P (Some t))) k = Some a -> In ((t, k), a) (tperformed (log s)).
  Proof.
    intros R En H. apply in_tperformed. destruct (mr_done_ok P W NW n s R t) as (_ & _ & D). rewrite D; auto. now apply in_end.
  Qed.
  Lemma m_sp_root n s t : mreach P U n s -> sp s t -> exists c, parent P c = None /\ within P c t.
  Proof.
    intros R. assert (I := mreach_Inv P W NW n s R).
    induction t as [t IH] using lt_wf_ind. intros Q. assert (B := sp_body P W s I t Q).
    apply spawns_In in B. destruct (parent P t) as [q|] eqn:E.
    - destruct (IH q) as (c & C1 & C2); [exact (m_lt P W q t B)| |].
      + apply (m_sp_within n s q t R); auto. econstructor; [constructor|exact B].
      + exists c. split; auto. econstructor; eauto.
    - exists t. split; [exact E|constructor].
  Qed.
  Lemma m_spot_exists (Q : nat -> Prop) N : (forall t, Q t -> (t < N)%nat) ->
    (forall t c, Q t -> In (ISpawn c) (body P (Some t)) -> Q c) ->
    forall k t, (N <= t + k)%nat -> Q t -> exists l, on_the_spot P (Some t) (body P (Some t)) l.
  Proof.
    intros B C. induction k as [|k IH]; intros t L Ht; [apply B in Ht; lia|].
    apply spot_body. intros c Hc. apply IH; [|eapply C; eauto].
    apply (m_lt P W) in Hc. lia.
  Qed.

  (** of two tasks of one space with conflicting accesses that were handed out, one was complete before *)
  Lemma m_one_ahead n s p t : mreach P U n s -> started s p -> started s t -> p <> t -> ser P p t ->
    ahead (log s) p t \/ ahead (log s) t p.
  Proof.
    intros R Sp St D C. destruct (ser_ser_on P W p t C) as (r & _ & S).
    assert (X : forall a, started s a -> sp s a) by (intros a Ha; apply in_exec in Ha; exact (mr_exec_sp P W NW n s a R Ha)).
    assert (S2 : ser_on P r t p).
    { destruct S as (Ep & a & b & Ha & Hb & Hr & S). split; [easy|]. exists b, a. repeat split; auto.
      - apply ra_is_serial_inv in S as [S _]. congruence.
      - now rewrite ra_is_serial_sym. }
    destruct (lt_eq_lt_dec (rk U r p) (rk U r t)) as [[L|L]|L].
    - left. eapply (mr_ahead_ex P W NW); eauto.
    - apply (m_rank P W) in L. easy.
    - right. eapply (mr_ahead_ex P W NW); eauto.
  Qed.
  Lemma m_ahead_prec n s p t : mreach P U n s -> ahead (log s) p t -> prec (execs (log s)) p t.
  Proof.
    intros R A. assert (L := ahead_rank P W NW n s p t R A). destruct (rk_of_split (execs (log s)) p t) as (a & b & d & E); auto.
    - exact (exec_nodup P W NW n s R).
    - destruct A as (l1 & l2 & E & _). apply execs_in. rewrite E. apply in_or_app. right. now left.
    - exists a, b, d. exact E.
  Qed.
End Gen.

Section Nest.
  Context (P : prog) (ms : list (list instr)) (W : wf_any P ms) (NW : p_wrap P = false) (n : nat).
  Context (ND : forall t, NoDup (uniq P t)).
  Context (CC : children_covered P) (IP : inner_private P) (KO : keeps_clear P) (BH : behaved P).
  Notation under := (fun ts => with_main P (map ISpawn ts)).

  (** tasks of one body *)
  Lemma f_nested_ahead k s ord q pre u mid t post : freach P ms n k s ord ->
    body P (Some q) = pre ++ ISpawn u :: mid ++ ISpawn t :: post ->
    user_is_serial (user P u) (user P t) = true -> started s t -> ahead (log s) u t.
  Proof.
    intros R E C St. assert (O := freach_entry P ms W NW n ND k s ord R). assert (Wf := wff P ms W ord).
    assert (B : comes_before P ms u t).
    { exists (Some q), (body P (Some q)), (spawns pre), (spawns mid), (spawns post). split; [reflexivity|].
      rewrite E, spawns_app. simpl. now rewrite spawns_app. }
    assert (Ep := before_parent P ms W u t B). destruct (ser_ser_on P Wf u t (conj Ep C)) as (r & _ & S).
    destruct (e_thread P ms n s ord O u t r B) as [Hp Lt].
    - eapply (started_entered P ms W NW n ND); eauto. eapply (ser_on_right P Wf); eauto.
    - eapply (ser_on_left P Wf); eauto.
    - apply (mr_ahead_ex P Wf NW n s r u t (freach_mreach P ms W NW n ND k s ord R) St S Lt).
      apply (e_in P ms n s ord O) in Hp as [_ [Hp _]]. exact Hp.
  Qed.

  (** tasks of different branches of one space *)
  Lemma apart_serial ts o pre u1 mid t1 post u t : wfo (under ts) -> body (under ts) o = pre ++ ISpawn u1 :: mid ++ ISpawn t1 :: post ->
    within P u1 u -> within P t1 t ->
    u <> t /\ u1 <> t1 /\ (user_is_serial (user P u) (user P t) = true -> ser P u1 t1).
  Proof.
    intros WO E1 WU WT.
    assert (Iu : In (ISpawn u1) (body (under ts) o)) by (rewrite E1, in_app_iff; simpl; auto).
    assert (It : In (ISpawn t1) (body (under ts) o)) by (rewrite E1, in_app_iff; simpl; rewrite in_app_iff; simpl; auto).
    assert (D1 := spawn_apart _ WO o pre u1 mid t1 post E1).
    assert (NU : forall x, within P u1 x -> within P t1 x -> False).
    { intros x A B. apply (main_within P (map ISpawn ts)) in A, B. exact (siblings_apart _ WO o u1 t1 x Iu It D1 A B). }
    split; [intros ->; eauto|]. split; [exact D1|]. intros X1. split.
    { rewrite (o_parent _ WO o u1 Iu : parent P u1 = o), (o_parent _ WO o t1 It : parent P t1 = o). reflexivity. }
    assert (X2 : user_is_serial (user P u1) (user P t) = true) by (apply (lift_within P CC IP u1 u t WU); auto; intros X3; eauto).
    rewrite user_is_serial_sym in X2 |- *. apply (lift_within P CC IP t1 t u1 WT); auto.
    intros X3. apply (NU u1); auto. constructor.
  Qed.

  Definition ordered (ts : list nat) (l : list lev) : Prop :=
    NoDup ts /\ (forall t, In t ts -> parent P t = None) /\
    forall u t, prec (execs l) u t -> parent P u = None -> parent P t = None -> prec ts u t.
  Lemma ordered_before ts l1 l : ordered ts (l1 ++ l) -> ordered ts l.
  Proof.
    intros (A & B & C). split; auto. split; auto. intros u t (a & b & c & E). apply C. rewrite execs_app, E.
    exists a, b, (c ++ execs l1). rewrite <- app_assoc. simpl. now rewrite <- app_assoc.
  Qed.
  Lemma ordered_roots k s ord : freach P ms n k s ord -> ordered (roots P (log s)) (log s).
  Proof.
    intros R. assert (MR := freach_mreach P ms W NW n ND k s ord R). split; [apply NoDup_filter; exact (exec_nodup P (wff P ms W ord) NW n s MR)|].
    split; [intros t H; apply filter_In in H as [_ H]; now apply is_root_spec|].
    intros u t H Hu Ht. apply filter_prec; auto; now apply is_root_spec.
  Qed.

  (** of two branches of a space the earlier one is complete, if they conflict *)
  Lemma branch_ahead k s ord ts o pre u1 mid t1 post : freach P ms n k s ord -> ordered ts (log s) ->
    body (under ts) o = pre ++ ISpawn u1 :: mid ++ ISpawn t1 :: post -> u1 <> t1 -> ser P u1 t1 -> started s t1 ->
    (o = None -> started s u1) -> ahead (log s) u1 t1.
  Proof.
    intros R (N & RT & OR) E D SE St Su. assert (MR := freach_mreach P ms W NW n ND k s ord R). assert (Wf := wff P ms W ord).
    destruct o as [q|]; [exact (f_nested_ahead k s ord q pre u1 mid t1 post R E (proj2 SE) St)|].
    assert (PT : prec ts u1 t1).
    { simpl in E. exists (spawns pre), (spawns mid), (spawns post). rewrite <- (spawns_map ts), E, spawns_app. simpl. now rewrite spawns_app. }
    destruct (m_one_ahead P Wf NW n s u1 t1 MR (Su eq_refl) St D SE) as [A|A]; [exact A|exfalso].
    apply (m_ahead_prec P Wf NW n s t1 u1 MR) in A. apply OR in A.
    - exact (prec_once ts u1 t1 N PT A).
    - apply RT. destruct PT as (a & b & c & ->). rewrite !in_app_iff. simpl. rewrite in_app_iff. simpl. auto.
    - apply RT. destruct PT as (a & b & c & ->). rewrite !in_app_iff. simpl. auto.
  Qed.

  Lemma f_tpairs k s ord ts : freach P ms n k s ord -> ordered ts (log s) ->
    ForallOrdPairs (run_ok (under ts)) (tperformed (log s)).
  Proof.
    induction 1 as [|k s ord i c s' R0 IH G H]; intros OR; [constructor|].
    assert (M := step_moves P s i c s' H). assert (Wf := wff P ms W ord).
    assert (R := freach_mreach P ms W NW n ND k s ord R0). assert (I := mreach_Inv P Wf NW n s R).
    assert (OS : ordered ts (log s)) by (destruct (log_mono P s s' M) as [l El]; rewrite El in OR; exact (ordered_before ts l (log s) OR)).
    specialize (IH OS). assert (WO := wfm_main P Wf ts (proj1 OS) (proj1 (proj2 OS))). clear OR.
    destruct M as [j f fs s1 fr rest E H1 -> Hp Hp' | j pk s1 fr E H1 -> Hp'].
    - assert (Hf : In f (frames s)) by (apply (Permutation_in _ (Permutation_sym Hp)); now left).
      assert (X : forall q a s0, f = FBody (Some q) (IAct a :: s0) ->
                  ForallOrdPairs (run_ok (under ts)) (tperformed (log s) ++ [((q, length (done q (log s))), a)])).
      { intros u b s0 ->. apply fop_snoc; auto. intros [[t l] a] Ht Er.
        apply in_tperformed in Ht. assert (Ht' : In a (done t (log s))) by (eapply nth_error_In; eauto).
        destruct (mr_done_body P Wf NW n s t a R Ht') as [Ha Ex].
        assert (Q : is_body (Some u) (FBody (Some u) (IAct b :: s0)) = 1) by (simpl; now rewrite Nat.eqb_refl).
        assert (Sf := m_left_piece P s u _ I Hf Q). cbn [left_of] in Sf.
        assert (Hb : In (IAct b) (body P (Some u))) by (now apply suffix_In in Sf).
        destruct (mr_done_ok P Wf NW n s R u) as (_ & DU & _). specialize (DU _ Hf Q). cbn [left_of] in DU.
        assert (B1 : 1 <= zsum (is_body (Some u)) (frames s)) by (rewrite <- Q; apply in_w; auto; intro; apply w_nn4).
        apply (body_facts P s I) in B1. destruct B1 as (_ & B2 & B3 & B4).
        assert (S1 : sp s t) by (eapply (mr_exec_sp P Wf NW); eauto). assert (S2 : sp s u) by (eapply (mr_exec_sp P Wf NW); eauto; lia).
        destruct Sf as (pre' & Sf).
        assert (LU : length (done u (log s)) = length (acts_of pre')).
        { rewrite Sf, acts_app in DU. simpl in DU. apply (f_equal (@length _)) in DU. rewrite !app_length in DU. simpl in DU. lia. }
        apply earlier_inv in Er as [(-> & L1)|[(pre & c1 & post & E1 & L1 & W1)|[(pre & c1 & post & E1 & L1 & W1)|(o & pre & u1 & mid & t1 & post & E1 & WU & WT)]]].
        - (* same task *) exfalso. assert (l < length (done t (log s)))%nat by (apply nth_error_Some; congruence). lia.
        - (* [t] comes from a later instruction of [u] *)
          exfalso. apply main_within in W1. change (body P (Some u) = pre ++ ISpawn c1 :: post) in E1. rewrite LU in L1. rewrite Sf in E1. symmetry in E1.
          assert (Y := split_prefix _ _ _ b c1 post s0 E1 eq_refl L1).
          assert (Sc := m_sp_within P Wf NW n s c1 t R W1 S1).
          assert (Pc : parent P c1 = Some u).
          { apply (m_parent P Wf (Some u) c1). rewrite Sf, in_app_iff. right; right; exact Y. }
          pose proof (law_spawn P s (i_laws P s I) c1) as LS. rewrite Pc in LS.
          pose proof (spawns_once P Wf c1 (Some u)). pose proof (f_startedz P s I (Some u)).
          assert (Z1 : n_spawn c1 (FBody (Some u) (IAct b :: s0)) <= zsum (n_spawn c1) (frames s))
            by (apply in_w; auto; intro; apply w_nn).
          assert (Z2 : 1 <= n_spawn c1 (FBody (Some u) (IAct b :: s0)))
            by (unfold n_spawn; simpl; apply spawns_In, ni_pos in Y; lia).
          unfold sp in Sc. nia.
        - (* [u] was emplaced by [t] before *)
          apply main_within in W1. change (body P (Some t) = pre ++ ISpawn c1 :: post) in E1.
          assert (Hk := m_done_nth P Wf NW n s t l a R Ht).
          rewrite E1, acts_app in Hk. simpl in Hk. rewrite nth_error_app2 in Hk by auto.
          destruct (nth_act_split _ _ _ Hk) as (mid & post2 & -> & Lm).
          split; simpl.
          { assert (c1 <= u)%nat by (now apply (wfm_le P Wf)).
            assert (t < c1)%nat by (apply (m_lt P Wf); rewrite E1, in_app_iff; simpl; auto). lia. }
          destruct (KO t _ c1 mid a post2 u b E1 W1 Hb) as [J|J]; [exfalso|exact J].
          assert (EN : ended s u).
          { apply (m_joined_ended P Wf NW n s mid u R); auto. intros x Hx.
            apply (m_done_gets P Wf NW n s t l (pre ++ ISpawn c1 :: mid) a post2 R); auto.
            - rewrite E1. rewrite <- app_assoc. reflexivity.
            - rewrite acts_app, app_length. simpl. lia.
            - apply in_or_app. right. now right. }
          apply in_end in EN. lia.
        - (* both belong to different tasks of one space *)
          apply main_within in WU, WT. destruct (apart_serial ts o pre u1 mid t1 post u t WO E1 WU WT) as (D1 & D2 & SE).
          split; [simpl; congruence|]. simpl. intros C.
          assert (SE' : ser P u1 t1).
          { apply SE. rewrite user_is_serial_sym. apply (conflict_serial P). eapply acts_tasks; eauto. }
          assert (A : ahead (log s) u1 t1).
          { apply (branch_ahead k s ord ts o pre u1 mid t1 post R0 OS E1 D2 SE').
            - apply in_exec. exact (m_exec_within P Wf NW n s t1 t R WT Ex).
            - intros _. apply in_exec. apply (m_exec_within P Wf NW n s u1 u R WU). lia. }
          assert (RC : rc s u1) by (apply in_reach; exact (ahead_done P n s u1 t1 R A)).
          apply (m_rc_within P Wf NW n s u1 u R WU) in RC; auto. apply (rc_end P s I) in RC. lia. }
      clear -IH H1 X.
      cases_f H1; cbn [log set_thr add_log set_users set_lck set_ctr set_fol set_emp set_rdy set_ext set_cdn set_tcn inc tperformed] in *; auto.
      eapply X; eauto.
    - clear -IH H1. cases_i H1; cbn [log set_thr add_log set_users set_lck set_ctr set_fol set_emp set_rdy set_ext set_cdn set_tcn inc tperformed] in *; auto.
  Qed.

  (** what comes before on the spot, and conflicts, is done before *)
  Lemma f_down k s ord x y : freach P ms n k s ord -> In x (tperformed (log s)) ->
    nth_error (acts_of (body P (Some (fst (fst y))))) (snd (fst y)) = Some (snd y) -> earlier (under (roots P (log s))) y x ->
    ~ In y (tperformed (log s)) -> indep x y.
  Proof.
    intros R0 Hx Hy Er Ny. assert (Wf := wff P ms W ord). assert (OS := ordered_roots k s ord R0).
    assert (R := freach_mreach P ms W NW n ND k s ord R0). assert (I := mreach_Inv P Wf NW n s R).
    assert (WO := wfm_main P Wf _ (proj1 OS) (proj1 (proj2 OS))).
    destruct x as [[t l] a], y as [[u j] b]. cbn [fst snd] in Hy. apply in_tperformed in Hx.
    assert (Ha := m_done_nth P Wf NW n s t l a R Hx).
    destruct (mr_done_body P Wf NW n s t a R) as [Hba Ex]; [eapply nth_error_In; eauto|].
    assert (S1 : sp s t) by (eapply (mr_exec_sp P Wf NW); eauto).
    assert (Hb : In (IAct b) (body P (Some u))) by (apply acts_in; eapply nth_error_In; eauto).
    apply earlier_inv in Er as [(Eu & L1)|[(pre & c1 & post & E1 & L1 & W1)|[(pre & c1 & post & E1 & L1 & W1)|(o & pre & u1 & mid & t1 & post & E1 & WU & WT)]]].
    - subst u. exfalso. apply Ny. apply in_tperformed. assert (L2 : (l < length (done t (log s)))%nat) by (apply nth_error_Some; congruence).
      destruct (nth_error (done t (log s)) j) as [b'|] eqn:Ej; [|apply nth_error_None in Ej; lia].
      rewrite (m_done_nth P Wf NW n s t j b' R Ej) in Hy. now rewrite <- Hy.
    - exfalso. apply Ny. apply main_within in W1. change (body P (Some u) = pre ++ ISpawn c1 :: post) in E1.
      assert (Sc := m_sp_within P Wf NW n s c1 t R W1 S1).
      destruct (m_spawned_split P Wf NW n s u pre c1 post R Sc E1) as [En|(f & r & Hf & Q & Ef)].
      + now apply (m_ended_done P Wf NW n s).
      + apply in_tperformed. destruct (mr_done_ok P Wf NW n s R u) as (_ & D & _). specialize (D f Hf Q). rewrite Ef, acts_app in D.
        assert (LD : length (done u (log s)) = length (acts_of (pre ++ ISpawn c1 :: r))) by (apply (f_equal (@length _)) in D; rewrite !app_length in D; lia).
        rewrite acts_app, app_length in LD. simpl in LD.
        destruct (nth_error (done u (log s)) j) as [b'|] eqn:Ej; [|apply nth_error_None in Ej; lia].
        rewrite (m_done_nth P Wf NW n s u j b' R Ej) in Hy. now rewrite <- Hy.
    - apply main_within in W1. change (body P (Some t) = pre ++ ISpawn c1 :: post) in E1.
      assert (Hk := Ha). rewrite E1, acts_app in Hk. simpl in Hk. rewrite nth_error_app2 in Hk by auto.
      destruct (nth_act_split _ _ _ Hk) as (mid & post2 & -> & Lm).
      split; simpl.
      { assert (c1 <= u)%nat by (now apply (wfm_le P Wf)).
        assert (t < c1)%nat by (apply (m_lt P Wf); rewrite E1, in_app_iff; simpl; auto). lia. }
      destruct (KO t _ c1 mid a post2 u b E1 W1 Hb) as [J|J]; [exfalso|exact J]. apply Ny.
      apply (m_ended_done P Wf NW n s u j b R); auto.
      apply (m_joined_ended P Wf NW n s mid u R); auto. intros x Hxx.
      apply (m_done_gets P Wf NW n s t l (pre ++ ISpawn c1 :: mid) a post2 R); auto.
      + rewrite E1. rewrite <- app_assoc. reflexivity.
      + rewrite acts_app, app_length. simpl. lia.
      + apply in_or_app. right. now right.
    - apply main_within in WU, WT. destruct (apart_serial _ o pre u1 mid t1 post u t WO E1 WU WT) as (D1 & D2 & SE).
      split; [simpl; congruence|]. simpl. intros C. apply Ny.
      assert (SE' : ser P u1 t1).
      { apply SE. rewrite user_is_serial_sym. apply (conflict_serial P). eapply acts_tasks; eauto. }
      assert (A : ahead (log s) u1 t1).
      { apply (branch_ahead k s ord _ o pre u1 mid t1 post R0 OS E1 D2 SE').
        - apply in_exec. exact (m_exec_within P Wf NW n s t1 t R WT Ex).
        - intros ->. simpl in E1. assert (Y : In u1 (roots P (log s))).
          { rewrite <- (spawns_map (roots P (log s))), E1. apply spawns_In. rewrite in_app_iff. simpl. auto. }
          apply filter_In in Y as [Y _]. now apply execs_in. }
      assert (RC : rc s u1) by (apply in_reach; exact (ahead_done P n s u1 t1 R A)).
      destruct (m_rc_all P Wf NW n s u1 u R RC WU) as [_ RU]. apply (m_ended_done P Wf NW n s u j b R); auto.
      apply in_end. apply (rc_end P s I) in RU. lia.
  Qed.

  (** the run so far can be completed to the run on the spot *)
  Theorem f_nested_so_far k s ord l : freach P ms n k s ord -> on_the_spot P None (map ISpawn (roots P (log s))) l ->
    exists rest, (forall x, In x rest -> ~ ended s (fst x) /\ exists c, In c (roots P (log s)) /\ within P c (fst x)) /\
    forall S g m, sensible S -> same_result (exec S (performed (log s) ++ rest) g m) (exec S l g m).
  Proof.
    intros R0 L. assert (Wf := wff P ms W ord). assert (OS := ordered_roots k s ord R0).
    assert (R := freach_mreach P ms W NW n ND k s ord R0). assert (I := mreach_Inv P Wf NW n s R).
    set (ts := roots P (log s)) in *. assert (WO := wfm_main P Wf _ (proj1 OS) (proj1 (proj2 OS))).
    apply (main_spot P (map ISpawn ts)) in L.
    destruct (tag_spot _ None _ l L 0%nat) as (l' & L' & <-).
    change (tspot (under ts) None 0%nat (p_main (under ts)) l') in L'.
    set (D := tperformed (log s)). set (rest := filter (fun x => negb (tag_in D x)) l').
    assert (ITEM : forall t k a, In ((t, k), a) l' -> nth_error (acts_of (body P (Some t))) k = Some a /\ exists c, In c ts /\ within P c t).
    { intros t i a H. apply (spot_items _ None 0 _ l' L') in H as [(t' & k' & Z & _)|(c & t' & k' & C1 & C2 & E & Q)]; [discriminate|].
      simpl in *. injection E as -> ->. split; auto. exists c. apply in_map_iff in C1 as (c' & E & C1). injection E as ->. split; auto.
      now apply main_within in C2. }
    assert (SUB : forall x, In x D -> In x l').
    { intros [[t i] a] H. apply (spot_items _ None 0 _ l' L'). right. apply in_tperformed in H.
      destruct (mr_done_body P Wf NW n s t a R) as [_ Ex]; [eapply nth_error_In; eauto|].
      destruct (m_sp_root P Wf NW n s t R (mr_exec_sp P Wf NW n s t R Ex)) as (c & C1 & C2). exists c, t, i. repeat split; auto.
      - simpl. apply in_map. apply filter_In. split; [|now apply is_root_spec]. apply execs_in, in_exec. exact (m_exec_within P Wf NW n s c t R C2 Ex).
      - now apply main_within.
      - exact (m_done_nth P Wf NW n s t i a R H). }
    assert (TAG : forall x, In x l' -> tag_in D x = true <-> In x D).
    { intros [[t i] a] H. unfold tag_in. rewrite existsb_exists. split.
      - intros ([[t' k'] a'] & Hy & E). simpl in E. apply andb_true_iff in E as [E1 E2]. apply Nat.eqb_eq in E1, E2. subst t' k'.
        assert (Q := proj1 (ITEM t i a' (SUB _ Hy))). rewrite (proj1 (ITEM t i a H)) in Q. injection Q as ->. exact Hy.
      - intros Hx. exists ((t, i), a). split; auto. simpl. now rewrite !Nat.eqb_refl. }
    assert (REST : forall x, In x rest <-> In x l' /\ ~ In x D).
    { intros x. unfold rest. rewrite filter_In, negb_true_iff. split; intros [H1 H2]; split; auto.
      - rewrite <- (TAG x H1). congruence.
      - destruct (tag_in D x) eqn:E; auto. apply (TAG x H1) in E. contradiction. }
    assert (NL := spot_NoDup _ WO l' L'). assert (NDD : NoDup D) by apply tperformed_NoDup.
    assert (NR : NoDup rest) by (apply NoDup_filter; exact NL).
    exists (map untag rest). split.
    - intros [t a] H. apply in_map_iff in H as ([[t' i] a'] & E & H). unfold untag in E. simpl in E. injection E as -> ->.
      apply REST in H as [H1 H2]. destruct (ITEM t i a H1) as [H3 H4]. split; [|exact H4]. intros En. apply H2. exact (m_ended_done P Wf NW n s t i a R En H3).
    - intros S g m OK. rewrite <- tperformed_untag, <- map_app. apply (reorder S OK).
      + apply NoDup_join; auto. intros x Hx Hr. now apply REST in Hr.
      + apply NoDup_Permutation; auto.
        * apply NoDup_join; auto. intros x Hx Hr. now apply REST in Hr.
        * intros x. rewrite in_app_iff, REST. split; [intros [H|H]; [now apply SUB|tauto]|].
          intros H. destruct (tag_in D x) eqn:E; [left; now apply TAG|right]. split; auto. rewrite <- (TAG x H). congruence.
      + intros x y Q1 Q2. assert (Ey := spot_prec _ None 0 _ l' L' [] eq_refl eq_refl y x Q2).
        apply prec_app in Q1 as [Q1|[Q1|[Q1 Q3]]].
        * exact (fop_prec (run_ok (under ts)) _ x y (f_tpairs k s ord ts R0 OS) Q1 Ey).
        * exfalso. exact (prec_once l' x y NL (prec_filter _ _ x y Q1) Q2).
        * apply REST in Q3 as [Q3 Q4]. apply (f_down k s ord x y R0); auto. destruct y as [[u j] b]. exact (proj1 (ITEM u j b Q3)).
  Qed.

  (** what a task whose body has ended has seen *)
  Theorem f_nested_value k s ord l S g m c : freach P ms n k s ord -> on_the_spot P None (map ISpawn (roots P (log s))) l ->
    sensible S -> ended s c -> fst (exec S (performed (log s)) g m) c = fst (exec S l g m) c.
  Proof.
    intros R L OK En. destruct (f_nested_so_far k s ord l R L) as (rest & NE & Eq).
    destruct (Eq S g m OK) as [E _]. rewrite <- E. symmetry. apply exec_until. intros x Hx Hc. apply (NE x Hx). now rewrite Hc.
  Qed.

  (** the result when every task is complete *)
  Theorem f_nested_result k s ord : freach P ms n k s ord -> (forall t, submitted s t -> completed s t) ->
    (exists l, on_the_spot P None (map ISpawn (roots P (log s))) l) /\
    forall l S g m, on_the_spot P None (map ISpawn (roots P (log s))) l -> sensible S ->
    same_result (exec S (performed (log s)) g m) (exec S l g m).
  Proof.
    intros R0 AC. assert (Wf := wff P ms W ord).
    assert (R := freach_mreach P ms W NW n ND k s ord R0). assert (I := mreach_Inv P Wf NW n s R).
    assert (RT : forall c t, In c (roots P (log s)) -> within P c t -> sp s t /\ rc s t).
    { intros c t Hc Hw. apply (m_rc_all P Wf NW n s c t R); auto. apply in_reach, AC, in_spawn.
      apply filter_In in Hc as [Hc _]. apply execs_in, in_exec in Hc. exact (mr_exec_sp P Wf NW n s c R Hc). }
    split.
    - destruct (sp_bounded s) as (B & HB). apply spot_body. intros c Hc. apply in_map_iff in Hc as (c' & E & Hc). injection E as ->.
      apply (m_spot_exists P Wf (fun t => sp s t /\ rc s t) B) with (k := B); [intros t [Ht _]; exact (HB t Ht)| |lia|].
      + intros t d [_ Ht] Hd. apply (m_rc_all P Wf NW n s t d R); auto. econstructor; [constructor|exact Hd].
      + apply (RT c c); auto. constructor.
    - intros l S g m L OK. destruct (f_nested_so_far k s ord l R0 L) as (rest & NE & Eq).
      assert (rest = []).
      { destruct rest as [|x rest]; auto. exfalso. destruct (NE x (or_introl eq_refl)) as (N1 & c & C1 & C2).
        apply N1. destruct (RT c (fst x) C1 C2) as [_ Q]. apply in_end. apply (rc_end P s I) in Q. lia. }
      subst rest. specialize (Eq S g m OK). now rewrite app_nil_r in Eq.
  Qed.

  (** every root task that was emplaced is among them then *)
  Lemma roots_all k s ord : freach P ms n k s ord -> (forall t, submitted s t -> completed s t) ->
    NoDup (roots P (log s)) /\ forall t, In t (roots P (log s)) <-> submitted s t /\ parent P t = None.
  Proof.
    intros R0 AC. assert (Wf := wff P ms W ord).
    assert (R := freach_mreach P ms W NW n ND k s ord R0). assert (I := mreach_Inv P Wf NW n s R).
    split; [exact (proj1 (ordered_roots k s ord R0))|]. intros t. unfold roots. rewrite filter_In, is_root_spec, execs_in. split; intros [A B]; split; auto.
    - apply in_exec in A. apply in_spawn. exact (mr_exec_sp P Wf NW n s t R A).
    - apply in_exec. apply (rc_exec P s I). now apply in_reach, AC.
  Qed.
End Nest.
