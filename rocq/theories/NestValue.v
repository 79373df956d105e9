(** Nested tasks whose bodies may wait: what a task has seen when its body has ended. *)
From Coq Require Import Bool List Arith NArith ZArith Lia Permutation Sorting.Sorted.
From Verif Require Import AccessModel AccessSpec AccessProof UserModel UserProof SchedModel SchedSpec SchedBase SchedInv1 SchedInv2 SchedInv3 SchedInv4 SchedInv5 SchedInv6 SchedInv7 SchedInv8 SchedFront SchedThm SchedLive SchedTerm SchedSeq SchedMany SchedValue NestSpec SchedNest.
Import ListNotations.
Open Scope Z_scope.

Lemma split_out {A} (x : A) (a b c d : list A) : a ++ x :: b = c ++ d -> ~ In x d -> exists r, c = a ++ x :: r.
Proof.
  revert c. induction a as [|y a IH]; intros c E N.
  - destruct c as [|z c]; simpl in E; [rewrite <- E in N; destruct N; now left|]. injection E as -> _. exists c. reflexivity.
  - destruct c as [|z c]; simpl in E.
    + destruct N. rewrite <- E. right. apply in_or_app. right. now left.
    + injection E as -> E. destruct (IH c E N) as [r ->]. exists r. reflexivity.
Qed.
Lemma prec_once {A} (l : list A) x y : NoDup l -> prec l x y -> prec l y x -> False.
Proof.
  intros N (a & b & c & ->) H. apply prec_app in H as [H|[H|[H _]]].
  - destruct H as (a1 & b1 & c1 & ->). apply NoDup_remove_2 in N. apply N. apply in_or_app. left. apply in_or_app. right. right. apply in_or_app. right. now left.
  - assert (N1 : NoDup (x :: b ++ y :: c)) by (clear -N; induction a; simpl in N; [auto|inversion N; auto]).
    destruct H as (a1 & b1 & c1 & E). inversion N1 as [|? ? N2 N3]; subst. apply N2.
    destruct a1 as [|z a1]; simpl in E; injection E as -> E; rewrite E; apply in_or_app; right; [now left|right; apply in_or_app; right; now left].
  - rewrite app_comm_cons, app_assoc in N. apply NoDup_remove_2 in N. apply N. rewrite !in_app_iff. auto.
Qed.

Lemma onat_eq a b : onat_eqb a b = true -> a = b.
Proof. destruct (onat_eqb_spec a b); [auto|discriminate]. Qed.
Lemma onat_same a : onat_eqb a a = true.
Proof. destruct (onat_eqb_spec a a); congruence. Qed.
Lemma NoDup_join {A} (a b : list A) : NoDup a -> NoDup b -> (forall x, In x a -> In x b -> False) -> NoDup (a ++ b).
Proof.
  induction a as [|x a IH]; simpl; intros Na Nb H; auto. inversion Na; subst. constructor.
  - rewrite in_app_iff. intros [X|X]; [auto|]. apply (H x); auto.
  - apply IH; auto. intros y Y1 Y2. apply (H y); auto.
Qed.

Section Value.
  Context (P : prog) (W : wfa P) (NW : p_wrap P = false).

  Lemma body_frame s q : Inv P (single P) s -> zsum (v_start q) (log s) = 1 -> ~ 1 <= zsum (v_end q) (log s) ->
    exists f, In f (frames s) /\ is_body (Some q) f = 1.
  Proof.
    intros I B E. pose proof (f_end P s I q). assert (LB := law_body P s (i_laws P s I) q).
    assert (Q0 : 0 < zsum (is_body (Some q)) (frames s)) by lia. apply zsum_pos_ex in Q0 as (f & Hf & Q).
    exists f. split; auto. unfold is_body in Q |- *. destruct f; try lia; match goal with |- zb ?b = 1 => destruct b; simpl in *; lia end.
  Qed.
  Lemma main_frame s : Inv P (single P) s -> exists f, In f (frames s) /\ is_body None f = 1.
  Proof.
    intros I. assert (LM := law_main P s (i_laws P s I)). simpl in LM.
    assert (Q0 : 0 < zsum (is_body None) (frames s)) by lia. apply zsum_pos_ex in Q0 as (f & Hf & Q).
    exists f. split; auto. unfold is_body in Q |- *. destruct f; try lia; match goal with |- zb ?b = 1 => destruct b; simpl in *; lia end.
  Qed.
  Lemma left_piece s o f : Inv P (single P) s -> In f (frames s) -> is_body o f = 1 -> suffix_of (left_of f) (body P o).
  Proof.
    intros I Hf Q. assert (Sf := law_suffix P s (i_laws P s I) _ Hf). unfold is_body in Q.
    destruct f; try lia; destruct (onat_eqb o0 o) eqn:E; simpl in Q; try lia; apply onat_eq in E; subst o0;
      simpl in Sf; (apply (piece_body P) in Sf; simpl; auto).
    destruct Sf as [l Sf]. exists (l ++ [ISpawn c]). rewrite <- app_assoc. exact Sf.
  Qed.

  (** the instructions before one that has emplaced [c] are over *)
  Lemma spawned_split n s o A c B : greach P n s -> sp s c -> body P o = A ++ ISpawn c :: B ->
    (exists q, o = Some q /\ ended s q) \/ exists f r, In f (frames s) /\ is_body o f = 1 /\ body P o = (A ++ ISpawn c :: r) ++ left_of f.
  Proof.
    intros R Sc E. assert (I := greach_Inv P W NW n s R).
    assert (Pc : parent P c = o) by (apply (wf_parent P W); rewrite E; apply in_or_app; right; now left).
    assert (K : forall f, In f (frames s) -> is_body o f = 1 -> exists r, body P o = (A ++ ISpawn c :: r) ++ left_of f).
    { intros f Hf Q. destruct (left_piece s o f I Hf Q) as [pre Ef].
      assert (NI : ~ In (ISpawn c) (left_of f)).
      { intros X. pose proof (law_spawn P s (i_laws P s I) c) as LS. pose proof (spawns_once P W c (parent P c)). pose proof (f_startedz P s I (parent P c)).
        assert (Z1 : n_spawn c f <= zsum (n_spawn c) (frames s)) by (apply in_w; auto; intro; apply w_nn).
        assert (Z2 : 1 <= n_spawn c f) by (unfold n_spawn; apply spawns_In, ni_pos in X; lia).
        unfold sp in Sc. nia. }
      rewrite E in Ef. destruct (split_out _ _ _ _ _ Ef NI) as [r ->]. exists r. now rewrite E. }
    destruct o as [q|].
    - destruct (Z_le_dec 1 (zsum (v_end q) (log s))) as [l|l]; [left; exists q; split; auto; now apply in_end|].
      assert (X := sp_parent P W s I c Sc). rewrite Pc in X. simpl in X.
      destruct (body_frame s q I X l) as (f & Hf & Q). right. destruct (K f Hf Q) as [r Er]. eauto.
    - destruct (main_frame s I) as (f & Hf & Q). right. destruct (K f Hf Q) as [r Er]. eauto.
  Qed.

  Lemma ended_spawned n s q c : greach P n s -> ended s q -> In (ISpawn c) (body P (Some q)) -> sp s c.
  Proof.
    intros R En Hc. assert (I := greach_Inv P W NW n s R). assert (Pc := wf_parent P W _ _ Hc).
    apply in_end in En. pose proof (f_end P s I q) as E0. pose proof (f_start P s I q). pose proof (f_exec P s I q). pose proof (law_body P s (i_laws P s I) q) as LB.
    assert (LS := law_spawn P s (i_laws P s I) c). rewrite Pc in LS. simpl startedz in LS.
    assert (X := proj2 (spawns_In c (body P (Some q))) Hc). apply ni_pos in X.
    assert (Z : zsum (n_spawn c) (frames s) = 0).
    { apply zsum_zero. intros f Hf. unfold n_spawn. destruct (Z.eq_dec (zsum (ni c) (spawns (left_of f))) 0) as [e|e]; auto. exfalso.
      assert (Hi : In c (spawns (left_of f))) by (apply ni_pos; pose proof (zsum_nonneg (ni c) (spawns (left_of f)) ltac:(intros; unfold ni, zb; destruct (_ =? _)%nat; lia)); lia).
      apply spawns_In in Hi.
      assert (Q : exists o, is_body o f = 1) by (destruct f; simpl in Hi; try easy; exists o; simpl; now rewrite onat_same).
      destruct Q as (o & Q1). destruct (left_piece s o f I Hf Q1) as [l El]. assert (Hj : In (ISpawn c) (body P o)) by (rewrite El; apply in_or_app; now right). apply (wf_parent P W) in Hj. rewrite Pc in Hj. subst o.
      assert (B : is_body (Some q) f <= zsum (is_body (Some q)) (frames s)) by (apply in_w; auto; intro; apply w_nn4). lia. }
    unfold sp. nia.
  Qed.
  Lemma rc_all n s q t : greach P n s -> rc s q -> within P q t -> sp s t /\ rc s t.
  Proof.
    intros R C. assert (I := greach_Inv P W NW n s R). induction 1 as [|b c H [IH1 IH2] S].
    - split; auto. assert (X := rc_exec P s I q C). exact (exec_sp P W NW n s q R ltac:(lia)).
    - assert (Sc : sp s c). { apply (ended_spawned n s b c R); auto. apply in_end. apply (rc_end P s I) in IH2. lia. }
      split; auto. apply (rc_within P W NW n s b c R); auto. econstructor; [constructor|exact S].
  Qed.
  (** tasks of a space are emplaced in the order of its program *)
  Lemma spawned_before n s o pre u mid t post : greach P n s -> body P o = pre ++ ISpawn u :: mid ++ ISpawn t :: post -> sp s t -> sp s u.
  Proof.
    intros R E St. assert (I := greach_Inv P W NW n s R).
    destruct (spawned_split n s o (pre ++ ISpawn u :: mid) t post R St) as [(q & -> & En)|(f & r & Hf & Q & Ef)].
    - rewrite E, <- app_assoc. reflexivity.
    - apply (ended_spawned n s q u R En). rewrite E. apply in_or_app. right. now left.
    - assert (Bh := mr_behind P n s (greach_mreach P W NW n s R) f Hf).
      assert (X : exists p, body P o = p ++ left_of f /\ forall c, In c (spawns p) -> sp s c).
      { unfold is_body in Q. destruct f; try lia; destruct (onat_eqb o0 o) eqn:Eo; simpl in Q; try lia; apply onat_eq in Eo; subst o0;
          destruct Bh as (m & p & C & Em & A); exists p; (split; [|exact A]); simpl; destruct o as [q|]; simpl in C; [now subst m| |now subst m|]; destruct C as [<-|[]]; auto. }
      destruct X as (p & Ep & A). rewrite Ef in Ep. apply app_inv_tail in Ep. apply A. rewrite <- Ep.
      apply spawns_In. rewrite <- app_assoc. apply in_or_app. right. now left.
  Qed.

  Lemma ended_done n s t k a : greach P n s -> ended s t -> nth_error (acts_of (body P (Some t))) k = Some a -> In ((t, k), a) (tperformed (log s)).
  Proof.
    intros R En H. apply in_tperformed. destruct (done_ok P W NW n s R t) as (_ & _ & D). rewrite D; auto. now apply in_end.
  Qed.

  (** what comes before on the spot, and conflicts, is done before *)
  Lemma down n s x y : children_covered P -> inner_private P -> keeps_clear P -> behaved P -> greach P n s ->
    In x (tperformed (log s)) -> nth_error (acts_of (body P (Some (fst (fst y))))) (snd (fst y)) = Some (snd y) -> earlier P y x ->
    ~ In y (tperformed (log s)) -> indep x y.
  Proof.
    intros CC IP KO BH R Hx Hy Er Ny. assert (I := greach_Inv P W NW n s R).
    destruct x as [[t k] a], y as [[u j] b]. cbn [fst snd] in Hy. apply in_tperformed in Hx.
    assert (Ha := done_nth P W NW n s t k a R Hx).
    destruct (done_body P W NW n s t a R) as [Hba Ex]; [eapply nth_error_In; eauto|].
    assert (S1 : sp s t) by (eapply exec_sp; eauto).
    assert (Hb : In (IAct b) (body P (Some u))) by (apply acts_in; eapply nth_error_In; eauto).
    apply earlier_inv in Er as [(Eu & L1)|[(pre & c1 & post & E1 & L1 & W1)|[(pre & c1 & post & E1 & L1 & W1)|(o & pre & u1 & mid & t1 & post & E1 & WU & WT)]]].
    - subst u. exfalso. apply Ny. apply in_tperformed. assert (L2 : (k < length (done t (log s)))%nat) by (apply nth_error_Some; congruence).
      destruct (nth_error (done t (log s)) j) as [b'|] eqn:Ej; [|apply nth_error_None in Ej; lia].
      rewrite (done_nth P W NW n s t j b' R Ej) in Hy. now rewrite <- Hy.
    - exfalso. apply Ny. assert (Sc := sp_within P W NW n s c1 t R W1 S1).
      destruct (spawned_split n s (Some u) pre c1 post R Sc E1) as [(q & Eq & En)|(f & r & Hf & Q & Ef)].
      + injection Eq as <-. now apply (ended_done n s).
      + apply in_tperformed. destruct (done_ok P W NW n s R u) as (_ & D & _). specialize (D f Hf Q). rewrite Ef, acts_app in D.
        assert (LD : length (done u (log s)) = length (acts_of (pre ++ ISpawn c1 :: r))) by (apply (f_equal (@length _)) in D; rewrite !app_length in D; lia).
        rewrite acts_app, app_length in LD. simpl in LD.
        destruct (nth_error (done u (log s)) j) as [b'|] eqn:Ej; [|apply nth_error_None in Ej; lia].
        rewrite (done_nth P W NW n s u j b' R Ej) in Hy. now rewrite <- Hy.
    - assert (Hk := Ha). rewrite E1, acts_app in Hk. simpl in Hk. rewrite nth_error_app2 in Hk by auto.
      destruct (nth_act_split _ _ _ Hk) as (mid & post2 & -> & Lm).
      split; simpl.
      { assert (c1 <= u)%nat by (now apply (within_le P W)).
        assert (t < c1)%nat by (apply (wf_lt P W); rewrite E1, in_app_iff; simpl; auto). lia. }
      destruct (KO t _ c1 mid a post2 u b E1 W1 Hb) as [J|J]; [exfalso|exact J]. apply Ny.
      apply (ended_done n s u j b R); auto.
      apply (joined_ended P W NW n s mid u (greach_mreach P W NW n s R)); auto. intros x Hxx.
      apply (done_gets P W NW n s t k (pre ++ ISpawn c1 :: mid) a post2 R); auto.
      + rewrite E1. rewrite <- app_assoc. reflexivity.
      + rewrite acts_app, app_length. simpl. lia.
      + apply in_or_app. right. now right.
    - assert (Iu : In (ISpawn u1) (body P o)) by (rewrite E1, in_app_iff; simpl; auto).
      assert (It : In (ISpawn t1) (body P o)) by (rewrite E1, in_app_iff; simpl; rewrite in_app_iff; simpl; auto).
      assert (Lt : (u1 < t1)%nat) by (exact (spawn_lt P W o pre u1 mid t1 post E1)).
      pose proof (siblings_apart P W o u1 t1) as AP.
      assert (NU : forall x, within P u1 x -> within P t1 x -> False) by (intros x; apply AP; auto; lia).
      split; [simpl; intros ->; eauto|]. simpl. intros C. apply Ny.
      assert (SE : user_is_serial (user P u1) (user P t1) = true).
      { assert (X1 : user_is_serial (user P u) (user P t) = true).
        { rewrite user_is_serial_sym. apply (conflict_serial P). eapply acts_tasks; eauto. }
        assert (X2 : user_is_serial (user P u1) (user P t) = true) by (apply (lift_within P CC IP u1 u t WU); auto; intros X3; eauto).
        rewrite user_is_serial_sym in X2 |- *. apply (lift_within P CC IP t1 t u1 WT); auto.
        intros X3. apply (NU u1); auto. constructor. }
      assert (St1 := sp_within P W NW n s t1 t R WT S1).
      assert (RC : rc s u1).
      { apply (i_order_all P W s I t1).
        - exact (exec_within P W NW n s t1 t R WT Ex).
        - intros r. exact Lt.
        - exact (spawned_before n s o pre u1 mid t1 post R E1 St1).
        - split; auto. rewrite (wf_parent P W _ _ Iu), (wf_parent P W _ _ It). reflexivity. }
      destruct (rc_all n s u1 u R RC WU) as [_ RU]. apply (ended_done n s u j b R); auto.
      apply in_end. apply (rc_end P s I) in RU. lia.
  Qed.

  (** every task belongs to one that the main program emplaces *)
  Lemma sp_root n s t : greach P n s -> sp s t -> exists c, In (ISpawn c) (p_main P) /\ within P c t.
  Proof.
    intros R. assert (I := greach_Inv P W NW n s R).
    induction t as [t IH] using lt_wf_ind. intros Q. assert (B := sp_body P W s I t Q).
    apply spawns_In in B. destruct (parent P t) as [q|] eqn:E.
    - destruct (IH q) as (c & C1 & C2); [exact (wf_lt P W q t B)| |].
      + apply (sp_within P W NW n s q t R); auto. econstructor; [constructor|exact B].
      + exists c. split; auto. econstructor; eauto.
    - exists t. split; [exact B|constructor].
  Qed.

  Definition tag_in (l : list top) (x : top) : bool := existsb (fun y => Nat.eqb (fst (fst y)) (fst (fst x)) && Nat.eqb (snd (fst y)) (snd (fst x))) l.

  (** the run so far can be completed to the run on the spot *)
  Theorem nested_so_far n s l : children_covered P -> inner_private P -> keeps_clear P -> behaved P -> greach P n s ->
    on_the_spot P None (p_main P) l ->
    exists rest, (forall x, In x rest -> ~ ended s (fst x)) /\
    forall S g m, sensible S -> same_result (exec S (performed (log s) ++ rest) g m) (exec S l g m).
  Proof.
    intros CC IP KO BH R L. assert (I := greach_Inv P W NW n s R). destruct (tag_spot P None _ l L 0%nat) as (l' & L' & <-).
    set (D := tperformed (log s)). set (rest := filter (fun x => negb (tag_in D x)) l').
    assert (ITEM : forall t k a, In ((t, k), a) l' -> nth_error (acts_of (body P (Some t))) k = Some a).
    { intros t k a H. apply (spot_items P None 0 (p_main P) l' L') in H as [(t' & k' & Z & _)|(c & t' & k' & _ & _ & E & Q)]; [discriminate|].
      simpl in *. injection E as -> ->. auto. }
    assert (SUB : forall x, In x D -> In x l').
    { intros [[t k] a] H. apply (spot_items P None 0 (p_main P) l' L'). right. apply in_tperformed in H.
      destruct (done_body P W NW n s t a R) as [_ Ex]; [eapply nth_error_In; eauto|].
      destruct (sp_root n s t R (exec_sp P W NW n s t R Ex)) as (c & C1 & C2). exists c, t, k. repeat split; auto. exact (done_nth P W NW n s t k a R H). }
    assert (TAG : forall x, In x l' -> tag_in D x = true <-> In x D).
    { intros [[t k] a] H. unfold tag_in. rewrite existsb_exists. split.
      - intros ([[t' k'] a'] & Hy & E). simpl in E. apply andb_true_iff in E as [E1 E2]. apply Nat.eqb_eq in E1, E2. subst t' k'.
        assert (Q := ITEM t k a' (SUB _ Hy)). rewrite (ITEM t k a H) in Q. injection Q as ->. exact Hy.
      - intros Hx. exists ((t, k), a). split; auto. simpl. now rewrite !Nat.eqb_refl. }
    assert (REST : forall x, In x rest <-> In x l' /\ ~ In x D).
    { intros x. unfold rest. rewrite filter_In, negb_true_iff. split; intros [H1 H2]; split; auto.
      - rewrite <- (TAG x H1). congruence.
      - destruct (tag_in D x) eqn:E; auto. apply (TAG x H1) in E. contradiction. }
    assert (NL := spot_NoDup P W l' L'). assert (NDD : NoDup D) by apply tperformed_NoDup.
    assert (NR : NoDup rest) by (apply NoDup_filter; exact NL).
    assert (FP : forall x y, prec rest x y -> prec l' x y).
    { intros x y. unfold rest. clear. induction l' as [|z l IH]; simpl; [intros (a & b & c & E); destruct a; discriminate|].
      destruct (negb (tag_in D z)) eqn:E; [|intros H; now apply prec_cons, IH].
      intros (a & b & c & Q). destruct a as [|z' a]; simpl in Q; injection Q as -> Q.
      - apply prec_head. assert (In y (filter (fun x => negb (tag_in D x)) l)) as Hy by (rewrite Q; apply in_or_app; right; now left).
        now apply filter_In in Hy.
      - apply prec_cons, IH. now exists a, b, c. }
    exists (map untag rest). split.
    - intros [t a] H En. apply in_map_iff in H as ([[t' k] a'] & E & H). unfold untag in E. simpl in E. injection E as -> ->.
      apply REST in H as [H1 H2]. apply H2. exact (ended_done n s t k a R En (ITEM t k a H1)).
    - intros S g m OK. rewrite <- tperformed_untag, <- map_app. apply (reorder S OK).
      + apply NoDup_join; auto. intros x Hx Hr. now apply REST in Hr.
      + apply NoDup_Permutation; auto.
        * apply NoDup_join; auto. intros x Hx Hr. now apply REST in Hr.
        * intros x. rewrite in_app_iff, REST. split; [intros [H|H]; [now apply SUB|tauto]|].
          intros H. destruct (tag_in D x) eqn:E; [left; now apply TAG|right]. split; auto. rewrite <- (TAG x H). congruence.
      + intros x y Q1 Q2. assert (Ey := spot_prec P None 0 _ l' L' [] eq_refl eq_refl y x Q2).
        apply prec_app in Q1 as [Q1|[Q1|[Q1 Q3]]].
        * exact (fop_prec (run_ok P) _ x y (tpairs P W NW n s CC IP KO BH R) Q1 Ey).
        * exfalso. exact (prec_once l' x y NL (FP x y Q1) Q2).
        * apply REST in Q3 as [Q3 Q4]. apply (down n s x y); auto. destruct y as [[u j] b]. exact (ITEM u j b Q3).
  Qed.

  Theorem nested_value n s l S g m c : children_covered P -> inner_private P -> keeps_clear P -> behaved P -> greach P n s ->
    on_the_spot P None (p_main P) l -> sensible S -> ended s c -> fst (exec S (performed (log s)) g m) c = fst (exec S l g m) c.
  Proof.
    intros CC IP KO BH R L OK En. destruct (nested_so_far n s l CC IP KO BH R L) as (rest & NE & Eq).
    destruct (Eq S g m OK) as [E _]. rewrite <- E. symmetry. apply exec_until. intros x Hx Hc. apply (NE x Hx). now rewrite Hc.
  Qed.
End Value.
