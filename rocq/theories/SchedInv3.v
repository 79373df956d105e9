(** Preservation of the invariant, part 1: edges, counters, tokens. *)
From Coq Require Import Bool List Arith NArith ZArith Lia Permutation Sorting.Sorted.
From Verif Require Import AccessModel AccessSpec AccessProof UserModel UserProof SchedModel SchedSpec SchedBase SchedInv1 SchedInv2.
Import ListNotations.
Open Scope Z_scope.

Lemma edges_same s s' x :
  srcs (log s') = srcs (log s) -> (forall y, fol s' y = fol s y) ->
  (forall y x, pend s' y x = pend s y x) -> (forall y, taken s' y = taken s y) ->
  edges s' x = edges s x.
Proof.
  intros H1 H2 H3 H4. unfold edges. rewrite H1. apply zsum_ext. intros y _.
  unfold eff. now rewrite H2, H3, H4.
Qed.

Lemma edges_one s s' x y0 :
  srcs (log s') = srcs (log s) ->
  (forall y, y <> y0 -> eff s' y x = eff s y x) ->
  edges s' x = edges s x + zsum (ce y0) (srcs (log s)) * (eff s' y0 x - eff s y0 x).
Proof.
  intros H1 H2. unfold edges. rewrite H1. now apply (zsum_change (fun y => eff s y x) (fun y => eff s' y x)).
Qed.

Section Pres.
  Context (P : prog) {U : front} (W : wfc P U) (NW : p_wrap P = false).

  Lemma wrap_id z : wrap P z = z.
  Proof. unfold wrap. now rewrite NW. Qed.

  Section Frame.
    Context (s : state) (I : Inv P U s).

    Lemma in_w (w : frame -> Z) f : (forall g, 0 <= w g) -> In f (frames s) -> w f <= zsum w (frames s).
    Proof. intros. apply zsum_ge; auto. Qed.

    Lemma collect_facts t : 1 <= zsum (w_collect t) (frames s) ->
      zsum (w_collect t) (frames s) = 1 /\
      zsum (v_spawn t) (log s) = 1 /\ zsum (v_init t) (log s) = 0 /\ zsum (v_exec t) (log s) = 0
      /\ zsum (v_end t) (log s) = 0 /\ tok s t = 0 /\ zsum (v_reach (EPost t)) (log s) = 0
      /\ zsum (v_take (EPost t)) (log s) = 0 /\ zsum (w_ninit t) (frames s) = 0.
    Proof.
      intros H. pose proof (law_phase P s (i_laws P s I) t) as L. signs t s.
      pose proof (f_spawn P W s I t). assert (Q1 : zsum (v_init t) (log s) = 0) by lia.
      pose proof (f_noinit P s I t Q1) as [Q2 Q3].
      pose proof (f_end P s I t). pose proof (f_start P s I t).
      assert (zsum (v_reach (EPost t)) (log s) = 0).
      { pose proof (f_reach P s I (EPost t)). pose proof (rc_end P s I t) as R. unfold rc in R. lia. }
      pose proof (f_take P s I (EPost t)). lia.
    Qed.

    Lemma up_facts t : 1 <= zsum (w_up t) (frames s) ->
      zsum (v_init t) (log s) = 0 /\ zsum (w_collect t) (frames s) = 0 /\ zsum (w_ninit t) (frames s) = 0 /\
      zsum (v_exec t) (log s) = 0 /\ tok s t = 0 /\ ob s t = 0.
    Proof.
      intros H. pose proof (law_phase P s (i_laws P s I) t) as L. signs t s.
      pose proof (f_spawn P W s I t). assert (Q1 : zsum (v_init t) (log s) = 0) by lia.
      pose proof (f_noinit P s I t Q1) as [Q2 Q3].
      pose proof (i_up P s I t). lia.
    Qed.

    Lemma ninit_facts t : 1 <= zsum (w_ninit t) (frames s) ->
      zsum (w_ninit t) (frames s) = 1 /\ zsum (v_spawn t) (log s) = 1 /\
      zsum (v_init t) (log s) = 0 /\ zsum (w_collect t) (frames s) = 0 /\
      zsum (v_exec t) (log s) = 0 /\ zsum (w_nexec t) (frames s) = 0 /\ tok s t = 0.
    Proof.
      intros H. pose proof (law_phase P s (i_laws P s I) t) as L. signs t s.
      pose proof (f_spawn P W s I t). assert (Q1 : zsum (v_init t) (log s) = 0) by lia.
      pose proof (f_noinit P s I t Q1) as [Q2 Q3]. pose proof (i_nexec P s I t). lia.
    Qed.

    Lemma body_facts t : 1 <= zsum (is_body (Some t)) (frames s) ->
      zsum (is_body (Some t)) (frames s) = 1 /\ zsum (v_end t) (log s) = 0 /\ zsum (v_start t) (log s) = 1
      /\ zsum (v_exec t) (log s) = 1.
    Proof.
      intros H. pose proof (law_body P s (i_laws P s I) t).
      pose proof (f_end P s I t). pose proof (f_start P s I t). pose proof (f_exec P s I t). lia.
    Qed.

    Lemma dep_facts t p r it rs : dep_ok P U s t p r it rs -> taken s (EPost p) = 0 /\ zsum (v_spawn p) (log s) = 1.
    Proof.
      intros (_ & _ & pre & mid & k & E & _).
      assert (H : In (p, k) (users s r)) by (rewrite E, !in_app_iff; simpl; rewrite in_app_iff; simpl; auto).
      split.
      - pose proof (f_take P s I (EPost p)). unfold taken.
        destruct (Z_lt_le_dec (zsum (v_take (EPost p)) (log s)) 1); [lia|].
        apply (i_gone P s I) in l. destruct (l _ _ H).
      - apply (i_ent P s I) in H as [_ H]. unfold sp in H. pose proof (f_spawn P W s I p). lia.
    Qed.

    Lemma taking_facts e f : In f (frames s) -> w_taking e f = 1 -> taken s e = 0 /\ zsum (v_reach e) (log s) = 1.
    Proof.
      intros Hf H. pose proof (in_w (w_taking e) f (fun g => proj2 (proj2 (w_nn2 e g))) Hf).
      pose proof (law_take P s (i_laws P s I) e). pose proof (f_reach P s I e). pose proof (f_take P s I e).
      unfold taken. lia.
    Qed.

    Lemma pend_zero e k x : In (FNotify3 e 0 k) (frames s) -> pend s e x = 0.
    Proof.
      intros Hf. pose proof (pend_nn s e x) as N. destruct (Z.eq_dec (pend s e x) 0) as [|n]; [easy|].
      assert (H : 0 < pend s e x) by lia.
      apply zsum_pos_ex in H as (g & Hg & H). assert (G := i_frames P s I g Hg).
      assert (F := i_frames P s I _ Hf).
      destruct g; cbn [w_pend] in H; try lia.
      - destruct (ev_eqb_spec (EPost p) e); [|simpl in H; lia]. subst e. simpl in F, G.
        destruct G as [(_ & _ & pre & mid & k' & E & _) _].
        exfalso. apply (F eq_refl r k'). rewrite E, !in_app_iff; simpl; rewrite in_app_iff; simpl; auto.
      - destruct (ev_eqb_spec (EPost t) e); [|simpl in H; lia]. subst e.
        destruct (taking_facts (EPost t) _ Hf) as [_ R]; [simpl; now rewrite Nat.eqb_refl|].
        assert (C : 1 <= zsum (w_collect t) (frames s)).
        { assert (w_collect t (FPar3 t q) = 1) as <- by (simpl; unfold ni; now rewrite Nat.eqb_refl).
          apply in_w; auto. intro; apply w_nn. }
        apply collect_facts in C. lia.
    Qed.

    Lemma spawn_facts o c is : In (FBody o (ISpawn c :: is)) (frames s) ->
      parent P c = o /\ zsum (v_spawn c) (log s) = 0.
    Proof.
      intros H. assert (Ep : parent P c = o).
      { apply (m_parent P W). eapply piece_In; eauto. exact (law_suffix P s (i_laws P s I) _ H). }
      split; [easy|]. pose proof (law_spawn P s (i_laws P s I) c) as L. rewrite Ep in L.
      pose proof (spawns_once P W c o). pose proof (f_startedz P s I o).
      assert (Q2 : n_spawn c (FBody o (ISpawn c :: is)) <= zsum (n_spawn c) (frames s)).
      { apply in_w; auto. intro; apply w_nn. }
      unfold n_spawn in Q2 at 1. simpl in Q2. unfold ni in Q2 at 1. rewrite Nat.eqb_refl in Q2. simpl in Q2.
      pose proof (ni_nonneg c (spawns is)). signs c s. nia.
    Qed.

    Lemma event_facts t e is : In (FBody (Some t) (IEvent e :: is)) (frames s) ->
      zsum (v_event t e) (log s) = 0 /\ fol s (EExt t e) = [] /\ taken s (EExt t e) = 0.
    Proof.
      intros H. pose proof (law_event P s (i_laws P s I) t e) as L.
      assert (B : is_body (Some t) (FBody (Some t) (IEvent e :: is)) <= zsum (is_body (Some t)) (frames s)).
      { apply in_w; auto. intro; apply w_nn4. }
      simpl in B. rewrite Nat.eqb_refl in B. simpl in B. apply body_facts in B.
      assert (C : n_create t e (FBody (Some t) (IEvent e :: is)) <= zsum (n_create t e) (frames s)).
      { apply in_w; auto. intro g. unfold n_create. pose proof (w_nn4 (Some t) g). nia. }
      unfold n_create in C at 1. simpl in C. rewrite !Nat.eqb_refl in C. simpl in C.
      pose proof (f_event P W s I t e). pose proof (m_event P W t e).
      assert (Hv : zsum (v_event t e) (log s) = 0) by nia.
      split; [easy|]. split.
      - destruct (fol s (EExt t e)) as [|x l] eqn:E; [easy|].
        assert (F : fol_ok P U s (EExt t e) x) by (apply (i_fol P s I); rewrite E; simpl; auto).
        destruct x; simpl in F; try easy. lia.
      - pose proof (f_take P s I (EExt t e)). pose proof (f_fire P s I t e). unfold taken.
        destruct (i_reach P s I (EExt t e)) as [[Q2 _]|]; [|lia].
        rewrite (i_acc P s I) in Q2. simpl in Q2. pose proof (edges_nn P s I (EExt t e)).
        nnw w_notify (EExt t e) s. nnw w_follow (EExt t e) s. lia.
    Qed.

    Lemma fol_src e x : In x (fol s e) -> zsum (ce e) (srcs (log s)) = 1.
    Proof.
      intros H. apply (i_fol P s I) in H. destruct e, x; simpl in H; try easy.
      - rewrite srcs_post. destruct H as (_ & _ & H & _). unfold sp in H. pose proof (f_spawn P W s I t). lia.
      - rewrite srcs_post. destruct H as (_ & H). unfold sp in H. pose proof (f_spawn P W s I t). lia.
      - rewrite srcs_ext. destruct H as (_ & H). pose proof (f_event P W s I t e). lia.
    Qed.
  End Frame.

  (** How the weighted edges of an event change. *)
  Definition delta (s : state) (f : frame) (x : ev) : Z :=
    match f with
    | FBody (Some t) (IEvent _ :: _) => ce x (EPost t)
    | FDep4 t _ _ _ _ => ce x (EPre t)
    | FPar3 _ q => ce x (EPost q)
    | FNotify3 e st _ => if st =? 0 then - zsum (ce x) (fol s e) else 0
    | _ => 0
    end.

  Lemma edges_step s s1 f fr rest i fs x :
    Inv P U s -> fstep P s f = Some (s1, fr) ->
    let s' := set_thr s1 (set_nth i (fr ++ fs) (thr s)) in
    Permutation (frames s) (f :: rest) -> Permutation (frames s') (fr ++ rest) ->
    edges s' x = edges s x + delta s f x.
  Proof.
    intros I H s' Hp Hp'.
    assert (Hf : In f (frames s)) by (apply (Permutation_in _ (Permutation_sym Hp)); now left).
    assert (PD : forall y x, pend s' y x = pend s y x - w_pend y x f + zsum (w_pend y x) fr).
    { intros. unfold pend. rewrite (zsum_perm _ _ _ Hp), (zsum_perm _ _ _ Hp'), zsum_app. simpl. lia. }
    assert (FOK := i_frames P s I f Hf).
    assert (SAME : srcs (log s') = srcs (log s) -> (forall y, fol s' y = fol s y) ->
                   (forall y x, zsum (w_pend y x) fr = w_pend y x f) -> (forall y, taken s' y = taken s y) ->
                   edges s' x = edges s x).
    { intros H1 H2 H3 H4. apply edges_same; auto. intros. rewrite PD, H3. lia. }
    assert (SPAWN : forall o c l, f = FBody o (ISpawn c :: l) -> fr = [FSub o c (uniq P c) l] ->
              log s' = LSpawn c :: log s -> fol s' = fol s -> edges s' x = edges s x).
    { intros o c l -> -> Hl Hfo. unfold edges. rewrite Hl. simpl.
      assert (EE : forall y, eff s' y x = eff s y x).
      { intros y. unfold eff. rewrite Hfo, PD. unfold taken. rewrite Hl. simpl. now rewrite !Z.add_0_r, !Z.sub_0_r. }
      rewrite EE, (zsum_ext (fun y => eff s' y x) (fun y => eff s y x)) by auto.
      destruct (spawn_facts s I _ _ _ Hf) as [_ V].
      assert (F0 : fol s (EPost c) = []).
      { destruct (fol s (EPost c)) as [|z m] eqn:E; [easy|].
        assert (F : fol_ok P U s (EPost c) z) by (apply (i_fol P s I); rewrite E; simpl; auto).
        destruct z; simpl in F; try easy; unfold sp in F; lia. }
      assert (eff s (EPost c) x = 0); [|lia].
      unfold eff. destruct (_ =? 0); [|easy]. pose proof (i_pend P s I (EPost c) x) as PP.
      pose proof (pend_nn s (EPost c) x). rewrite F0 in *. simpl in *. lia. }
    assert (PUSH : forall y0 z, srcs (log s') = srcs (log s) -> (forall y, taken s' y = taken s y) ->
              (forall y, fol s' y = if ev_eqb y y0 then z :: fol s y else fol s y) ->
              (forall y w, zsum (w_pend y w) fr - w_pend y w f = zb (ev_eqb y0 y && ev_eqb z w)) ->
              edges s' x = edges s x).
    { intros y0 z H1 H2 H3 H4. unfold edges. rewrite H1. apply zsum_ext. intros y _.
      unfold eff. rewrite H2, H3, PD. specialize (H4 y x). destruct (_ =? 0); [|easy].
      destruct (ev_eqb_spec y y0).
      - subst. rewrite ev_eqb_refl in H4. simpl in *. change (ce x z) with (zb (ev_eqb z x)). lia.
      - destruct (ev_eqb_spec y0 y); [congruence|]. simpl in H4. lia. }
    assert (COUNT : forall y0 z, srcs (log s') = srcs (log s) -> (forall y, taken s' y = taken s y) ->
              (forall y, fol s' y = fol s y) ->
              (forall y w, w_pend y w f - zsum (w_pend y w) fr = zb (ev_eqb y0 y && ev_eqb z w)) ->
              taken s y0 = 0 -> zsum (ce y0) (srcs (log s)) = 1 ->
              edges s' x = edges s x + ce x z).
    { intros y0 z H1 H2 H3 H4 H5 H6. rewrite (edges_one s s' x y0 H1).
      - rewrite H6. unfold eff. rewrite H2, H3, PD, H5. simpl. specialize (H4 y0 x).
        rewrite ev_eqb_refl in H4. simpl in H4. change (ce x z) with (zb (ev_eqb z x)). lia.
      - intros y Hy. unfold eff. rewrite H2, H3, PD. specialize (H4 y x).
        destruct (ev_eqb_spec y0 y); [congruence|]. simpl in H4. destruct (_ =? 0); lia. }
    assert (TAKE : forall e k, f = FNotify3 e 0 k -> fr = [FFollow e (fol s e)] -> log s' = LTake e :: log s ->
              fol s' = fol s -> edges s' x = edges s x + - zsum (ce x) (fol s e)).
    { intros e k -> -> Hl Hfo. rewrite (edges_one s s' x e).
      - assert (PZ := pend_zero s I e k x Hf).
        assert (T0 : taken s e = 0) by (eapply taking_facts; eauto; simpl; now rewrite ev_eqb_refl).
        assert (T1 : taken s' e = 1).
        { unfold taken in *. rewrite Hl. simpl. rewrite T0. unfold ce. now rewrite ev_eqb_refl. }
        unfold eff. rewrite T0, T1, PZ. simpl.
        destruct (fol s e) as [|z m] eqn:E; [simpl; lia|].
        rewrite (fol_src s I e z) by (rewrite E; simpl; auto). lia.
      - rewrite Hl. easy.
      - intros y Hy. unfold eff. rewrite PD, Hfo. simpl.
        replace (taken s' y) with (taken s y).
        { destruct (_ =? 0); lia. }
        unfold taken. rewrite Hl. simpl. unfold ce. destruct (ev_eqb_spec e y); [congruence|]. simpl. lia. }
    assert (EVENT : forall t e l, f = FBody (Some t) (IEvent e :: l) -> fr = [FBody (Some t) l] ->
              log s' = LEvent t e :: log s ->
              (forall y, fol s' y = if ev_eqb y (EExt t e) then EPost t :: fol s y else fol s y) ->
              edges s' x = edges s x + ce x (EPost t)).
    { intros t e l -> -> Hl Hfo. destruct (event_facts s I _ _ _ Hf) as (V & F0 & T0).
      assert (TT : forall y, taken s' y = taken s y) by (intros; unfold taken; rewrite Hl; simpl; lia).
      assert (EE : forall y, y <> EExt t e -> eff s' y x = eff s y x).
      { intros y Hy. unfold eff. rewrite TT, PD, Hfo. destruct (ev_eqb_spec y (EExt t e)); [congruence|].
        simpl. destruct (_ =? 0); lia. }
      assert (E1 : eff s' (EExt t e) x = ce x (EPost t)).
      { unfold eff. rewrite TT, PD, Hfo, T0, ev_eqb_refl, F0. simpl.
        pose proof (i_pend P s I (EExt t e) x) as PP. pose proof (pend_nn s (EExt t e) x).
        rewrite F0 in PP. simpl in PP. lia. }
      unfold edges. rewrite Hl. simpl. rewrite E1.
      rewrite (zsum_change (fun y => eff s y x) (fun y => eff s' y x) (EExt t e)) by auto.
      rewrite srcs_ext, V. lia. }
    subst s'.
    cases_f H; simpl delta;
      try (rewrite Z.add_0_r; apply SAME;
           [reflexivity | reflexivity | intros; simpl; lia | intros; unfold taken; simpl; lia]);
      try (rewrite Heqb, Z.add_0_r; apply SAME;
           [reflexivity | reflexivity | intros; simpl; lia | intros; unfold taken; simpl; lia]).
    - rewrite Z.add_0_r. eapply SPAWN; reflexivity.
    - apply (EVENT n e l); try reflexivity.
      intros y. simpl. unfold eupd. destruct (ev_eqb_spec y (EExt n e)); [now subst|easy].
    - rewrite Z.add_0_r. eapply SPAWN; reflexivity.
    - rewrite Z.add_0_r. eapply (PUSH (EPost p) (EPre t));
        [reflexivity | intros; unfold taken; simpl; lia | | intros; cbn [w_pend zsum]; lia].
      intros y. simpl. unfold eupd. destruct (ev_eqb_spec y (EPost p)); [now subst|easy].
    - destruct FOK as [FOK _]. apply (dep_facts s I) in FOK as [T0 V].
      apply (COUNT (EPost p) (EPre t));
        [reflexivity | intros; unfold taken; simpl; lia | reflexivity | intros; cbn [w_pend zsum]; lia | easy | ].
      now rewrite srcs_post.
    - destruct FOK as [FOK _]. apply (dep_facts s I) in FOK as [T0 V].
      apply (COUNT (EPost p) (EPre t));
        [reflexivity | intros; unfold taken; simpl; lia | reflexivity | intros; cbn [w_pend zsum]; lia | easy | ].
      now rewrite srcs_post.
    - rewrite Z.add_0_r. eapply (PUSH (EPost t) (EPost q));
        [reflexivity | intros; unfold taken; simpl; lia | | intros; cbn [w_pend zsum]; lia].
      intros y. simpl. unfold eupd. destruct (ev_eqb_spec y (EPost t)); [now subst|easy].
    - assert (C : 1 <= zsum (w_collect t) (frames s)).
      { assert (w_collect t (FPar3 t q) = 1) as <- by (simpl; unfold ni; now rewrite Nat.eqb_refl).
        apply in_w; auto. intro; apply w_nn. }
      apply (collect_facts s I) in C.
      apply (COUNT (EPost t) (EPost q));
        [reflexivity | intros; unfold taken; simpl; lia | reflexivity | intros; cbn [w_pend zsum]; lia | unfold taken; lia | ].
      rewrite srcs_post. lia.
    - rewrite Heqb. apply Z.eqb_eq in Heqb. subst st. eapply TAKE; reflexivity.
  Qed.

  Lemma edges_idle s s1 pk fr i x :
    istep s pk = Some (s1, fr) ->
    let s' := set_thr s1 (set_nth i fr (thr s)) in
    Permutation (frames s') (fr ++ frames s) ->
    edges s' x = edges s x.
  Proof.
    intros H s' Hp'. subst s'. cases_i H; apply edges_same; try reflexivity;
      intros; unfold pend, taken; rewrite ?(zsum_perm _ _ _ Hp'); simpl; lia.
  Qed.

  Lemma eupd_ce (g : ev -> Z) e d x : eupd g e (wrap P (g e + d)) x = g x + d * ce x e.
  Proof.
    rewrite wrap_id. unfold eupd, ce. destruct (ev_eqb_spec x e), (ev_eqb_spec e x); simpl; subst; try congruence; lia.
  Qed.

  Lemma eupd_dec (g : ev -> Z) e x : eupd g e (wrap P (g e - 1)) x = g x - ce x e.
  Proof. replace (g e - 1) with (g e + -1) by lia. rewrite eupd_ce. lia. Qed.

  Ltac start2 I M :=
    destruct M as [i f fs s1 fr rest E H -> Hp Hp' | i pk s1 fr E H -> Hp'];
    [ assert (Hf : In f (frames _)) by (apply (Permutation_in _ (Permutation_sym Hp)); now left);
      assert (FOK := i_frames P _ I f Hf) | ].

  Lemma pres_acc s s' x : Inv P U s -> moves P s s' ->
    ctr s' x = base s' x + edges s' x + zsum (w_notify x) (frames s') + zsum (w_follow x) (frames s').
  Proof.
    intros I M. assert (A := i_acc P s I x).
    destruct M as [i f fs s1 fr rest E H -> Hp Hp' | i pk s1 fr E H -> Hp'].
    - rewrite (edges_step s s1 f fr rest i fs x I H Hp Hp').
      rewrite (zsum_perm _ _ _ Hp), (zsum_perm (w_follow x) _ _ Hp) in A.
      rewrite (zsum_perm _ _ _ Hp'), (zsum_perm (w_follow x) _ _ Hp').
      clear I.
      cases_f H; destruct x; cbn [base] in *; rewrite ?(zsum_perm _ _ _ Hp), ?(zsum_perm _ _ _ Hp') in *;
        clear Hp Hp' E;
        unfold inc; simpl in *; unfold delta; rewrite ?zsum_app, ?eupd_ce; simpl;
        repeat match goal with E : (_ =? _) = _ |- _ => rewrite E end;
        rewrite ?eupd_dec;
        unfold ce, ni in *; simpl in *; try lia.
    - rewrite (edges_idle s s1 pk fr i x H Hp').
      rewrite (zsum_perm _ _ _ Hp'), (zsum_perm (w_follow x) _ _ Hp').
      clear I.
      cases_i H; destruct x; cbn [base] in *; rewrite ?(zsum_perm _ _ _ Hp') in *;
        clear Hp' E; simpl in *; rewrite ?zsum_app; simpl; unfold ce, ni in *; simpl in *; lia.
  Qed.

End Pres.
