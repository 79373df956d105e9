(** Progress of the runtime machine. *)
From Coq Require Import Bool List Arith NArith ZArith Lia Permutation Sorting.Sorted.
From Verif Require Import AccessModel AccessSpec AccessProof UserModel UserProof SchedModel SchedSpec SchedBase SchedInv1 SchedInv2 SchedInv3 SchedInv4 SchedInv5 SchedInv6 SchedInv7 SchedInv8 SchedFront SchedThm.
Import ListNotations.
Open Scope Z_scope.

(** ** Shape of stacks *)
(** frames that have nothing below them *)
Definition solo (f : frame) : bool :=
  match f with
  | FNotify _ NInit | FNotify2 _ _ NInit | FNotify3 _ _ NInit => true
  | FNotify _ _ | FNotify2 _ _ _ | FNotify3 _ _ _ | FDelete _ _ | FFollow _ _ | FRemove _ => false
  | _ => true
  end.

(** frames that may have something above them *)
Definition under (f : frame) : bool :=
  match f with FBody _ _ | FRun _ | FNotify (EPost _) NBody | FFollow _ _ => true | _ => false end.

Fixpoint stack_ok (st : list frame) : Prop :=
  match st with
  | [] => True
  | f :: fs => (solo f = true -> fs = []) /\ (forall g, In g fs -> under g = true) /\ stack_ok fs
  end.

Lemma set_nth_length {A} (l : list A) : forall i v, length (set_nth i v l) = length l.
Proof. induction l as [|a l IH]; intros [|i] v; simpl; auto. Qed.

Lemma fstep_stack P s f s1 fr fs : fstep P s f = Some (s1, fr) -> stack_ok (f :: fs) -> stack_ok (fr ++ fs).
Proof.
  intros H (S & UN & Fs). cases_f H; simpl in *;
    try (specialize (S eq_refl); subst fs); simpl; repeat split; auto; try easy; intros g [<-|Hg]; auto;
    try (intros Q; destruct k; discriminate Q).
Qed.

Lemma step_thr P s i c s' : step P s i c = Some s' ->
  exists st st', nth_error (thr s) i = Some st /\ thr s' = set_nth i st' (thr s) /\ (stack_ok st -> stack_ok st').
Proof.
  unfold step. destruct (nth_error (thr s) i) as [[|f fs]|] eqn:E; [| |discriminate].
  - destruct (istep s c) as [[s1 fr]|] eqn:F; [|discriminate]. intros H; injection H as <-.
    exists [], fr. simpl. repeat split; auto. intros _. cases_i F; simpl; repeat split; auto; try discriminate; easy.
  - destruct (fstep P s f) as [[s1 fr]|] eqn:F; [|discriminate]. intros H; injection H as <-.
    exists (f :: fs), (fr ++ fs). simpl thr. repeat split; auto. eapply fstep_stack; eauto.
Qed.

Definition stacks (s : state) : Prop := forall i st, nth_error (thr s) i = Some st -> stack_ok st.

Lemma step_stacks P s i c s' : step P s i c = Some s' -> stacks s -> stacks s' /\ length (thr s') = length (thr s).
Proof.
  intros H IH. destruct (step_thr _ _ _ _ _ H) as (st & st' & E & T & S). split; [|now rewrite T, set_nth_length].
  intros j st2. rewrite T, nth_set_nth, E. destruct (Nat.eqb_spec i j); [|apply IH].
  intros Q; injection Q as <-. apply S. eapply IH; eauto.
Qed.

Lemma reach_stack P n s : reach P n s -> (forall i st, nth_error (thr s) i = Some st -> stack_ok st) /\ length (thr s) = S n.
Proof.
  induction 1 as [|s i c s' R [IH L] H].
  - split; [|simpl; now rewrite repeat_length]. intros [|i] st; simpl.
    + intros H; injection H as <-. simpl. repeat split; auto.
    + intros H. apply nth_error_In, repeat_spec in H. now subst.
  - destruct (step_stacks P s i c s' H IH) as [A B]. split; [exact A|congruence].
Qed.

Lemma mreach_stack P U n s : mreach P U n s -> stacks s /\ length (thr s) = (length (mains U) + n)%nat.
Proof.
  induction 1 as [|s i c s' R [IH L] G PO H].
  - split; [|simpl; now rewrite app_length, map_length, repeat_length]. intros i st H.
    apply nth_error_In in H. simpl in H. apply in_app_or in H as [H|H].
    + apply in_map_iff in H as (m & <- & _). simpl. repeat split; auto.
    + apply repeat_spec in H. now subst.
  - destruct (step_stacks P s i c s' H IH) as [A B]. split; [exact A|congruence].
Qed.

Lemma in_frames s f : In f (frames s) <-> exists i st, nth_error (thr s) i = Some st /\ In f st.
Proof.
  unfold frames. rewrite in_concat. split.
  - intros (st & H & Hf). apply In_nth_error in H as [i H]. eauto.
  - intros (i & st & H & Hf). exists st. split; auto. eapply nth_error_In; eauto.
Qed.

Lemma solo_top st f : stack_ok st -> In f st -> solo f = true -> exists pre, st = pre ++ [f].
Proof.
  induction st as [|g st IH]; [easy|]. intros (S1 & _ & S2) [->|Hf] So.
  - exists []. now rewrite (S1 So).
  - destruct (IH S2 Hf So) as [pre ->]. exists (g :: pre). easy.
Qed.

Definition stuck (P : prog) (s : state) : Prop := forall i c, step P s i c = None.

(** frames that never block *)
Lemma unblocked P s f : fstep P s f = None ->
  (exists r, lck s r = true) \/
  f = FBody None [] \/ (exists o is, f = FBody o (IBarrier :: is) /\ tcn s None <> 0) \/
  (exists o c is, f = FBody o (IGet c :: is) /\ ctr s (ERSet c) <> 0).
Proof.
  intros H. destruct f; unfold fstep, after_dep in H; cbv zeta in H; repeat (break_match H; try discriminate H); try discriminate H;
    subst; zcmp; eauto 10.
Qed.

(** a lock holder can move *)
Lemma holder_moves P s f r : w_holds r f = 1 -> fstep P s f <> None.
Proof.
  intros H. destruct f; simpl in H; try lia; unfold fstep, after_dep;
    intros Q; repeat (break_match Q; try discriminate Q); discriminate Q.
Qed.

(** while a lock holder is in the middle of its search nothing is below it, so it
    is on top *)
Lemma stuck_top P s : stuck P s ->
  forall i st, nth_error (thr s) i = Some st -> match st with [] => True | f :: _ => fstep P s f = None end.
Proof.
  intros K i [|f fs] E; auto. specialize (K i (PReady 0)). unfold step in K. rewrite E in K.
  destruct (fstep P s f) as [[? ?]|]; easy.
Qed.

(** every thread with something on its stack is blocked *)
Definition all_blocked (P : prog) (s : state) : Prop :=
  forall i st, nth_error (thr s) i = Some st -> match st with [] => True | f :: _ => fstep P s f = None end.

Section GenLive.
  Context (P : prog) {U : front} (W : wfm P U) (NW : p_wrap P = false).

  (** below a notifying frame there may be a solo frame; the notifying frame is
      then on top and can move, so holders are eventually on top.  In a stuck
      state: no lock is held. *)
  Lemma mr_stuck_unlocked s : stacks s -> Inv P U s -> all_blocked P s -> forall r, lck s r = false.
  Proof.
    intros SO I K r. destruct (lck s r) eqn:L; auto. exfalso.
    assert (H := i_lock P s I r). rewrite L in H. simpl in H.
    assert (H' : 0 < zsum (w_holds r) (frames s)) by lia.
    apply zsum_pos_ex in H' as (f & Hf & H').
    assert (H1 : w_holds r f = 1).
    { destruct f; simpl in *; try lia; unfold ni in *; destruct (Nat.eqb _ _); simpl in *; lia. }
    apply in_frames in Hf as (i & st & E & Hi). specialize (SO i st E).
    destruct st as [|g st]; [easy|]. destruct Hi as [->|Hi].
    - apply (holder_moves P s f r H1). exact (K i _ E).
    - destruct SO as (_ & UN & _). apply UN in Hi. destruct f; simpl in *; try lia; discriminate.
  Qed.

  (** what a thread of the user that cannot go on has left *)
  Definition waits (s : state) (is : list instr) : Prop :=
    is = [] \/ (exists is', is = IBarrier :: is' /\ tcn s None <> 0) \/
    (exists c is', is = IGet c :: is' /\ ctr s (ERSet c) <> 0).

  Lemma mr_blocked_top s : no_get P -> stacks s -> Inv P U s -> all_blocked P s ->
    forall i f fs, nth_error (thr s) i = Some (f :: fs) -> fs = [] /\ exists is, f = FBody None is /\ waits s is.
  Proof.
    intros NG SO I K. assert (UL := mr_stuck_unlocked s SO I K).
    intros i f fs E. assert (B := K i _ E). simpl in B.
    assert (SO' := SO i _ E). destruct SO' as [S1 _].
    assert (Hf : In f (frames s)) by (apply in_frames; exists i, (f :: fs); split; simpl; auto).
    assert (SF := law_suffix P s (i_laws P s I) f Hf). unfold waits.
    destruct (unblocked P s f B) as [[r Hr]|[->|[(o & is & -> & Ht)|(o & c & is & -> & Hc)]]].
    - rewrite UL in Hr. discriminate.
    - split; [now apply S1|]. exists []. auto.
    - split; [now apply S1|]. destruct o as [q|].
      + exfalso. apply (piece_In P W) in SF. now apply (m_no_barrier P W) in SF.
      + eauto 10.
    - split; [now apply S1|]. destruct o as [q|].
      + exfalso. apply (piece_In P W) in SF. now apply NG in SF.
      + eauto 10.
  Qed.

  (** a state in which only the threads of the user and bodies that wait have something left *)
  Record calm (s : state) : Prop := {
    q_frames : forall f, In f (frames s) -> (exists is, f = FBody None is) \/
               (exists t c is, f = FBody (Some t) (IGet c :: is) /\ ctr s (ERSet c) <> 0);
    q_emp : emp s = [];
    q_rdy : rdy s = [];
    q_ext : ext s = []
  }.

  Lemma calm_zero s w : calm s -> (forall o m, w (FBody o m) = 0) -> zsum w (frames s) = 0.
  Proof. intros C H. apply zsum_zero. intros f Hf. apply (q_frames s C) in Hf as [[is ->]|(t & c & is & -> & _)]; auto. Qed.

  Lemma mr_stuck_calm n s : no_get P -> (1 <= n)%nat -> mreach P U n s -> stuck P s ->
    calm s /\ forall f, In f (frames s) -> exists is, f = FBody None is /\ waits s is.
  Proof.
    intros NG Hn R K. assert (I := mreach_Inv P W NW n s R).
    destruct (mreach_stack P U n s R) as [SO LEN].
    assert (TOP := mr_blocked_top s NG SO I (stuck_top P s K)).
    assert (MAIN := law_main P s (i_laws P s I)).
    assert (ALL : forall g, In g (frames s) -> exists is, g = FBody None is /\ waits s is).
    { intros g Hg. apply in_frames in Hg as (j & st & E' & Hj). destruct st as [|g' fs]; [easy|].
      destruct (TOP j g' fs E') as (-> & Q). destruct Hj as [<-|[]]. exact Q. }
    split; [|exact ALL].
    assert (CNT : length (frames s) = length (mains U)).
    { assert (Q : Z.of_nat (length (frames s)) = zsum (is_body None) (frames s)); [|lia]. clear -ALL.
      induction (frames s) as [|g l IH]; [reflexivity|]. cbn [zsum length].
      destruct (ALL g) as (is & -> & _); [now left|]. simpl is_body.
      rewrite <- IH by (intros; apply ALL; simpl; auto). lia. }
    (* an idle worker exists *)
    assert (IDLE : exists j, nth_error (thr s) j = Some []).
    { assert (DEC : In [] (thr s) \/ ~ In [] (thr s)).
      { clear. induction (thr s) as [|[|f st] l [IH|IH]]; simpl; auto. right. intros [H|H]; [discriminate|auto]. }
      destruct DEC as [i|N].
      - apply In_nth_error in i. exact i.
      - exfalso. assert (Q : forall l : list (list frame), ~ In [] l -> (length l <= length (concat l))%nat).
        { clear. induction l as [|st l IH]; intros N; simpl; [lia|]. rewrite app_length.
          assert (length l <= length (concat l))%nat by (apply IH; intros H; apply N; now right).
          destruct st; [destruct N; now left|]. simpl. lia. }
        specialize (Q _ N). fold (frames s) in Q. lia. }
    destruct IDLE as [j Ej].
    assert (KI : forall c, istep s c = None).
    { intros c. specialize (K j c). unfold step in K. rewrite Ej in K. destruct (istep s c) as [[? ?]|]; easy. }
    split; auto.
    - intros f Hf. left. destruct (ALL f Hf) as (is & -> & _). eauto.
    - specialize (KI (PNew 0)). simpl in KI. destruct (emp s); simpl in KI; easy.
    - specialize (KI (PReady 0)). simpl in KI. destruct (rdy s); simpl in KI; easy.
    - specialize (KI (PExt 0)). simpl in KI. destruct (ext s) as [|[? ?] ?]; simpl in KI; easy.
  Qed.

  (** what a thread has left behind is submitted *)
  Definition behind (s : state) (f : frame) : Prop :=
    match f with
    | FBody o is | FSub o _ _ is =>
        exists m pre, code P U o m /\ m = pre ++ is /\ forall c, In c (spawns pre) -> sp s c
    | _ => True
    end.

  Lemma mr_behind n s : mreach P U n s -> forall f, In f (frames s) -> behind s f.
  Proof.
    induction 1 as [|s i c s' R IH G PO H].
    - intros f Hf. rewrite (frames_init P (U := U) n) in Hf. apply in_map_iff in Hf as (m & <- & Hm).
      exists m, []. repeat split; auto. easy.
    - assert (M := step_moves P s i c s' H). intros f Hf.
      assert (MONO : forall f, behind s f -> behind s' f).
      { intros [] B; auto; destruct B as (m & pre & C & E & A); exists m, pre; repeat split; auto;
          intros x Hx; eapply sp_mono; eauto. }
      destruct M as [j g fs s1 fr rest E H1 E' Hp Hp' | j pk s1 fr E H1 E' Hp'].
      + apply (Permutation_in _ Hp') in Hf. apply in_app_or in Hf as [Hf|Hf].
        2:{ apply MONO, IH. apply (Permutation_in _ (Permutation_sym Hp)). now right. }
        assert (Hg : In g (frames s)) by (apply (Permutation_in _ (Permutation_sym Hp)); now left).
        specialize (IH g Hg).
        assert (NEXT : forall o i is, behind s (FBody o (i :: is)) -> (forall c, spawns [i] = [c] -> sp s' c) ->
                       exists m pre, code P U o m /\ m = pre ++ is /\ forall c, In c (spawns pre) -> sp s' c).
        { intros o i0 is (m & pre & C & Em & A) N. exists m, (pre ++ [i0]). rewrite <- app_assoc. repeat split; auto.
          intros x Hx. rewrite spawns_app in Hx. apply in_app_or in Hx as [Hx|Hx].
          - eapply sp_mono; eauto. exact (step_moves P s i c s' H).
          - destruct i0; simpl in Hx; try easy. destruct Hx as [<-|[]]. apply N. reflexivity. }
        assert (SPW : forall o x is s2, g = FBody o (ISpawn x :: is) -> log s2 = LSpawn x :: log s -> log s' = log s2 -> sp s' x).
        { intros o x is s2 -> L1 L2. unfold sp. rewrite L2, L1. simpl. rewrite ni_refl. pose proof (nn_v (v_spawn x) (log s) (fun y => proj1 (v_nn x y))). lia. }
        assert (LE : log s' = log s1) by (rewrite E'; reflexivity).
        clear Hp Hp' E H G PO E'.
        cases_f H1; simpl in Hf; repeat (destruct Hf as [<-|Hf]; [|]); try easy; try (apply MONO; exact IH);
          try (red; eapply NEXT; [exact IH|]; intros x Hx; discriminate Hx);
          try (red; eapply NEXT; [exact IH|]; intros x Hx; injection Hx as <-; eapply SPW; [reflexivity| |exact LE]; reflexivity).
        exists (body P (Some t)), []. repeat split; auto. easy.
      + apply (Permutation_in _ Hp') in Hf. apply in_app_or in Hf as [Hf|Hf]; [|now apply MONO, IH].
        cases_i H1; simpl in Hf; destruct Hf as [<-|[]]; easy.
  Qed.

  (** in a calm state every submitted task is complete: first the tasks of one
      space, given that the tasks they emplaced are complete *)
  Lemma calm_space n s o : lined P U s -> mreach P U n s -> calm s -> (forall t, patient P t) ->
    (forall t c, parent P t = o -> sp s t -> parent P c = Some t -> sp s c -> zsum (v_take (EPost c)) (log s) = 1) ->
    forall t, parent P t = o -> sp s t -> zsum (v_take (EPost t)) (log s) = 1.
  Proof.
    intros (rank & LN) R Q PA KIDS. assert (I := mreach_Inv P W NW n s R). assert (Z0 := fun w => calm_zero s w Q).
    assert (Qf := q_frames s Q). destruct Q as [_ Qe Qr Qx].
    intros t. induction t as [t IH] using (well_founded_induction (Wf_nat.well_founded_ltof _ rank)). unfold Wf_nat.ltof in IH. intros Hto Ht.
    assert (L := i_laws P s I). destruct L. clear law_suffix law_spawn law_main law_use law_event law_remove law_free law_tcn.
    assert (S1 := f_spawn P W s I t). unfold sp in Ht.
    assert (Hi : zsum (v_init t) (log s) = 1).
    { specialize (law_phase t). rewrite Qe, !Z0 in law_phase by easy. simpl in law_phase. lia. }
    assert (P0 : forall y x, pend s y x = 0) by (intros; unfold pend; apply Z0; easy).
    assert (EFF : forall y x, taken s y = 1 -> eff s y x = 0).
    { intros y x T. unfold eff. now rewrite T. }
    assert (EMPTY : forall y x, ~ In x (fol s y) -> eff s y x = 0).
    { intros y x N. unfold eff. destruct (_ =? 0); auto. rewrite P0.
      destruct (Z_lt_le_dec 0 (zsum (ce x) (fol s y))) as [l|l]; [now apply ce_pos in l|].
      pose proof (ce_nonneg x (fol s y)). lia. }
    (* nothing to wait for *)
    assert (OB : ob s t = 0).
    { unfold ob. rewrite !Z0 by easy. assert (edges s (EPre t) = 0); [|lia].
      apply zsum_zero. intros y _.
      destruct (in_dec (fun a b => match ev_eqb_spec a b with ReflectT _ e => left e | ReflectF _ e => right e end) (EPre t) (fol s y)) as [Hy|Hy]; [|now apply EMPTY].
      apply EFF. apply (i_fol P s I) in Hy. destruct y; simpl in Hy; try easy.
      destruct Hy as (Hlt & Heq & Hp & _). unfold taken. destruct Heq as [Heq Hs].
      destruct Hlt as [(r & R1 & R2 & Hlt)|[-> Hlt]]; [|destruct (PA t); congruence]. apply IH; [apply (LN r); auto; now apply in_spawn|congruence|auto]. }
    assert (Hx : zsum (v_exec t) (log s) = 1).
    { assert (T := i_tok P s I t). rewrite Hi, OB in T. unfold tok in T. rewrite !Z0, Qr in T by easy. simpl in T. lia. }
    assert (He : zsum (v_end t) (log s) = 1).
    { specialize (law_exec t). specialize (law_body t). rewrite !Z0 in law_exec by easy.
      destruct (Z_lt_le_dec 0 (zsum (is_body (Some t)) (frames s))) as [l|l].
      2:{ assert (0 <= zsum (is_body (Some t)) (frames s)); [|lia].
          apply zsum_nonneg. intros []; simpl; try lia; unfold zb; destruct (onat_eqb _ _); lia. }
      exfalso. assert (X : exists f, In f (frames s) /\ is_body (Some t) f <> 0).
      { clear -l. induction (frames s) as [|g r IH]; simpl in l; [lia|].
        destruct (Z.eq_dec (is_body (Some t) g) 0) as [e|e]; [|exists g; simpl; auto].
        destruct IH as (f & Hf & N); [lia|]. exists f. simpl. auto. }
      destruct X as (f & Hf & N). destruct (Qf f Hf) as [[is ->]|(t' & c & is & -> & Hc)]; [easy|].
      simpl in N. unfold zb in N. destruct (Nat.eqb_spec t' t) as [->|]; [|now simpl in N].
      destruct (mr_behind n s R _ Hf) as (m & pre & C & Em & A).
      assert (Hin := m_use_after P W (Some t) m pre _ _ c C Em (or_intror eq_refl)).
      assert (Hs := A c Hin). assert (Hk : parent P c = Some t).
      { apply (m_parent P W). change (m = body P (Some t)) in C. rewrite <- C, Em. apply in_or_app. left. now apply spawns_In. }
      assert (T := KIDS t c Hto Ht Hk Hs). pose proof (f_take P s I (EPost c)) as FT. pose proof (f_reach P s I (EPost c)) as FR.
      assert (E1 := rc_end P s I c ltac:(unfold rc; lia)).
      apply Hc. rewrite (i_acc P s I). rewrite !Z0 by easy. simpl.
      assert (edges s (ERSet c) = 0); [|lia].
      apply zsum_zero. intros y _. apply EMPTY. intros Hy. apply (i_fol P s I) in Hy. destruct y; easy. }
    assert (EP : edges s (EPost t) = 0).
    { apply zsum_zero. intros y _.
      destruct (in_dec (fun a b => match ev_eqb_spec a b with ReflectT _ e => left e | ReflectF _ e => right e end) (EPost t) (fol s y)) as [Hy|Hy]; [|now apply EMPTY].
      apply EFF. apply (i_fol P s I) in Hy. destruct y; simpl in Hy; try easy.
      - destruct Hy as (Hpar & Hp). unfold taken. now apply (KIDS t).
      - destruct Hy as (<- & Hv). unfold taken.
        assert (R1 : zsum (v_reach (EExt t e)) (log s) = 1).
        { destruct (i_reach P s I (EExt t e)) as [[_ ?]|[C _]]; auto. exfalso.
          rewrite (i_acc P s I) in C. rewrite !Z0 in C by easy. simpl in C. specialize (law_fire t e). rewrite Qx in law_fire. simpl in law_fire.
          assert (edges s (EExt t e) = 0); [|pose proof (f_event P W s I t e); lia].
          apply zsum_zero. intros y _. apply EMPTY. intros Hy. apply (i_fol P s I) in Hy. destruct y; easy. }
        specialize (law_take (EExt t e)). rewrite !Z0 in law_take by easy. lia. }
    assert (R1 : zsum (v_reach (EPost t)) (log s) = 1).
    { destruct (i_reach P s I (EPost t)) as [[_ ?]|[C _]]; auto. exfalso.
      rewrite (i_acc P s I) in C. rewrite !Z0 in C by easy. simpl in C. lia. }
    specialize (law_take (EPost t)). rewrite !Z0 in law_take by easy. lia.
  Qed.

  Lemma calm_done n s : lined P U s -> mreach P U n s -> calm s -> (forall t, patient P t) ->
    forall t, sp s t -> zsum (v_take (EPost t)) (log s) = 1.
  Proof.
    intros LN R Q PA. assert (I := mreach_Inv P W NW n s R).
    assert (LT : forall q c, parent P c = Some q -> sp s c -> (q < c)%nat).
    { intros q c E H. apply (sp_body P W s I) in H. rewrite E in H. apply spawns_In in H. now apply (m_lt P W). }
    assert (BD : exists N, forall c, sp s c -> (c < N)%nat).
    { exists (S (list_max (submissions (log s)))). intros c H. unfold sp in H. apply in_spawn in H.
      assert (In c (submissions (log s))) as Hc.
      { clear -H. induction (log s) as [|x l IH]; [easy|]. destruct H as [->|H]; [simpl; auto|].
        destruct x; simpl; auto. }
      assert (L := list_max_le (submissions (log s)) (list_max (submissions (log s)))).
      destruct L as [L _]. specialize (L (le_n _)). rewrite Forall_forall in L. apply L in Hc. lia. }
    destruct BD as [N BD].
    assert (K : forall k q, (N <= k + q)%nat -> forall c, parent P c = Some q -> sp s c -> zsum (v_take (EPost c)) (log s) = 1).
    { induction k as [|k IH]; intros q Hq c E H.
      - specialize (LT q c E H). specialize (BD c H). lia.
      - apply (calm_space n s (Some q) LN R Q PA); auto. intros t d E1 Ht E2 Hd.
        specialize (LT q t E1 Ht). apply (IH t); auto. lia. }
    intros t Ht. apply (calm_space n s (parent P t) LN R Q PA); auto.
    intros t' c _ _ E H. exact (K N t' ltac:(lia) c E H).
  Qed.

  (** ** Progress *)
  Theorem calm_progress n s : lined P U s -> (forall t, patient P t) -> mreach P U n s -> calm s ->
    (forall t, submitted s t -> completed s t /\ (In (LGet t) (log s) \/ In (LDrop t) (log s) -> In (LFree t) (log s)))
    /\ (forall t e, In (LEvent t e) (log s) -> In (LFire t e) (log s))
    /\ forall f, In f (frames s) -> exists is, f = FBody None is /\ forall c is', is = IGet c :: is' -> ctr s (ERSet c) = 0.
  Proof.
    intros LN PA R Q. assert (I := mreach_Inv P W NW n s R). assert (D := calm_done n s LN R Q PA).
    assert (Z0 := fun w => calm_zero s w Q).
    assert (NOEDGE : forall x, (forall y, ~ In x (fol s y)) -> edges s x = 0).
    { intros x N. apply zsum_zero. intros y _. unfold eff. destruct (_ =? 0); auto.
      unfold pend. rewrite Z0 by easy.
      destruct (Z_lt_le_dec 0 (zsum (ce x) (fol s y))) as [l|l]; [apply ce_pos in l; destruct (N y l)|].
      pose proof (ce_nonneg x (fol s y)). lia. }
    assert (DONE : forall t, submitted s t -> zsum (v_reach (EPost t)) (log s) = 1 /\ zsum (v_take (EPost t)) (log s) = 1).
    { intros t Ht. apply in_spawn in Ht. specialize (D t Ht). pose proof (f_take P s I (EPost t)).
      pose proof (f_reach P s I (EPost t)). lia. }
    assert (FREE : forall t, submitted s t -> In (LGet t) (log s) \/ In (LDrop t) (log s) -> In (LFree t) (log s)).
    { intros t Ht Hu. apply in_use in Hu. apply in_free. destruct (DONE t Ht) as [_ T1].
      assert (R1 : zsum (v_reach (ERGet t)) (log s) = 1).
      { destruct (i_reach P s I (ERGet t)) as [[_ ?]|[C _]]; auto. exfalso.
        rewrite (i_acc P s I), NOEDGE in C.
        - rewrite !Z0 in C by easy. simpl in C. lia.
        - intros y Hy. apply (i_fol P s I) in Hy. destruct y; easy. }
      pose proof (law_take P s (i_laws P s I) (ERGet t)) as LT. rewrite !Z0 in LT by easy.
      pose proof (law_remove P s (i_laws P s I) t) as LR. rewrite !Z0 in LR by easy.
      rewrite (law_free P s (i_laws P s I) t). destruct (Z.leb_spec 1 (cdn s t)); lia. }
    split; [|split].
    - intros t Ht. split; [|now apply FREE]. apply in_reach. destruct (DONE t Ht). lia.
    - intros t e He. apply in_event in He. apply in_fire. pose proof (law_fire P s (i_laws P s I) t e) as LF.
      rewrite (q_ext s Q) in LF. simpl in LF. lia.
    - assert (WAIT : forall o c is, In (FBody o (IGet c :: is)) (frames s) -> ctr s (ERSet c) = 0).
      { intros o c is Hf. destruct (mr_behind n s R _ Hf) as (m & pre & C & Em & A).
        assert (Hsp := m_use_after P W o m pre _ _ c C Em (or_intror eq_refl)). apply A in Hsp.
        destruct (DONE c) as [D1 _]; [now apply in_spawn|].
        assert (E1 := rc_end P s I c ltac:(unfold rc; lia)).
        rewrite (i_acc P s I), NOEDGE.
        + rewrite !Z0 by easy. simpl. lia.
        + intros y Hy. apply (i_fol P s I) in Hy. destruct y; easy. }
      intros f Hf. destruct (q_frames s Q f Hf) as [[is ->]|(t & c & is & -> & Hc)].
      + exists is. split; auto. intros c is' ->. exact (WAIT None c is' Hf).
      + destruct Hc. exact (WAIT (Some t) c is Hf).
  Qed.

  Theorem mr_progress n s : no_get P -> lined P U s -> (1 <= n)%nat -> (forall t, patient P t) -> mreach P U n s -> stuck P s ->
    (forall t, submitted s t -> completed s t /\ (In (LGet t) (log s) \/ In (LDrop t) (log s) -> In (LFree t) (log s)))
    /\ (forall t e, In (LEvent t e) (log s) -> In (LFire t e) (log s))
    /\ forall f, In f (frames s) -> exists is, f = FBody None is /\
       (is = [] \/ exists is' t, is = IBarrier :: is' /\ submitted s t /\ parent P t = None /\
                              ~ (In (LGet t) (log s) \/ In (LDrop t) (log s))).
  Proof.
    intros NG LN Hn PA R K.
    destruct (mr_stuck_calm n s NG Hn R K) as [Q B]. destruct (calm_progress n s LN PA R Q) as (A1 & A2 & A3).
    split; [exact A1|split; [exact A2|]].
    intros f Hf. destruct (B f Hf) as (is & -> & B'). destruct (A3 _ Hf) as (is2 & E2 & A4). injection E2 as <-.
    exists is. split; auto.
    destruct B' as [->|[(is' & -> & Ht)|(c & is' & -> & Hc)]]; auto.
    - right. exists is'.
      (* some root task is not released *)
      destruct (mr_count_nonzero P W NW n s None R Ht) as (t & Hs & Hpar & Hfr). exists t. repeat split; auto. intros X. apply Hfr. now apply (A1 t Hs).
    - destruct Hc. exact (A4 c is' eq_refl).
  Qed.
End GenLive.

Lemma lined_single P s : lined P (single P) s.
Proof. exists (fun t => t). easy. Qed.

Section Live.
  Context (P : prog) (W : wf P) (NW : p_wrap P = false).

  Lemma blocked_top n s : reach P n s -> Inv P (single P) s -> all_blocked P s ->
    forall i f fs, nth_error (thr s) i = Some (f :: fs) -> fs = [] /\ exists is, f = FBody None is /\
       (is = [] \/ (exists is', is = IBarrier :: is' /\ tcn s None <> 0) \/
        (exists c is', is = IGet c :: is' /\ ctr s (ERSet c) <> 0)).
  Proof. intros R. exact (mr_blocked_top P W s (wf_no_get P W) (proj1 (reach_stack P n s R))). Qed.

  Theorem gprogress n s : (1 <= n)%nat -> (forall t, patient P t) -> greach P n s -> stuck P s ->
    (forall t, submitted s t -> completed s t /\ (In (LGet t) (log s) \/ In (LDrop t) (log s) -> In (LFree t) (log s)))
    /\ (forall t e, In (LEvent t e) (log s) -> In (LFire t e) (log s))
    /\ exists is, frames s = [FBody None is] /\
       (is = [] \/ exists is' t, is = IBarrier :: is' /\ submitted s t /\ parent P t = None /\
                              ~ (In (LGet t) (log s) \/ In (LDrop t) (log s))).
  Proof.
    intros Hn PA G K. assert (R := greach_mreach P W NW n s G). assert (I := greach_Inv P W NW n s G).
    destruct (mr_progress P W NW n s (wf_no_get P W) (lined_single P s) Hn PA R K) as (A & B & C). repeat split; auto; try apply A; auto.
    assert (MAIN := law_main P s (i_laws P s I)).
    assert (L : Z.of_nat (length (frames s)) = 1).
    { simpl in MAIN. transitivity (zsum (is_body None) (frames s)); [|exact MAIN]. clear -C. induction (frames s) as [|g l IH]; [reflexivity|]. cbn [zsum length].
      destruct (C g) as (is & -> & _); [now left|]. simpl is_body.
      rewrite <- IH by (intros; apply C; simpl; auto). lia. }
    destruct (frames s) as [|f [|f2 l]]; simpl in L; try lia.
    destruct (C f) as (is & -> & Q); [now left|]. exists is. auto.
  Qed.

  Theorem progress n s : (1 <= n)%nat -> (forall t, patient P t) -> flat P -> reach P n s -> stuck P s ->
    (forall t, submitted s t -> completed s t /\ (In (LGet t) (log s) \/ In (LDrop t) (log s) -> In (LFree t) (log s)))
    /\ (forall t e, In (LEvent t e) (log s) -> In (LFire t e) (log s))
    /\ exists is, frames s = [FBody None is] /\
       (is = [] \/ exists is' t, is = IBarrier :: is' /\ submitted s t /\ parent P t = None /\
                              ~ (In (LGet t) (log s) \/ In (LDrop t) (log s))).
  Proof. intros Hn PA F R K. exact (gprogress n s Hn PA (flat_greach P W NW n s F R) K). Qed.
End Live.
