(** What lies below notifications on a stack; which dependencies a task waits
    for; which task objects are touched. *)
From Coq Require Import Bool List Arith NArith ZArith Lia Permutation Sorting.Sorted.
From Verif Require Import AccessModel AccessSpec AccessProof UserModel UserProof SchedModel SchedSpec SchedBase SchedInv1 SchedInv2 SchedInv3 SchedInv4 SchedInv5 SchedInv6 SchedInv7 SchedInv8 SchedFront SchedThm SchedLive SchedTerm.
Import ListNotations.
Open Scope Z_scope.

(** [f] on top of [fs] *)
Definition note_ok (s : state) (e : ev) (k : nkind) (fs : list frame) : Prop :=
  match e, k with
  | EPre t, NExec => exists fs', fs = FRun t :: fs'
  | EPre t, NCall => exists e' l fs', fs = FFollow e' l :: fs' /\ In (EPre t) (fol s e')
  | EPre t, NInit => True
  | EPre t, NBody => False
  | ERSet t, _ => exists fs', fs = FNotify (EPost t) NBody :: fs'
  | _, NInit => False
  | _, _ => True
  end.

Definition top_ok (s : state) (f : frame) (fs : list frame) : Prop :=
  match f with
  | FNotify e k => note_ok s e k fs
  | FNotify2 e st k | FNotify3 e st k =>
      note_ok s e k fs /\ 0 <= st /\ match e, k with EPre t, NExec => True | EPre t, _ => 1 <= st | _, _ => True end
  | FFollow e l => incl l (fol s e) /\
                   match e with EPre _ => note_ok s e NExec fs | ERSet _ => note_ok s e NCall fs | _ => True end
  | _ => True
  end.

Fixpoint adj (s : state) (st : list frame) : Prop :=
  match st with [] => True | f :: fs => top_ok s f fs /\ adj s fs end.

Lemma classic_nexec (k : nkind) : k = NExec \/ k <> NExec.
Proof. destruct k; auto; right; discriminate. Qed.

Section Stack.
  Context (P : prog) (W : wfa P) (NW : p_wrap P = false).

  Lemma note_mono s s' e k fs : moves P s s' -> note_ok s e k fs -> note_ok s' e k fs.
  Proof.
    intros M. destruct e, k; simpl; auto. intros (e' & l & fs' & -> & H). exists e', l, fs'. split; auto.
    eapply fol_mono; eauto.
  Qed.

  Lemma adj_mono s s' st : moves P s s' -> adj s st -> adj s' st.
  Proof.
    intros M. induction st as [|f fs IH]; [easy|]. intros [T A]. split; [|auto]. clear A IH.
    destruct f; simpl in *; auto.
    - eapply note_mono; eauto.
    - destruct T as [T1 T2]. split; auto. eapply note_mono; eauto.
    - destruct T as [T1 T2]. split; auto. eapply note_mono; eauto.
    - destruct T as [T1 T2]. split.
      + intros x Hx. eapply fol_mono; eauto.
      + destruct e; auto; eapply note_mono; eauto.
  Qed.

  (** a notification other than the executor's is an obstacle *)
  Lemma notify_other s t k : In (FNotify (EPre t) k) (frames s) -> k <> NExec ->
    1 <= zsum (w_notify (EPre t)) (frames s) - zsum (w_nexec t) (frames s).
  Proof.
    intros Hf Hk.
    assert (E : zsum (w_notify (EPre t)) (frames s) - zsum (w_nexec t) (frames s)
                = zsum (fun g => w_notify (EPre t) g - w_nexec t g) (frames s)).
    { clear. induction (frames s) as [|g l IH]; cbn [zsum]; [reflexivity|lia]. }
    rewrite E. assert (B := zsum_ge (fun g => w_notify (EPre t) g - w_nexec t g) (frames s) (FNotify (EPre t) k)).
    cbv beta in B. assert (w_notify (EPre t) (FNotify (EPre t) k) = 1) as E1.
    { cbn [w_notify]. apply ce_refl. }
    rewrite E1 in B. assert (E2 : w_nexec t (FNotify (EPre t) k) = 0) by (destruct k; easy). rewrite E2 in B.
    enough (1 - 0 <= zsum (fun g => w_notify (EPre t) g - w_nexec t g) (frames s)) by lia.
    apply B; auto. intros g _. clear. destruct g; simpl; try lia. unfold ce. destruct e; simpl; try lia; destruct k; simpl; try lia;
      unfold ni; pose proof (zb_bound (Nat.eqb t0 t)); lia.
  Qed.

  Lemma adj_reach n s : greach P n s -> forall i st, nth_error (thr s) i = Some st -> adj s st.
  Proof.
    induction 1 as [|s i c s' R IH G H].
    - intros [|i] st; simpl.
      + intros H; injection H as <-. simpl. auto.
      + intros H. apply nth_error_In, repeat_spec in H. now subst.
    - assert (I := greach_Inv P W NW n s R). assert (M := step_moves P s i c s' H).
      assert (OLD : forall i st, nth_error (thr s) i = Some st -> adj s' st) by (intros; eapply adj_mono; eauto).
      unfold step in H. destruct (nth_error (thr s) i) as [[|f fs]|] eqn:E; [| |discriminate].
      + destruct (istep s c) as [[s1 fr]|] eqn:F; [|discriminate]. injection H as <-. intros j st2. simpl thr.
        rewrite nth_set_nth, E. destruct (Nat.eqb_spec i j); [|apply OLD]. intros Q; injection Q as <-.
        cases_i F; simpl; auto.
      + destruct (fstep P s f) as [[s1 fr]|] eqn:F; [|discriminate]. injection H as <-. intros j st2. simpl thr.
        rewrite nth_set_nth, E. destruct (Nat.eqb_spec i j); [|apply OLD]. intros Q; injection Q as <-.
        assert (A := OLD i _ E). assert (B := IH i _ E). destruct A as [AT A], B as [BT _].
        assert (Hf : In f (frames s)) by (apply in_frames; exists i, (f :: fs); simpl; auto).
        set (s' := set_thr s1 _) in *. clearbody s'.
        assert (CP : forall t k, f = FNotify (EPre t) k -> k <> NExec -> 1 <= ctr s (EPre t) - 1).
        { intros t k -> Hk. rewrite (ctr_pre P s I t). pose proof (notify_other s t k Hf Hk).
          assert (B := ob_ge P s I t). assert (T := i_tok P s I t). signs t s.
          destruct (Z.eqb_spec (ob s t) 0) as [e1|e1]; [lia|]. rewrite andb_false_r in T. unfold tok in T.
          pose proof (ni_nonneg t (rdy s)). pose proof (f_exec P s I t). lia. }
        assert (CTR0 : forall e k, f = FNotify e k -> 0 <= ctr s e - 1).
        { intros e0 k ->. pose proof (base_nn P W s I e0). pose proof (edges_nn P s I e0). nnw w_follow e0 s.
          assert (w_notify e0 (FNotify e0 k) <= zsum (w_notify e0) (frames s)) by (apply in_w; auto; intro; apply w_nn2).
          simpl in H1. rewrite ce_refl in H1. rewrite (i_acc P s I). lia. }
        assert (OK : forall y x, In x (fol s y) -> fol_ok P (single P) s y x) by exact (i_fol P s I).
        assert (FM := fun y x => fol_mono P s s' y x M).
        clear - F A AT BT CP CTR0 OK FM NW.
        cases_f F; cbn [app adj]; first [exact A | split; [|first [exact A | split; [|exact A]]]];
          cbn [top_ok note_ok] in *; try exact Logic.I; try tauto; try (eexists; reflexivity);
          rewrite ?(wrap_id P NW); try (repeat split; auto; lia).
        all: try (split; [|split; [eapply CTR0; reflexivity|]]; first [exact Logic.I | exact AT | eapply CP; [reflexivity|discriminate]]).
        * (* taking the followers *)
          split; [intros x; apply FM|]. destruct AT as (AT1 & _ & AT2). destruct e; auto.
          apply Z.eqb_eq in Heqb. subst. destruct k; try lia. exact AT1.
        * destruct BT as [BT _]. specialize (BT e0 (or_introl eq_refl)). assert (Q := OK _ _ BT).
          destruct e, e0; simpl in Q; try easy. simpl. eauto 6.
        * destruct AT as [AT1 AT2]. split; auto. intros x Hx. apply AT1. now right.
  Qed.

  (** ** Whom a task waits for *)
  (** the completion of [p] is being processed by some thread *)
  Definition finishing (s : state) (p : nat) : Prop :=
    exists f, In f (frames s) /\ (w_taking (EPost p) f = 1 \/ exists l, f = FFollow (EPost p) l).

  Lemma waits_for n s t : greach P n s -> 1 <= zsum (v_init t) (log s) -> tok s t = 0 ->
    exists p, ((p < t)%nat \/ (p = t /\ ~ NoDup (uniq P t))) /\ ser P p t /\ sp s p /\ sp s t /\ (~ rc s p \/ finishing s p).
  Proof.
    intros R Hi T0. assert (I := greach_Inv P W NW n s R). assert (T := i_tok P s I t). rewrite T0 in T.
    destruct (Z.leb_spec 1 (zsum (v_init t) (log s))); [|lia]. simpl in T.
    assert (O : 0 < ob s t). { pose proof (ob_nn P s I t). destruct (Z.eqb_spec (ob s t) 0); lia. }
    clear T.
    assert (EDGE : forall y, In (EPre t) (fol s y) -> exists p, y = EPost p /\ ((p < t)%nat \/ (p = t /\ ~ NoDup (uniq P t))) /\ ser P p t /\ sp s p /\ sp s t).
    { intros y Hy. apply (i_fol P s I) in Hy. destruct y; simpl in Hy; try easy. exists t0.
      destruct Hy as ([(r & _ & _ & L)|L] & Q); [simpl in L|]; tauto. }
    unfold ob in O. pose proof (law_phase P s (i_laws P s I) t) as LP. pose proof (f_spawn P W s I t) as FS.
    assert (C0 : zsum (w_collect t) (frames s) = 0 /\ zsum (w_ninit t) (frames s) = 0).
    { signs t s. pose proof (ni_nonneg t (emp s)). lia. }
    destruct C0 as [C0 C1].
    destruct (Z_lt_le_dec 0 (edges s (EPre t))) as [E0|E0].
    - apply zsum_pos_ex in E0 as (y & Hy & E0). unfold eff in E0.
      destruct (Z.eqb_spec (taken s y) 0) as [e|e]; [|lia].
      assert (Hin : In (EPre t) (fol s y)). { apply ce_pos. pose proof (pend_nn s y (EPre t)). lia. }
      destruct (EDGE y Hin) as (p & -> & Hlt & Hs & Hp & Ht). exists p. repeat split; auto; try apply Hs.
      destruct (Z_lt_le_dec (zsum (v_reach (EPost p)) (log s)) 1) as [l|l]; [left; unfold rc; lia|].
      right. pose proof (law_take P s (i_laws P s I) (EPost p)) as LT. unfold taken in e.
      assert (Q : 0 < zsum (w_taking (EPost p)) (frames s)) by lia.
      apply zsum_pos_ex in Q as (f & Hf & Q). exists f. split; auto. left.
      assert (w_taking (EPost p) f <= 1); [|lia].
      clear. destruct f; simpl; try lia; try apply zb_bound.
    - destruct (Z_lt_le_dec 0 (zsum (w_follow (EPre t)) (frames s))) as [E1|E1].
      + apply zsum_pos_ex in E1 as (f & Hf & E1). destruct f; simpl in E1; try lia.
        assert (Hl : In (EPre t) l) by (apply ce_pos; lia).
        apply in_frames in Hf as Hf'. destruct Hf' as (i & st & Es & Hst).
        assert (A := adj_reach n s R i st Es).
        assert (incl l (fol s e)).
        { clear -A Hst. induction st as [|g st IH]; [easy|]. destruct A as [A1 A2]. destruct Hst as [->|Hst]; [apply A1|auto]. }
        destruct (EDGE e (H0 _ Hl)) as (p & -> & Hlt & Hs & Hp & Ht). exists p. repeat split; auto; try apply Hs.
        right. eexists. split; [exact Hf|]. eauto.
      + assert (E2 : 0 < zsum (w_notify (EPre t)) (frames s) - zsum (w_nexec t) (frames s)) by lia.
        assert (E : zsum (w_notify (EPre t)) (frames s) - zsum (w_nexec t) (frames s)
                = zsum (fun g => w_notify (EPre t) g - w_nexec t g) (frames s)).
        { clear. induction (frames s) as [|g l IH]; cbn [zsum]; [reflexivity|lia]. }
        rewrite E in E2. apply zsum_pos_ex in E2 as (f & Hf & E2).
        destruct f as [| | | | | | | | | | | |e k| | | | | | |]; simpl in E2; try lia.
        unfold ce in E2. destruct (ev_eqb_spec e (EPre t)); [subst e|].
        2: { destruct e, k; simpl in E2; try lia; unfold ni in E2; pose proof (zb_bound (Nat.eqb t0 t)); lia. }
        apply in_frames in Hf as Hf'. destruct Hf' as (i & st & Es & Hst).
        assert (A := adj_reach n s R i st Es).
        assert (NO : exists fs, note_ok s (EPre t) k fs /\ incl fs st).
        { clear -A Hst. induction st as [|g st IH]; [easy|]. destruct A as [A1 A2]. destruct Hst as [->|Hst].
          - exists st. split; [exact A1|]. intros x; simpl; auto.
          - destruct (IH Hst A2) as (fs & ? & Hinc). exists fs. split; auto. intros x Hx. right. auto. }
        destruct NO as (fs & NO & Hinc). destruct k; simpl in NO; try easy.
        * exfalso. assert (w_ninit t (FNotify (EPre t) NInit) <= zsum (w_ninit t) (frames s)) by (apply in_w; auto; intro; apply w_nn).
          simpl in H0. rewrite ni_refl in H0. lia.
        * exfalso. simpl in E2. unfold ni in E2. rewrite Nat.eqb_refl in E2. simpl in E2. lia.
        * destruct NO as (e' & l & fs' & -> & Hin).
          destruct (EDGE e' Hin) as (p & -> & Hlt & Hs & Hp & Ht). exists p. repeat split; auto; try apply Hs.
          right. exists (FFollow (EPost p) l). split; [|eauto]. apply in_frames. exists i, st. split; auto. apply Hinc. now left.
  Qed.

  (** ** Task objects that are touched *)
  Lemma adj_in s st f : adj s st -> In f st -> exists fs, top_ok s f fs /\ incl fs st.
  Proof.
    induction st as [|g st IH]; [easy|]. intros [A1 A2] [->|H].
    - exists st. split; auto. intros x; simpl; auto.
    - destruct (IH A2 H) as (fs & T & Hinc). exists fs. split; auto. intros x Hx. right. auto.
  Qed.

  (** the read of [waker_id] after giving the event away *)
  Definition late_read (f : frame) : Prop := exists e k, f = FNotify3 e 1 k /\ k <> NInit.

  Lemma freed_facts n s t : greach P n s -> In (LFree t) (log s) ->
    zsum (v_spawn t) (log s) = 1 /\ zsum (v_exec t) (log s) = 1 /\ zsum (v_start t) (log s) = 1 /\ zsum (v_end t) (log s) = 1 /\
    zsum (v_reach (EPost t)) (log s) = 1 /\ zsum (v_take (EPost t)) (log s) = 1 /\
    zsum (v_reach (ERGet t)) (log s) = 1 /\ zsum (v_take (ERGet t)) (log s) = 1 /\ 1 <= zsum (v_use t) (log s) /\
    zsum (w_removing t) (frames s) = 0.
  Proof.
    intros R F. assert (I := greach_Inv P W NW n s R). destruct (free_late P W NW n s t R F) as (T1 & T2 & C & U).
    apply in_take in T1, T2. apply in_reach in C. apply in_use in U. apply in_free in F.
    pose proof (rc_end P s I t C). pose proof (rc_exec P s I t C). pose proof (f_exec P s I t).
    pose proof (f_end P s I t). pose proof (f_start P s I t). pose proof (f_exec_init P s I t). pose proof (f_phase P s I t).
    pose proof (f_spawn P W s I t). pose proof (f_take P s I (EPost t)). pose proof (f_take P s I (ERGet t)).
    pose proof (f_reach P s I (EPost t)). pose proof (f_reach P s I (ERGet t)).
    pose proof (law_remove P s (i_laws P s I) t). pose proof (law_free P s (i_laws P s I) t) as LF. nnw w_removing t s.
    destruct (Z.leb_spec 1 (cdn s t)); [lia|]. lia.
  Qed.

  Theorem untouched n s f t : greach P n s -> In f (frames s) -> ~ late_read f -> In t (touches f) -> ~ In (LFree t) (log s).
  Proof.
    intros R Hf HL Ht HF. assert (I := greach_Inv P W NW n s R).
    destruct (freed_facts n s t R HF) as (F1 & F2 & F3 & F4 & F5 & F6 & F7 & F8 & F9 & F10).
    assert (A : exists fs, top_ok s f fs /\ incl fs (frames s)).
    { apply in_frames in Hf as (i & st & E & Hst). destruct (adj_in s st f (adj_reach n s R i st E) Hst) as (fs & T & Hinc).
      exists fs. split; auto. intros x Hx. apply in_frames. eauto. }
    destruct A as (fs & T & Hinc).
    assert (CTR : forall e, 1 <= zsum (w_notify e) (frames s) -> zsum (v_reach e) (log s) = 0).
    { intros e He. destruct (i_reach P s I e) as [[C _]|[_ ?]]; auto. exfalso. rewrite (i_acc P s I) in C.
      pose proof (base_nn P W s I e). pose proof (edges_nn P s I e). nnw w_follow e s. lia. }
    assert (NOTE : forall e k, In (FNotify e k) (frames s) -> zsum (v_reach e) (log s) = 0).
    { intros e k H. apply CTR. assert (w_notify e (FNotify e k) = 1) as <- by (simpl; apply ce_refl).
      apply in_w; auto. intro; apply w_nn2. }
    assert (BODY : forall o, is_body o f = 1 -> In t (otask o) -> False).
    { intros o B Hot. destruct o as [q|]; [|easy]. destruct Hot as [->|[]].
      assert (1 <= zsum (is_body (Some t)) (frames s)) by (rewrite <- B; apply in_w; auto; intro; apply w_nn4).
      pose proof (law_body P s (i_laws P s I) t). lia. }
    assert (COLL : forall x, w_collect x f = 1 -> x <> t).
    { intros x C ->. apply (in_collect s t f Hf), (collect_facts P W s I) in C. lia. }
    assert (RUN : In (FRun t) (frames s) -> False).
    { intros H. assert (w_run t (FRun t) <= zsum (w_run t) (frames s)) by (apply in_w; auto; intro; apply w_nn).
      simpl in H0. rewrite ni_refl in H0. pose proof (law_exec P s (i_laws P s I) t). lia. }
    assert (TOK : w_token t f = 1 -> False).
    { intros H. assert (w_token t f <= zsum (w_token t) (frames s)) by (apply in_w; auto; intro; apply w_nn).
      pose proof (tok_le P s I t). unfold tok in *. pose proof (ni_nonneg t (rdy s)). lia. }
    assert (PHASE : w_sub t f = 1 \/ w_up t f = 1 -> False).
    { intros H. pose proof (law_phase P s (i_laws P s I) t). signs t s. pose proof (ni_nonneg t (emp s)).
      assert (w_sub t f <= zsum (w_sub t) (frames s)) by (apply in_w; auto; intro; apply w_nn).
      assert (w_up t f <= zsum (w_up t) (frames s)) by (apply in_w; auto; intro; apply w_nn).
      pose proof (f_exec_init P s I t).
      assert (0 <= w_sub t f /\ 0 <= w_up t f) by (split; apply w_nn). lia. }
    assert (USE : forall c o i is, f = FBody o (i :: is) -> is_use c i -> c <> t).
    { intros c o i is -> U ->. assert (LU := law_use P s (i_laws P s I) t).
      assert (n_use t (FBody o (i :: is)) <= zsum (n_use t) (frames s)) by (apply in_w; auto; intro; apply w_nn).
      assert (1 <= n_use t (FBody o (i :: is))).
      { unfold n_use. simpl. destruct U as [->| ->]; simpl; rewrite Nat.eqb_refl; lia. }
      pose proof (f_startedz P s I (parent P t)). pose proof (wf_use_once P W (parent P t) t). nia. }
    assert (TAKE : forall e, w_taking e f = 1 -> zsum (v_take e) (log s) = 0).
    { intros e H. apply (taking_facts P s I e f Hf) in H. unfold taken in H. lia. }
    assert (REM : w_removing t f = 1 -> False).
    { intros H. assert (w_removing t f <= zsum (w_removing t) (frames s)) by (apply in_w; auto; intro; apply w_nn). lia. }
    assert (PAR : forall x, w_collect x f = 1 -> parent P x = Some t -> False).
    { intros x C Hp. apply (in_collect s x f Hf), (collect_facts P W s I) in C.
      pose proof (i_guard P s I x t Hp). lia. }
    assert (FO := i_frames P s I f Hf).
    assert (ENT : forall r k, In (t, k) (users s r) -> False).
    { intros r k H. apply (i_gone P s I t ltac:(lia) r k H). }
    destruct f; simpl touches in Ht.
    - (* FBody *)
      destruct s0 as [|[] is]; try (apply (BODY o); [simpl; now destruct (onat_eqb_spec o o)|exact Ht]);
        destruct Ht as [<-|Ht]; try (apply (BODY o); [simpl; now destruct (onat_eqb_spec o o)|exact Ht]).
      + destruct (spawn_facts P W s I _ _ _ Hf). lia.
      + eapply USE; eauto. now left.
      + eapply USE; eauto. now right.
    - destruct Ht as [<-|Ht]; [apply PHASE; left; simpl; apply ni_refl|].
      apply (BODY o); [simpl; now destruct (onat_eqb_spec o o)|exact Ht].
    - destruct Ht as [<-|[]]. apply PHASE; right; simpl; apply ni_refl.
    - destruct Ht as [<-|[]]. eapply COLL; [simpl; apply ni_refl|easy].
    - destruct it as [|[p k] it]; (destruct Ht as [<-|Ht]; [eapply COLL; [simpl; apply ni_refl|easy]|]); [easy|].
      destruct Ht as [<-|[]]. simpl in FO. destruct FO as [_ (pre & mid & E & _)].
      apply (ENT r k). rewrite E, !in_app_iff. simpl. rewrite in_app_iff. simpl. auto.
    - destruct Ht as [<-|[<-|[]]]; [eapply COLL; [simpl; apply ni_refl|easy]|].
      apply (dep_facts P W s I) in FO. unfold taken in FO. lia.
    - destruct Ht as [<-|[<-|[]]]; [eapply COLL; [simpl; apply ni_refl|easy]|].
      apply (dep_facts P W s I) in FO. unfold taken in FO. lia.
    - destruct Ht as [<-|[<-|[]]]; [eapply COLL; [simpl; apply ni_refl|easy]|].
      apply (dep_facts P W s I) in FO. unfold taken in FO. lia.
    - destruct Ht as [<-|[<-|[]]]; [eapply COLL; [simpl; apply ni_refl|easy]|]. destruct FO as [FO _].
      apply (dep_facts P W s I) in FO. unfold taken in FO. lia.
    - destruct Ht as [<-|[<-|[]]]; [eapply COLL; [simpl; apply ni_refl|easy]|].
      eapply PAR; [simpl; apply ni_refl|apply FO].
    - destruct Ht as [<-|[<-|[]]]; [eapply COLL; [simpl; apply ni_refl|easy]|].
      eapply PAR; [simpl; apply ni_refl|apply FO].
    - destruct Ht as [<-|[<-|[]]]; [eapply COLL; [simpl; apply ni_refl|easy]|].
      eapply PAR; [simpl; apply ni_refl|apply FO].
    - (* FNotify *)
      destruct e; simpl in Ht; try destruct Ht as [<-|[]].
      + destruct (classic_nexec k) as [->|Hk].
        * destruct T as [fs' ->]. apply RUN, Hinc. now left.
        * pose proof (notify_other s t0 k Hf Hk). pose proof (ob_ge P s I t0). signs t0 s.
          pose proof (i_tok P s I t0) as Q. destruct (Z.eqb_spec (ob s t0) 0); [lia|]. rewrite andb_false_r in Q.
          unfold tok in Q. pose proof (ni_nonneg t0 (rdy s)). lia.
      + apply NOTE in Hf. lia.
      + destruct T as [fs' ->]. assert (Q := NOTE (EPost t0) NBody (Hinc _ (or_introl eq_refl))). lia.
      + apply NOTE in Hf. lia.
      + easy.
    - (* FNotify2 *)
      destruct e; simpl in Ht; try easy.
      + destruct (Z.eqb_spec st 1); [|easy]. destruct k; try easy; destruct Ht as [<-|[]]; subst;
          apply TOK; simpl; now rewrite Nat.eqb_refl.
      + destruct (Z.eqb_spec st 0); [|easy]. destruct Ht as [<-|[]]. subst.
        specialize (TAKE (EPost t0)). simpl in TAKE. rewrite Nat.eqb_refl in TAKE. specialize (TAKE eq_refl). lia.
    - destruct Ht as [<-|[]]. specialize (TAKE (EPost t0)). simpl in TAKE. rewrite ce_refl in TAKE. specialize (TAKE eq_refl). lia.
    - (* FNotify3 *)
      destruct T as (T1 & T2 & T3). destruct (Z.leb_spec st 1); [|easy].
      destruct (Z.eq_dec st 1) as [->|].
      + assert (k = NInit). { destruct k; auto; exfalso; apply HL; eexists _, _; split; eauto; discriminate. }
        subst k. destruct e; simpl in Ht; try easy; destruct Ht as [<-|[]].
        * apply TOK. simpl. now rewrite Nat.eqb_refl.
        * destruct T1 as [fs' ->]. assert (Q := NOTE (EPost t0) NBody (Hinc _ (or_introl eq_refl))). lia.
      + assert (st = 0) by lia. subst st. specialize (TAKE e). simpl in TAKE. rewrite ev_eqb_refl in TAKE. specialize (TAKE eq_refl).
        destruct e; simpl in Ht; try easy; destruct Ht as [<-|[]]; try lia.
        * destruct k; try lia. destruct T1 as [fs' ->]. apply RUN, Hinc. now left.
        * destruct T1 as [fs' ->]. assert (Q := NOTE (EPost t0) NBody (Hinc _ (or_introl eq_refl))). lia.
    - destruct T as [_ T]. destruct e; simpl in Ht; try easy; destruct Ht as [<-|[]]; simpl in T.
      + destruct T as [fs' ->]. apply RUN, Hinc. now left.
      + apply REM. simpl. apply ni_refl.
      + destruct T as [fs' ->]. assert (Q := NOTE (EPost t0) NBody (Hinc _ (or_introl eq_refl))). lia.
      + apply REM. simpl. apply ni_refl.
    - destruct Ht as [<-|[]]. apply REM. simpl. apply ni_refl.
    - destruct Ht as [<-|[]]. apply TOK. simpl. apply ni_refl.
    - destruct Ht as [<-|[]]. now apply RUN.
  Qed.
End Stack.
