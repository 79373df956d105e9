(** Task bodies that wait for a future: every execution is one of the machine in which a waiting
    body blocks its thread. *)
From Coq Require Import Bool List Arith NArith ZArith Lia Permutation.
From Verif Require Import AccessModel AccessSpec AccessProof UserModel UserProof SchedModel SchedSpec SchedBase SchedInv1 SchedInv2 SchedInv3 SchedInv8 SchedFront SchedThm SchedLive SchedTerm SchedMany SchedFree PauseModel PauseSpec.
Import ListNotations.
Open Scope Z_scope.

(** ** Steps that do not touch the pre event of a suspended task *)
Definition quiet (D : nat -> bool) (f : frame) : Prop :=
  match f with
  | FNotify (EPre t) _ | FInitUp t | FDep4 t _ _ _ _ => D t = false
  | FNotify2 (EPre t) st _ => st = 1 -> D t = false
  | FFollow (ERSet _) (_ :: _) => False
  | _ => True
  end.

Lemma eupd_same {A} (f g : ev -> A) x v (C : ev -> Prop) : (forall e, C e -> f e = g e) -> forall e, C e -> eupd f x v e = eupd g x v e.
Proof. intros H e He. unfold eupd. destruct (ev_eqb e x); auto. Qed.

Lemma sim_log D s u x : sim D s u -> sim D (add_log s x) (add_log u x).
Proof. intros [A B C F E R X K T L]. split; simpl; auto. now rewrite L. Qed.
Lemma sim_users D s u v : sim D s u -> sim D (set_users s v) (set_users u v).
Proof. intros [A B C F E R X K T L]. split; simpl; auto. Qed.
Lemma sim_lck D s u v : sim D s u -> sim D (set_lck s v) (set_lck u v).
Proof. intros [A B C F E R X K T L]. split; simpl; auto. Qed.
Lemma sim_emp D s u v : sim D s u -> sim D (set_emp s v) (set_emp u v).
Proof. intros [A B C F E R X K T L]. split; simpl; auto. Qed.
Lemma sim_ext D s u v : sim D s u -> sim D (set_ext s v) (set_ext u v).
Proof. intros [A B C F E R X K T L]. split; simpl; auto. Qed.
Lemma sim_cdn D s u v : sim D s u -> sim D (set_cdn s v) (set_cdn u v).
Proof. intros [A B C F E R X K T L]. split; simpl; auto. Qed.
Lemma sim_tcn D s u v : sim D s u -> sim D (set_tcn s v) (set_tcn u v).
Proof. intros [A B C F E R X K T L]. split; simpl; auto. Qed.
Lemma sim_thr D s u v w : sim D s u -> sim D (set_thr s v) (set_thr u w).
Proof. intros [A B C F E R X K T L]. split; simpl; auto. Qed.
Lemma sim_ctr D s u x v : sim D s u -> sim D (set_ctr s (eupd (ctr s) x v)) (set_ctr u (eupd (ctr u) x v)).
Proof. intros [A B C F E R X K T L]. split; simpl; auto. intros e He. unfold eupd. destruct (ev_eqb e x); auto. Qed.
Lemma sim_fol D s u x v : match x with ERSet _ => False | _ => True end -> sim D s u ->
  sim D (set_fol s (eupd (fol s) x v)) (set_fol u (eupd (fol u) x v)).
Proof.
  intros N [A B C F E R X K T L]. split; simpl; auto. intros e. unfold eupd. specialize (F e).
  destruct (ev_eqb_spec e x) as [->|]; destruct x; try easy; destruct e; auto.
Qed.
Lemma sim_rdy D s u t : D t = false -> sim D s u -> sim D (set_rdy s (t :: rdy s)) (set_rdy u (t :: rdy u)).
Proof. intros H [A B C F E R X K T L]. split; simpl; auto. rewrite H. simpl. now rewrite R. Qed.

Lemma fsim P D s u f u1 fr : sim D s u -> quiet D f -> fstep P u f = Some (u1, fr) ->
  exists s1, fstep P s (seen f) = Some (s1, map seen fr) /\ sim D s1 u1.
Proof.
  intros S Q H.
  assert (Eu := sm_users D s u S). assert (El := sm_lck D s u S). assert (Ec := sm_ctr D s u S). assert (Ef := sm_fol D s u S).
  assert (Ee := sm_emp D s u S). assert (Ex := sm_ext D s u S). assert (Ed := sm_cdn D s u S). assert (Et := sm_tcn D s u S).
  assert (INC : forall x, match x with EPre t => D t = false | _ => True end -> sim D (inc P s x) (inc P u x)).
  { intros x Hx. unfold inc. rewrite (Ec x Hx). now apply sim_ctr. }
  assert (AFT : forall s2 u2 t p r it rs u3 fr3, sim D s2 u2 -> after_dep P u2 t p r it rs = (u3, fr3) ->
            exists s3, after_dep P s2 t p r it rs = (s3, map seen fr3) /\ sim D s3 u3).
  { intros s2 u2 t p r it rs u3 fr3 S2. unfold after_dep. destruct (sync_on P p r); intros X; injection X as <- <-; eexists; (split; [reflexivity|]); auto.
    rewrite (sm_lck D _ _ S2). now apply sim_lck. }
  destruct f; cbn [seen fstep quiet] in *; cbv zeta in *.
  - (* FBody *)
    assert (C : s0 = [] \/ exists ins is, s0 = ins :: is) by (destruct s0; eauto).
    destruct C as [->|(ins & is & ->)].
    { destruct o; [|discriminate]. injection H as <- <-. eexists. split; [reflexivity|]. now apply sim_log. }
    destruct ins as [a|c|c|c|e|].
    + destruct o; injection H as <- <-; eexists; (split; [reflexivity|]); now apply sim_log.
    + rewrite Et. destruct o; injection H as <- <-; eexists; (split; [reflexivity|]); now apply sim_log, sim_tcn.
    + destruct o; injection H as <- <-; eexists; (split; [reflexivity|]); now apply sim_log.
    + rewrite (Ec (ERSet c) I). destruct o; (destruct (_ =? 0); [|discriminate]); injection H as <- <-; eexists; (split; [reflexivity|]); now apply sim_log.
    + destruct o.
      * injection H as <- <-. eexists. split; [reflexivity|]. rewrite Ex. apply sim_log, sim_ext.
        pose proof (Ef (EExt n e)) as F1. cbn beta iota in F1. rewrite F1.
        assert (S2 : sim D (set_fol s (eupd (fol s) (EExt n e) (EPost n :: fol u (EExt n e)))) (set_fol u (eupd (fol u) (EExt n e) (EPost n :: fol u (EExt n e))))) by now apply sim_fol.
        unfold inc. rewrite (sm_ctr D _ _ S2 (EPost n) I). now apply sim_ctr.
      * injection H as <- <-. eexists. split; [reflexivity|]. auto.
    + rewrite Et. destruct o; (destruct (_ =? 0); [|discriminate]); injection H as <- <-; eexists; (split; [reflexivity|]); now apply sim_log.
  - (* FSub *) destruct rs as [|r rs]; injection H as <- <-; eexists; (split; [reflexivity|]).
    + rewrite Ee. now apply sim_log, sim_emp.
    + rewrite Eu. now apply sim_users.
  - injection H as <- <-. eexists. split; [reflexivity|]. now apply INC.
  - (* FInit *) destruct rs as [|r rs].
    + destruct (parent P t); injection H as <- <-; eexists; (split; [reflexivity|]); auto.
    + rewrite El, Eu. destruct (lck u r); [discriminate|]. injection H as <- <-. eexists. split; [reflexivity|]. now apply sim_lck.
  - (* FIter *) destruct it as [|[p k] it].
    + injection H as <- <-. rewrite El. eexists. split; [reflexivity|]. now apply sim_lck.
    + destruct (onat_eqb _ _); [|destruct (_ && _)]; injection H as <- <-; rewrite ?El; eexists; (split; [reflexivity|]); auto. now apply sim_lck.
  - rewrite (Ec (EPost p) I). destruct (_ =? 0).
    + injection H as H. destruct (AFT s u _ _ _ _ _ _ _ S H) as (s3 & A & B). rewrite A. eauto.
    + injection H as <- <-; eexists; (split; [reflexivity|]); auto.
  - rewrite (Ec (EPost p) I). destruct (_ =? 0).
    + injection H as H. destruct (AFT s u _ _ _ _ _ _ _ S H) as (s3 & A & B). rewrite A. eauto.
    + injection H as <- <-; eexists; (split; [reflexivity|]); auto.
  - injection H as <- <-. pose proof (Ef (EPost p)) as F1. cbn beta iota in F1. rewrite F1. eexists. split; [reflexivity|]. now apply sim_fol.
  - injection H as H. destruct (AFT _ _ _ _ _ _ _ _ _ (INC (EPre t) Q) H) as (s3 & A & B). rewrite A. eauto.
  - rewrite (Ec (EPost t) I). destruct (_ =? 0); injection H as <- <-; eexists; (split; [reflexivity|]); auto.
  - injection H as <- <-. pose proof (Ef (EPost t)) as F1. cbn beta iota in F1. rewrite F1. eexists. split; [reflexivity|]. now apply sim_fol.
  - injection H as <- <-. eexists. split; [reflexivity|]. now apply INC.
  - (* FNotify *)
    assert (X : ctr s e = ctr u e) by (apply Ec; destruct e; auto). rewrite X.
    injection H as <- <-. eexists. split; [reflexivity|].
    assert (S1 : sim D (set_ctr s (eupd (ctr s) e (wrap P (ctr u e - 1)))) (set_ctr u (eupd (ctr u) e (wrap P (ctr u e - 1))))) by now apply sim_ctr.
    destruct (_ =? 0); destruct e; try destruct k; auto; repeat apply sim_log; auto.
  - (* FNotify2 *) destruct e.
    + destruct k; try (injection H as <- <-; eexists; (split; [reflexivity|]); now auto);
        destruct (Z.eqb_spec st 1); injection H as <- <-; eexists; (split; [reflexivity|]); auto; apply sim_rdy; auto.
    + destruct (st =? 0); injection H as <- <-; eexists; (split; [reflexivity|]); auto.
    + injection H as <- <-; eexists; (split; [reflexivity|]); auto.
    + injection H as <- <-; eexists; (split; [reflexivity|]); auto.
    + injection H as <- <-; eexists; (split; [reflexivity|]); auto.
  - (* FDelete *) destruct rs as [|r rs].
    + injection H as <- <-; eexists; (split; [reflexivity|]); auto.
    + rewrite El, Eu. destruct (lck u r); [discriminate|]. injection H as <- <-. eexists. split; [reflexivity|]. now apply sim_users.
  - (* FNotify3 *) destruct (st =? 0).
    + injection H as <- <-. specialize (Ef e). destruct e; rewrite Ef; eexists; (split; [reflexivity|]); now apply sim_log.
    + destruct e; try (injection H as <- <-; eexists; (split; [reflexivity|]); now auto).
      destruct k; try (injection H as <- <-; eexists; (split; [reflexivity|]); now auto).
      destruct (st =? 1); injection H as <- <-; eexists; (split; [reflexivity|]); now auto.
  - (* FFollow *) destruct e, l; try easy; injection H as <- <-; eexists; (split; [reflexivity|]); auto.
  - (* FRemove *) rewrite Ed, Et. destruct (_ =? 1); injection H as <- <-; eexists; (split; [reflexivity|]).
    + now apply sim_log, sim_tcn, sim_cdn.
    + now apply sim_cdn.
  - injection H as <- <-. eexists. split; [reflexivity|]. now apply sim_log.
  - injection H as <- <-. eexists. split; [reflexivity|]. now apply sim_log.
Qed.

(** effect on the suspended tasks *)
Lemma feffect P D u f u1 fr : quiet D f -> fstep P u f = Some (u1, fr) ->
  (forall t, D t = true -> ctr u1 (EPre t) = ctr u (EPre t) /\ zsum (ni t) (rdy u1) = zsum (ni t) (rdy u)) /\
  (forall c, fol u1 (ERSet c) = fol u (ERSet c)).
Proof.
  intros Q H. split.
  - intros t Ht. assert (X : forall q, D q = false -> Nat.eqb t q = false).
    { intros q Hq. apply Nat.eqb_neq. congruence. }
    split.
    + cases_f H; simpl in *; unfold inc in *; simpl in *; unfold eupd; simpl; rewrite ?X by auto; auto;
        try (destruct e; simpl; auto; rewrite ?X by auto; auto).
    + cases_f H; simpl in *; auto. all: subst. all: assert (D t0 = false) by (apply Q; now apply Z.eqb_eq). all: unfold ni at 1.
      all: rewrite Nat.eqb_sym, X by auto. all: simpl; lia.
  - intros c. cases_f H; simpl in *; unfold inc in *; simpl in *; unfold eupd; simpl; auto.
Qed.

(** ** An additional idle thread *)
Lemma fstep_thr P s f v : fstep P (set_thr s v) f = match fstep P s f with Some (s1, fr) => Some (set_thr s1 v, fr) | None => None end.
Proof.
  destruct f; unfold fstep, after_dep; cbn [users lck ctr fol emp rdy ext cdn tcn log thr set_thr]; cbv zeta;
    repeat match goal with
    | |- context [match ?x with _ => _ end] =>
        lazymatch x with
        | context [match _ with _ => _ end] => fail
        | _ => destruct x
        end
    end; reflexivity.
Qed.
Lemma istep_thr s c v : istep (set_thr s v) c = match istep s c with Some (s1, fr) => Some (set_thr s1 v, fr) | None => None end.
Proof. destruct c; simpl; destruct (nth_error _ _) as [[]|]; reflexivity. Qed.

Lemma set_nth_app {A} (l m : list A) : forall i v x, nth_error l i = Some x -> set_nth i v (l ++ m) = set_nth i v l ++ m.
Proof. induction l as [|a l IH]; intros [|i] v x; simpl; try discriminate; auto. intros H. f_equal. eapply IH; eauto. Qed.
Lemma repeat_last {A} (x : A) n : repeat x (S n) = repeat x n ++ [x].
Proof. induction n as [|n IH]; [reflexivity|]. simpl in *. now rewrite <- IH. Qed.

Definition roomier (s : state) : state := set_thr s (thr s ++ [[]]).

Lemma freach_idle P ms n k s ord : freach P ms n k s ord -> freach P ms (S n) k (roomier s) ord.
Proof.
  induction 1 as [|k s ord i c s' R IH G H].
  - assert (E : roomier (init_many P ms n) = init_many P ms (S n)).
    { unfold roomier, init_many, init. cbn [users lck ctr fol emp rdy ext cdn tcn log thr set_thr].
      now rewrite (repeat_last ([] : list frame) n), app_assoc. }
    rewrite E. constructor.
  - destruct (nth_error (thr s) i) as [st|] eqn:E; [|unfold step in H; rewrite E in H; discriminate].
    assert (E2 : nth_error (thr (roomier s)) i = Some st).
    { simpl. rewrite nth_error_app1; auto. apply nth_error_Some. congruence. }
    assert (S2 : step P (roomier s) i c = Some (roomier s')).
    { unfold step in *. rewrite E in H. rewrite E2. unfold roomier in *. destruct st as [|f fs].
      - rewrite istep_thr. destruct (istep s c) as [[s1 fr]|]; [|discriminate]. injection H as <-. simpl.
        now rewrite (set_nth_app _ _ _ _ _ E).
      - rewrite fstep_thr. destruct (fstep P s f) as [[s1 fr]|]; [|discriminate]. injection H as <-. simpl.
        now rewrite (set_nth_app _ _ _ _ _ E). }
    assert (R2 : freach P ms (S n) (S k) (roomier s') (fun r => ord r ++ enters (roomier s) i r)).
    { eapply freach_step; eauto. intros q fs Eq cc. rewrite E2 in Eq. injection Eq as ->. exact (G q fs E cc). }
    enough (Q : (fun r => ord r ++ enters (roomier s) i r) = (fun r => ord r ++ enters s i r)) by (rewrite <- Q; exact R2).
    unfold enters. rewrite E, E2. reflexivity.
Qed.

(** ** The task whose body is running or waits *)
Fixpoint nx (st : list frame) : Prop :=
  match st with
  | [] => True
  | f :: fs => match f with FNotify (EPre t) NExec => fs = [FRun t] | _ => True end /\ nx fs
  end.

Definition apart (t : nat) (f : frame) : Prop :=
  match f with
  | FNotify (EPre q) _ | FInitUp q | FDep4 q _ _ _ _ => q <> t
  | FNotify2 (EPre q) st _ => st = 1 -> q <> t
  | _ => True
  end.

Section Rest.
  Context (P : prog) {U : front} (W : wfc P U) (NW : p_wrap P = false).

  Lemma nx_reach n s : mreach P U n s -> forall i st, nth_error (thr s) i = Some st -> nx st.
  Proof.
    induction 1 as [|s i c s' R IH G PO H]; intros j st Hj.
    - apply nth_error_In in Hj. simpl in Hj. apply in_app_or in Hj as [Hj|Hj].
      + apply in_map_iff in Hj as (m & <- & _). simpl. auto.
      + apply repeat_spec in Hj. now subst.
    - assert (SO := proj1 (mreach_stack P U n s R)). unfold step in H.
      destruct (nth_error (thr s) i) as [[|f fs]|] eqn:E; [| |discriminate].
      + destruct (istep s c) as [[s1 fr]|] eqn:F; [|discriminate]. injection H as <-. cbn [thr set_thr] in Hj.
        rewrite nth_set_nth, E in Hj. destruct (Nat.eqb i j); [|eauto]. injection Hj as <-. cases_i F; simpl; auto.
      + destruct (fstep P s f) as [[s1 fr]|] eqn:F; [|discriminate]. injection H as <-. cbn [thr set_thr] in Hj.
        rewrite nth_set_nth, E in Hj. destruct (Nat.eqb i j); [|eauto]. injection Hj as <-.
        assert (N := IH i _ E). destruct N as [_ N]. assert (S1 := proj1 (SO i _ E)).
        cases_f F; simpl in *; auto; try (specialize (S1 eq_refl); subst fs; simpl; auto; fail).
        all: try (destruct e; simpl; auto; fail). destruct e0; simpl; auto.
  Qed.

  Lemma resting n s t : mreach P U n s -> 1 <= zsum (is_body (Some t)) (frames s) ->
    ctr s (EPre t) = 0 /\ zsum (ni t) (rdy s) = 0 /\ forall f, In f (frames s) -> apart t f.
  Proof.
    intros R B. assert (I := mreach_Inv P W NW n s R). assert (NX := nx_reach n s R).
    destruct (body_facts P s I t B) as (_ & _ & St & Ex).
    assert (LE := law_exec P s (i_laws P s I) t). signs t s.
    assert (NE : zsum (w_nexec t) (frames s) = 0).
    { destruct (Z_lt_le_dec 0 (zsum (w_nexec t) (frames s))) as [l|l]; [|lia]. exfalso.
      apply zsum_pos_ex in l as (f & Hf & l). assert (f = FNotify (EPre t) NExec) as ->.
      { destruct f; simpl in l; try lia. destruct e; try lia. destruct k; try lia. unfold ni in l.
        destruct (Nat.eqb_spec t0 t); [now subst|simpl in l; lia]. }
      apply in_frames in Hf as (j & st & Ej & Hj). assert (N := NX j st Ej).
      assert (Hr : In (FRun t) st).
      { clear -Hj N. induction st as [|g st IH]; [easy|]. destruct N as [N1 N2]. destruct Hj as [->|Hj]; [|right; auto].
        subst st. simpl. auto. }
      assert (Hf : In (FRun t) (frames s)) by (apply in_frames; eauto).
      assert (Q := in_w s (w_run t) _ (fun g => proj1 (proj2 (proj2 (proj2 (proj2 (proj2 (w_nn t g))))))) Hf).
      simpl in Q. unfold ni in Q. rewrite Nat.eqb_refl in Q. simpl in Q. lia. }
    assert (T := i_tok P s I t). unfold tok in T.
    assert (OB : ob s t = 0).
    { destruct ((1 <=? zsum (v_init t) (log s)) && (ob s t =? 0)) eqn:E; [|lia].
      apply andb_true_iff in E as [_ E]. now apply Z.eqb_eq in E. }
    assert (T2 := tok_le P s I t). unfold tok in T2.
    assert (RD := ni_nonneg t (rdy s)).
    split; [rewrite (ctr_pre P s I t); lia|]. split; [lia|].
    intros f Hf. assert (OG := ob_ge P s I t).
    assert (NI := f_exec_init P s I t). assert (LP := law_phase P s (i_laws P s I) t). assert (FS := f_spawn P W s I t).
    pose proof (ni_nonneg t (emp s)).
    destruct f; simpl; auto; try (destruct e; simpl; auto); intros; subst.
    all: try (intros ->).
    - pose proof (in_w s (w_up t) _ (fun g => proj1 (proj2 (w_nn t g))) Hf) as Q. simpl in Q. unfold ni in Q. rewrite Nat.eqb_refl in Q. simpl in Q. lia.
    - pose proof (in_w s (w_collect t) _ (fun g => proj1 (proj2 (proj2 (w_nn t g)))) Hf) as Q. simpl in Q. unfold ni in Q. rewrite Nat.eqb_refl in Q. simpl in Q. lia.
    - pose proof (in_w s (w_notify (EPre t)) _ (fun g => proj1 (w_nn2 (EPre t) g)) Hf) as Q. simpl in Q. unfold ce in Q. rewrite ev_eqb_refl in Q. simpl in Q. lia.
    - assert (NT : forall g, 0 <= w_token t g) by (intros g; pose proof (w_nn t g); tauto).
      pose proof (in_w s (w_token t) _ NT Hf) as Q. simpl in Q. rewrite Nat.eqb_refl in Q. simpl in Q.
      change (zb (1 =? 1)) with 1 in Q. lia.
  Qed.
End Rest.
