(** As many tasks as workers: all of them get to run at the same time. *)
From Coq Require Import Bool List Arith NArith ZArith Lia Permutation.
From Verif Require Import AccessModel AccessSpec UserModel SchedModel SchedSpec SchedBase SchedInv1 PoolModel PoolProof AppModel AppProof AppMore UtilModel.
Import ListNotations.
Open Scope nat_scope.

Lemma usteps_psteps P n m pl k c : usteps P n m pl k c -> psteps P n m false k c.
Proof. induction 1; econstructor; eauto. discriminate. Qed.

(** what a worker does from taking [t] out of the queue to the body of [t]; the counter of
    the event before [t]; whether the body has begun *)
Inductive phase (t : nat) : list frame -> Z -> bool -> Prop :=
| ph_up : phase t [FInitUp t] 1 false
| ph_init : phase t [FInit t []] 2 false
| ph_n1 : phase t [FNotify (EPre t) NInit] 2 false
| ph_n2 : phase t [FNotify2 (EPre t) 1 NInit] 1 false
| ph_n3 : phase t [FNotify3 (EPre t) 1 NInit] 1 false
| ph_exec : phase t [FExec t] 1 false
| ph_e1 : phase t [FNotify (EPre t) NExec; FRun t] 1 false
| ph_e2 : phase t [FNotify2 (EPre t) 0 NExec; FRun t] 0 false
| ph_e3 : phase t [FNotify3 (EPre t) 0 NExec; FRun t] 0 false
| ph_e4 : phase t [FFollow (EPre t) []; FRun t] 0 false
| ph_run : phase t [FRun t] 0 false
| ph_body : phase t [FBody (Some t) []] 0 true.

(** [k] tasks are submitted; the worker [w] that is to get [t] *)
Inductive wst (k t w : nat) : list frame -> wpc -> bool -> list nat -> list nat -> list nat -> Z -> list lev -> Prop :=
| w_idle d lg : k <= t -> ~ In w d -> wst k t w [] WWait false [] [] d 1 lg
| w_due lg : t < k -> wst k t w [] WWait false [] [t] [w] 1 lg
| w_flag d lg : t < k -> ~ In w d -> wst k t w [] WWait true [] [t] d 1 lg
| w_look p d lg : t < k -> ~ In w d -> p = WReady \/ p = WNew -> wst k t w [] p false [] [t] d 1 lg
| w_in st z b p f d lg : t < k -> ~ In w d -> phase t st z b -> (b = true -> In (LStart t) lg) -> wst k t w st p f [] [] d z lg.

Lemma wst_log k t w st p f r q d z lg lg' : incl lg lg' -> wst k t w st p f r q d z lg -> wst k t w st p f r q d z lg'.
Proof. intros I H. destruct H; econstructor; eauto. Qed.
Lemma wst_k k t w st p f r q d z lg : t <> k -> wst k t w st p f r q d z lg -> wst (S k) t w st p f r q d z lg.
Proof. intros I H. inversion H; subst; [apply w_idle|apply w_due|apply w_flag|apply w_look|apply w_in with b]; auto; lia. Qed.

Lemma nth_at {A} (l : list A) i x : i < length l -> nth_error (set_nth i x l) i = Some x.
Proof. revert i. induction l as [|a l IH]; intros [|i] H; simpl in *; auto; try lia. apply IH. lia. Qed.
Lemma nth_off {A} (l : list A) i j x : i <> j -> nth_error (set_nth i x l) j = nth_error l j.
Proof. revert i j. induction l as [|a l IH]; intros [|i] [|j] H; simpl in *; auto; try lia. Qed.

Lemma util_user k t : user (util k) t = new_user 0.
Proof.
  unfold user, util, app. cbn. destruct (nth_error (repeat count_task k) t) eqn:E; [|reflexivity].
  apply nth_error_In, repeat_spec in E. now subst.
Qed.
Lemma util_uniq k t : uniq (util k) t = [].
Proof. unfold uniq. now rewrite util_user. Qed.
Lemma util_body k t : body (util k) (Some t) = [].
Proof.
  unfold util, app. cbn. destruct (nth_error (repeat count_task k) t) eqn:E; [|reflexivity].
  apply nth_error_In, repeat_spec in E. now subst.
Qed.
Lemma util_sound k : sound_app (repeat count_task k).
Proof.
  split.
  - intros i j a b Hi _ Ha. apply repeat_spec in Hi. subst. destruct Ha.
  - intros j Hj. apply repeat_spec in Hj. subst. repeat split; simpl; try easy. constructor.
Qed.

Lemma some_inj {A} (x y : A) : Some x = Some y -> x = y.
Proof. congruence. Qed.

Lemma fstep_log P s f s' fr x : fstep P s f = Some (s', fr) -> In x (log s) -> In x (log s').
Proof. intros H I. cases_f H; simpl; auto. Qed.
Lemma pstep_log P n m c mv c' x : pstep P n m c mv = Some c' -> In x (log (core c)) -> In x (log (core c')).
Proof.
  destruct mv as [i w|i|w j|w|w v j|i j]; cbn [pstep]; intros H I.
  - destruct (due c i); [|discriminate]. destruct (nth_error (thr (core c)) i) as [[|f fs]|]; try discriminate.
    destruct (fstep P (core c) f) as [[s' fr]|] eqn:E; [|discriminate]. destruct (is_worker n w); [|discriminate].
    apply some_inj in H; subst c'. simpl. exact (fstep_log _ _ _ _ _ _ E I).
  - destruct (due c i); [discriminate|]. now apply some_inj in H; subst c'.
  - repeat match type of H with match ?d with _ => _ end = _ => destruct d; try discriminate end; apply some_inj in H; subst c'; exact I.
  - repeat match type of H with match ?d with _ => _ end = _ => destruct d; try discriminate end; apply some_inj in H; subst c'; exact I.
  - repeat match type of H with match ?d with _ => _ end = _ => destruct d; try discriminate end; apply some_inj in H; subst c'; exact I.
  - destruct (n <? i); [|discriminate]. destruct (due c i); [|discriminate]. destruct (nth_error (thr (core c)) i) as [[|]|]; try discriminate.
    cbn [istep] in H. destruct (nth_error (ext (core c)) j) as [[t e]|]; [|discriminate]. apply some_inj in H; subst c'. simpl. auto.
Qed.

(** a move that is the end of a body *)
Definition ends_body (c : pool) (mv : move) : Prop :=
  exists i w q fs, mv = MStep i w /\ nth_error (thr (core c)) i = Some (FBody (Some q) [] :: fs).

Section Util.
  Context (n m : nat) (pl : nat -> nat).
  Let P := util n.

  (** the rest of main after [k] calls *)
  Definition rest (k : nat) : list instr := calls k (repeat count_task (n - k)) ++ [IBarrier].
  Lemma rest_S k : k < n -> rest k = ISpawn k :: IDrop k :: rest (S k).
  Proof. intros H. unfold rest. replace (n - k) with (S (n - S k)) by lia. reflexivity. Qed.
  Lemma rest_n : rest n = [IBarrier].
  Proof. unfold rest. now rewrite Nat.sub_diag. Qed.

  (** the main thread: stack, whom it has to wake *)
  Inductive mst (k : nat) (cd : nat -> Z) : list frame -> list nat -> Prop :=
  | m_next : k <= n -> mst k cd [FBody None (rest k)] []
  | m_sub : k < n -> mst k cd [FSub None k [] (IDrop k :: rest (S k))] []
  | m_drop j d : k = S j -> k <= n -> cd j = 2%Z -> d = [] \/ d = [pl j] -> mst k cd [FBody None (IDrop j :: rest k)] d
  | m_d1 j : k = S j -> k <= n -> cd j = 2%Z -> mst k cd [FNotify (ERGet j) NCall; FBody None (rest k)] []
  | m_d2 j z : k = S j -> k <= n -> cd j = 2%Z -> mst k cd [FNotify2 (ERGet j) z NCall; FBody None (rest k)] []
  | m_d3 j z : k = S j -> k <= n -> cd j = 2%Z -> mst k cd [FNotify3 (ERGet j) z NCall; FBody None (rest k)] []
  | m_d4 j : k = S j -> k <= n -> cd j = 2%Z -> mst k cd [FFollow (ERGet j) []; FBody None (rest k)] []
  | m_d5 j : k = S j -> k <= n -> cd j = 2%Z -> mst k cd [FRemove j; FBody None (rest k)] []
  | m_end : k = n -> mst k cd [FBody None []] [].

  Definition wat (k : nat) (c : pool) (t : nat) : Prop :=
    exists st, nth_error (thr (core c)) (pl t) = Some st /\
      wst k t (pl t) st (wp c (pl t)) (flag c (pl t)) (rq c (pl t)) (nq c (pl t)) (due c 0) (ctr (core c) (EPre t)) (log (core c)).

  Record uinv (k : nat) (c : pool) : Prop := {
    u_p : pinv n m c;
    u_fol : forall e, fol (core c) e = [];
    u_ext : ext (core c) = [];
    u_due : forall i, i <> 0 -> due c i = [];
    u_out : forall i st, n < i -> nth_error (thr (core c)) i = Some st -> st = [];
    u_cdn : forall j, k <= j -> cdn (core c) j = 2%Z;
    u_main : exists st, nth_error (thr (core c)) 0 = Some st /\ mst k (cdn (core c)) st (due c 0);
    u_wat : forall t, t < n -> wat k c t
  }.

  Context (Hr : forall t, t < n -> 1 <= pl t <= n) (Hi : forall t u, t < n -> u < n -> pl t = pl u -> t = u).

  Lemma pl_all w : 1 <= w <= n -> exists t, t < n /\ pl t = w.
  Proof.
    intros Hw. assert (I : incl (seq 1 n) (map pl (seq 0 n))).
    { apply NoDup_length_incl.
      - clear Hw w. assert (G : forall a, (forall t, In t a -> t < n) -> NoDup a -> NoDup (map pl a)).
        { induction a as [|x a IH]; intros L N; [constructor|]. inversion N; subst. simpl. constructor.
          - intros H. apply in_map_iff in H as (y & E & Hy). assert (y = x) by (apply Hi; auto; apply L; simpl; auto). congruence.
          - apply IH; auto. intros t Ht. apply L. simpl. auto. }
        apply G; [|apply seq_NoDup]. intros t Ht. apply in_seq in Ht. lia.
      - now rewrite map_length, !seq_length.
      - intros x Hx. apply in_map_iff in Hx as (t & <- & Ht). apply in_seq in Ht. apply in_seq. specialize (Hr t). lia. }
    destruct (proj1 (in_map_iff pl (seq 0 n) w) (I w ltac:(apply in_seq; lia))) as (t & E & Ht). apply in_seq in Ht. exists t. split; auto. lia.
  Qed.

  Lemma uinv_init : uinv 0 (pinit P n m).
  Proof.
    split; simpl; auto.
    - apply pinv_init.
    - intros [|i] st H E; [lia|]. simpl in E. apply nth_error_In, repeat_spec in E. auto.
    - eexists. split; [reflexivity|]. replace (calls 0 (repeat count_task n) ++ [IBarrier]) with (rest 0); [apply m_next; lia|].
      unfold rest. now rewrite Nat.sub_0_r.
    - intros t Ht. exists []. specialize (Hr t Ht). split.
      + destruct (pl t) as [|w]; [lia|]. simpl. apply nth_error_repeat. lia.
      + simpl. apply w_idle; [lia|easy].
  Qed.

  Lemma wst_d k t w st p f r q d d' z lg : (In w d' -> d' = d) -> (In w d -> d' = d) -> wst k t w st p f r q d z lg -> wst k t w st p f r q d' z lg.
  Proof.
    intros A B H. inversion H; subst; try (assert (~ In w d') by (intros X; specialize (A X); subst; auto)).
    - now apply w_idle.
    - rewrite B by (simpl; auto). now apply w_due.
    - now apply w_flag.
    - now apply w_look.
    - now apply w_in with b.
  Qed.

  Lemma upd_same {A} (f : nat -> A) w v x : v = f w -> upd f w v x = f x.
  Proof. intros ->. unfold upd. now destruct (Nat.eqb_spec x w) as [->|]. Qed.

  Local Ltac pj := cbn [core rq nq flag wp due thr with_queues set_thr fol ext cdn ctr log emp rdy].

  (** a step of main that gives nothing to anybody *)
  Lemma main_quiet k c s' st' w p :
    let c' := mkPool (with_queues (set_thr s' (set_nth 0 st' (thr (core c)))) [] [])
      (upd (rq c) w (rdy s' ++ rq c w)) (upd (nq c) w (emp s' ++ nq c w)) (flag c) (upd (wp c) 0 p) (upd (due c) 0 []) in
    uinv k c -> pinv n m c' -> due c 0 = [] ->
    fol s' = fol (core c) -> ext s' = ext (core c) -> (forall t, ctr s' (EPre t) = ctr (core c) (EPre t)) ->
    incl (log (core c)) (log s') -> emp s' = [] -> rdy s' = [] -> (forall j, k <= j -> cdn s' j = 2%Z) ->
    mst k (cdn s') st' [] -> uinv k c'.
  Proof.
    intros c' U I D F E C L Em Rd Cd M. destruct U as [IP FO EX DU OU CD (st & T0 & M0) WA].
    assert (L0 : 0 < length (thr (core c))) by (apply nth_lt in T0; auto).
    split; subst c'; pj; auto.
    - intros e. now rewrite F.
    - now rewrite E.
    - intros i Hi0. rewrite upd_ne by auto. auto.
    - intros i st1 H. rewrite nth_off by lia. exact (OU i st1 H).
    - exists st'. rewrite upd_eq. split; [now apply nth_at|exact M].
    - intros t Ht. destruct (WA t Ht) as (st1 & E1 & W1). specialize (Hr t Ht). exists st1. pj.
      rewrite nth_off, upd_ne, upd_eq, C, !upd_same by (try lia; rewrite ?Em, ?Rd; reflexivity).
      split; auto. rewrite D in W1. revert W1. apply wst_log. exact L.
  Qed.

  (** a step of the worker of [t] *)
  Lemma work_quiet k c s' st' t w p st :
    let c' := mkPool (with_queues (set_thr s' (set_nth (pl t) st' (thr (core c)))) [] [])
      (upd (rq c) w (rdy s' ++ rq c w)) (upd (nq c) w (emp s' ++ nq c w)) (flag c) (upd (wp c) (pl t) p) (upd (due c) (pl t) []) in
    uinv k c -> pinv n m c' -> t < n ->
    nth_error (thr (core c)) (pl t) = Some st -> st <> [] ->
    fol s' = fol (core c) -> ext s' = ext (core c) -> (forall u, u <> t -> ctr s' (EPre u) = ctr (core c) (EPre u)) ->
    incl (log (core c)) (log s') -> emp s' = [] -> rdy s' = [] -> cdn s' = cdn (core c) ->
    (exists b, phase t st' (ctr s' (EPre t)) b /\ (b = true -> In (LStart t) (log s'))) -> uinv k c'.
  Proof.
    intros c' U I Lt Est NE F E C L Em Rd Cd (b & PH & B). destruct U as [IP FO EX DU OU CD (st0 & T0 & M0) WA].
    assert (L0 := nth_lt _ _ _ Est). assert (R0 := Hr t Lt).
    split; subst c'; pj; auto.
    - intros e. now rewrite F.
    - now rewrite E.
    - intros i Hi0. unfold upd. destruct (i =? pl t); auto.
    - intros i st1 H. rewrite nth_off by lia. exact (OU i st1 H).
    - intros j Hj. rewrite Cd. auto.
    - exists st0. rewrite nth_off, upd_ne, Cd by lia. auto.
    - intros u Hu. destruct (WA u Hu) as (st1 & E1 & W1). assert (R1 := Hr u Hu). unfold wat. pj. rewrite (upd_ne _ (pl t) 0) by lia. rewrite (upd_same (rq c)), (upd_same (nq c)) by (rewrite ?Em, ?Rd; reflexivity).
      destruct (Nat.eq_dec u t) as [->|N].
      + exists st'. rewrite nth_at by auto. split; auto. rewrite upd_eq. rewrite Est in E1. injection E1 as <-.
        inversion W1; subst; try (now destruct NE). now apply w_in with b.
      + assert (pl t <> pl u) by (intros X; apply N; symmetry; auto).
        exists st1. rewrite nth_off, upd_ne, C by auto. split; auto. revert W1. apply wst_log. exact L.
  Qed.

  Local Ltac mq k := match goal with
    | |- context [mkPool (with_queues (set_thr ?s (set_nth 0 ?st _)) [] []) _ _ _ (upd (wp ?c) 0 ?p) (upd _ _ (wakes _ _ _ _ ?w))] =>
        exists k; replace (wakes _ _ _ _ w) with (@nil nat) in * by (unfold wakes; simpl; repeat match goal with H : emp _ = [] |- _ => rewrite H | H : rdy _ = [] |- _ => rewrite H | H : cdn _ _ = 2%Z |- _ => rewrite H end; reflexivity);
        apply (main_quiet k c s st w p); auto; try (simpl; auto; fail); try (intros ? ?; simpl; auto; fail); simpl
    end.

  Lemma step_main k c w c' : uinv k c -> placed pl c (MStep 0 w) -> pstep P n m c (MStep 0 w) = Some c' -> exists k', uinv k' c'.
  Proof.
    intros U PL H. assert (I' := pinv_step _ _ _ _ _ _ (u_p k c U) H). destruct (u_main k c U) as (st & E & M).
    assert (CD := u_cdn k c U). unfold pstep in H. unfold placed in PL.
    destruct (due c 0) as [|x l] eqn:D; [|discriminate]. rewrite E in H, PL.
    assert (Em := pi_emp n m c (u_p k c U)). assert (Rd := pi_rdy n m c (u_p k c U)).
    inversion M; subst st; try subst k.
    - destruct (Nat.eq_dec k n) as [->|N].
      + rewrite rest_n in H. cbn [fstep] in H. destruct (tcn (core c) None =? 0)%Z; [|discriminate]. destruct (is_worker n w); [|discriminate]. apply some_inj in H; subst c'.
        mq n. now apply m_end.
      + rewrite rest_S in H by lia. cbn [fstep] in H. destruct (is_worker n w); [|discriminate]. apply some_inj in H; subst c'.
        unfold P in *. rewrite util_uniq in *. mq k. apply m_sub. lia.
    - cbn [fstep] in H. destruct (is_worker n w) eqn:W; [|discriminate]. apply some_inj in H; subst c'.
      assert (w = pl k) by (eapply PL; reflexivity). subst w. exists (S k).
      destruct U as [IP FO EX DU OU _ _ WA]. split; auto.
      + intros i Hi0. pj. rewrite upd_ne by auto. auto.
      + intros i st1 X. pj. rewrite nth_off by lia. exact (OU i st1 X).
      + intros j Hj. apply CD. lia.
      + eexists. split; [apply nth_at; now apply nth_lt in E|]. pj. rewrite upd_eq. simpl. rewrite Em. simpl.
        apply m_drop; auto; try lia.
      + intros t Ht. destruct (WA t Ht) as (st1 & E1 & W1). assert (R1 := Hr t Ht). exists st1. pj.
        rewrite nth_off by lia. split; [exact E1|]. rewrite upd_eq, (upd_ne (wp c)) by lia. simpl. rewrite Em, Rd. simpl.
        rewrite (upd_same (rq c)) by reflexivity. rewrite D in W1. destruct (Nat.eq_dec t k) as [->|N].
        * rewrite upd_eq. inversion W1; subst; try lia. apply w_due. lia.
        * assert (pl k <> pl t) by (intros X; apply N; symmetry; apply Hi; auto). rewrite upd_ne by auto.
          apply wst_k; auto. eapply wst_log with (lg := log (core c)); [intros a Ha; simpl; auto|].
          revert W1. apply wst_d; simpl; [intuition congruence|easy].
    - cbn [fstep] in H. destruct (is_worker n w) eqn:W; [|discriminate]. apply some_inj in H; subst c'. mq (S j). now apply m_d1.
    - cbn [fstep] in H. destruct (is_worker n w) eqn:W; [|discriminate]. apply some_inj in H; subst c'.
      cbv zeta in *. destruct (wrap P (ctr (core c) (ERGet j) - 1) =? 0)%Z; mq (S j); now apply m_d2.
    - cbn [fstep] in H. destruct (is_worker n w) eqn:W; [|discriminate]. apply some_inj in H; subst c'. mq (S j). now apply m_d3.
    - cbn [fstep] in H. destruct (z =? 0)%Z.
      + destruct (is_worker n w) eqn:W; [|discriminate]. apply some_inj in H; subst c'. rewrite (u_fol _ _ U) in *. mq (S j). now apply m_d4.
      + destruct (is_worker n w) eqn:W; [|discriminate]. apply some_inj in H; subst c'. mq (S j). now apply m_next.
    - cbn [fstep] in H. destruct (is_worker n w) eqn:W; [|discriminate]. apply some_inj in H; subst c'. mq (S j). now apply m_d5.
    - cbn [fstep] in H. match goal with H : cdn _ j = 2%Z |- _ => rewrite H in * end. change (2 =? 1)%Z with false in H. cbv iota in H.
      destruct (is_worker n w) eqn:W; [|discriminate]. apply some_inj in H; subst c'. mq (S j).
      + intros u Hu. rewrite upd_ne by lia. auto.
      + now apply m_next.
    - discriminate.
  Qed.

  Local Ltac wq := match goal with
    | |- exists k', uinv k' (mkPool (with_queues (set_thr ?s (set_nth (pl ?t) ?st _)) [] []) _ _ _ (upd (wp ?c) _ ?p) (upd _ _ (wakes _ _ _ _ ?w))) =>
        replace (wakes _ _ _ _ w) with (@nil nat) in * by (unfold wakes; simpl; repeat match goal with H : emp _ = [] |- _ => rewrite H | H : rdy _ = [] |- _ => rewrite H end; reflexivity);
        match goal with U : uinv ?k c, E : nth_error _ (pl t) = Some ?st0 |- _ =>
          exists k; apply (work_quiet k c s st t w p st0); auto; try discriminate; try (simpl; auto; fail); try (intros ? ?; simpl; auto; fail); simpl
        end
    end.

  Lemma eupd_eq {A} (f : ev -> A) e v : eupd f e v e = v.
  Proof. unfold eupd. destruct e; simpl; rewrite ?Nat.eqb_refl; reflexivity. Qed.
  Lemma eupd_pre {A} (f : ev -> A) t u v : u <> t -> eupd f (EPre t) v (EPre u) = f (EPre u).
  Proof. unfold eupd. simpl. intros H. apply Nat.eqb_neq in H. now rewrite H. Qed.

  Lemma step_work k c t w c' : uinv k c -> t < n -> pstep P n m c (MStep (pl t) w) = Some c' -> ~ In (LEnd t) (log (core c')) -> exists k', uinv k' c'.
  Proof.
    intros U Lt H NE. assert (I' := pinv_step _ _ _ _ _ _ (u_p k c U) H). destruct (u_wat k c U t Lt) as (st & E & W).
    unfold pstep in H. rewrite (u_due k c U) in H by (specialize (Hr t Lt); lia). rewrite E in H.
    destruct st as [|f fs]; [discriminate|].
    assert (Em := pi_emp n m c (u_p k c U)). assert (Rd := pi_rdy n m c (u_p k c U)).
    assert (exists b, phase t (f :: fs) (ctr (core c) (EPre t)) b) as (b & PH) by (inversion W; subst; eauto). clear W.
    remember (ctr (core c) (EPre t)) as z eqn:Ez.
    destruct (is_worker n w) eqn:Wk; [|destruct (fstep P (core c) f) as [[]|]; discriminate].
    inversion PH; subst f fs b; match goal with X : _ = z |- _ => rewrite <- X in *; clear X end; symmetry in Ez; cbn [fstep] in H.
    - apply some_inj in H; subst c'. unfold P in *. rewrite util_uniq in *. wq.
      + intros u Hu. now rewrite eupd_pre.
      + exists false. rewrite eupd_eq, Ez. split; [apply ph_init|discriminate].
    - unfold P in *. unfold util in H at 1. rewrite app_parent in H. apply some_inj in H; subst c'. wq. exists false. rewrite Ez. split; [apply ph_n1|discriminate].
    - apply some_inj in H; subst c'. rewrite Ez in *. change (wrap P (2 - 1)) with 1%Z in *. change (1 =? 0)%Z with false in *. cbv zeta iota in *. wq.
      + intros u Hu. now rewrite eupd_pre.
      + exists false. rewrite eupd_eq. split; [apply ph_n2|discriminate].
    - apply some_inj in H; subst c'. wq. exists false. rewrite Ez. split; [apply ph_n3|discriminate].
    - change (1 =? 0)%Z with false in *. change (1 =? 1)%Z with true in *. cbv iota in *. apply some_inj in H; subst c'. wq. exists false. rewrite Ez. split; [apply ph_exec|discriminate].
    - apply some_inj in H; subst c'. wq. exists false. rewrite Ez. split; [apply ph_e1|discriminate].
    - apply some_inj in H; subst c'. rewrite Ez in *. change (wrap P (1 - 1)) with 0%Z in *. change (0 =? 0)%Z with true in *. cbv zeta iota in *. wq.
      + intros u Hu. now rewrite eupd_pre.
      + exists false. rewrite eupd_eq. split; [apply ph_e2|discriminate].
    - change (0 =? 1)%Z with false in *. cbv iota in *. apply some_inj in H; subst c'. wq. exists false. rewrite Ez. split; [apply ph_e3|discriminate].
    - change (0 =? 0)%Z with true in *. cbv iota in *. rewrite (u_fol k c U) in *. apply some_inj in H; subst c'. wq. exists false. rewrite Ez. split; [apply ph_e4|discriminate].
    - apply some_inj in H; subst c'. wq. exists false. rewrite Ez. split; [apply ph_run|discriminate].
    - apply some_inj in H; subst c'. unfold P in *. rewrite util_body in *. wq. exists true. rewrite Ez. split; [apply ph_body|simpl; auto].
    - apply some_inj in H; subst c'. destruct NE. simpl. auto.
  Qed.

  Lemma worker_is w : is_worker n w = true -> exists t, t < n /\ pl t = w.
  Proof. intros H. apply is_worker_In, in_seq in H. apply pl_all. lia. Qed.

  (** a move of the worker of [t] that changes nothing for the others *)
  Lemma own_move k c c' t th' : uinv k c -> pinv n m c' -> t < n ->
    core c' = set_thr (core c) (set_nth (pl t) th' (thr (core c))) \/ core c' = core c /\ nth_error (thr (core c)) (pl t) = Some th' ->
    (forall v, v <> pl t -> rq c' v = rq c v /\ nq c' v = nq c v /\ flag c' v = flag c v /\ wp c' v = wp c v) ->
    due c' = due c ->
    wst k t (pl t) th' (wp c' (pl t)) (flag c' (pl t)) (rq c' (pl t)) (nq c' (pl t)) (due c 0) (ctr (core c) (EPre t)) (log (core c)) -> uinv k c'.
  Proof.
    intros U I Lt C O D W. destruct U as [IP FO EX DU OU CD (st0 & T0 & M0) WA]. assert (R0 := Hr t Lt).
    assert (L0 : pl t < length (thr (core c))) by (rewrite (pi_thr n m c IP); lia).
    assert (T : nth_error (thr (core c')) (pl t) = Some th' /\ forall i, i <> pl t -> nth_error (thr (core c')) i = nth_error (thr (core c)) i).
    { destruct C as [->|[-> Et]]; [|now split]. simpl. split; [now apply nth_at|]. intros i Ni. apply nth_off. auto. }
    assert (fol (core c') = fol (core c) /\ ext (core c') = ext (core c) /\ cdn (core c') = cdn (core c) /\ ctr (core c') = ctr (core c) /\ log (core c') = log (core c)) as (F1 & F2 & F3 & F4 & F5)
      by (destruct C as [->|[-> _]]; repeat split; reflexivity).
    destruct T as [Ta Tb]. split; auto.
    - intros e. now rewrite F1.
    - now rewrite F2.
    - now rewrite D.
    - intros i st1 H. rewrite Tb by lia. exact (OU i st1 H).
    - now rewrite F3.
    - exists st0. rewrite Tb, D, F3 by lia. auto.
    - intros u Hu. destruct (WA u Hu) as (st1 & E1 & W1). unfold wat. rewrite D, F4, F5. destruct (Nat.eq_dec u t) as [->|N].
      + exists th'. auto.
      + assert (X : pl u <> pl t) by (intros X; apply N; auto). exists st1. rewrite Tb by auto. destruct (O _ X) as (-> & -> & -> & ->). auto.
  Qed.

  Lemma step_wake k c i c' : uinv k c -> pstep P n m c (MWake i) = Some c' -> exists k', uinv k' c'.
  Proof.
    intros U H. assert (I' := pinv_step _ _ _ _ _ _ (u_p k c U) H). cbn [pstep] in H.
    destruct (Nat.eq_dec i 0) as [->|N]; [|now rewrite (u_due k c U) in H].
    exists k. destruct U as [IP FO EX DU OU CD (st0 & T0 & M0) WA].
    destruct (due c 0) as [|w l] eqn:D; [discriminate|]. apply some_inj in H; subst c'.
    inversion M0; subst. destruct H2 as [X|X]; [discriminate|]. injection X as -> ->.
    split; pj; auto.
    - intros i Hi0. rewrite upd_ne by auto. auto.
    - eexists. split; [exact T0|]. rewrite upd_eq. apply m_drop; auto.
    - intros t Ht. destruct (WA t Ht) as (st1 & E1 & W1). exists st1. pj. split; auto. rewrite upd_eq. rewrite D in W1.
      destruct (Nat.eq_dec t j) as [->|N].
      + rewrite upd_eq. inversion W1; subst; simpl in *; try tauto. now apply w_flag.
      + assert (X : pl j <> pl t) by (intros X; apply N; symmetry; apply Hi; auto). rewrite upd_ne by auto.
        revert W1. apply wst_d; simpl; [easy|tauto].
  Qed.

  Lemma quiet_announced k c w : uinv k c -> ~ In w (due c 0) -> announced n m c w = false.
  Proof.
    intros U N. apply not_true_iff_false. rewrite announced_iff. intros (i & _ & X). destruct (Nat.eq_dec i 0) as [->|Ni]; auto.
    rewrite (u_due k c U) in X by auto. easy.
  Qed.

  Lemma step_take k c w j c' : uinv k c -> pstep P n m c (MTake w j) = Some c' -> exists k', uinv k' c'.
  Proof.
    intros U H. assert (I' := pinv_step _ _ _ _ _ _ (u_p k c U) H). cbn [pstep] in H. destruct (is_worker n w) eqn:W; [|discriminate].
    destruct (worker_is w W) as (t & Lt & <-). destruct (due c (pl t)) eqn:D; [|discriminate].
    destruct (nth_error (thr (core c)) (pl t)) as [[|]|] eqn:E; try discriminate.
    destruct (u_wat k c U t Lt) as (st & E1 & W1). rewrite E in E1. injection E1 as <-. exists k.
    assert (OF : forall (g : nat -> list nat) x v, v <> pl t -> upd g (pl t) x v = g v) by (intros; apply upd_ne; auto).
    inversion W1 as [d0 lg0 Lk Nd|lg0 Lk|d0 lg0 Lk Nd|p0 d0 lg0 Lk Nd Pp|st0 z0 b0 p0 f0 d0 lg0 Lk Nd PH]; [| | | |inversion PH].
    - rewrite <- H0, <- H1 in H. discriminate.
    - rewrite <- H0, <- H1 in H. discriminate.
    - rewrite <- H0, <- H1 in H. apply some_inj in H; subst c'.
      apply (own_move k c _ t []); auto; pj.
      + intros v Nv. rewrite !upd_ne by auto. auto.
      + rewrite !upd_eq, <- H2, <- H3, <- H4. apply w_look; auto.
    - destruct Pp as [Pp|Pp]; rewrite Pp in H.
      + rewrite <- H2 in H. destruct j; discriminate.
      + rewrite <- H3 in H. destruct j as [|[|]]; try discriminate. cbn [nth_error remove_nth] in H. apply some_inj in H; subst c'.
        apply (own_move k c _ t [FInitUp t]); auto; pj.
        * intros v Nv. rewrite !upd_ne by auto. auto.
        * rewrite !upd_eq, <- H2, <- H4. apply w_in with false; auto; [apply ph_up|discriminate].
  Qed.

  Lemma step_miss k c w c' : uinv k c -> pstep P n m c (MMiss w) = Some c' -> exists k', uinv k' c'.
  Proof.
    intros U H. assert (I' := pinv_step _ _ _ _ _ _ (u_p k c U) H). cbn [pstep] in H. destruct (is_worker n w) eqn:W; [|discriminate].
    destruct (worker_is w W) as (t & Lt & <-). destruct (due c (pl t)) eqn:D; [|discriminate].
    destruct (nth_error (thr (core c)) (pl t)) as [[|]|] eqn:E; try discriminate.
    destruct (u_wat k c U t Lt) as (st & E1 & W1). rewrite E in E1. injection E1 as <-. exists k.
    inversion W1 as [d0 lg0 Lk Nd|lg0 Lk|d0 lg0 Lk Nd|p0 d0 lg0 Lk Nd Pp|st0 z0 b0 p0 f0 d0 lg0 Lk Nd PH]; [| | | |inversion PH].
    - rewrite <- H0 in H. discriminate.
    - rewrite <- H0 in H. discriminate.
    - rewrite <- H0 in H. discriminate.
    - destruct Pp as [Pp|Pp]; rewrite Pp in H.
      + rewrite <- H2 in H. cbv zeta in H. apply some_inj in H; subst c'.
        apply (own_move k c _ t []); auto; pj.
        * intros v Nv. rewrite !upd_ne by auto. auto.
        * rewrite !upd_eq, <- H0, <- H2, <- H3, <- H4. apply w_look; auto.
      + rewrite <- H3 in H. cbv zeta in H. rewrite (quiet_announced k c (pl t) U Nd) in H. discriminate.
  Qed.

  Lemma step_steal k c w v j c' : uinv k c -> pstep P n m c (MSteal w v j) = Some c' -> False.
  Proof.
    intros U H. cbn [pstep] in H. destruct (is_worker n w) eqn:W; [|discriminate]. destruct (is_worker n v); [|discriminate].
    destruct (worker_is w W) as (t & Lt & <-). destruct (due c (pl t)) eqn:D; [|discriminate].
    destruct (nth_error (thr (core c)) (pl t)) as [[|]|] eqn:E; try discriminate.
    destruct (u_wat k c U t Lt) as (st & E1 & W1). rewrite E in E1. injection E1 as <-.
    inversion W1 as [d0 lg0 Lk Nd|lg0 Lk|d0 lg0 Lk Nd|p0 d0 lg0 Lk Nd Pp|st0 z0 b0 p0 f0 d0 lg0 Lk Nd PH]; [| | | |inversion PH];
      try (rewrite <- H0 in H; discriminate). destruct Pp as [Pp|Pp]; now rewrite Pp in H.
  Qed.

  Lemma step_fire k c i j c' : uinv k c -> pstep P n m c (MFire i j) = Some c' -> False.
  Proof.
    intros U H. cbn [pstep] in H. destruct (n <? i); [|discriminate]. destruct (due c i); [|discriminate].
    destruct (nth_error (thr (core c)) i) as [[|]|]; try discriminate. cbn [istep] in H. rewrite (u_ext k c U) in H. now destruct j.
  Qed.

  Lemma step_out k c i w c' : uinv k c -> n < i -> pstep P n m c (MStep i w) = Some c' -> False.
  Proof.
    intros U Lt H. cbn [pstep] in H. destruct (due c i); [|discriminate].
    destruct (nth_error (thr (core c)) i) as [[|]|] eqn:E; try discriminate. now apply (u_out k c U) in E.
  Qed.

  Lemma uinv_step k c mv c' : uinv k c -> placed pl c mv -> pstep P n m c mv = Some c' -> (forall t, ~ In (LEnd t) (log (core c'))) -> exists k', uinv k' c'.
  Proof.
    intros U PL H NE. destruct mv as [i w|i|w j|w|w v j|i j].
    - destruct (Nat.eq_dec i 0) as [->|N0]; [eapply step_main; eauto|]. destruct (Nat.le_gt_cases i n) as [L|L].
      + destruct (pl_all i ltac:(lia)) as (t & Lt & <-). eapply step_work; eauto.
      + exfalso. eapply step_out; eauto.
    - eapply step_wake; eauto.
    - eapply step_take; eauto.
    - eapply step_miss; eauto.
    - exfalso. eapply step_steal; eauto.
    - exfalso. eapply step_fire; eauto.
  Qed.


  Lemma uinv_run k c : usteps P n m pl k c -> (forall t, ~ In (LEnd t) (log (core c))) -> exists j, uinv j c.
  Proof.
    induction 1 as [|k c mv c' S IH PL H]; intros NE; [exists 0; apply uinv_init|].
    destruct IH as (j & U); [intros t Ht; apply (NE t); eapply pstep_log; eauto|]. eapply uinv_step; eauto.
  Qed.

  Lemma can_step c i w f fs s' fr : due c i = [] -> nth_error (thr (core c)) i = Some (f :: fs) -> fstep P (core c) f = Some (s', fr) -> is_worker n w = true ->
    exists c', pstep P n m c (MStep i w) = Some c'.
  Proof. intros D E F W. unfold pstep. rewrite D, E, F, W. eauto. Qed.

  Lemma uinv_rest k c : uinv k c ->
    (forall mv c', placed pl c mv -> pstep P n m c mv = Some c' -> ends_body c mv) ->
    forall t, t < n -> nth_error (thr (core c)) (pl t) = Some [FBody (Some t) []] /\ In (LStart t) (log (core c)).
  Proof.
    intros U Q t Lt.
    assert (W1 : is_worker n 1 = true) by (unfold is_worker; apply andb_true_iff; rewrite !Nat.leb_le; lia).
    assert (NO : forall i f fs s' fr w, due c i = [] -> nth_error (thr (core c)) i = Some (f :: fs) -> fstep P (core c) f = Some (s', fr) ->
      is_worker n w = true -> (forall o x is, f = FSub o x [] is -> w = pl x) -> exists q, f = FBody (Some q) []).
    { intros i f fs s' fr w D E F W SB. destruct (can_step c i w f fs s' fr D E F W) as [c' S].
      destruct (Q (MStep i w) c') as (i0 & w0 & q & fs0 & X & Y); auto.
      - simpl. intros o x is fs1 E1. rewrite E in E1. injection E1 as E1 _. eauto.
      - injection X as <- <-. rewrite E in Y. injection Y as -> ->. eauto. }
    destruct (u_main k c U) as (st & E & M).
    assert (D : due c 0 = []).
    { destruct (due c 0) as [|x l] eqn:D; auto. exfalso.
      destruct (Q (MWake 0) (mkPool (core c) (rq c) (nq c) (upd (flag c) x true) (wp c) (upd (due c) 0 l))) as (? & ? & ? & ? & X & _); [exact I|simpl; now rewrite D|discriminate]. }
    assert (K : k = n).
    { destruct (Nat.eq_dec k n) as [|N]; auto. exfalso.
      inversion M; subst st; try lia.
      2: { assert (IW : is_worker n (pl k) = true) by (unfold is_worker; apply andb_true_iff; rewrite !Nat.leb_le; apply Hr; lia).
           destruct (NO 0 _ _ _ _ (pl k) D E eq_refl IW) as [q X]; [intros ? ? ? X; injection X; congruence|discriminate]. }
      1: rewrite rest_S in E by lia.
      all: match type of E with _ = Some (?f :: _) => destruct (fstep P (core c) f) as [[s' fr]|] eqn:F end;
           [destruct (NO 0 _ _ _ _ 1 D E F W1) as [q X]; [intros; discriminate|discriminate]|];
           clear - F; cbn [fstep] in F; try discriminate.
      - destruct (z =? 0)%Z; discriminate.
      - destruct (cdn (core c) j =? 1)%Z; discriminate. }
    subst k.
    assert (DW : due c (pl t) = []) by (apply (u_due n c U); specialize (Hr t Lt); lia).
    destruct (u_wat n c U t Lt) as (st1 & E1 & W). rewrite D in W.
    assert (IW : is_worker n (pl t) = true) by (unfold is_worker; apply andb_true_iff; rewrite !Nat.leb_le; now apply Hr).
    inversion W as [d0 lg0 Lk Nd|lg0 Lk|d0 lg0 Lk Nd|p0 d0 lg0 Lk Nd Pp|st0 z0 b0 p0 f0 d0 lg0 Lk Nd PH B]; try subst st1; try lia.
    - exfalso. assert (S : exists c', pstep P n m c (MTake (pl t) 0) = Some c') by (simpl; rewrite IW, DW, E1, <- H0, <- H1; eauto).
      destruct S as [c' S]. destruct (Q (MTake (pl t) 0) c' I S) as (? & ? & ? & ? & X & _). discriminate.
    - exfalso. destruct Pp as [Pp|Pp].
      + assert (S : exists c', pstep P n m c (MMiss (pl t)) = Some c') by (simpl; rewrite IW, DW, E1, Pp, <- H2; eauto).
        destruct S as [c' S]. destruct (Q (MMiss (pl t)) c' I S) as (? & ? & ? & ? & X & _). discriminate.
      + assert (S : exists c', pstep P n m c (MTake (pl t) 0) = Some c') by (simpl; rewrite IW, DW, E1, Pp, <- H3; simpl; eauto).
        destruct S as [c' S]. destruct (Q (MTake (pl t) 0) c' I S) as (? & ? & ? & ? & X & _). discriminate.
    - inversion PH; subst; auto; exfalso.
      all: match type of E1 with _ = Some (?f :: _) => destruct (fstep P (core c) f) as [[s' fr]|] eqn:F end;
           [destruct (NO (pl t) _ _ _ _ 1 DW E1 F W1) as [q X]; [intros; discriminate|discriminate]|];
           clear - F; cbn [fstep] in F; try discriminate.
      destruct (parent P t); discriminate.
  Qed.
End Util.
