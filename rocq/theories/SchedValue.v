(** What the main thread gets from a future: when, and which value. *)
From Coq Require Import Bool List Arith NArith ZArith Lia Permutation Sorting.Sorted.
From Verif Require Import AccessModel AccessSpec AccessProof UserModel UserProof SchedModel SchedSpec SchedBase SchedInv1 SchedInv2 SchedInv3 SchedInv4 SchedInv5 SchedInv6 SchedInv7 SchedInv8 SchedFront SchedThm SchedLive SchedTerm SchedSeq SchedMany.
Import ListNotations.
Open Scope Z_scope.

(** ** Lists *)
Lemma fop_app {A} (R : A -> A -> Prop) l1 l2 : ForallOrdPairs R l1 -> ForallOrdPairs R l2 ->
  (forall x y, In x l1 -> In y l2 -> R x y) -> ForallOrdPairs R (l1 ++ l2).
Proof.
  induction 1 as [|x l H F IH]; intros B C; simpl; auto. constructor.
  - apply Forall_app. split; auto. apply Forall_forall. intros y Hy. apply C; simpl; auto.
  - apply IH; auto. intros a b Ha Hb. apply C; simpl; auto.
Qed.
Lemma fop_all {A} (R : A -> A -> Prop) l : (forall x y, In x l -> In y l -> R x y) -> ForallOrdPairs R l.
Proof.
  induction l as [|x l IH]; intros H; constructor.
  - apply Forall_forall. intros y Hy. apply H; simpl; auto.
  - apply IH. intros a b Ha Hb. apply H; simpl; auto.
Qed.

(** operations of other tasks leave the private state of a task alone *)
Lemma exec_other (S : semantics) c l : (forall x, In x l -> fst x <> c) -> forall g m, fst (exec S l g m) c = g c.
Proof.
  induction l as [|[t a] l IH]; intros H g m; auto. cbn [exec]. destruct (op S a (g t) m) as [x m'].
  rewrite IH by (intros y Hy; apply H; simpl; auto). unfold upd. destruct (Nat.eqb_spec c t) as [->|]; auto.
  exfalso. exact (H (t, a) (or_introl eq_refl) eq_refl).
Qed.
Lemma exec_until (S : semantics) c l1 l2 g m : (forall x, In x l2 -> fst x <> c) ->
  fst (exec S (l1 ++ l2) g m) c = fst (exec S l1 g m) c.
Proof. intros H. rewrite exec_app. destruct (exec S l1 g m) as [g' m']. simpl. now apply exec_other. Qed.

Lemma one_by_one_until (S : semantics) P c l1 l2 g m : ~ In c l2 ->
  fst (exec S (one_by_one P (l1 ++ c :: l2)) g m) c = fst (exec S (one_by_one P (l1 ++ [c])) g m) c.
Proof.
  intros H. assert (E : one_by_one P (l1 ++ c :: l2) = one_by_one P (l1 ++ [c]) ++ one_by_one P l2).
  { unfold one_by_one. rewrite !flat_map_app. simpl. now rewrite app_nil_r, app_assoc. }
  rewrite E. apply exec_until. intros x Hx. unfold one_by_one in Hx. apply in_flat_map in Hx as (t & Ht & Hx).
  apply in_map_iff in Hx as (a & <- & _). simpl. intros ->. auto.
Qed.

(** the step that gets *)
Lemma step_get P s i k s' c l1 l2 : step P s i k = Some s' -> log s' = l1 ++ LGet c :: l2 ->
  (exists l, log s = l ++ LGet c :: l2) \/ (log s = l2 /\ ctr s (ERSet c) = 0).
Proof.
  intros H E. assert (M := step_moves P s i k s' H).
  assert (D : forall x, x :: log s = l1 ++ LGet c :: l2 -> (x = LGet c -> ctr s (ERSet c) = 0) ->
              (exists l, log s = l ++ LGet c :: l2) \/ (log s = l2 /\ ctr s (ERSet c) = 0)).
  { clear E. intros x E A. destruct l1 as [|y l1]; simpl in E.
    - injection E as E1 E2. right. auto.
    - injection E as _ E. left. eauto. }
  destruct M as [j f fs s1 fr rest E0 H1 -> Hp Hp' | j pk s1 fr E0 H1 -> Hp'].
  - clear -D E H1.
    cases_f H1; cbn [log set_thr add_log set_users set_lck set_ctr set_fol set_emp set_rdy set_ext set_cdn set_tcn inc] in E.
    all: try (left; exists l1; exact E).
    all: try (apply (D _ E); discriminate).
    all: try (apply (D _ E); intros Q; injection Q as ->; now apply Z.eqb_eq).
    destruct l1 as [|y l1]; simpl in E; [discriminate|]. injection E as _ E. destruct l1 as [|z l1]; simpl in E; [discriminate|].
    injection E as _ E. left. eauto.
  - clear -D E H1.
    cases_i H1; cbn [log set_thr add_log set_users set_lck set_ctr set_fol set_emp set_rdy set_ext set_cdn set_tcn inc] in E.
    all: try (left; exists l1; exact E).
    all: apply (D _ E); discriminate.
Qed.

Section ValueMany.
  Context (P : prog) {U : front} (W : wfc P U) (NW : p_wrap P = false).

  (** ** get() returns after the body *)
  Lemma rset_end s c : Inv P U s -> ctr s (ERSet c) = 0 -> In (LEnd c) (log s) /\ In (LReach (ERSet c)) (log s).
  Proof.
    intros I H. split.
    - apply in_end. pose proof (i_acc P s I (ERSet c)) as A. simpl in A. pose proof (edges_nn P s I (ERSet c)).
      assert (N1 : 0 <= zsum (w_notify (ERSet c)) (frames s)) by (apply zsum_nonneg; intros; apply w_nn2).
      assert (N2 : 0 <= zsum (w_follow (ERSet c)) (frames s)) by (apply zsum_nonneg; intros; apply w_nn2). lia.
    - apply in_reach. destruct (i_reach P s I (ERSet c)); lia.
  Qed.

  Theorem mr_get_waits n s c l1 l2 : mreach P U n s -> log s = l1 ++ LGet c :: l2 ->
    exists s0, mreach P U n s0 /\ log s0 = l2 /\ ended s0 c /\ In (LReach (ERSet c)) l2.
  Proof.
    intros R. revert l1. induction R as [|s i k s' R IH G PO H]; intros l1 E; [destruct l1; discriminate|].
    destruct (step_get P s i k s' c l1 l2 H E) as [(l & Q)|(Q & Z)]; [exact (IH l Q)|].
    exists s. destruct (rset_end s c (mreach_Inv P W NW n s R) Z). rewrite <- Q. auto.
  Qed.

  (** ** Which value *)
  Definition rest (s : state) (t : nat) : list act := skipn (length (done t (log s))) (acts_of (body P (Some t))).

  Lemma done_rest n s t : mreach P U n s -> done t (log s) ++ rest s t = acts_of (body P (Some t)).
  Proof.
    intros R. destruct (mr_done_ok P W NW n s R t) as (A & B & C). assert (I := mreach_Inv P W NW n s R).
    assert (X : exists r, acts_of (body P (Some t)) = done t (log s) ++ r).
    { pose proof (f_start P s I t). pose proof (f_exec P s I t). pose proof (f_end P s I t).
      destruct (Z.eq_dec (zsum (v_start t) (log s)) 0) as [e|e]; [rewrite A by easy; now eexists|].
      destruct (Z_le_dec 1 (zsum (v_end t) (log s))) as [l|l]; [rewrite C by easy; exists []; now rewrite app_nil_r|].
      assert (L1 := law_body P s (i_laws P s I) t).
      assert (Q0 : 0 < zsum (is_body (Some t)) (frames s)) by lia. apply zsum_pos_ex in Q0 as (f & Hf & Q).
      assert (is_body (Some t) f = 1).
      { assert (is_body (Some t) f <= 1) by (unfold is_body; destruct f; try lia; match goal with |- zb ?b <= 1 => destruct b; simpl; lia end). lia. }
      rewrite <- (B f Hf H2). now eexists. }
    destruct X as [r E]. unfold rest. rewrite E, skipn_app, skipn_all, Nat.sub_diag. reflexivity.
  Qed.

  Lemma rest_ended n s t : mreach P U n s -> ended s t -> rest s t = [].
  Proof.
    intros R E. destruct (mr_done_ok P W NW n s R t) as (_ & _ & C). unfold rest. rewrite C by (now apply in_end). apply skipn_all.
  Qed.

  Lemma of_task_map t l : of_task t (map (pair t) l) = map (pair t) l.
  Proof. unfold of_task. induction l as [|a l IH]; simpl; auto. now rewrite Nat.eqb_refl, IH. Qed.
  Lemma of_task_map_ne t u l : u <> t -> of_task t (map (pair u) l) = [].
  Proof. intros D. unfold of_task. induction l as [|a l IH]; simpl; auto. destruct (Nat.eqb_spec u t); [congruence|exact IH]. Qed.
  Lemma of_task_app t l1 l2 : of_task t (l1 ++ l2) = of_task t l1 ++ of_task t l2.
  Proof. apply filter_app. Qed.
  Lemma of_task_flat t (h : nat -> list act) ts : ~ In t ts -> of_task t (flat_map (fun u => map (pair u) (h u)) ts) = [].
  Proof.
    induction ts as [|u ts IH]; intros H; auto. simpl. rewrite of_task_app, IH by (simpl in H; tauto).
    rewrite of_task_map_ne; auto. simpl in H. tauto.
  Qed.
  Lemma of_task_flat_in t (h : nat -> list act) ts : NoDup ts -> In t ts ->
    of_task t (flat_map (fun u => map (pair u) (h u)) ts) = map (pair t) (h t).
  Proof.
    induction 1 as [|u ts N ND IH]; [easy|]. intros H. simpl. rewrite of_task_app. destruct (Nat.eq_dec u t) as [->|d].
    - now rewrite of_task_map, of_task_flat, app_nil_r.
    - rewrite of_task_map_ne by auto. apply IH. now destruct H.
  Qed.

  (** The history so far, followed by what the tasks still have to do, gives the
      result of the bodies one after another. *)
  Theorem mr_completion h n s S g m ts : ForallOrdPairs (inv_free h) (performed (log s)) -> behaved P -> sensible S -> mreach P U n s ->
    StronglySorted (fun a b => (h a < h b)%nat) ts ->
    (forall t q, started s t -> In q ts -> tasks_conflict P t q -> (h q < h t)%nat -> ended s q) ->
    (forall t, started s t -> In t ts) ->
    same_result (exec S (performed (log s) ++ flat_map (fun t => map (pair t) (rest s t)) ts) g m)
                (exec S (one_by_one P ts) g m).
  Proof.
    intros FP BH OK R SS A B. assert (I := mreach_Inv P W NW n s R).
    assert (ND : NoDup ts).
    { clear -SS. induction SS as [|t ts SS IH F]; constructor; auto. intros H. rewrite Forall_forall in F. specialize (F t H). lia. }
    set (RS := flat_map (fun t => map (pair t) (rest s t)) ts).
    eapply same_trans; [apply (isort_exec S OK h)|].
    - apply fop_app.
      + exact FP.
      + assert (X : ForallOrdPairs (fun x y : nat * act => (h (fst x) <= h (fst y))%nat) RS).
        { unfold RS. clear -SS. generalize (rest s). intros k. induction SS as [|t ts SS IH F]; [constructor|]. simpl. apply fop_app; auto.
          - apply fop_all. intros x y Hx Hy. apply in_map_iff in Hx as (a & <- & _). apply in_map_iff in Hy as (b & <- & _). simpl. lia.
          - intros x y Hx Hy. apply in_map_iff in Hx as (a & <- & _). apply in_flat_map in Hy as (u & Hu & Hy).
            apply in_map_iff in Hy as (b & <- & _). rewrite Forall_forall in F. specialize (F u Hu). simpl. lia. }
        revert X. generalize RS. clear. induction 1 as [|x l H X IH]; constructor; auto.
        eapply Forall_impl; [|exact H]. intros y Hy Q. cbv beta in Hy. exfalso. lia.
      + intros [t b] [q a] Ht Hq Lt C. simpl in *.
        apply in_performed in Ht. destruct (mr_done_body P W NW n s t b R Ht) as [Hb Ex].
        apply in_flat_map in Hq as (p & Hp & Hq). apply in_map_iff in Hq as (a' & Q & Ha). injection Q as -> ->.
        assert (Ha1 : In (IAct a) (body P (Some q))).
        { assert (Ha2 : In a (acts_of (body P (Some q)))) by (rewrite <- (done_rest n s q R); apply in_or_app; now right).
          revert Ha2. clear. generalize (body P (Some q)). intros l. induction l as [|[] l IH]; simpl; auto. intros [->|H]; auto. }
        assert (En : ended s q). { apply (A t q); auto; [now apply in_exec|eapply acts_tasks; eauto]. }
        now rewrite (rest_ended n s q R En) in Ha.
    - rewrite (isort_flat h _ ts SS).
      + unfold one_by_one. rewrite !flat_map_concat_map. erewrite map_ext_in; [apply same_refl|].
        intros t Ht. rewrite of_task_app, of_task_done. unfold RS. rewrite of_task_flat_in by auto.
        now rewrite <- map_app, (done_rest n s t R).
      + intros [t a] Hx. apply in_app_or in Hx as [Hx|Hx].
        * apply in_performed in Hx. destruct (mr_done_body P W NW n s t a R Hx) as [_ Ex]. apply B. now apply in_exec.
        * apply in_flat_map in Hx as (p & Hp & Hx). apply in_map_iff in Hx as (a' & Q & _). now injection Q as -> _.
  Qed.

  (** with the same order in all lists *)
  Lemma aligned_ended h n s ts : aligned U h -> flat P -> mreach P U n s -> (forall t, In t ts -> submitted s t) ->
    forall t q, started s t -> In q ts -> tasks_conflict P t q -> (h q < h t)%nat -> ended s q.
  Proof.
    intros AL F R A t q St Hq C Lt. assert (I := mreach_Inv P W NW n s R). apply in_exec in St.
    assert (S1 : sp s t) by (eapply mr_exec_sp; eauto).
    assert (S2 : sp s q) by (apply in_spawn; now apply A).
    apply (mr_completed_ended P W NW n s q R), in_reach.
    apply (i_order_all P W s I t); auto. split; [rewrite (mr_flat_parent P W NW n s t), (mr_flat_parent P W NW n s q); auto|].
    rewrite user_is_serial_sym. now apply conflict_serial.
  Qed.

  (** once the body of a task has ended, what the task has seen is what it sees in
      the sequential run *)
  Theorem mr_value h n s S g m l1 c l2 : ForallOrdPairs (inv_free h) (performed (log s)) -> behaved P -> sensible S -> mreach P U n s ->
    StronglySorted (fun a b => (h a < h b)%nat) (l1 ++ c :: l2) ->
    (forall t q, started s t -> In q (l1 ++ c :: l2) -> tasks_conflict P t q -> (h q < h t)%nat -> ended s q) ->
    (forall t, started s t -> In t (l1 ++ c :: l2)) -> ended s c ->
    fst (exec S (performed (log s)) g m) c = fst (exec S (one_by_one P (l1 ++ [c])) g m) c.
  Proof.
    intros FP BH OK R SS A B E.
    destruct (mr_completion h n s S g m _ FP BH OK R SS A B) as [X _]. specialize (X c).
    rewrite exec_until in X.
    - rewrite X. apply one_by_one_until. clear -SS. intros H. induction l1 as [|x l1 IH]; simpl in SS; inversion SS; subst; auto.
      rewrite Forall_forall in H3. specialize (H3 c H). lia.
    - intros x Hx. apply in_flat_map in Hx as (t & Ht & Hx). apply in_map_iff in Hx as (a & <- & Ha). simpl. intros ->.
      now rewrite (rest_ended n s c R E) in Ha.
  Qed.
End ValueMany.

Section Value.
  Context (P : prog) (W : wfa P) (NW : p_wrap P = false).

  Theorem get_waits n s c l1 l2 : greach P n s -> log s = l1 ++ LGet c :: l2 ->
    exists s0, greach P n s0 /\ log s0 = l2 /\ ended s0 c /\ In (LReach (ERSet c)) l2.
  Proof.
    intros R. revert l1. induction R as [|s i k s' R IH G H]; intros l1 E; [destruct l1; discriminate|].
    destruct (step_get P s i k s' c l1 l2 H E) as [(l & Q)|(Q & Z)]; [exact (IH l Q)|].
    exists s. destruct (rset_end P s c (greach_Inv P W NW n s R) Z). rewrite <- Q. auto.
  Qed.

  Theorem value n s S g m l1 c l2 : flat P -> behaved P -> sensible S -> greach P n s ->
    spawns (p_main P) = l1 ++ c :: l2 -> ended s c ->
    fst (exec S (performed (log s)) g m) c = fst (exec S (one_by_one P (l1 ++ [c])) g m) c.
  Proof.
    intros F BH OK R E En. assert (I := greach_Inv P W NW n s R).
    assert (X : exists r, rev (spawned (log s)) ++ r = spawns (p_main P)).
    { assert (M := law_main P s (i_laws P s I)). simpl in M.
      assert (Q0 : 0 < zsum (is_body None) (frames s)) by lia. apply zsum_pos_ex in Q0 as (f & Hf & Q).
      exists (spawns (left_of f)). apply (spawned_main P W NW n s F R f Hf).
      assert (is_body None f <= 1) by (unfold is_body; destruct f; try lia; match goal with |- zb ?b <= 1 => destruct b; simpl; lia end). lia. }
    destruct X as [r X].
    assert (SB : forall t, started s t -> submitted s t).
    { intros t Ht. apply in_spawn. apply (exec_sp P W NW n s t R). now apply in_exec. }
    assert (Sc : In c (rev (spawned (log s)))).
    { apply in_rev. rewrite rev_involutive. apply spawned_in. apply SB. apply in_exec. apply in_end in En.
      pose proof (f_start P s I c). pose proof (f_exec P s I c). pose proof (f_end P s I c). lia. }
    assert (SS : StronglySorted lt (spawns (p_main P))) by exact (wf_sorted P W None).
    assert (Y : exists l3, rev (spawned (log s)) = l1 ++ c :: l3).
    { apply in_split in Sc as (a & b & Q). exists b. rewrite Q in X. rewrite E in X, SS. rewrite Q. f_equal.
      clear -X SS. rewrite <- app_assoc in X. simpl in X. revert l1 X SS.
      induction a as [|x a IH]; intros l1 X SS; destruct l1 as [|y l1]; auto; simpl in X; injection X as E1 E2.
      - subst y. simpl in SS. inversion SS; subst. rewrite Forall_forall in H2. specialize (H2 c (in_elt c l1 l2)). lia.
      - subst x. simpl in SS. inversion SS; subst. rewrite Forall_forall in H2. specialize (H2 c (in_elt c a (b ++ r))). lia.
      - subst y. f_equal. eapply IH; eauto. simpl in SS. now inversion SS. }
    destruct Y as [l3 Y].
    assert (AL : aligned (single P) (fun t => t)) by exact (fun _ _ _ L => L). assert (MR := greach_mreach P W NW n s R).
    apply (mr_value P W NW (fun t => t) n s S g m l1 c l3 (mr_pairs P W NW _ n s AL F BH MR) BH OK MR); auto; rewrite <- Y; simpl.
    - rewrite <- X in SS. revert SS. generalize (rev (spawned (log s))). clear. intros l.
      induction l as [|x l IH]; simpl; intros SS; constructor; inversion SS; subst; auto.
      apply Forall_app in H2. tauto.
    - apply (aligned_ended P W NW _ n s _ AL F MR). intros t Ht. apply in_rev in Ht. now apply spawned_in.
    - intros t Ht. rewrite <- in_rev. apply spawned_in. now apply SB.
  Qed.
End Value.

Section Threads.
  Context (P : prog) (ms : list (list instr)) (W : wf_any P ms) (NW : p_wrap P = false) (n : nat).

  Theorem many_get_waits k s c l1 l2 : creach P ms n k s -> log s = l1 ++ LGet c :: l2 ->
    exists k0 s0, creach P ms n k0 s0 /\ log s0 = l2 /\ ended s0 c /\ In (LReach (ERSet c)) l2.
  Proof.
    intros R. revert l1. induction R as [|k s i x s' R IH G PO H]; intros l1 E; [destruct l1; discriminate|].
    destruct (step_get P s i x s' c l1 l2 H E) as [(l & Q)|(Q & Z)]; [exact (IH l Q)|].
    destruct (creach_order P ms W NW n k s R) as [ord O].
    exists k, s. destruct (rset_end P s c (order_Inv P ms W NW n s ord O) Z). rewrite <- Q. auto.
  Qed.

  Theorem many_value k s : flat P -> behaved P -> creach P ms n k s ->
    exists ts, NoDup ts /\ (forall t, In t ts -> submitted s t) /\ (forall t, started s t -> In t ts) /\
      (forall p t, comes_before P ms p t -> In t ts -> exists a b d, ts = a ++ p :: b ++ t :: d) /\
      forall S g m l1 c l2, sensible S -> ts = l1 ++ c :: l2 -> ended s c ->
      fst (exec S (performed (log s)) g m) c = fst (exec S (one_by_one P (l1 ++ [c])) g m) c.
  Proof.
    intros F BH R. destruct (creach_order P ms W NW n k s R) as [ord O]. exists ord. assert (ND := o_nodup P ms n s ord O).
    assert (A : forall t, In t ord -> submitted s t) by (intros t Ht; now apply (o_begun P ms n s ord O)).
    assert (B : forall t, started s t -> In t ord) by (intros t; exact (started_in P ms W NW n s ord t O)).
    repeat split; auto.
    - intros p t Q Ht. destruct (o_thread P ms n s ord O p t Q Ht) as [_ Lt]. now apply rk_of_split.
    - intros S g m l1 c l2 OK E En. rewrite E in *.
      set (ts := l1 ++ c :: l2) in *. assert (MR := order_mreach P ms n s ts O).
      assert (AL : aligned (mkFront ms (fun _ => rk_of ts)) (rk_of ts)) by exact (fun _ _ _ L => L).
      apply (mr_value P (wr P ms W ts) NW (rk_of ts) n s S g m l1 c l2 (mr_pairs P (wr P ms W ts) NW _ n s AL F BH MR) BH OK MR); auto.
      + now apply rk_of_sorted.
      + exact (aligned_ended P (wr P ms W ts) NW _ n s ts AL F MR A).
  Qed.
End Threads.

(** ** What a body has waited for *)
Section Got.
  Context (P : prog) {U : front} (W : wfc P U) (NW : p_wrap P = false).

  (** what a thread has waited for *)
  Definition got (s : state) (f : frame) : Prop :=
    match f with
    | FBody o is | FSub o _ _ is =>
        exists m pre, code P U o m /\ m = pre ++ is /\ forall c, In (IGet c) pre -> In (LGet c) (log s)
    | _ => True
    end.

  Lemma mr_got n s : mreach P U n s -> forall f, In f (frames s) -> got s f.
  Proof.
    induction 1 as [|s i c s' R IH G PO H].
    - intros f Hf. rewrite (frames_init P (U := U) n) in Hf. apply in_map_iff in Hf as (m & <- & Hm).
      exists m, []. repeat split; auto; easy.
    - assert (M := step_moves P s i c s' H). intros f Hf.
      assert (LM : exists l, log s' = l ++ log s).
      { destruct M as [j g fs s1 fr rest E H1 E' Hp Hp' | j pk s1 fr E H1 E' Hp']; rewrite E'.
        - clear -H1. cases_f H1; simpl; try (exists []; reflexivity); first [eexists [_]; reflexivity|eexists [_; _]; reflexivity].
        - clear -H1. cases_i H1; simpl; try (exists []; reflexivity); eexists [_]; reflexivity. }
      destruct LM as [l0 LM].
      assert (MONO : forall f, got s f -> got s' f).
      { intros [] B; auto; destruct B as (m & pre & C & E & A); exists m, pre; repeat split; auto;
          intros x Hx; rewrite LM; apply in_or_app; auto. }
      destruct M as [j g fs s1 fr rest E H1 E' Hp Hp' | j pk s1 fr E H1 E' Hp'].
      + apply (Permutation_in _ Hp') in Hf. apply in_app_or in Hf as [Hf|Hf].
        2:{ apply MONO, IH. apply (Permutation_in _ (Permutation_sym Hp)). now right. }
        assert (Hg : In g (frames s)) by (apply (Permutation_in _ (Permutation_sym Hp)); now left).
        specialize (IH g Hg).
        assert (NEXT : forall o i is, got s (FBody o (i :: is)) -> (forall c, i = IGet c -> In (LGet c) (log s')) ->
                       exists m pre, code P U o m /\ m = pre ++ is /\ forall c, In (IGet c) pre -> In (LGet c) (log s')).
        { intros o i0 is (m & pre & C & Em & A) N. exists m, (pre ++ [i0]). rewrite <- app_assoc. repeat split; auto.
          intros x Hx. apply in_app_or in Hx as [Hx|[Hx|[]]].
          - rewrite LM. apply in_or_app. auto.
          - now apply N. }
        assert (LE : log s' = log s1) by (rewrite E'; reflexivity).
        clear Hp Hp' E H G PO E'.
        cases_f H1; simpl in Hf; repeat (destruct Hf as [<-|Hf]; [|]); try easy; try (apply MONO; exact IH);
          try (red; eapply NEXT; [exact IH|]; intros x Hx; discriminate Hx).
        all: try (red; eapply NEXT; [exact IH|]; intros x Hx; injection Hx as <-; rewrite LE; simpl; auto).
        exists (body P (Some t)), []. repeat split; auto; easy.
      + apply (Permutation_in _ Hp') in Hf. apply in_app_or in Hf as [Hf|Hf]; [|now apply MONO, IH].
        cases_i H1; simpl in Hf; destruct Hf as [<-|[]]; easy.
  Qed.

  Lemma got_ended n s c : mreach P U n s -> In (LGet c) (log s) -> ended s c.
  Proof.
    intros R H. apply in_split in H as (l1 & l2 & L).
    destruct (mr_get_waits P W NW n s c l1 l2 R L) as (s0 & _ & L0 & EN & _).
    unfold ended in *. rewrite L0 in EN. rewrite L. apply in_or_app. right. now right.
  Qed.
  Lemma mr_end_got n s t c : mreach P U n s -> ended s t -> In (IGet c) (body P (Some t)) -> In (LGet c) (log s).
  Proof.
    intros R. induction R as [|s i k s' R IH G PO H]; [easy|]. intros En Hc. unfold ended in *.
    assert (M := step_moves P s i k s' H).
    assert (KEY : log s' = LEnd t :: log s -> In (FBody (Some t) []) (frames s) -> In (LGet c) (log s)).
    { intros _ Hf. destruct (mr_got n s R _ Hf) as (m & pre & C & E & A). simpl in C. subst m. rewrite app_nil_r in E. rewrite <- E in A. now apply A. }
    destruct M as [j g fs s1 fr rest E H1 -> Hp Hp' | j pk s1 fr E H1 -> Hp'].
    - assert (Hg : In g (frames s)) by (apply (Permutation_in _ (Permutation_sym Hp)); now left). clear Hp Hp' E H G PO.
      cases_f H1; cbn [log set_thr add_log set_users set_lck set_ctr set_fol set_emp set_rdy set_ext set_cdn set_tcn inc] in *; auto;
        try (destruct En as [En|[En|En]]; try discriminate En; right; right; now apply IH);
        try (destruct En as [En|En]; [try discriminate En|right; now apply IH]).
      all: try (injection En as ->; right; apply KEY; auto).
    - cases_i H1; cbn [log set_thr add_log set_users set_lck set_ctr set_fol set_emp set_rdy set_ext set_cdn set_tcn inc] in *; auto;
        destruct En as [En|En]; try discriminate En; right; now apply IH.
  Qed.
End Got.
