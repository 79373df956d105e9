(** Several threads of the user that submit at the same time, in every interleaving. *)
From Coq Require Import Bool List Arith NArith ZArith Lia Permutation Sorting.Sorted.
From Verif Require Import AccessModel AccessSpec AccessProof UserModel UserProof SchedModel SchedSpec SchedBase SchedInv1 SchedInv2 SchedInv3 SchedInv4 SchedInv5 SchedInv6 SchedInv7 SchedInv8 SchedFront SchedThm SchedLive SchedTerm SchedSeq SchedMany SchedValue.
Import ListNotations.
Open Scope Z_scope.

(** ** Specification *)
(** the task that the next step of thread [i] adds to the user list of [r] *)
Definition enters (s : state) (i r : nat) : list nat :=
  match nth_error (thr s) i with
  | Some (FSub _ c (x :: _) _ :: _) => if Nat.eqb x r then [c] else []
  | _ => []
  end.

(** Every execution of the threads [ms]: [k] steps, and for every resource the tasks in the
    order in which they entered its user list, oldest first. *)
Inductive freach (P : prog) (ms : list (list instr)) (n : nat) : nat -> state -> (nat -> list nat) -> Prop :=
| freach_init : freach P ms n 0 (init_many P ms n) (fun _ => [])
| freach_step k s ord i c s' : freach P ms n k s ord -> end_ok P s i -> step P s i c = Some s' ->
    freach P ms n (S k) s' (fun r => ord r ++ enters s i r).

(** [f] orders the tasks of the root space as they enter every list *)
Definition agree (P : prog) (f : nat -> nat) (ord : nat -> list nat) : Prop :=
  forall r l1 p l2 t l3, ord r = l1 ++ p :: l2 ++ t :: l3 -> parent P p = None -> parent P t = None -> (f p < f t)%nat.

(** the tasks in the order in which workers took up their bodies *)
Fixpoint execs (l : list lev) : list nat :=
  match l with [] => [] | LExec t :: l => execs l ++ [t] | _ :: l => execs l end.

Lemma execs_in t l : In t (execs l) <-> In (LExec t) l.
Proof.
  induction l as [|x l IH]; [easy|]. split.
  - destruct x; simpl; intros H; try (right; now apply IH). apply in_app_or in H as [H|[->|[]]]; [right; now apply IH|now left].
  - intros [->|H]; [simpl; apply in_or_app; simpl; auto|]. apply IH in H. destruct x; simpl; auto. apply in_or_app. auto.
Qed.
Lemma execs_app l1 l2 : execs (l1 ++ l2) = execs l2 ++ execs l1.
Proof. induction l1 as [|x l1 IH]; simpl; [now rewrite app_nil_r|]. destruct x; simpl; auto. now rewrite IH, app_assoc. Qed.

(** the step that hands out a body *)
Lemma step_exec P s i k s' c l1 l2 : step P s i k = Some s' -> log s' = l1 ++ LExec c :: l2 ->
  (exists l, log s = l ++ LExec c :: l2) \/ (log s = l2 /\ log s' = LExec c :: l2).
Proof.
  intros H E. assert (M := step_moves P s i k s' H).
  assert (D : forall x, x :: log s = l1 ++ LExec c :: l2 -> (exists l, log s = l ++ LExec c :: l2) \/ (log s = l2 /\ x = LExec c)).
  { clear E. intros x E. destruct l1 as [|y l1]; simpl in E.
    - injection E as E1 E2. right. auto.
    - injection E as _ E. left. eauto. }
  destruct M as [j f fs s1 fr rest E0 H1 -> Hp Hp' | j pk s1 fr E0 H1 -> Hp'].
  - clear -D E H1.
    cases_f H1; cbn [log set_thr add_log set_users set_lck set_ctr set_fol set_emp set_rdy set_ext set_cdn set_tcn inc] in E |- *.
    all: try (left; exists l1; exact E).
    all: try (destruct (D _ E) as [Q|[Q1 Q2]]; [left; exact Q|right; split; [exact Q1|congruence]]).
    destruct l1 as [|y l1]; simpl in E; [discriminate|]. injection E as _ E. destruct l1 as [|z l1]; simpl in E; [discriminate|].
    injection E as _ E. left. eauto.
  - clear -D E H1.
    cases_i H1; cbn [log set_thr add_log set_users set_lck set_ctr set_fol set_emp set_rdy set_ext set_cdn set_tcn inc] in E |- *.
    all: try (left; exists l1; exact E).
    all: destruct (D _ E) as [Q|[Q1 Q2]]; [left; exact Q|right; split; [exact Q1|congruence]].
Qed.

(** ** Schedules with a given order in every list *)
Section Ranked.
  Context (P : prog) {U : front} (W : wfc P U) (NW : p_wrap P = false).

  (** [p] is complete before the body of [t] is handed out *)
  Definition ahead (l : list lev) (p t : nat) : Prop := exists l1 l2, l = l1 ++ LExec t :: l2 /\ In (LReach (EPost p)) l2.

  Lemma mr_ahead n s r p t l1 l2 : mreach P U n s -> log s = l1 ++ LExec t :: l2 -> ser_on P r p t ->
    (rk U r p < rk U r t)%nat -> sp s p -> In (LReach (EPost p)) l2.
  Proof.
    intros R. revert l1. induction R as [|s i k s' R IH G PO H]; intros l1 E S Lt Hp; [destruct l1; discriminate|].
    assert (R' := mreach_step P U n s i k s' R G PO H). assert (I' := mreach_Inv P W NW n s' R'). assert (I := mreach_Inv P W NW n s R).
    assert (M := step_moves P s i k s' H).
    destruct (step_exec P s i k s' t l1 l2 H E) as [(l & Q)|(Q1 & Q2)].
    - apply (IH l Q S Lt).
      assert (Ex : 1 <= zsum (v_exec t) (log s)) by (apply in_exec; rewrite Q; apply in_or_app; simpl; auto).
      assert (Pt := f_exec_init P s I t).
      destruct (past_sub P W s t I) as [Ht NS]; [signs t s; lia|].
      eapply (sp_back P W s s' p t r); eauto; [apply S|eapply ser_on_left; eauto|eapply ser_on_right; eauto].
    - assert (Ex : 1 <= zsum (v_exec t) (log s')) by (apply in_exec; rewrite Q2; simpl; auto).
      assert (RC := i_order P s' I' t Ex r p Lt Hp S). apply in_reach in RC. rewrite Q2 in RC. destruct RC as [RC|RC]; [discriminate|exact RC].
  Qed.

  Lemma mr_ahead_ex n s r p t : mreach P U n s -> started s t -> ser_on P r p t -> (rk U r p < rk U r t)%nat -> sp s p -> ahead (log s) p t.
  Proof.
    intros R St S Lt Hp. apply in_split in St as (l1 & l2 & E). exists l1, l2. split; auto. eapply mr_ahead; eauto.
  Qed.

  Lemma exec_nodup n s : mreach P U n s -> NoDup (execs (log s)).
  Proof.
    intros R. assert (I := mreach_Inv P W NW n s R). apply (NoDup_count_occ Nat.eq_dec). intros t.
    assert (B := f_exec P s I t).
    assert (E : Z.of_nat (count_occ Nat.eq_dec (execs (log s)) t) = zsum (v_exec t) (log s)).
    { clear. induction (log s) as [|x l IH]; [reflexivity|]. cbn [zsum]. rewrite <- IH.
      destruct x; simpl; try lia. rewrite count_occ_app. simpl. unfold ni. destruct (Nat.eq_dec t0 t) as [->|d].
      - rewrite Nat.eqb_refl. simpl. lia.
      - destruct (Nat.eqb_spec t0 t); [easy|]. simpl. lia. }
    lia.
  Qed.

  (** [p] complete when [t] was handed out: its body was handed out before *)
  Lemma ahead_rank n s p t : mreach P U n s -> ahead (log s) p t -> (rk_of (execs (log s)) p < rk_of (execs (log s)) t)%nat.
  Proof.
    intros R (l1 & l2 & E & Hr). assert (ND := exec_nodup n s R).
    assert (Hp : In (LExec p) l2).
    { revert l1 E. clear -R Hr W NW. induction R as [|s i k s' R IH G PO H]; intros l1 E; [destruct l1; discriminate|].
      destruct (step_exec P s i k s' t l1 l2 H E) as [(l & Q)|(Q1 & Q2)]; [exact (IH l Q)|].
      assert (I := mreach_Inv P W NW n s R). rewrite <- Q1 in Hr |- *. apply in_reach in Hr. apply in_exec. now apply (rc_exec P s I). }
    rewrite E, execs_app in *. simpl in *. rewrite <- app_assoc in *. simpl in *.
    apply execs_in in Hp. rewrite rk_of_app by auto. apply rk_of_in in Hp.
    assert (Nt : ~ In t (execs l2)).
    { apply NoDup_remove_2 in ND. intros Q. apply ND, in_or_app. auto. }
    pose proof (rk_of_far (execs l2) (t :: execs l1) t Nt). lia.
  Qed.

  (** of two conflicting tasks whose bodies were handed out, one was complete before *)
  Lemma mr_one_ahead n s p t : mreach P U n s -> started s p -> started s t -> p <> t -> parent P p = parent P t ->
    tasks_conflict P p t -> ahead (log s) p t \/ ahead (log s) t p.
  Proof.
    intros R Sp St D E C. destruct (conflict_on P W p t E C) as [r S].
    assert (X : forall a, started s a -> sp s a) by (intros a Ha; apply in_exec in Ha; exact (mr_exec_sp P W NW n s a R Ha)).
    assert (S2 : ser_on P r t p).
    { destruct S as (Ep & a & b & Ha & Hb & Hr & S). split; [easy|]. exists b, a. repeat split; auto.
      - apply ra_is_serial_inv in S as [S _]. congruence.
      - now rewrite ra_is_serial_sym. }
    destruct (lt_eq_lt_dec (rk U r p) (rk U r t)) as [[L|L]|L].
    - left. eapply mr_ahead_ex; eauto.
    - apply (m_rank P W) in L. easy.
    - right. eapply mr_ahead_ex; eauto.
  Qed.

  Lemma ahead_done n s p t : mreach P U n s -> ahead (log s) p t -> completed s p.
  Proof. intros _ (l1 & l2 & E & H). unfold completed. rewrite E. apply in_or_app. simpl. auto. Qed.

  Lemma ahead_app l1 l p t : ahead l p t -> ahead (l1 ++ l) p t.
  Proof. intros (a & b & -> & H). exists (l1 ++ a), b. now rewrite <- app_assoc. Qed.

  (** the conflicting operations come in the order in which the bodies were handed out *)
  Lemma mr_pairs_exec n s : flat P -> behaved P -> mreach P U n s ->
    ForallOrdPairs (inv_free (rk_of (execs (log s)))) (performed (log s)).
  Proof.
    intros F BH R0.
    assert (X : ForallOrdPairs (fun x y => acts_conflict (snd x) (snd y) -> fst x = fst y \/ ahead (log s) (fst x) (fst y)) (performed (log s))).
    { induction R0 as [|s i c s' R IH G PO H]; [constructor|].
      assert (I := mreach_Inv P W NW n s R). assert (M := step_moves P s i c s' H).
      assert (MONO : forall l1 l, ForallOrdPairs (fun x y : nat * act => acts_conflict (snd x) (snd y) -> fst x = fst y \/ ahead (log s) (fst x) (fst y)) l ->
                     ForallOrdPairs (fun x y => acts_conflict (snd x) (snd y) -> fst x = fst y \/ ahead (l1 ++ log s) (fst x) (fst y)) l).
      { intros l1 l. induction 1 as [|x l Q QQ IQ]; constructor; auto. eapply Forall_impl; [|exact Q]. intros y A C.
        destruct (A C) as [?|?]; auto. right. now apply ahead_app. }
      assert (M1 := fun l => MONO [l]).
      destruct M as [j f fs s1 fr rest E H1 -> Hp Hp' | j pk s1 fr E H1 -> Hp'].
      - assert (Hf : In f (frames s)) by (apply (Permutation_in _ (Permutation_sym Hp)); now left).
        assert (X : forall q a s0, f = FBody (Some q) (IAct a :: s0) ->
          ForallOrdPairs (fun x y => acts_conflict (snd x) (snd y) -> fst x = fst y \/ ahead (LAct (Some q) a :: log s) (fst x) (fst y)) (performed (log s) ++ [(q, a)])).
        { intros q a s0 ->. apply fop_snoc; [apply (M1 (LAct (Some q) a)); auto|]. intros [t b] Ht C. simpl in *.
          apply in_performed in Ht. destruct (mr_done_body P W NW n s t b R Ht) as [Hb Ex].
          assert (Q : is_body (Some q) (FBody (Some q) (IAct a :: s0)) = 1) by (simpl; now rewrite Nat.eqb_refl).
          assert (Ha : In (IAct a) (body P (Some q))).
          { eapply (piece_In P W). exact (law_suffix P s (i_laws P s I) _ Hf). }
          assert (B1 : 1 <= zsum (is_body (Some q)) (frames s)) by (rewrite <- Q; apply in_w; auto; intro; apply w_nn4).
          apply (body_facts P s I) in B1. destruct B1 as (_ & B2 & _ & B3).
          destruct (Nat.eq_dec t q) as [|d]; [now left|right]. apply (ahead_app [_]).
          assert (S1 : sp s t) by (eapply (mr_exec_sp P W NW); eauto). assert (S2 : sp s q) by (eapply (mr_exec_sp P W NW); eauto; lia).
          destruct (mr_one_ahead n s t q R) as [A|A]; auto.
          - now apply in_exec.
          - apply in_exec. lia.
          - rewrite (mr_flat_parent P W NW n s t), (mr_flat_parent P W NW n s q); auto.
          - eapply acts_tasks; eauto.
          - exfalso. apply (ahead_done n s q t R) in A. apply (mr_completed_ended P W NW n s q R) in A. apply in_end in A. lia. }
        specialize (M1) as M1'. assert (M0 := MONO []). assert (M2 := fun a b => MONO [a; b]).
        clear -IH H1 X M1 M0 M2.
        cases_f H1; cbn [log set_thr add_log set_users set_lck set_ctr set_fol set_emp set_rdy set_ext set_cdn set_tcn inc performed] in *; auto.
        all: try (apply (M1 _ _ IH)). all: try (apply (M2 _ _ _ IH)). all: try (apply (M1 _ _ IH)).
        eapply X; eauto.
      - assert (M0 := MONO []). clear -IH H1 M1 M0. cases_i H1; cbn [log set_thr add_log set_users set_lck set_ctr set_fol set_emp set_rdy set_ext set_cdn set_tcn inc performed] in *; auto.
        all: apply (M1 _ _ IH). }
    induction X as [|x l Q QQ IQ]; constructor; auto. eapply Forall_impl; [|exact Q]. intros y A Lt C.
    destruct (A C) as [e|e]; [rewrite e in Lt; lia|]. apply (ahead_rank n s _ _ R0) in e. lia.
  Qed.
End Ranked.

(** ** Every execution has an order in every list *)
Section Free.
  Context (P : prog) (ms : list (list instr)) (W : wf_any P ms) (NW : p_wrap P = false) (n : nat).
  Context (ND : forall t, NoDup (uniq P t)).
  Notation FF := (fun ord : nat -> list nat => mkFront ms (fun r => rk_of (ord r))).

  Lemma wff ord : wfc P (FF ord).
  Proof. apply wf_rankc; auto. intros r. apply rk_of_inj. Qed.

  (** where thread and body code stands: every task before it is in its lists *)
  Definition placed (ord : nat -> list nat) (f : frame) : Prop :=
    match f with
    | FBody o is => exists m pre, code P (FF ord) o m /\ m = pre ++ is /\ forall c r, In c (spawns pre) -> In r (uniq P c) -> In c (ord r)
    | FSub o t _ is => exists m pre, code P (FF ord) o m /\ m = pre ++ ISpawn t :: is /\ forall c r, In c (spawns pre) -> In r (uniq P c) -> In c (ord r)
    | _ => True
    end.

  Record entry (s : state) (ord : nat -> list nat) : Prop := {
    e_mreach : forall tl, mreach P (FF (fun r => ord r ++ tl r)) n s;
    e_in : forall r t, In t (ord r) <-> In r (uniq P t) /\ pushed s t r;
    e_nodup : forall r, NoDup (ord r);
    e_placed : forall f, In f (frames s) -> placed ord f;
    e_thread : forall p t r, comes_before P ms p t -> In t (ord r) -> In r (uniq P p) -> In p (ord r) /\ (rk_of (ord r) p < rk_of (ord r) t)%nat
  }.

  Lemma mreach_ext r1 r2 s : (forall k t, r1 k t = r2 k t) -> mreach P (mkFront ms r1) n s -> mreach P (mkFront ms r2) n s.
  Proof.
    intros E R. induction R as [|s i c s' R IH G PO H].
    - exact (mreach_init P (mkFront ms r2) n).
    - apply (mreach_step P _ n s i c s'); auto. intros o t r rs is fs Q p Hp Lt Hr. apply (PO o t r rs is fs Q p Hp); auto.
      simpl in *. now rewrite !E.
  Qed.

  Lemma entry_mreach s ord : entry s ord -> mreach P (FF ord) n s.
  Proof.
    intros O. apply (mreach_ext (fun r => rk_of (ord r ++ []))); [|exact (e_mreach s ord O (fun _ => []))].
    intros k t. now rewrite app_nil_r.
  Qed.
  Lemma entry_Inv s ord : entry s ord -> Inv P (FF ord) s.
  Proof. intros O. exact (mreach_Inv P (wff ord) NW n s (entry_mreach s ord O)). Qed.

  Lemma e_sub_one s ord o t rs is rest : entry s ord -> Permutation (frames s) (FSub o t rs is :: rest) ->
    forall o' rs' is', ~ In (FSub o' t rs' is') rest.
  Proof.
    intros O Hp o' rs' is' Hi. assert (I := entry_Inv s ord O).
    assert (Hf : In (FSub o t rs is) (frames s)) by (apply (Permutation_in _ (Permutation_sym Hp)); now left).
    destruct (sub_facts P (wff ord) s _ _ _ _ I Hf) as (_ & Q & _).
    rewrite (zsum_perm _ _ _ Hp) in Q. cbn [zsum] in Q.
    assert (w_sub t (FSub o' t rs' is') <= zsum (w_sub t) rest) by (apply zsum_ge; auto; intros; apply w_nn).
    simpl in *. rewrite ni_refl in *. lia.
  Qed.

  Lemma code_any ord ord' o m : code P (FF ord) o m -> code P (FF ord') o m.
  Proof. now destruct o. Qed.

  Lemma entry_init : entry (init_many P ms n) (fun _ => []).
  Proof.
    assert (F := frames_init P (U := FF (fun _ => [])) n). simpl in F.
    split; try easy.
    - intros tl. exact (mreach_init P (FF tl) n).
    - intros r t. split; [easy|]. intros (_ & [Q _]). unfold sp in Q. simpl in Q. lia.
    - intros r. constructor.
    - intros f Hf. rewrite F in Hf. apply in_map_iff in Hf as (m & <- & Hm). exists m, []. repeat split; auto; easy.
  Qed.

  Lemma enters_in s i r t : In t (enters s i r) -> exists o rs is fs, nth_error (thr s) i = Some (FSub o t (r :: rs) is :: fs) /\ enters s i r = [t].
  Proof.
    unfold enters. destruct (nth_error (thr s) i) as [[|[] fs]|] eqn:E; try easy.
    destruct rs as [|x rs]; [easy|]. destruct (Nat.eqb_spec x r) as [->|d]; [|easy]. intros [->|[]]. eauto 8.
  Qed.

  Lemma entry_push s ord i : entry s ord -> forall tl, push_ok P (FF (fun r => (ord r ++ enters s i r) ++ tl r)) s i.
  Proof.
    intros O tl o t r rs is fs E p Hp Lt Hr. simpl in Lt. assert (I := entry_Inv s ord O).
    assert (En : enters s i r = [t]) by (unfold enters; rewrite E, Nat.eqb_refl; reflexivity).
    assert (Hf : In (FSub o t (r :: rs) is) (frames s)).
    { unfold frames. apply in_concat. eexists. split; [exact (nth_error_In _ _ E)|now left]. }
    assert (N : ~ In t (ord r)).
    { intros Q. apply (e_in s ord O) in Q as [_ [_ Q]]. apply (Q _ _ _ Hf). now left. }
    rewrite En in Lt. apply rank_place in Lt; [|apply in_or_app; simpl; auto]. rewrite rk_of_new in Lt by auto.
    assert (Q : In p (ord r)).
    { destruct (in_dec Nat.eq_dec p (ord r)) as [Q|Q]; auto. pose proof (rk_of_far (ord r) [t] p Q). lia. }
    apply (e_in s ord O) in Q as [_ [A1 A2]]. split; [now apply in_spawn|exact A2].
  Qed.

  Lemma entry_step s ord i c s' : entry s ord -> end_ok P s i -> step P s i c = Some s' ->
    entry s' (fun r => ord r ++ enters s i r).
  Proof.
    intros O G H. assert (I := entry_Inv s ord O). assert (M := step_moves P s i c s' H).
    assert (Top : forall f fs, nth_error (thr s) i = Some (f :: fs) -> In f (frames s)).
    { intros f fs E. unfold frames. apply in_concat. eexists. split; [exact (nth_error_In _ _ E)|now left]. }
    assert (MR : forall tl, mreach P (FF (fun r => (ord r ++ enters s i r) ++ tl r)) n s').
    { intros tl. apply (mreach_step P _ n s i c s'); auto; [|now apply entry_push].
      apply (mreach_ext (fun r => rk_of (ord r ++ (enters s i r ++ tl r)))); [intros; now rewrite app_assoc|].
      exact (e_mreach s ord O (fun r => enters s i r ++ tl r)). }
    assert (NEW : forall r t, In t (enters s i r) -> ~ In t (ord r) /\ In r (uniq P t)).
    { intros r t Ht. destruct (enters_in s i r t Ht) as (o & rs & is & fs & E & _). assert (Hf := Top _ _ E). split.
      - intros Q. apply (e_in s ord O) in Q as [_ [_ Q]]. apply (Q _ _ _ Hf). now left.
      - destruct (i_frames P s I _ Hf) as [[pre Q] _]. rewrite Q. apply in_or_app. simpl. auto. }
    assert (IN : forall r t, In t (ord r ++ enters s i r) <-> In r (uniq P t) /\ pushed s' t r).
    { intros r t. split.
      - intros Q. apply in_app_or in Q as [Q|Q].
        + apply (e_in s ord O) in Q as [Q1 Q2]. split; auto. now apply (pushed_mono P (wff ord) s s' t r I M).
        + destruct (NEW r t Q) as [_ Hr]. split; auto. destruct (enters_in s i r t Q) as (o & rs & is & fs & E & _).
          assert (Hf := Top _ _ E). destruct (sub_facts P (wff ord) s _ _ _ _ I Hf) as (S1 & _).
          split; [eapply sp_mono; eauto|].
          destruct (step_smoves P s i c s' H) as [o1 x is1 fs1 rest E1 Hp Hp' El | o1 x r1 rs1 is1 fs1 rest E1 Hp Hp' El | o1 x is1 fs1 rest E1 Hp Hp' El | [_ SE] EL EF _].
          * rewrite E in E1. discriminate.
          * rewrite E in E1. injection E1 as <- <- <- <- <- <-. intros o2 rs2 is2 Hi Hr2.
            apply (Permutation_in _ Hp') in Hi as [Hi|Hi].
            -- injection Hi as <- <- <-. specialize (ND t). destruct (i_frames P s I _ Hf) as [[pre Q2] _]. rewrite Q2 in ND.
               apply NoDup_remove_2 in ND. apply ND, in_or_app. auto.
            -- exact (e_sub_one s ord _ _ _ _ _ O Hp _ _ _ Hi).
          * rewrite E in E1. discriminate.
          * destruct (SE _ _ _ _ _ E).
      - intros [Hr [Q1 Q2]]. apply in_spawn in Q1. apply in_or_app.
        destruct (step_smoves P s i c s' H) as [o x is fs rest E Hp Hp' El | o x r1 rs is fs rest E Hp Hp' El | o x is fs rest E Hp Hp' El | [_ SE] EL EF _].
        + left. apply (e_in s ord O). split; auto. rewrite El in Q1. destruct (Nat.eq_dec t x) as [->|d].
          * exfalso. eapply Q2; [|exact Hr]. apply (Permutation_in _ (Permutation_sym Hp')). now left.
          * destruct Q1 as [Q1|Q1]; [congruence|]. split; [now apply in_spawn|]. intros o2 rs2 is2 Hi. apply (Q2 o2 rs2 is2).
            apply (Permutation_in _ Hp) in Hi as [Hi|Hi]; [discriminate|]. apply (Permutation_in _ (Permutation_sym Hp')). now right.
        + rewrite El in Q1. assert (ONE := e_sub_one s ord _ _ _ _ _ O Hp). destruct (Nat.eq_dec t x) as [->|d].
          * destruct (Nat.eq_dec r1 r) as [->|e]; [right; unfold enters; rewrite E, Nat.eqb_refl; now left|left].
            apply (e_in s ord O). split; auto. split; [now apply in_spawn|]. intros o2 rs2 is2 Hi Z.
            apply (Permutation_in _ Hp) in Hi as [Hi|Hi]; [|exact (ONE _ _ _ Hi)]. injection Hi as <- <- <-.
            destruct Z as [Z|Z]; [congruence|]. eapply Q2; [|exact Z]. apply (Permutation_in _ (Permutation_sym Hp')). now left.
          * left. apply (e_in s ord O). split; auto. split; [now apply in_spawn|]. intros o2 rs2 is2 Hi. apply (Q2 o2 rs2 is2).
            apply (Permutation_in _ Hp) in Hi as [Hi|Hi]; [congruence|]. apply (Permutation_in _ (Permutation_sym Hp')). now right.
        + left. rewrite El in Q1. destruct Q1 as [Q1|Q1]; [discriminate|]. apply (e_in s ord O). split; auto. split; [now apply in_spawn|].
          intros o2 rs2 is2 Hi. apply (Permutation_in _ Hp) in Hi as [Hi|Hi].
          * now injection Hi as <- <- <- <-.
          * apply (Q2 o2 rs2 is2). apply (Permutation_in _ (Permutation_sym Hp')). now right.
        + left. apply EL in Q1. apply (e_in s ord O). split; auto. split; [now apply in_spawn|]. intros o2 rs2 is2 Hi. apply (Q2 o2 rs2 is2). now apply EF. }
    split; auto.
    - intros r. destruct (enters s i r) as [|t l] eqn:E; [rewrite app_nil_r; apply (e_nodup s ord O)|].
      destruct (enters_in s i r t) as (_ & _ & _ & _ & _ & Es); [rewrite E; now left|]. rewrite E in Es. injection Es as ->.
      apply Permutation_NoDup with (l := t :: ord r); [apply Permutation_cons_append|].
      constructor; [|apply (e_nodup s ord O)]. apply NEW. rewrite E. now left.
    - (* placed *)
      assert (OLD : forall f, In f (frames s) -> placed (fun r => ord r ++ enters s i r) f).
      { intros f Hf. assert (Q := e_placed s ord O f Hf).
        destruct f; simpl in *; auto; destruct Q as (m & pre & A & B & C); exists m, pre;
          (split; [eapply code_any; exact A|]; split; [exact B|]; intros; apply in_or_app; auto). }
      destruct (step_smoves P s i c s' H) as [o x is fs rest E Hp Hp' El | o x r rs is fs rest E Hp Hp' El | o x is fs rest E Hp Hp' El | [_ SE] EL EF EB].
      + intros f Hf. apply (Permutation_in _ Hp') in Hf as [<-|Hf].
        * exact (OLD _ (Top _ _ E)).
        * apply OLD. apply (Permutation_in _ (Permutation_sym Hp)). now right.
      + intros f Hf. apply (Permutation_in _ Hp') in Hf as [<-|Hf].
        * exact (OLD _ (Top _ _ E)).
        * apply OLD. apply (Permutation_in _ (Permutation_sym Hp)). now right.
      + intros f Hf. apply (Permutation_in _ Hp') in Hf as [<-|Hf].
        * destruct (OLD _ (Top _ _ E)) as (m & pre & C & Em & A). exists m, (pre ++ [ISpawn x]).
          rewrite <- app_assoc. split; [exact C|]. split; [exact Em|]. intros y r Hy Hr. rewrite spawns_app in Hy.
          apply in_app_or in Hy as [Hy|[<-|[]]]; auto. apply in_or_app. left. apply (e_in s ord O). split; auto.
          destruct (sub_facts P (wff ord) s _ _ _ _ I (Top _ _ E)) as (S1 & _). split; auto.
          intros o2 rs2 is2 Hi. apply (Permutation_in _ Hp) in Hi as [Hi|Hi].
          -- now injection Hi as <- <- <-.
          -- destruct (e_sub_one s ord _ _ _ _ _ O Hp _ _ _ Hi).
        * apply OLD. apply (Permutation_in _ (Permutation_sym Hp)). now right.
      + intros f Hf. destruct f; try exact Logic.I.
        * destruct (EB _ _ Hf) as [Q|[(y & Hy & Q)|(q & -> & ->)]].
          -- exact (OLD _ Q).
          -- destruct (OLD _ Q) as (m & pre & C & Em & A). exists m, (pre ++ [y]). rewrite <- app_assoc.
             split; [exact C|]. split; [exact Em|].
             intros z r Hz Hr. rewrite spawns_app in Hz. apply in_app_or in Hz as [Hz|Hz]; auto. destruct y; try easy. destruct (Hy c0 eq_refl).
          -- exists (body P (Some q)), []. repeat split; auto; easy.
        * apply EF in Hf. exact (OLD _ Hf).
    - (* order of the threads *)
      intros p t r Hb Ht Hr. apply in_app_or in Ht as [Ht|Ht].
      + destruct (e_thread s ord O p t r Hb Ht Hr) as [A1 A2]. split; [apply in_or_app; auto|].
        now rewrite !rk_of_app.
      + destruct (enters_in s i r t Ht) as (o & rs & is & fs & E & Es).
        destruct (e_placed s ord O _ (Top _ _ E)) as (m & pre & C & Em & A).
        assert (Hp := A _ r (before_place P ms W o m pre t is p (code_any ord (fun _ => []) o m C) Em Hb) Hr). split; [apply in_or_app; auto|].
        rewrite rk_of_app by auto. destruct (NEW r t Ht) as [N _]. rewrite Es, rk_of_new by auto. now apply rk_of_in.
  Qed.

  Theorem freach_entry k s ord : freach P ms n k s ord -> entry s ord.
  Proof.
    induction 1 as [|k s ord i c s' R IH G H]; [apply entry_init|]. eapply entry_step; eauto.
  Qed.

  Lemma freach_mreach k s ord : freach P ms n k s ord -> mreach P (FF ord) n s.
  Proof. intros R. apply entry_mreach. eapply freach_entry; eauto. Qed.

  (** ** Results *)
  Theorem free_exclusive k s ord p t : freach P ms n k s ord -> parent P p = parent P t -> tasks_conflict P p t -> p <> t ->
    started s p -> started s t -> ahead (log s) p t \/ ahead (log s) t p.
  Proof. intros R E C D Sp St. eapply (mr_one_ahead P (wff ord) NW n s); eauto using freach_mreach. Qed.

  Lemma started_entered k s ord t r : freach P ms n k s ord -> started s t -> In r (uniq P t) -> In t (ord r).
  Proof.
    intros R St Hr. assert (O := freach_entry k s ord R). assert (I := entry_Inv s ord O). apply in_exec in St.
    pose proof (f_exec_init P s I t) as Q.
    destruct (past_sub P (wff ord) s t I) as [A B]; [signs t s; lia|].
    apply (e_in s ord O). split; auto. split; auto. intros o rs is Hf. destruct (B _ _ _ Hf).
  Qed.

  Theorem free_thread_order k s ord p t : freach P ms n k s ord -> comes_before P ms p t -> tasks_conflict P p t ->
    started s t -> ahead (log s) p t.
  Proof.
    intros R B C St. assert (O := freach_entry k s ord R).
    assert (Ep := before_parent P ms W p t B). destruct (conflict_on P (wff ord) p t Ep C) as [r S].
    destruct (e_thread s ord O p t r B) as [Hp Lt].
    - eapply started_entered; eauto. eapply (ser_on_right P (wff ord)); eauto.
    - eapply (ser_on_left P (wff ord)); eauto.
    - apply (mr_ahead_ex P (wff ord) NW n s r p t (freach_mreach k s ord R) St S Lt).
      apply (e_in s ord O) in Hp as [_ [Hp _]]. exact Hp.
  Qed.

  Theorem free_once k s ord t : freach P ms n k s ord ->
    zsum (v_exec t) (log s) <= 1 /\ zsum (v_start t) (log s) <= 1 /\ zsum (v_end t) (log s) <= 1
    /\ (1 <= zsum (v_exec t) (log s) -> 1 <= zsum (v_init t) (log s))
    /\ zsum (w_token t) (frames s) + zsum (ni t) (rdy s) + zsum (w_run t) (frames s) + zsum (is_body (Some t)) (frames s) <= 1.
  Proof. intros R. exact (mr_once P (wff ord) NW n s t (freach_mreach k s ord R)). Qed.

  Theorem free_bounded N k s ord : bounded P N -> freach P ms n k s ord -> Z.of_nat k <= measure P N (init_many P ms n).
  Proof.
    intros BD R. assert (X : Z.of_nat k + measure P N s <= measure P N (init_many P ms n)).
    { induction R as [|k s ord i c s' R IH G H]; [simpl; lia|].
      pose proof (mr_measure_dec P (wff ord) NW N BD n s i c s' (freach_mreach k s ord R) H). lia. }
    pose proof (mr_measure_nn P (wff ord) NW N BD n s (freach_mreach k s ord R)). lia.
  Qed.

  Lemma rk_of_between (l1 l2 l3 : list nat) p t : NoDup (l1 ++ p :: l2 ++ t :: l3) -> (rk_of (l1 ++ p :: l2 ++ t :: l3) p < rk_of (l1 ++ p :: l2 ++ t :: l3) t)%nat.
  Proof.
    intros Q. assert (Sd := rk_of_sorted _ Q). revert Sd. generalize (rk_of (l1 ++ p :: l2 ++ t :: l3)). intros g Sd. clear Q.
    induction l1 as [|x l1 IH]; simpl in Sd; inversion Sd as [|? ? S1 F1]; subst; auto.
    rewrite Forall_forall in F1. apply F1. apply in_or_app. simpl. auto.
  Qed.
  (** the tasks of one thread, or of one body, enter every list in its order *)
  Lemma thread_agrees k s ord o m r l1 p l2 t l3 : freach P ms n k s ord -> match o with None => In m ms | Some q => m = body P (Some q) end ->
    NoDup (spawns m) -> In p (spawns m) -> In t (spawns m) -> ord r = l1 ++ p :: l2 ++ t :: l3 -> (rk_of (spawns m) p < rk_of (spawns m) t)%nat.
  Proof.
    intros R C NM Hp Ht E. assert (O := freach_entry k s ord R). assert (NR := e_nodup s ord O r).
    assert (In p (ord r) /\ In t (ord r)) as [Op Ot] by (rewrite E; split; [apply in_or_app; simpl; auto|apply in_or_app; simpl; rewrite in_app_iff; simpl; auto]).
    destruct (Nat.lt_trichotomy (rk_of (spawns m) p) (rk_of (spawns m) t)) as [L|[L|L]]; auto; exfalso.
    - apply rk_of_inj in L. subst t. rewrite E in NR. apply NoDup_remove_2 in NR. apply NR. rewrite !in_app_iff; simpl; auto.
    - destruct (rk_of_split (spawns m) t p NM Hp L) as (a & b & d & Es).
      assert (B : comes_before P ms t p) by (exists o, m, a, b, d; auto).
      destruct (e_thread s ord O t p r B Op) as [_ X]; [now apply (e_in s ord O) in Ot|].
      rewrite E in NR, X. apply rk_of_between in NR. lia.
  Qed.
  Lemma agree_lined k s ord f : freach P ms n k s ord -> agree P f ord ->
    exists g, forall r l1 p l2 t l3, ord r = l1 ++ p :: l2 ++ t :: l3 -> parent P p = parent P t -> (g p < g t)%nat.
  Proof.
    intros R A. exists (fun t => match parent P t with None => f t | Some q => rk_of (spawns (body P (Some q))) t end).
    intros r l1 p l2 t l3 E Ep. rewrite <- Ep. destruct (parent P p) as [q|] eqn:Eq; [|eapply A; eauto].
    assert (O := freach_entry k s ord R). assert (I := mreach_Inv P (wff ord) NW n s (freach_mreach k s ord R)).
    assert (X : forall a, In a (ord r) -> In a (spawns (body P (parent P a)))).
    { intros a Ha. apply (e_in s ord O) in Ha as [_ [Ha _]]. exact (sp_body P (wff ord) s I a Ha). }
    apply (thread_agrees k s ord (Some q) (body P (Some q)) r l1 p l2 t l3 R); auto.
    - apply (m_once P (wff ord)).
    - rewrite <- Eq. apply X. rewrite E. apply in_or_app. simpl. auto.
    - rewrite Ep. apply X. rewrite E. apply in_or_app. simpl. rewrite in_app_iff. simpl. auto.
  Qed.
  (** one thread *)
  Lemma one_agrees k s ord m : ms = [m] -> freach P ms n k s ord -> agree P (rk_of (spawns m)) ord.
  Proof.
    intros Em R r l1 p l2 t l3 E Pp Pt. assert (O := freach_entry k s ord R). assert (I := mreach_Inv P (wff ord) NW n s (freach_mreach k s ord R)).
    assert (MM : body P None = m) by (simpl; rewrite (m_main P (wff ord)); simpl; rewrite Em; simpl; apply app_nil_r).
    assert (X : forall a, In a (ord r) -> parent P a = None -> In a (spawns m)).
    { intros a Ha Hn. apply (e_in s ord O) in Ha as [_ [Ha _]]. rewrite <- MM, <- Hn. exact (sp_body P (wff ord) s I a Ha). }
    apply (thread_agrees k s ord None m r l1 p l2 t l3 R); auto.
    - rewrite Em. now left.
    - rewrite <- MM. apply (m_once P (wff ord)).
    - apply X; auto. rewrite E. apply in_or_app. simpl. auto.
    - apply X; auto. rewrite E. apply in_or_app. simpl. rewrite in_app_iff. simpl. auto.
  Qed.

  (** no deadlock if the orders of entry in the lists agree *)
  Theorem free_progress k s ord f : (forall t, ~ In IBarrier (body P (Some t))) -> no_get P -> (1 <= n)%nat -> freach P ms n k s ord ->
    agree P f ord -> stuck P s ->
    (forall t, submitted s t -> completed s t /\ (In (LGet t) (log s) \/ In (LDrop t) (log s) -> In (LFree t) (log s)))
    /\ (forall t e, In (LEvent t e) (log s) -> In (LFire t e) (log s))
    /\ forall g, In g (frames s) -> exists is, g = FBody None is /\
       (is = [] \/ exists is' t, is = IBarrier :: is' /\ submitted s t /\ parent P t = None /\
                              ~ (In (LGet t) (log s) \/ In (LDrop t) (log s))).
  Proof.
    intros NB NG N R AG K. assert (Wm : wfm P (FF ord)) by (split; [apply wff|exact NB]). destruct (agree_lined k s ord f R AG) as (g & SS). assert (O := freach_entry k s ord R). assert (MR := freach_mreach k s ord R).
    refine (mr_progress P Wm NW n s NG _ N (fun t => or_introl (ND t)) MR K).
    exists g. intros r p t Sm Hp Ht Rp Rt Lt. simpl in Lt.
    destruct (mr_stuck_calm P Wm NW n s NG N MR K) as [Q _].
    assert (X : forall a, In (LSpawn a) (log s) -> In r (uniq P a) -> In a (ord r)).
    { intros a Ha Hr. apply (e_in s ord O). split; auto. split; [now apply in_spawn|]. intros o rs is Hf. exfalso.
      assert (Z0 := calm_zero s (w_sub a) Q).
      assert (B := in_w s (w_sub a) _ (fun g => proj1 (w_nn a g)) Hf). simpl in B. rewrite ni_refl in B. rewrite Z0 in B by easy. lia. }
    destruct (rk_of_split (ord r) p t (e_nodup s ord O r) (X t Ht Rt) Lt) as (a & b & d & E). exact (SS r a p b t d E Sm).
  Qed.

  (** the result of every execution in which all tasks complete *)
  Theorem free_result k s ord : flat P -> behaved P -> freach P ms n k s ord -> (forall t, submitted s t -> completed s t) ->
    NoDup (execs (log s)) /\ (forall t, In t (execs (log s)) <-> submitted s t) /\
    forall S g m, sensible S -> same_result (exec S (performed (log s)) g m) (exec S (one_by_one P (execs (log s))) g m).
  Proof.
    intros F BH R AC. assert (MR := freach_mreach k s ord R). assert (I := mreach_Inv P (wff ord) NW n s MR).
    assert (NDE := exec_nodup P (wff ord) NW n s MR).
    assert (IN : forall t, In t (execs (log s)) <-> submitted s t).
    { intros t. rewrite execs_in. split; intros Q.
      - apply in_exec in Q. apply in_spawn. exact (mr_exec_sp P (wff ord) NW n s t MR Q).
      - apply in_exec. apply (rc_exec P s I). now apply in_reach, AC. }
    repeat split; auto; try apply IN.
    - destruct (mr_sequential P (wff ord) NW (rk_of (execs (log s))) n s S g m (execs (log s)) (mr_pairs_exec P (wff ord) NW n s F BH MR) F BH H MR) as [A _]; auto.
      + now apply rk_of_sorted.
      + intros t. symmetry. apply IN.
    - destruct (mr_sequential P (wff ord) NW (rk_of (execs (log s))) n s S g m (execs (log s)) (mr_pairs_exec P (wff ord) NW n s F BH MR) F BH H MR) as [_ A]; auto.
      + now apply rk_of_sorted.
      + intros t. symmetry. apply IN.
  Qed.

  (** what a task has seen once its body has ended *)
  Theorem free_value k s ord S g m l1 c l2 : flat P -> behaved P -> sensible S -> freach P ms n k s ord ->
    execs (log s) = l1 ++ c :: l2 -> ended s c ->
    fst (exec S (performed (log s)) g m) c = fst (exec S (one_by_one P (l1 ++ [c])) g m) c.
  Proof.
    intros F BH OK R E En. assert (MR := freach_mreach k s ord R). assert (I := mreach_Inv P (wff ord) NW n s MR).
    assert (NDE := exec_nodup P (wff ord) NW n s MR).
    apply (mr_value P (wff ord) NW (rk_of (execs (log s))) n s S g m l1 c l2 (mr_pairs_exec P (wff ord) NW n s F BH MR) BH OK MR); auto.
    - rewrite <- E. now apply rk_of_sorted.
    - rewrite <- E. intros t q St Hq C Lt. apply execs_in in Hq.
      assert (X : forall a, started s a -> sp s a) by (intros a Ha; apply in_exec in Ha; exact (mr_exec_sp P (wff ord) NW n s a MR Ha)).
      destruct (mr_one_ahead P (wff ord) NW n s t q MR St Hq) as [A|A]; auto.
      + intros ->. lia.
      + rewrite (mr_flat_parent P (wff ord) NW n s t), (mr_flat_parent P (wff ord) NW n s q); auto.
      + apply (ahead_rank P (wff ord) NW n s t q MR) in A. lia.
      + apply (mr_completed_ended P (wff ord) NW n s q MR). eapply ahead_done; eauto.
    - rewrite <- E. intros t St. now apply execs_in.
  Qed.
End Free.
