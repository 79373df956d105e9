(** Consequences of the invariant. *)
From Coq Require Import Bool List Arith NArith ZArith Lia Permutation Sorting.Sorted.
From Verif Require Import AccessModel AccessSpec AccessProof UserModel UserProof SchedModel SchedSpec SchedBase SchedInv1 SchedInv2 SchedInv3 SchedInv4 SchedInv5 SchedInv6 SchedInv7 SchedInv8 SchedFront.
Import ListNotations.
Open Scope Z_scope.

(** ** Histories and counts *)
Lemma cnt_in (v : lev -> Z) x l :
  (forall y, v y = 0 \/ (y = x /\ v y = 1)) -> v x = 1 -> (1 <= zsum v l <-> In x l).
Proof.
  intros H Hx. split.
  - intros L. assert (L' : 0 < zsum v l) by lia. apply zsum_pos_ex in L' as (y & Hy & L').
    destruct (H y) as [|[-> _]]; [lia|auto].
  - intros Hi. assert (v x <= zsum v l); [|lia]. apply zsum_ge; auto. intros y _. destruct (H y); lia.
Qed.

Ltac cnt := apply cnt_in; [ intros y; destruct y; simpl; auto; unfold ni, ce;
    repeat match goal with
    | |- context [Nat.eqb ?a ?b] => destruct (Nat.eqb_spec a b); simpl; auto
    | |- context [ev_eqb ?a ?b] => destruct (ev_eqb_spec a b); simpl; auto
    end; right; split; congruence
  | simpl; rewrite ?ni_refl, ?ce_refl, ?Nat.eqb_refl; auto ].

Lemma in_spawn t l : 1 <= zsum (v_spawn t) l <-> In (LSpawn t) l. Proof. cnt. Qed.
Lemma in_init t l : 1 <= zsum (v_init t) l <-> In (LInit t) l. Proof. cnt. Qed.
Lemma in_exec t l : 1 <= zsum (v_exec t) l <-> In (LExec t) l. Proof. cnt. Qed.
Lemma in_start t l : 1 <= zsum (v_start t) l <-> In (LStart t) l. Proof. cnt. Qed.
Lemma in_end t l : 1 <= zsum (v_end t) l <-> In (LEnd t) l. Proof. cnt. Qed.
Lemma in_reach e l : 1 <= zsum (v_reach e) l <-> In (LReach e) l. Proof. cnt. Qed.
Lemma in_take e l : 1 <= zsum (v_take e) l <-> In (LTake e) l. Proof. cnt. Qed.
Lemma in_event t e l : 1 <= zsum (v_event t e) l <-> In (LEvent t e) l. Proof. cnt. Qed.
Lemma in_fire t e l : 1 <= zsum (v_fire t e) l <-> In (LFire t e) l. Proof. cnt. Qed.
Lemma in_free t l : 1 <= zsum (v_free t) l <-> In (LFree t) l. Proof. cnt. Qed.
Lemma in_use t l : 1 <= zsum (v_use t) l <-> In (LGet t) l \/ In (LDrop t) l.
Proof.
  split.
  - intros L. assert (L' : 0 < zsum (v_use t) l) by lia. apply zsum_pos_ex in L' as (y & Hy & L').
    destruct y; simpl in L'; try lia; unfold ni in L'; destruct (Nat.eqb_spec t0 t); simpl in L'; try lia; subst; auto.
  - intros [H|H]; (assert (B := zsum_ge (v_use t) l _ (fun y _ => proj1 (proj2 (proj2 (proj2 (proj2 (proj2 (v_nn t y))))))) H));
      simpl in B; rewrite ni_refl in B; lia.
Qed.

Section Gen.
  Context (P : prog) {U : front} (W : wfc P U) (NW : p_wrap P = false).

  (** conflicting tasks are serial *)
  Lemma conflict_serial p t : tasks_conflict P p t -> user_is_serial (user P p) (user P t) = true.
  Proof.
    intros (a & b & T & va & vb & x & y & Ha & Hb & Er & Ea & Eb & Px & Py & C).
    apply user_is_serial_spec. exists a, b. split; [easy|]. split; [easy|].
    rewrite Ea, Eb. apply ra_is_serial_intro; [simpl; congruence|].
    eapply is_serial_sound; eauto.
  Qed.

  (** they meet in the list of some resource *)
  Lemma conflict_on p t : parent P p = parent P t -> tasks_conflict P p t -> exists r, ser_on P r p t.
  Proof.
    intros E C. destruct (ser_ser_on P W p t) as (r & _ & S); [|eauto]. split; auto. now apply conflict_serial.
  Qed.

  Theorem mr_order_on n s r p t : mreach P U n s -> ser_on P r p t ->
    (rk U r p < rk U r t)%nat -> submitted s p -> started s t -> completed s p.
  Proof.
    intros R S Lt Sp St. assert (I := mreach_Inv P W NW n s R).
    apply in_reach. apply (i_order P s I t) with (r := r); auto.
    - now apply in_exec.
    - now apply in_spawn.
  Qed.

  Theorem mr_order n s p t : mreach P U n s -> parent P p = parent P t -> tasks_conflict P p t ->
    (forall r, rk U r p < rk U r t)%nat -> submitted s p -> started s t -> completed s p.
  Proof. intros R Hpar C Lt. destruct (conflict_on p t Hpar C) as [r S]. eapply mr_order_on; eauto. Qed.

  Theorem mr_completed_ended n s t : mreach P U n s -> completed s t -> ended s t.
  Proof.
    intros R C. assert (I := mreach_Inv P W NW n s R). apply in_reach in C. apply (rc_end P s I) in C.
    apply in_end. lia.
  Qed.

  (** ** At most mr_once *)
  Theorem mr_once n s t : mreach P U n s ->
    zsum (v_exec t) (log s) <= 1 /\ zsum (v_start t) (log s) <= 1 /\ zsum (v_end t) (log s) <= 1
    /\ (1 <= zsum (v_exec t) (log s) -> 1 <= zsum (v_init t) (log s))
    /\ zsum (w_token t) (frames s) + zsum (ni t) (rdy s) + zsum (w_run t) (frames s) + zsum (is_body (Some t)) (frames s) <= 1.
  Proof.
    intros R. assert (I := mreach_Inv P W NW n s R).
    pose proof (f_exec P s I t). pose proof (f_start P s I t). pose proof (f_end P s I t).
    pose proof (f_exec_init P s I t). pose proof (tok_le P s I t). unfold tok in *.
    pose proof (law_exec P s (i_laws P s I) t). pose proof (law_body P s (i_laws P s I) t). lia.
  Qed.

  (** ** Links to completion events *)
  Definition w_par3 (c : nat) (f : frame) : Z := match f with FPar3 x _ => ni c x | _ => 0 end.

  Lemma mr_link_event n s t e : mreach P U n s -> In (LEvent t e) (log s) -> In (EPost t) (fol s (EExt t e)).
  Proof.
    induction 1 as [|s i c s' R IH G PO H]; [easy|]. intros Hl.
    assert (M := step_moves P s i c s' H). assert (FM := fol_mono P s s' (EExt t e) (EPost t) M).
    destruct M as [j f fs s1 fr rest E H1 -> Hp Hp' | j pk s1 fr E H1 -> Hp'].
    - clear -IH Hl FM H1. cases_f H1; simpl log in Hl;
        repeat match type of Hl with In _ (_ :: _) => destruct Hl as [Hl|Hl]; [try discriminate Hl|] end; auto.
      injection Hl as -> ->. simpl. unfold eupd. simpl. rewrite !Nat.eqb_refl. simpl. now left.
    - clear -IH Hl FM H1. cases_i H1; simpl log in Hl;
        repeat match type of Hl with In _ (_ :: _) => destruct Hl as [Hl|Hl]; [try discriminate Hl|] end; auto.
  Qed.

  Lemma mr_link_child n s c q : mreach P U n s -> parent P c = Some q ->
    1 <= zsum (v_init c) (log s) + zsum (w_ninit c) (frames s) + zsum (w_par3 c) (frames s) ->
    In (EPost q) (fol s (EPost c)).
  Proof.
    intros R. revert c q. induction R as [|s i c0 s' R IH G PO H]; intros c q Hpar L.
    - exfalso. assert (F := frames_init P (U := U) n).
      assert (Z0 : forall w : frame -> Z, (forall m, w (FBody None m) = 0) -> zsum w (map (FBody None) (mains U)) = 0).
      { intros w Hw. rewrite (zsum_map_None w (fun _ => 0) _ Hw). now apply zsum_zero. }
      rewrite F, !Z0 in L by easy. simpl in L. lia.
    - assert (I := mreach_Inv P W NW n s R).
      assert (M := step_moves P s i c0 s' H). assert (FM := fol_mono P s s' (EPost c) (EPost q) M).
      specialize (IH c q Hpar).
      destruct M as [j f fs s1 fr rest E H1 -> Hp Hp' | j pk s1 fr E H1 -> Hp'].
      + assert (Hf : In f (frames s)) by (apply (Permutation_in _ (Permutation_sym Hp)); now left).
        assert (C := collect_facts P W s I c). assert (RE := i_reach P s I (EPost c)).
        assert (IC : w_collect c f = 1 -> 1 <= zsum (w_collect c) (frames s)) by (intros; eapply in_collect; eauto).
        assert (FR := i_frames P s I f Hf).
        rewrite ?(zsum_perm _ _ _ Hp), ?(zsum_perm _ _ _ Hp'), ?zsum_app in *.
        clear Hp Hp' E H I G PO R Hf.
        cases_f H1; simpl in *; unfold ni in *; try (apply FM, IH; lia).
        * destruct (Nat.eqb_spec t c); simpl in *; [subst; congruence|apply FM, IH; lia].
        * (* FPar1 with the completion event reached: impossible *)
          destruct (Nat.eqb_spec t c); simpl in *; [|apply FM, IH; lia].
          subst. exfalso. apply Z.eqb_eq in Heqb. specialize (C ltac:(lia)). lia.
        * unfold eupd. simpl. rewrite (Nat.eqb_sym c t). destruct (Nat.eqb_spec t c); simpl in *; [|apply IH; lia].
          subst. left. destruct FR. congruence.
        * destruct e0; simpl in *; apply FM, IH; lia.
      + rewrite ?(zsum_perm _ _ _ Hp'), ?zsum_app in *. clear -IH L FM H1. cases_i H1; simpl in *; apply FM, IH; lia.
  Qed.

  (** the completion event of [t] is reached only after the events [y] it follows *)
  Lemma mr_reached_after n s t y : mreach P U n s -> rc s t -> In (EPost t) (fol s y) -> pend s y (EPost t) = 0 ->
    1 <= taken s y.
  Proof.
    intros R C Hi Hp. assert (I := mreach_Inv P W NW n s R).
    destruct (i_reach P s I (EPost t)) as [[H0 _]|]; [|unfold rc in C; lia].
    rewrite (i_acc P s I) in H0. pose proof (base_nn P W s I (EPost t)).
    nnw w_notify (EPost t) s. nnw w_follow (EPost t) s.
    assert (E0 : eff s y (EPost t) <= edges s (EPost t)).
    { unfold edges. apply (zsum_ge (fun z => eff s z (EPost t))); [intros; exact (eff_nn P s I _ _)|].
      apply ce_pos. rewrite (fol_src P W s I y _ Hi). lia. }
    pose proof (edges_nn P s I (EPost t)).
    unfold eff in E0. rewrite Hp in E0. apply ce_pos in Hi.
    destruct (Z.eqb_spec (taken s y) 0); [lia|]. pose proof (f_take P s I y). unfold taken in *. lia.
  Qed.

  Theorem mr_events_first n s t e : mreach P U n s -> completed s t -> In (LEvent t e) (log s) -> In (LFire t e) (log s).
  Proof.
    intros R C He. assert (I := mreach_Inv P W NW n s R). assert (Hl := mr_link_event n s t e R He).
    assert (T : 1 <= taken s (EExt t e)).
    { eapply (mr_reached_after n s t); eauto; [now apply in_reach|].
      pose proof (pend_nn s (EExt t e) (EPost t)). destruct (Z.eq_dec (pend s (EExt t e) (EPost t)) 0); auto.
      assert (L : 0 < pend s (EExt t e) (EPost t)) by lia. apply zsum_pos_ex in L as (g & _ & L).
      destruct g; simpl in L; lia. }
    apply in_fire. pose proof (f_take P s I (EExt t e)). unfold taken in T.
    destruct (i_reach P s I (EExt t e)) as [[H0 _]|]; [|lia].
    rewrite (i_acc P s I) in H0. simpl in H0. pose proof (edges_nn P s I (EExt t e)).
    nnw w_notify (EExt t e) s. nnw w_follow (EExt t e) s. lia.
  Qed.

  Theorem mr_children_first n s c q : mreach P U n s -> completed s q -> parent P c = Some q ->
    submitted s c -> completed s c.
  Proof.
    intros R C Hpar Hs. assert (I := mreach_Inv P W NW n s R).
    apply in_reach in C. apply in_spawn in Hs. assert (Hx := rc_end P s I q C).
    assert (Hg := i_guard P s I c q Hpar ltac:(lia)).
    assert (Hl := mr_link_child n s c q R Hpar). 
    nnw w_ninit c s. assert (0 <= zsum (w_par3 c) (frames s)).
    { apply nn_v. intros g. destruct g; simpl; try lia. apply zb_bound. }
    specialize (Hl ltac:(lia)).
    assert (T : 1 <= taken s (EPost c)).
    { eapply (mr_reached_after n s q); eauto.
      pose proof (pend_nn s (EPost c) (EPost q)). destruct (Z.eq_dec (pend s (EPost c) (EPost q)) 0); auto.
      assert (L : 0 < pend s (EPost c) (EPost q)) by lia. apply zsum_pos_ex in L as (g & Hg' & L).
      destruct g; simpl in L; try lia.
      - rewrite andb_false_r in L. simpl in L. lia.
      - destruct (Nat.eqb_spec t c); [subst|simpl in L; lia].
        pose proof (collect_facts P W s I c (in_collect s c _ Hg' (ni_refl c))). lia. }
    apply in_reach. pose proof (f_take P s I (EPost c)). unfold taken in T. lia.
  Qed.

  (** ** Release of task memory *)
  Theorem mr_free_late n s t : mreach P U n s -> In (LFree t) (log s) ->
    In (LTake (EPost t)) (log s) /\ In (LTake (ERGet t)) (log s) /\ completed s t /\
    (In (LGet t) (log s) \/ In (LDrop t) (log s)).
  Proof.
    intros R F. assert (I := mreach_Inv P W NW n s R). apply in_free in F.
    pose proof (law_free P s (i_laws P s I) t) as LF. pose proof (law_remove P s (i_laws P s I) t) as LR.
    nnw w_removing t s. pose proof (f_take P s I (EPost t)). pose proof (f_take P s I (ERGet t)).
    pose proof (f_reach P s I (EPost t)). pose proof (f_reach P s I (ERGet t)).
    destruct (Z.leb_spec 1 (cdn s t)); [lia|].
    assert (zsum (v_take (EPost t)) (log s) = 1 /\ zsum (v_take (ERGet t)) (log s) = 1) by lia.
    split; [apply in_take; lia|]. split; [apply in_take; lia|]. split; [apply in_reach; lia|].
    apply in_use. destruct (i_reach P s I (ERGet t)) as [[H0' _]|]; [|lia].
    rewrite (i_acc P s I) in H0'. simpl in H0'. pose proof (edges_nn P s I (ERGet t)).
    nnw w_notify (ERGet t) s. nnw w_follow (ERGet t) s. lia.
  Qed.

  Theorem mr_free_once n s t : mreach P U n s -> zsum (v_free t) (log s) <= 1.
  Proof.
    intros R. assert (I := mreach_Inv P W NW n s R). rewrite (law_free P s (i_laws P s I) t).
    destruct (_ <=? _); lia.
  Qed.

  (** task count of a space: the tasks submitted there and not yet released *)
  Lemma mr_free_le n s x : mreach P U n s -> zsum (v_free x) (log s) <= zsum (v_spawn x) (log s).
  Proof.
    intros R. assert (I := mreach_Inv P W NW n s R).
    pose proof (mr_free_once n s x R). pose proof (f_spawn P W s I x).
    destruct (Z_lt_le_dec (zsum (v_free x) (log s)) 1) as [l|l]; [nnv v_free x s; lia|].
    apply in_free in l. apply (mr_free_late n s x R) in l as (_ & _ & l & _).
    apply in_reach in l. apply (rc_exec P s I) in l. pose proof (f_exec_init P s I x). pose proof (f_phase P s I x). lia.
  Qed.

  Lemma mr_tcn_sum n s o : mreach P U n s -> exists names,
    (forall t, submitted s t -> In t names) /\
    tcn s o = zsum (fun x => zb (onat_eqb (parent P x) o) * (zsum (v_spawn x) (log s) - zsum (v_free x) (log s))) names.
  Proof.
    intros R. assert (I := mreach_Inv P W NW n s R).
    rewrite (law_tcn P s (i_laws P s I)).
    (* sum over the finite set of names occurring in the log *)
    set (names := nodup Nat.eq_dec (flat_map (fun l => match l with LSpawn x | LFree x => [x] | _ => [] end) (log s))).
    assert (SUM : forall l, incl (flat_map (fun l => match l with LSpawn x | LFree x => [x] | _ => [] end) l) names ->
       zsum (fun l => match l with
                      | LSpawn c => zb (onat_eqb (parent P c) o)
                      | LFree c => - zb (onat_eqb (parent P c) o)
                      | _ => 0
                      end) l
       = zsum (fun x => zb (onat_eqb (parent P x) o) * (zsum (v_spawn x) l - zsum (v_free x) l)) names).
    { assert (ND : NoDup names) by apply NoDup_nodup.
      assert (ONE : forall x (g : nat -> Z), In x names -> zsum (fun y => g y * ni y x) names = g x).
      { intros x g Hx. clear -ND Hx. induction ND as [|a l Ha ND IH]; [easy|]. simpl.
        unfold ni at 1. destruct (Nat.eqb_spec x a).
        - subst. simpl. rewrite zsum_zero; [lia|]. intros y Hy. unfold ni. destruct (Nat.eqb_spec a y); [subst; easy|simpl; lia].
        - destruct Hx as [->|Hx]; [easy|]. rewrite (IH Hx). simpl. lia. }
      induction l as [|a l IH]; intros Hin.
      - simpl. symmetry. apply zsum_zero. intros. lia.
      - cbn [zsum]. rewrite IH.
        2: { intros x Hx. apply Hin. simpl. apply in_or_app. auto. }
        destruct a; try (rewrite Z.add_0_l; apply zsum_ext; intros; cbn [v_spawn v_free]; lia).
        + rewrite <- (ONE t (fun y => zb (onat_eqb (parent P y) o))) by (apply Hin; simpl; auto).
          rewrite <- zsum_plus. apply zsum_ext. intros. cbn [v_spawn v_free]. lia.
        + rewrite <- (ONE t (fun y => zb (onat_eqb (parent P y) o))) by (apply Hin; simpl; auto).
          replace (- zsum (fun y => zb (onat_eqb (parent P y) o) * ni y t) names)
            with (zsum (fun y => - (zb (onat_eqb (parent P y) o) * ni y t)) names).
          2: { generalize names. clear. intros l0. induction l0; simpl; lia. }
          rewrite <- zsum_plus. apply zsum_ext. intros. cbn [v_spawn v_free]. lia. }
    exists names. split.
    - intros t Ht. apply nodup_In. apply in_flat_map. exists (LSpawn t). split; [easy|simpl; auto].
    - apply SUM. intros x Hx. apply nodup_In. exact Hx.
  Qed.

  Theorem mr_empty_all_free n s o : mreach P U n s -> tcn s o = 0 ->
    forall t, parent P t = o -> submitted s t -> In (LFree t) (log s).
  Proof.
    intros R H0 t Hpar Hs. destruct (mr_tcn_sum n s o R) as (names & Hn & E). rewrite H0 in E. specialize (Hn t Hs).
    apply in_spawn in Hs.
    assert (G := zsum_ge (fun x => zb (onat_eqb (parent P x) o) * (zsum (v_spawn x) (log s) - zsum (v_free x) (log s))) names t).
    rewrite <- E in G. cbv beta in G. rewrite Hpar in G.
    destruct (onat_eqb_spec o o); [|easy]. simpl zb in G.
    apply in_free. assert (zsum (v_spawn t) (log s) - zsum (v_free t) (log s) <= 0); [|lia].
    assert (1 * (zsum (v_spawn t) (log s) - zsum (v_free t) (log s)) <= 0); [|lia]. apply G; auto.
    intros y _. pose proof (mr_free_le n s y R). pose proof (zb_bound (onat_eqb (parent P y) o)). nia.
  Qed.

  Lemma mr_count_nonzero n s o : mreach P U n s -> tcn s o <> 0 ->
    exists t, submitted s t /\ parent P t = o /\ ~ In (LFree t) (log s).
  Proof.
    intros R H0. destruct (mr_tcn_sum n s o R) as (names & Hn & E).
    assert (G : 0 < tcn s o).
    { rewrite E in *. assert (0 <= zsum (fun x => zb (onat_eqb (parent P x) o) * (zsum (v_spawn x) (log s) - zsum (v_free x) (log s))) names); [|lia].
      apply zsum_nonneg. intros y _. pose proof (mr_free_le n s y R). pose proof (zb_bound (onat_eqb (parent P y) o)). nia. }
    rewrite E in G. apply zsum_pos_ex in G as (t & _ & G). exists t.
    destruct (onat_eqb_spec (parent P t) o); [|simpl in G; lia]. simpl in G.
    pose proof (f_spawn P W s (mreach_Inv P W NW n s R) t). nnv v_free t s.
    repeat split; auto.
    - apply in_spawn. lia.
    - rewrite <- in_free. lia.
  Qed.
End Gen.

Section Thm.
  Context (P : prog) (W : wfa P) (NW : p_wrap P = false).

  (** in flat programs every schedule is guarded *)
  Lemma flat_greach n s : flat P -> reach P n s -> greach P n s.
  Proof.
    intros F R. induction R as [|s i c s' R IH H]; [constructor|].
    econstructor; eauto. intros q fs _ c' Hc Hs. exfalso.
    assert (I := greach_Inv P W NW n s IH). apply in_spawn in Hs.
    apply (sp_body P W s I) in Hs. rewrite Hc, F in Hs. easy.
  Qed.

  (** tasks of one space are submitted in the order of their names *)
  Fixpoint spawned (l : list lev) : list nat :=
    match l with [] => [] | LSpawn t :: l => t :: spawned l | _ :: l => spawned l end.

  Lemma spawned_app l m : spawned (l ++ m) = spawned l ++ spawned m.
  Proof. induction l as [|[] l IH]; simpl; auto. now rewrite IH. Qed.

  Lemma spawned_In l t : In t (spawned l) <-> In (LSpawn t) l.
  Proof.
    induction l as [|[] l IH]; simpl; try tauto; try (rewrite IH; split; [auto|intros [H|H]; [discriminate|auto]]).
    rewrite IH. split; intros [H|H]; auto; left; congruence.
  Qed.

  Definition snewer (x y : nat) : Prop := parent P x = parent P y -> (y < x)%nat.

  Lemma spawned_sorted n s : greach P n s -> StronglySorted snewer (spawned (log s)).
  Proof.
    induction 1 as [|s i c s' R IH G H]; [constructor|].
    assert (I := greach_Inv P W NW n s R). assert (M := step_moves P s i c s' H).
    destruct M as [j f fs s1 fr rest E H1 -> Hp Hp' | j pk s1 fr E H1 -> Hp'].
    - assert (Hf : In f (frames s)) by (apply (Permutation_in _ (Permutation_sym Hp)); now left).
      assert (SP : forall o x is, f = FBody o (ISpawn x :: is) -> StronglySorted snewer (x :: spawned (log s))).
      { intros o x is ->. constructor; auto. apply Forall_forall. intros y Hy Epar.
        apply spawned_In, in_spawn in Hy. destruct (spawn_facts P W s I _ _ _ Hf) as [Ex _].
        eapply body_order; eauto. congruence. }
      clear - IH H1 SP. cases_f H1; simpl; eauto.
    - cases_i H1; simpl; auto.
  Qed.

  Lemma before_lt n s p t : greach P n s -> parent P p = parent P t -> before s p t -> (p < t)%nat.
  Proof.
    intros R Hpar (l1 & l2 & l3 & E). assert (S := spawned_sorted n s R).
    rewrite E, spawned_app in S. simpl in S. rewrite spawned_app in S. simpl in S.
    apply sorted_mid in S. apply S. auto.
  Qed.

  Lemma before_sp s p t : before s p t -> sp s p /\ sp s t.
  Proof.
    intros (l1 & l2 & l3 & E). unfold sp. split; apply in_spawn; rewrite E; apply in_or_app; simpl; [|auto].
    right. right. apply in_or_app. simpl. auto.
  Qed.

  Theorem order n s p t : greach P n s -> parent P p = parent P t -> tasks_conflict P p t ->
    before s p t -> started s t -> completed s p.
  Proof.
    intros R Hpar C B St. apply (mr_order P W NW n s p t (greach_mreach P W NW n s R)); auto.
    - intros r. eapply before_lt; eauto.
    - apply in_spawn. now apply (before_sp s p t).
  Qed.

  Theorem completed_ended n s t : greach P n s -> completed s t -> ended s t.
  Proof. intros R. exact (mr_completed_ended P W NW n s t (greach_mreach P W NW n s R)). Qed.

  Theorem once n s t : greach P n s ->
    zsum (v_exec t) (log s) <= 1 /\ zsum (v_start t) (log s) <= 1 /\ zsum (v_end t) (log s) <= 1
    /\ (1 <= zsum (v_exec t) (log s) -> 1 <= zsum (v_init t) (log s))
    /\ zsum (w_token t) (frames s) + zsum (ni t) (rdy s) + zsum (w_run t) (frames s) + zsum (is_body (Some t)) (frames s) <= 1.
  Proof. intros R. exact (mr_once P W NW n s t (greach_mreach P W NW n s R)). Qed.

  Lemma link_event n s t e : greach P n s -> In (LEvent t e) (log s) -> In (EPost t) (fol s (EExt t e)).
  Proof.
    induction 1 as [|s i c s' R IH G H]; [easy|]. intros Hl.
    assert (M := step_moves P s i c s' H). assert (FM := fol_mono P s s' (EExt t e) (EPost t) M).
    destruct M as [j f fs s1 fr rest E H1 -> Hp Hp' | j pk s1 fr E H1 -> Hp'].
    - clear -IH Hl FM H1. cases_f H1; simpl log in Hl;
        repeat match type of Hl with In _ (_ :: _) => destruct Hl as [Hl|Hl]; [try discriminate Hl|] end; auto.
      injection Hl as -> ->. simpl. unfold eupd. simpl. rewrite !Nat.eqb_refl. simpl. now left.
    - clear -IH Hl FM H1. cases_i H1; simpl log in Hl;
        repeat match type of Hl with In _ (_ :: _) => destruct Hl as [Hl|Hl]; [try discriminate Hl|] end; auto.
  Qed.

  Lemma link_child n s c q : greach P n s -> parent P c = Some q ->
    1 <= zsum (v_init c) (log s) + zsum (w_ninit c) (frames s) + zsum (w_par3 c) (frames s) ->
    In (EPost q) (fol s (EPost c)).
  Proof. intros R. exact (mr_link_child P W NW n s c q (greach_mreach P W NW n s R)). Qed.

  Lemma reached_after n s t y : greach P n s -> rc s t -> In (EPost t) (fol s y) -> pend s y (EPost t) = 0 ->
    1 <= taken s y.
  Proof. intros R. exact (mr_reached_after P W NW n s t y (greach_mreach P W NW n s R)). Qed.

  Theorem events_first n s t e : greach P n s -> completed s t -> In (LEvent t e) (log s) -> In (LFire t e) (log s).
  Proof. intros R. exact (mr_events_first P W NW n s t e (greach_mreach P W NW n s R)). Qed.

  Theorem children_first n s c q : greach P n s -> completed s q -> parent P c = Some q ->
    submitted s c -> completed s c.
  Proof. intros R. exact (mr_children_first P W NW n s c q (greach_mreach P W NW n s R)). Qed.

  Theorem free_late n s t : greach P n s -> In (LFree t) (log s) ->
    In (LTake (EPost t)) (log s) /\ In (LTake (ERGet t)) (log s) /\ completed s t /\
    (In (LGet t) (log s) \/ In (LDrop t) (log s)).
  Proof. intros R. exact (mr_free_late P W NW n s t (greach_mreach P W NW n s R)). Qed.

  Theorem free_once n s t : greach P n s -> zsum (v_free t) (log s) <= 1.
  Proof. intros R. exact (mr_free_once P W NW n s t (greach_mreach P W NW n s R)). Qed.

  Lemma free_le n s x : greach P n s -> zsum (v_free x) (log s) <= zsum (v_spawn x) (log s).
  Proof. intros R. exact (mr_free_le P W NW n s x (greach_mreach P W NW n s R)). Qed.

  Lemma tcn_sum n s o : greach P n s -> exists names,
    (forall t, submitted s t -> In t names) /\
    tcn s o = zsum (fun x => zb (onat_eqb (parent P x) o) * (zsum (v_spawn x) (log s) - zsum (v_free x) (log s))) names.
  Proof. intros R. exact (mr_tcn_sum P W NW n s o (greach_mreach P W NW n s R)). Qed.

  Theorem empty_all_free n s o : greach P n s -> tcn s o = 0 ->
    forall t, parent P t = o -> submitted s t -> In (LFree t) (log s).
  Proof. intros R. exact (mr_empty_all_free P W NW n s o (greach_mreach P W NW n s R)). Qed.

  Lemma count_nonzero n s o : greach P n s -> tcn s o <> 0 ->
    exists t, submitted s t /\ parent P t = o /\ ~ In (LFree t) (log s).
  Proof. intros R. exact (mr_count_nonzero P W NW n s o (greach_mreach P W NW n s R)). Qed.
End Thm.
