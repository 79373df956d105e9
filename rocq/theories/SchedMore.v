(** Counting of notifications; 16-bit counters. *)
From Coq Require Import Bool List Arith NArith ZArith Lia Permutation Sorting.Sorted.
From Verif Require Import AccessModel AccessSpec AccessProof UserModel UserProof SchedModel SchedSpec SchedBase SchedInv1 SchedInv2 SchedInv3 SchedInv4 SchedInv5 SchedInv6 SchedInv7 SchedInv8 SchedFront SchedThm SchedLive SchedTerm.
Import ListNotations.
Open Scope Z_scope.

Section More.
  Context (P : prog) (W : wfa P) (NW : p_wrap P = false).

  Lemma len_filter {A} (b : A -> bool) (w : A -> Z) l : (forall x, In x l -> w x = zb (b x)) -> Z.of_nat (length (filter b l)) = zsum w l.
  Proof.
    induction l as [|x l IH]; intros H; [reflexivity|]. cbn [filter zsum].
    rewrite (H x) by (simpl; auto). rewrite <- IH by (intros; apply H; simpl; auto).
    destruct (b x); cbn [length]; simpl zb; lia.
  Qed.
  Lemma sum_map {A} (b : A -> nat) (w : A -> Z) l : (forall x, In x l -> w x = Z.of_nat (b x)) -> Z.of_nat (list_sum (map b l)) = zsum w l.
  Proof.
    induction l as [|x l IH]; intros H; [reflexivity|]. cbn [map zsum]. change (list_sum (b x :: map b l)) with (b x + list_sum (map b l))%nat.
    rewrite (H x) by (simpl; auto). rewrite <- IH by (intros; apply H; simpl; auto). lia.
  Qed.

  Lemma entries_zsum e l : Z.of_nat (entries e l) = zsum (ce e) l.
  Proof. apply len_filter. intros x _. reflexivity. Qed.

  Lemma existsb_zsum {A} (b : A -> bool) (w : A -> Z) l : (forall x, w x = zb (b x)) -> 
    existsb b l = (1 <=? zsum w l).
  Proof.
    intros H. induction l as [|x l IH]; [reflexivity|]. cbn [existsb zsum]. rewrite IH, H.
    assert (0 <= zsum w l). { apply zsum_nonneg. intros y _. rewrite H. destruct (b y); simpl; lia. }
    destruct (b x); simpl zb; cbn [orb]; [symmetry; apply Z.leb_le; lia|f_equal; lia].
  Qed.

  Lemma zsum_swap {A B} (g : A -> B -> Z) l m :
    zsum (fun p => zsum (fun f => g p f) l) m = zsum (fun f => zsum (fun p => g p f) m) l.
  Proof.
    induction l as [|f l IH].
    - simpl. now apply zsum_zero.
    - cbn [zsum]. now rewrite <- IH, zsum_plus.
  Qed.

  Lemma srcs_split (g : ev -> Z) l : (forall t e, g (EExt t e) = 0) ->
    zsum g (srcs l) = zsum (fun p => g (EPost p)) (submissions l).
  Proof.
    intros H. induction l as [|x l IH]; [reflexivity|]. destruct x; cbn [srcs submissions flat_map app]; auto.
    - cbn [zsum]. now rewrite IH.
    - cbn [zsum]. now rewrite IH, H.
  Qed.

  Lemma submissions_count p l : zsum (ni p) (submissions l) = zsum (v_spawn p) l.
  Proof. induction l as [|x l IH]; [reflexivity|]. destruct x; cbn [submissions flat_map app zsum]; auto. now rewrite <- IH. Qed.

  Theorem counter n s t : greach P n s ->
    ctr s (EPre t) + Z.of_nat (half_made s t) =
    Z.of_nat (unstarted s t + collecting s t + registered s t + announced s (EPre t) + arriving s (EPre t)).
  Proof.
    intros R. assert (I := greach_Inv P W NW n s R). rewrite (i_acc P s I (EPre t)). cbn [base].
    rewrite !Nat2Z.inj_add.
    assert (A1 : Z.of_nat (unstarted s t) = 1 - zsum (v_exec t) (log s)).
    { unfold unstarted. rewrite (existsb_zsum _ (v_exec t)) by (intros []; reflexivity).
      pose proof (f_exec P s I t). destruct (Z.leb_spec 1 (zsum (v_exec t) (log s))); simpl Z.of_nat; lia. }
    assert (A2 : Z.of_nat (collecting s t) = zsum (w_collect t) (frames s)).
    { unfold collecting. apply len_filter. intros [] _; reflexivity. }
    assert (A3 : Z.of_nat (announced s (EPre t)) = zsum (w_follow (EPre t)) (frames s)).
    { apply sum_map. intros [] _; try reflexivity. simpl. now rewrite entries_zsum. }
    assert (A4 : Z.of_nat (arriving s (EPre t)) = zsum (w_notify (EPre t)) (frames s)).
    { apply len_filter. intros [] _; reflexivity. }
    assert (A5 : Z.of_nat (registered s t) - Z.of_nat (half_made s t) = edges s (EPre t)).
    { unfold edges. rewrite srcs_split.
      2:{ intros u e. pose proof (eff_nn P s I (EExt u e) (EPre t)). unfold eff in *. destruct (taken s (EExt u e) =? 0); auto.
          pose proof (pend_nn s (EExt u e) (EPre t)).
          destruct (Z_lt_le_dec 0 (zsum (ce (EPre t)) (fol s (EExt u e)))) as [l|l]; [|lia].
          apply ce_pos in l. apply (i_fol P s I) in l. easy. }
      assert (B1 : Z.of_nat (half_made s t) = zsum (fun p => pend s (EPost p) (EPre t)) (submissions (log s))).
      { unfold pend. rewrite zsum_swap. apply len_filter. intros f Hf.
        assert (G := i_frames P s I f Hf). destruct f; try (apply zsum_zero; intros; reflexivity).
        - cbn [w_pend]. destruct G as [G _]. apply (dep_facts P W s I) in G as [_ G]. rewrite <- submissions_count in G.
          destruct (Nat.eqb_spec t0 t) as [->|d].
          + simpl. rewrite <- G. apply zsum_ext. intros x _. unfold ni. simpl.
            now rewrite Nat.eqb_refl, andb_true_r, (Nat.eqb_sym x p).
          + apply zsum_zero. intros x _. simpl. destruct (Nat.eqb_spec t0 t); [easy|]. now rewrite andb_false_r.
        - apply zsum_zero. intros x _. simpl. now rewrite andb_false_r. }
      rewrite B1. unfold registered. rewrite (sum_map _ (fun p => eff s (EPost p) (EPre t) + pend s (EPost p) (EPre t))).
      - rewrite zsum_plus. lia.
      - intros p _. unfold visited. rewrite (existsb_zsum _ (v_take (EPost p))) by (intros []; reflexivity).
        unfold eff. pose proof (f_take P s I (EPost p)). unfold taken.
        destruct (Z.leb_spec 1 (zsum (v_take (EPost p)) (log s))).
        + destruct (Z.eqb_spec (zsum (v_take (EPost p)) (log s)) 0); [lia|]. simpl Z.of_nat.
          pose proof (pend_nn s (EPost p) (EPre t)).
          destruct (Z_lt_le_dec 0 (pend s (EPost p) (EPre t))) as [l|l]; [|lia].
          apply zsum_pos_ex in l as (f & Hf & Q). assert (G := i_frames P s I f Hf).
          destruct f; simpl in Q; try lia.
          * destruct G as [G _]. apply (dep_facts P W s I) in G as [G _]. unfold taken in G.
            destruct (Nat.eqb_spec p0 p); simpl in Q; [subst; lia|lia].
          * rewrite andb_false_r in Q. simpl in Q. lia.
        + destruct (Z.eqb_spec (zsum (v_take (EPost p)) (log s)) 0); [|lia]. rewrite entries_zsum. lia. }
    lia.
  Qed.

  (** The follower list of a visited event does not change any more, and no
      event is visited twice. *)
  Theorem frozen n s i c s' e : greach P n s -> step P s i c = Some s' -> In (LTake e) (log s) -> fol s' e = fol s e.
  Proof.
    intros R H T. assert (I := greach_Inv P W NW n s R). assert (M := step_moves P s i c s' H).
    apply in_take in T.
    destruct M as [j f fs s1 fr rest E H1 -> Hp Hp' | j pk s1 fr E H1 -> Hp'].
    - assert (Hf : In f (frames s)) by (apply (Permutation_in _ (Permutation_sym Hp)); now left).
      assert (G := i_frames P s I f Hf). clear -I W NW Hf G T H1.
      cases_f H1; try reflexivity; cbn [fol set_thr add_log set_ext inc set_ctr set_fol]; unfold eupd.
      + destruct (ev_eqb_spec e (EExt n e0)); auto. subst. apply (event_facts P W s I) in Hf as (_ & _ & Hf). unfold taken in Hf. lia.
      + destruct (ev_eqb_spec e (EPost p)); auto. subst. apply (dep_facts P W s I) in G as [G _]. unfold taken in G. lia.
      + destruct (ev_eqb_spec e (EPost t)); auto. subst.
        assert (C : w_collect t (FPar2 t q) <= zsum (w_collect t) (frames s)) by (apply in_w; auto; intro; apply w_nn).
        simpl in C. rewrite ni_refl in C. apply (collect_facts P W s I) in C. lia.
    - cases_i H1; reflexivity.
  Qed.

  Theorem taken_once n s e : greach P n s -> zsum (v_take e) (log s) <= 1.
  Proof.
    intros R. assert (I := greach_Inv P W NW n s R). pose proof (f_take P s I e). pose proof (f_reach P s I e). lia.
  Qed.

End More.

(** ** Bounds on the counters of a flat program *)
Section Bound.
  Context (P : prog) (W : wfa P) (NW : p_wrap P = false) (N : nat) (BD : bounded P N).

  Definition mass (rs : list nat) : Z := zsum (fun r => Z.of_nat (mentions P N r)) rs.

  Lemma mass_nn rs : 0 <= mass rs.
  Proof. apply zsum_nonneg. intros. lia. Qed.

  Definition cap (f : frame) : Z :=
    match f with
    | FInit t rs => mass (uniq P t) - mass rs
    | FIter t _ it rs => mass (uniq P t) - mass rs - len it
    | FDep1 t _ _ it rs | FDep2 t _ _ it rs | FDep3 t _ _ it rs | FDep4 t _ _ it rs =>
        mass (uniq P t) - mass rs - len it - 1
    | FPar1 t _ | FPar2 t _ | FPar3 t _ => mass (uniq P t)
    | _ => 0
    end.

  Definition pre_ok (s : state) (t : nat) : Prop :=
    (zsum (w_collect t) (frames s) + zsum (w_ninit t) (frames s) + zsum (v_init t) (log s) = 0 -> ctr s (EPre t) <= 1) /\
    (forall f, In f (frames s) -> w_collect t f = 1 -> ctr s (EPre t) <= 2 + cap f) /\
    ctr s (EPre t) <= 2 + mass (uniq P t).

  Lemma ne_pre (g : ev -> Z) e v t : e <> EPre t -> eupd g e v (EPre t) = g (EPre t).
  Proof. intros H. unfold eupd. destruct (ev_eqb_spec (EPre t) e); congruence. Qed.

  Lemma eq_pre (g : ev -> Z) v t : eupd g (EPre t) v (EPre t) = v.
  Proof. unfold eupd. destruct (ev_eqb_spec (EPre t) (EPre t)); congruence. Qed.
  Lemma ni_ne t x : x <> t -> ni t x = 0.
  Proof. intros H. unfold ni. destruct (Nat.eqb_spec x t); [easy|reflexivity]. Qed.

  Lemma pre_bound n s : greach P n s -> forall t, pre_ok s t.
  Proof.
    induction 1 as [|s i c s' R IH G H]; intros t.
    - assert (F : frames (init P n) = [FBody None (p_main P)]).
      { unfold frames; simpl. f_equal. induction n; simpl; auto. }
      unfold pre_ok. rewrite F. simpl. repeat split; try lia.
      + intros f [<-|[]]. simpl. lia.
      + pose proof (mass_nn (uniq P t)). lia.
    - assert (I := greach_Inv P W NW n s R). assert (M := step_moves P s i c s' H). specialize (IH t).
      assert (MN := mass_nn). assert (MC : forall r l, mass (r :: l) = Z.of_nat (mentions P N r) + mass l) by reflexivity.
      assert (MN2 := mass_nn (uniq P t)).
      destruct IH as (A & B & C).
      destruct M as [j f fs s1 fr rest E H1 -> Hp Hp' | j pk s1 fr E H1 -> Hp'].
      + assert (Hf : In f (frames s)) by (apply (Permutation_in _ (Permutation_sym Hp)); now left).
        assert (Br : forall g, In g rest -> w_collect t g = 1 -> ctr s (EPre t) <= 2 + cap g).
        { intros g Hg. apply B. apply (Permutation_in _ (Permutation_sym Hp)). now right. }
        assert (Bf := B f Hf). clear B.
        assert (NR : w_collect t f = 1 -> forall g, In g rest -> w_collect t g = 0).
        { intros Q g Hg. assert (X : 1 <= zsum (w_collect t) (frames s)) by (rewrite <- Q; apply in_w; auto; intro; apply w_nn).
          apply (collect_facts P W s I) in X as (X & _). rewrite (zsum_perm _ _ _ Hp) in X. cbn [zsum] in X.
          assert (w_collect t g <= zsum (w_collect t) rest) by (apply zsum_ge; auto; intros; apply w_nn).
          pose proof (w_nn t g). lia. }
        assert (UP : f = FInitUp t -> ctr s (EPre t) <= 1 /\ forall g, In g rest -> w_collect t g = 0).
        { intros ->. assert (X : w_up t (FInitUp t) <= zsum (w_up t) (frames s)) by (apply in_w; auto; intro; apply w_nn).
          simpl in X. rewrite ni_refl in X. apply (up_facts P W s I) in X as (X1 & X2 & X3 & _). split; [apply A; lia|].
          intros g Hg. rewrite (zsum_perm _ _ _ Hp) in X2. cbn [zsum] in X2. simpl w_collect at 1 in X2.
          assert (w_collect t g <= zsum (w_collect t) rest) by (apply zsum_ge; auto; intros; apply w_nn).
          pose proof (w_nn t g). lia. }
        rewrite !(zsum_perm _ _ _ Hp) in A.
        assert (UL := fun r => users_length P W N BD s r I).
        unfold pre_ok. rewrite !(zsum_perm _ _ _ Hp').
        assert (FR : forall g, In g (frames (set_thr s1 (set_nth j (fr ++ fs) (thr s)))) -> In g fr \/ In g rest).
        { intros g Hg. apply (Permutation_in _ Hp') in Hg. now apply in_app_or in Hg. }
        clear Hp' Hp Hf H E G. revert FR. generalize (frames (set_thr s1 (set_nth j (fr ++ fs) (thr s)))). intros F' FR.
        assert (SC : 0 <= zsum (w_collect t) rest) by (apply zsum_nonneg; intros; apply w_nn).
        assert (SN : 0 <= zsum (w_ninit t) rest) by (apply zsum_nonneg; intros; apply w_nn).
        assert (SI : 0 <= zsum (v_init t) (log s)) by (apply zsum_nonneg; intros []; simpl; unfold ni; try lia; destruct (Nat.eqb _ _); simpl; lia).
        rewrite !zsum_app. 
        cases_f H1; cbn [zsum app log ctr set_thr add_log set_users set_lck set_ctr set_fol set_emp set_rdy set_ext set_cdn set_tcn inc w_collect w_ninit v_init Z.add] in *;
          rewrite ?Z.add_0_l, ?Z.add_0_r, ?(wrap_id P NW) in *;
          try (replace (match e0 with EPre _ | _ => 0 end) with 0 in * by (destruct e0; reflexivity));
          try match goal with
             | |- context [eupd _ (EPre ?x) _ _] => destruct (Nat.eq_dec x t); [subst x; rewrite ?eq_pre, ?ni_refl in *|rewrite ?(ni_ne t x), ?ne_pre in * by congruence]
             | |- context [ni t ?x] => destruct (Nat.eq_dec x t); [subst x; rewrite ?ni_refl in *|rewrite ?(ni_ne t x), ?ne_pre in * by congruence]
             | |- _ => rewrite ?ne_pre in * by congruence
             end;
          repeat match goal with U : ?f = ?f -> _ |- _ => specialize (U eq_refl) end;
          rewrite ?Z.add_0_l, ?Z.add_0_r in *;
          try solve [split; [first [exact A | intros; lia]|split; [intros g Hg Q; apply FR in Hg as [Hg|Hg]; [|first [now apply Br | specialize (Br g Hg Q); lia | specialize (NR g Hg); lia]]|first [exact C | lia]]];
          repeat (destruct Hg as [<-|Hg]; [first [now (simpl in Q; lia) | simpl in Q; rewrite ni_ne in Q by congruence; lia
             | cbn [cap] in *; rewrite ?MC in *; change (mass []) with 0 in *; unfold len in *; rewrite ?Nat2Z.inj_succ in *; cbn [length] in *; lia ]|]); destruct Hg].
        * destruct UP as [U1 U2]. split; [lia|]. split.
          -- intros g Hg Q. apply FR in Hg as [[<-|[]]|Hg]; [|specialize (U2 g Hg); lia]. cbn [cap]. lia.
          -- lia.
        * split; [lia|]. split; [|lia]. intros g Hg Q. apply FR in Hg as [[<-|[]]|Hg]; [|specialize (NR g Hg); lia].
          cbn [cap] in *. pose proof (older_length (t, length l) (users s n0)). specialize (UL n0). unfold len in *.
          rewrite ?MC in *. cbn [length] in *. lia.
        * split; [lia|]. split.
          -- intros g Hg Q. apply FR in Hg as [[<-|[]]|Hg]; [|specialize (NR g Hg); lia]. cbn [cap] in *. rewrite ?MC in *. unfold len in *. lia.
          -- cbn [cap] in Bf. pose proof (MN rs). unfold len in *. lia.
        * split; [lia|]. split.
          -- intros g Hg Q. apply FR in Hg as [[<-|[]]|Hg]; [|specialize (NR g Hg); lia]. cbn [cap] in *. rewrite ?MC in *. unfold len in *. lia.
          -- cbn [cap] in Bf. pose proof (MN rs). unfold len in *. lia.
      + assert (FR : forall g, In g (frames (set_thr s1 (set_nth j fr (thr s)))) -> In g fr \/ In g (frames s)).
        { intros g Hg. apply (Permutation_in _ Hp') in Hg. now apply in_app_or in Hg. }
        unfold pre_ok. rewrite !(zsum_perm _ _ _ Hp'), !zsum_app.
        clear Hp' H E G. revert FR.
        generalize (frames (set_thr s1 (set_nth j fr (thr s)))). intros F' FR.
        cases_i H1; cbn [zsum app log ctr set_thr add_log set_users set_lck set_ctr set_fol set_emp set_rdy set_ext set_cdn set_tcn inc w_collect w_ninit v_init Z.add] in *;
          rewrite ?Z.add_0_l, ?Z.add_0_r in *.
        all: split; [exact A|split; [intros g Hg Q; apply FR in Hg as [Hg|Hg]; [|now apply B]|exact C]];
             repeat (destruct Hg as [<-|Hg]; [now (simpl in Q; lia)|]); destruct Hg.
  Qed.

  Definition n_made (t : nat) (l : lev) : Z := match l with LEvent x _ => ni t x | _ => 0 end.

  (** whether [x] has been entered as a predecessor of its parent's completion *)
  Definition entered (s : state) (x : nat) : Z := zsum (w_ninit x) (frames s) + zsum (v_init x) (log s).
  Definition n_par (s : state) (t : nat) : Z := zsum (entered s) (spawns (body P (Some t))).

  Lemma n_par_le n s t : greach P n s -> n_par s t <= len (spawns (body P (Some t))).
  Proof.
    intros R. assert (I := greach_Inv P W NW n s R). unfold n_par. generalize (spawns (body P (Some t))). intros l.
    induction l as [|x l IH]; [unfold len; simpl; lia|]. cbn [zsum]. rewrite len_cons.
    assert (entered s x <= 1); [|lia]. unfold entered. pose proof (law_phase P s (i_laws P s I) x). pose proof (f_spawn P W s I x).
    assert (0 <= zsum (w_sub x) (frames s)) by (apply zsum_nonneg; intros; apply w_nn).
    assert (0 <= zsum (ni x) (emp s)) by (apply zsum_nonneg; intros; unfold ni; destruct (Nat.eqb _ _); simpl; lia).
    assert (0 <= zsum (w_up x) (frames s)) by (apply zsum_nonneg; intros; apply w_nn).
    assert (0 <= zsum (w_collect x) (frames s)) by (apply zsum_nonneg; intros; apply w_nn). lia.
  Qed.

  Lemma zsum_mono {A} (v w : A -> Z) l : (forall x, In x l -> v x <= w x) -> zsum v l <= zsum w l.
  Proof. induction l as [|x l IH]; simpl; intros H; [lia|]. pose proof (H x (or_introl eq_refl)). specialize (IH (fun y Hy => H y (or_intror Hy))). lia. Qed.

  Lemma zsum_mono_one {A} (v w : A -> Z) l y : (forall x, In x l -> v x <= w x) -> In y l -> v y + 1 <= w y -> zsum v l + 1 <= zsum w l.
  Proof.
    induction l as [|x l IH]; simpl; intros H; [easy|]. intros [->|Hy] Q; [|pose proof (H x (or_introl eq_refl)); specialize (IH (fun y Hy => H y (or_intror Hy)) Hy Q); lia].
    pose proof (zsum_mono v w l (fun y Hy => H y (or_intror Hy))). lia.
  Qed.

  Lemma entered_step s f fs s1 fr rest j : fstep P s f = Some (s1, fr) -> Permutation (frames s) (f :: rest) ->
    Permutation (frames (set_thr s1 (set_nth j (fr ++ fs) (thr s)))) (fr ++ rest) -> forall x,
    entered s x + (match f with FPar3 y _ => ni x y | _ => 0 end) <= entered (set_thr s1 (set_nth j (fr ++ fs) (thr s))) x.
  Proof.
    intros H Hp Hp' x. unfold entered. rewrite (zsum_perm _ _ _ Hp), (zsum_perm _ _ _ Hp'), zsum_app. clear Hp Hp'.
    assert (V : forall y, 0 <= ni x y) by (intros y; unfold ni; destruct (Nat.eqb _ _); simpl; lia).
    cases_f H; cbn [zsum app log set_thr add_log set_users set_lck set_ctr set_fol set_emp set_rdy set_ext set_cdn set_tcn inc w_ninit v_init];
      repeat match goal with |- context [match ?e with EPre _ => _ | EPost _ => _ | ERSet _ => _ | ERGet _ => _ | EExt _ _ => _ end] => destruct e end;
      repeat match goal with |- context [ni x ?y] => lazymatch goal with G : 0 <= ni x y |- _ => fail | _ => pose proof (V y) end end; lia.
  Qed.

  (** completion counters *)
  Lemma post_bound n s : greach P n s -> forall t,
    ctr s (EPost t) <= 1 + zsum (n_made t) (log s) + n_par s t /\
    (forall f, In f (frames s) -> is_body (Some t) f = 1 ->
       zsum (n_made t) (log s) + len (made (left_of f)) <= len (made (body P (Some t)))) /\
    (zsum (v_start t) (log s) = 0 -> zsum (n_made t) (log s) = 0) /\
    zsum (n_made t) (log s) <= len (made (body P (Some t))).
  Proof.
    induction 1 as [|s i c s' R IH G H]; intros t.
    - assert (X : frames (init P n) = [FBody None (p_main P)]).
      { unfold frames; simpl. f_equal. induction n; simpl; auto. }
      assert (0 <= n_par (init P n) t).
      { unfold n_par. apply zsum_nonneg. intros x _. unfold entered. rewrite X. simpl. lia. }
      rewrite X. simpl. repeat split; try lia.
      + intros f [<-|[]]. simpl. lia.
      + unfold len. lia.
    - assert (I := greach_Inv P W NW n s R). assert (M := step_moves P s i c s' H). specialize (IH t).
      destruct IH as (A & B & C & D).
      destruct M as [j f fs s1 fr rest E H1 -> Hp Hp' | j pk s1 fr E H1 -> Hp'].
      + assert (Hf : In f (frames s)) by (apply (Permutation_in _ (Permutation_sym Hp)); now left).
        assert (Br : forall g, In g rest -> is_body (Some t) g = 1 -> zsum (n_made t) (log s) + len (made (left_of g)) <= len (made (body P (Some t)))).
        { intros g Hg. apply B. apply (Permutation_in _ (Permutation_sym Hp)). now right. }
        assert (Bf := B f Hf). clear B.
        assert (B1 : is_body (Some t) f = 1 -> (forall g, In g rest -> is_body (Some t) g = 0) /\
                     zsum (v_start t) (log s) = 1).
        { intros Q. assert (B1 : 1 <= zsum (is_body (Some t)) (frames s)) by (rewrite <- Q; apply in_w; auto; intro; apply w_nn4).
          apply (body_facts P s I) in B1. destruct B1 as (B1 & B2 & B3 & _). split; [|lia].
          rewrite (zsum_perm _ _ _ Hp) in B1. cbn [zsum] in B1. intros g Hg.
          assert (is_body (Some t) g <= zsum (is_body (Some t)) rest) by (apply zsum_ge; auto; intros; apply w_nn4).
          pose proof (w_nn4 (Some t) g). lia. }
        assert (S0 : forall x, f = FRun x -> zsum (v_start x) (log s) = 0).
        { intros x ->. assert (X : w_run x (FRun x) <= zsum (w_run x) (frames s)) by (apply in_w; auto; intro; apply w_nn).
          simpl in X. rewrite ni_refl in X. pose proof (law_exec P s (i_laws P s I) x). pose proof (f_exec P s I x). pose proof (f_start P s I x). lia. }
        assert (PAR := entered_step s f fs s1 fr rest j H1 Hp Hp').
        assert (NP0 : n_par s t <= n_par (set_thr s1 (set_nth j (fr ++ fs) (thr s))) t).
        { apply zsum_mono. intros x _. specialize (PAR x). destruct f; try lia. assert (0 <= ni x t0) by (unfold ni; destruct (Nat.eqb _ _); simpl; lia). lia. }
        assert (NP1 : forall x q, f = FPar3 x q -> q = t -> n_par s t + 1 <= n_par (set_thr s1 (set_nth j (fr ++ fs) (thr s))) t).
        { intros x q Ef Eq. apply (zsum_mono_one _ _ _ x).
          - intros y _. specialize (PAR y). destruct f; try lia. assert (0 <= ni y t0) by (unfold ni; destruct (Nat.eqb _ _); simpl; lia). lia.
          - subst f q. destruct (i_frames P s I _ Hf) as [Q _].
            assert (X : w_collect x (FPar3 x t) <= zsum (w_collect x) (frames s)) by (apply in_w; auto; intro; apply w_nn).
            simpl in X. rewrite ni_refl in X. apply (collect_facts P W s I) in X as (_ & X & _).
            assert (Y : sp s x) by (unfold sp; lia). apply (sp_body P W s I) in Y. now rewrite Q in Y.
          - specialize (PAR x). subst f. now rewrite ni_refl in PAR. }
        clear PAR. revert NP0 NP1. generalize (n_par s t) (n_par (set_thr s1 (set_nth j (fr ++ fs) (thr s))) t) A. clear A. intros v v' A NP0 NP1.
        assert (A' : ctr s (EPost t) <= 1 + zsum (n_made t) (log s) + v') by lia.
        assert (FR : forall g, In g (frames (set_thr s1 (set_nth j (fr ++ fs) (thr s)))) -> In g fr \/ In g rest).
        { intros g Hg. apply (Permutation_in _ Hp') in Hg. now apply in_app_or in Hg. }
        clear Hp' Hp Hf H E G. revert FR. generalize (frames (set_thr s1 (set_nth j (fr ++ fs) (thr s)))). intros F' FR.
        assert (SS := f_start P s I t).
        cases_f H1; cbn [zsum app log ctr set_thr add_log set_users set_lck set_ctr set_fol set_emp set_rdy set_ext set_cdn set_tcn inc n_made v_start Z.add] in *;
          rewrite ?Z.add_0_l, ?Z.add_0_r, ?(wrap_id P NW) in *;
          try solve [split; [exact A'|split; [intros g Hg Q; apply FR in Hg as [Hg|Hg]; [|now apply Br]|split; [exact C|exact D]]];
            repeat (destruct Hg as [<-|Hg]; [first [exact (Bf Q) | now (simpl in Q; lia)]|]); destruct Hg].
        * destruct (Nat.eq_dec n0 t) as [->|d].
          -- rewrite ni_refl in *. unfold eupd at 1. destruct (ev_eqb_spec (EPost t) (EPost t)); [|congruence].
             assert (Q : is_body (Some t) (FBody (Some t) (IEvent e :: l)) = 1) by (simpl; now rewrite Nat.eqb_refl).
             specialize (Bf Q). destruct (B1 Q) as [B2 B3]. cbn [left_of made] in Bf. rewrite len_cons in Bf.
             split; [lia|]. split; [|split; [lia|pose proof (len_nn (made l)); lia]].
             intros g Hg Q'. apply FR in Hg as [Hg|Hg]; [|specialize (B2 g Hg); lia]. destruct Hg as [<-|[]]. cbn [left_of]. lia.
          -- rewrite !ni_ne by congruence. unfold eupd at 1. destruct (ev_eqb_spec (EPost t) (EPost n0)); [congruence|].
             rewrite Z.add_0_l. split; [lia|]. split; [|split; [exact C|exact D]].
             intros g Hg Q. apply FR in Hg as [Hg|Hg]; [|now apply Br]. destruct Hg as [<-|[]].
             simpl in Q. destruct (Nat.eqb_spec n0 t); [congruence|]. simpl in Q. lia.
        * split; [unfold eupd; destruct (ev_eqb_spec (EPost t) (EPost q)) as [X|X]; [injection X as X; specialize (NP1 _ _ eq_refl (eq_sym X)); subst; lia|lia]|].
          split; [|split; [exact C|exact D]]. intros g Hg Q. apply FR in Hg as [Hg|Hg]; [|now apply Br].
          repeat (destruct Hg as [<-|Hg]; [now (simpl in Q; lia)|]). destruct Hg.
        * split; [unfold eupd; destruct (ev_eqb_spec (EPost t) (EPost t0)) as [X|X]; [injection X as <-; lia|lia]|].
          split; [|split; [exact C|exact D]]. intros g Hg Q. apply FR in Hg as [Hg|Hg]; [|now apply Br].
          repeat (destruct Hg as [<-|Hg]; [now (simpl in Q; lia)|]). destruct Hg.
        * split; [unfold eupd; destruct (ev_eqb_spec (EPost t) (EPost t0)) as [X|X]; [injection X as <-; lia|lia]|].
          split; [|split; [exact C|exact D]]. intros g Hg Q. apply FR in Hg as [Hg|Hg]; [|now apply Br].
          repeat (destruct Hg as [<-|Hg]; [now (simpl in Q; lia)|]). destruct Hg.
        * assert (0 <= ni t t0) by (unfold ni; destruct (Nat.eqb t0 t); simpl; lia).
          split; [lia|]. split; [|split; [intros Q; apply C; lia|exact D]].
          intros g Hg Q. apply FR in Hg as [Hg|Hg]; [|now apply Br].
          destruct Hg as [<-|[]]. simpl in Q. destruct (Nat.eqb_spec t0 t) as [->|]; [|simpl in Q; lia].
          cbn [left_of]. rewrite C by (now apply S0). change (body P (Some t)) with (t_body (p_task P t)). lia.
      + assert (FR : forall g, In g (frames (set_thr s1 (set_nth j fr (thr s)))) -> In g fr \/ In g (frames s)).
        { intros g Hg. apply (Permutation_in _ Hp') in Hg. now apply in_app_or in Hg. }
        assert (NP0 : n_par s t <= n_par (set_thr s1 (set_nth j fr (thr s))) t).
        { apply zsum_mono. intros x _. unfold entered. rewrite (zsum_perm _ _ _ Hp'), zsum_app. clear -H1. cases_i H1; simpl; lia. }
        revert NP0. generalize (n_par s t) (n_par (set_thr s1 (set_nth j fr (thr s))) t) A. clear A. intros v v' A NP0.
        assert (A' : ctr s (EPost t) <= 1 + zsum (n_made t) (log s) + v') by lia.
        clear Hp' H E G. revert FR.
        generalize (frames (set_thr s1 (set_nth j fr (thr s)))). intros F' FR.
        cases_i H1; cbn [zsum app log ctr set_thr add_log set_users set_lck set_ctr set_fol set_emp set_rdy set_ext set_cdn set_tcn inc n_made v_start Z.add] in *;
          rewrite ?Z.add_0_l, ?Z.add_0_r in *.
        all: split; [exact A'|split; [intros g Hg Q; apply FR in Hg as [Hg|Hg]; [|now apply B]|split; [exact C|exact D]]];
             repeat (destruct Hg as [<-|Hg]; [now (simpl in Q; lia)|]); destruct Hg.
  Qed.

  Lemma other_bound n s : reach P n s -> forall e, (forall t, e <> EPre t /\ e <> EPost t) -> ctr s e <= 1.
  Proof.
    intros R e NE. induction R as [|s i c s' R IH H]; [simpl; lia|].
    assert (M := step_moves P s i c s' H).
    destruct M as [j f fs s1 fr rest E H1 -> Hp Hp' | j pk s1 fr E H1 -> Hp'].
    - clear -IH H1 NE NW. 
      cases_f H1; cbn [ctr set_thr add_log set_users set_lck set_ctr set_fol set_emp set_rdy set_ext set_cdn set_tcn inc] in *;
        rewrite ?(wrap_id P NW); auto; unfold eupd;
        match goal with |- context [ev_eqb e ?x] => destruct (ev_eqb_spec e x) as [Eq|]; auto;
                     first [lia | exfalso; match x with EPre ?y => destruct (NE y); congruence | EPost ?y => destruct (NE y); congruence end
                           | rewrite <- Eq; lia] end.
    - cases_i H1; auto.
  Qed.
End Bound.

(** ** 16-bit counters *)
Definition with_wrap (P : prog) (b : bool) : prog := mkProg (p_main P) (p_task P) b.

Section Wrap.
  Context (P : prog).
  Notation PI := (with_wrap P false).
  Notation PN := (with_wrap P true).

  Lemma wrap_small z : 0 <= z <= 65535 -> wrap PN z = z.
  Proof. intros H. unfold wrap. simpl. apply Z.mod_small. lia. Qed.

  Lemma fstep_narrow s f s1 fr : fstep PI s f = Some (s1, fr) -> (forall e, 0 <= ctr s1 e <= 65535) ->
    fstep PN s f = Some (s1, fr).
  Proof.
    intros H B.
    assert (I : forall s e, 0 <= ctr s e + 1 <= 65535 -> inc PN s e = inc PI s e).
    { intros s' e Q. unfold inc. now rewrite wrap_small. }
    assert (EQ : forall (g : ev -> Z) e v, eupd g e v e = v).
    { intros g e v. unfold eupd. destruct (ev_eqb_spec e e); congruence. }
    destruct f; try exact H.
    - destruct s0 as [|[] s0]; try exact H. destruct o as [q|]; [|exact H]. simpl in *. rewrite I; [exact H|].
      injection H as <- _. specialize (B (EPost q)). simpl in B. rewrite EQ in B. exact B.
    - simpl in *. rewrite I; [exact H|]. injection H as <- _. specialize (B (EPre t)). simpl in B. rewrite EQ in B. exact B.
    - simpl in *. unfold after_dep, sync_on in *. change (user PN p) with (user PI p). rewrite I; [exact H|].
      specialize (B (EPre t)). destruct (has_sync_access (user PI p) (mkRes r 0)); injection H as <- _; simpl in B; rewrite EQ in B; exact B.
    - simpl in *. rewrite I; [exact H|]. injection H as <- _. specialize (B (EPost q)). simpl in B. rewrite EQ in B. exact B.
    - cbn [fstep] in *. assert (Q : wrap PN (ctr s e - 1) = wrap PI (ctr s e - 1)).
      { specialize (B e). change (wrap PI (ctr s e - 1)) with (ctr s e - 1) in *. apply wrap_small.
        injection H as <- _. revert B. destruct e, k, (ctr s _ - 1 =? 0); simpl; rewrite EQ; auto. }
      rewrite Q. exact H.
  Qed.

  Lemma fstep_none s f : fstep PI s f = None -> fstep PN s f = None.
  Proof.
    intros H. destruct f; try exact H; try discriminate H.
    destruct s0 as [|[] s0]; try exact H. destruct o; discriminate H.
  Qed.

  (** If no ideal execution overflows 16 bits, the two machines have the same
      executions. *)
  Theorem transfer n : (forall s, reach PI n s -> forall e, 0 <= ctr s e <= 65535) ->
    forall s, reach PN n s <-> reach PI n s.
  Proof.
    intros B.
    assert (ST : forall s i c s', reach PI n s -> step PI s i c = Some s' -> step PN s i c = Some s').
    { intros s i c s' R H. assert (R' : reach PI n s') by (econstructor; eauto). unfold step in *.
      destruct (nth_error (thr s) i) as [[|f fs]|]; auto.
      destruct (fstep PI s f) as [[s1 fr]|] eqn:E; [|discriminate]. erewrite fstep_narrow; eauto.
      injection H as <-. exact (B _ R'). }
    intros s. split; intros X; induction X as [|s i c s' R IH H].
    - exact (reach_init PI n).
    - destruct (step PI s i c) as [s2|] eqn:E.
      + assert (Q := ST s i c s2 IH E). rewrite H in Q. injection Q as ->. econstructor; eauto.
      + exfalso. unfold step in *. destruct (nth_error (thr s) i) as [[|f fs]|]; try congruence.
        destruct (fstep PI s f) as [[s1 fr]|] eqn:E2; [discriminate|]. rewrite (fstep_none _ _ E2) in H. discriminate.
    - exact (reach_init PN n).
    - econstructor; eauto.
  Qed.

  Theorem gtransfer n : (forall s, greach PI n s -> forall e, 0 <= ctr s e <= 65535) ->
    forall s, greach PN n s <-> greach PI n s.
  Proof.
    intros B.
    assert (ST : forall s i c s', greach PI n s -> end_ok PI s i -> step PI s i c = Some s' -> step PN s i c = Some s').
    { intros s i c s' R G H. assert (R' : greach PI n s') by (econstructor; eauto). unfold step in *.
      destruct (nth_error (thr s) i) as [[|f fs]|]; auto.
      destruct (fstep PI s f) as [[s1 fr]|] eqn:E; [|discriminate]. erewrite fstep_narrow; eauto.
      injection H as <-. exact (B _ R'). }
    intros s. split; intros X; induction X as [|s i c s' R IH G H].
    - exact (greach_init PI n).
    - destruct (step PI s i c) as [s2|] eqn:E.
      + assert (Q := ST s i c s2 IH G E). rewrite H in Q. injection Q as ->. econstructor; eauto.
      + exfalso. unfold step in *. destruct (nth_error (thr s) i) as [[|f fs]|]; try congruence.
        destruct (fstep PI s f) as [[s1 fr]|] eqn:E2; [discriminate|]. rewrite (fstep_none _ _ E2) in H. discriminate.
    - exact (greach_init PN n).
    - econstructor; eauto.
  Qed.

  Lemma counters_small N n : wf PI -> bounded PI N ->
    (forall t, 2 + mass PI N (uniq P t) <= 65535 /\
               1 + len (made (body P (Some t))) + len (spawns (body P (Some t))) <= 65535) ->
    forall s, greach PI n s -> forall e, 0 <= ctr s e <= 65535.
  Proof.
    intros W BD LIM s R' e. assert (I := greach_Inv PI W eq_refl n s R').
    assert (R : reach PI n s) by (clear -R'; induction R'; econstructor; eauto).
    split; [pose proof (i_reach PI s I e); lia|]. destruct e as [t|t|t|t|t e].
    - destruct (pre_bound PI W eq_refl N BD n s R' t) as (_ & _ & Q). destruct (LIM t) as [L _].
      change (uniq PI t) with (uniq P t) in Q. lia.
    - destruct (post_bound PI W eq_refl n s R' t) as (Q1 & _ & _ & Q). destruct (LIM t) as [_ L].
      pose proof (n_par_le PI W eq_refl n s t R') as Q2.
      change (body PI (Some t)) with (body P (Some t)) in *. lia.
    - assert (ctr s (ERSet t) <= 1) by (apply (other_bound PI eq_refl n s R); intros; split; discriminate). lia.
    - assert (ctr s (ERGet t) <= 1) by (apply (other_bound PI eq_refl n s R); intros; split; discriminate). lia.
    - assert (ctr s (EExt t e) <= 1) by (apply (other_bound PI eq_refl n s R); intros; split; discriminate). lia.
  Qed.

  (** A size limit under which nothing overflows. *)
  Theorem no_overflow N n : wf PI -> flat P -> bounded PI N ->
    (forall t, 2 + mass PI N (uniq P t) <= 65535 /\ 1 + len (made (body P (Some t))) <= 65535) ->
    forall s, reach PN n s <-> reach PI n s.
  Proof.
    intros W F BD LIM. apply transfer. intros s R. apply (counters_small N n W BD); [|now apply (flat_greach PI W)].
    intros t. destruct (LIM t) as [L1 L2]. split; [exact L1|]. rewrite (F t). change (len (@nil nat)) with 0. lia.
  Qed.

  Theorem no_overflow_nested N n : wf PI -> bounded PI N ->
    (forall t, 2 + mass PI N (uniq P t) <= 65535 /\
               1 + len (made (body P (Some t))) + len (spawns (body P (Some t))) <= 65535) ->
    forall s, greach PN n s <-> greach PI n s.
  Proof. intros W BD LIM. apply gtransfer. exact (counters_small N n W BD LIM). Qed.
End Wrap.
