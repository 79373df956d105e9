(** Preservation of the invariant, part 5: user lists. *)
From Coq Require Import Bool List Arith NArith ZArith Lia Permutation Sorting.Sorted.
From Verif Require Import AccessModel AccessSpec AccessProof UserModel UserProof SchedModel SchedSpec SchedBase SchedInv1 SchedInv2 SchedInv3 SchedInv4 SchedInv5 SchedInv6.
Import ListNotations.
Open Scope Z_scope.

Section Pres.
  Context (P : prog) {U : front} (W : wfc P U) (NW : p_wrap P = false).

  Lemma entry_eqb_spec x y : reflect (x = y) (entry_eqb x y).
  Proof.
    destruct x as [a b], y as [c d]. unfold entry_eqb; simpl.
    destruct (Nat.eqb_spec a c), (Nat.eqb_spec b d); constructor; congruence.
  Qed.

  Lemma in_without x y l : In x (without y l) <-> In x l /\ x <> y.
  Proof.
    unfold without. rewrite filter_In. destruct (entry_eqb_spec x y); simpl; intuition congruence.
  Qed.

  Lemma sub_facts s o c rs is : Inv P U s -> In (FSub o c rs is) (frames s) ->
    sp s c /\ zsum (w_sub c) (frames s) = 1 /\ zsum (v_exec c) (log s) = 0 /\ zsum (v_init c) (log s) = 0
    /\ zsum (w_collect c) (frames s) = 0 /\ ~ rc s c.
  Proof.
    intros I Hf. assert (B := in_w s (w_sub c) _ (fun g => proj1 (w_nn c g)) Hf).
    simpl in B. rewrite ni_refl in B.
    pose proof (law_phase P s (i_laws P s I) c) as L. signs c s. pose proof (f_spawn P W s I c).
    assert (Q1 : zsum (v_init c) (log s) = 0) by lia. pose proof (f_noinit P s I c Q1) as [_ Q2].
    unfold sp. repeat split; try lia. intros R. apply (rc_exec P s I) in R. lia.
  Qed.

  Lemma delete_facts s t rs : Inv P U s -> In (FDelete t rs) (frames s) -> rc s t.
  Proof.
    intros I Hf. destruct (taking_facts P s I (EPost t) _ Hf) as [_ R].
    - simpl. unfold ce. simpl. now rewrite Nat.eqb_refl.
    - unfold rc. lia.
  Qed.

  (** how a step changes the user lists *)
  Inductive uchange (s s' : state) : Prop :=
  | uc_same : users s' = users s -> uchange s s'
  | uc_push o c r rs is : In (FSub o c (r :: rs) is) (frames s) ->
      users s' = upd (users s) r ((c, length rs) :: users s r) -> uchange s s'
  | uc_del t r rs : In (FDelete t (r :: rs)) (frames s) -> lck s r = false ->
      users s' = upd (users s) r (without (t, length rs) (users s r)) -> uchange s s'.

  Lemma moves_users s s' : moves P s s' -> uchange s s'.
  Proof.
    intros M. destruct M as [i f fs s1 fr rest E H -> Hp Hp' | i pk s1 fr E H -> Hp'].
    - assert (Hf : In f (frames s)) by (apply (Permutation_in _ (Permutation_sym Hp)); now left).
      clear Hp Hp' E.
      cases_f H; try (now apply uc_same); subst; [eapply uc_push | eapply uc_del]; eauto; reflexivity.
    - apply uc_same. cases_i H; easy.
  Qed.

  Lemma suffix_ent t r rs : suffix_of (r :: rs) (uniq P t) -> ent P t r (length rs).
  Proof. intros [pre H]. exists pre, rs. auto. Qed.

  Lemma app_tail_eq {A} (p1 : list A) : forall p2 a b s1 s2,
    p1 ++ a :: s1 = p2 ++ b :: s2 -> length s1 = length s2 -> a = b /\ s1 = s2.
  Proof.
    induction p1 as [|x p1 IH]; intros [|y p2] a b s1 s2 H L; simpl in H.
    - injection H; auto.
    - injection H as -> ->. rewrite app_length in L. simpl in L. lia.
    - injection H as -> <-. rewrite app_length in L. simpl in L. lia.
    - injection H as _ H. eauto.
  Qed.

  Lemma ent_fun t r r' k : ent P t r k -> ent P t r' k -> r = r'.
  Proof.
    intros (p1 & s1 & E1 & <-) (p2 & s2 & E2 & L). rewrite E1 in E2.
    apply app_tail_eq in E2; [tauto|auto].
  Qed.

  Lemma ent_lt t r k : ent P t r k -> (k < length (uniq P t))%nat.
  Proof. intros (p1 & s1 & E1 & <-). rewrite E1, app_length. simpl. lia. Qed.

  Lemma pres_ent s s' r t k : Inv P U s -> moves P s s' -> In (t, k) (users s' r) -> ent P t r k /\ sp s' t.
  Proof.
    intros I M Hi.
    assert (OLD : In (t, k) (users s r) -> ent P t r k /\ sp s' t).
    { intros H. apply (i_ent P s I) in H as [? ?]. eauto using sp_mono. }
    destruct (moves_users s s' M) as [Hu|o c r0 rs is Hf Hu|t0 r0 rs Hf Hl Hu]; rewrite Hu in Hi; auto;
      unfold upd in Hi; destruct (Nat.eqb_spec r r0); auto; subst.
    - destruct Hi as [Hi|Hi]; auto. injection Hi as <- <-.
      assert (FOK := i_frames P s I _ Hf). destruct FOK as [FOK _]. split.
      + now apply suffix_ent.
      + eapply sp_mono; eauto. eapply sub_facts; eauto.
    - apply in_without in Hi. tauto.
  Qed.

  Lemma sorted_filter {A} (R : A -> A -> Prop) g l : StronglySorted R l -> StronglySorted R (filter g l).
  Proof.
    induction 1 as [|a l S IH F]; simpl; [constructor|]. destruct (g a); auto.
    constructor; auto. rewrite Forall_forall in *. intros x Hx. apply filter_In in Hx. apply F. tauto.
  Qed.

  Lemma pres_newer s s' r : Inv P U s -> moves P s s' -> StronglySorted (newer P U r) (users s' r).
  Proof.
    intros I M. assert (OLD := i_newer P s I r).
    destruct (moves_users s s' M) as [Hu|o c r0 rs is Hf Hu|t0 r0 rs Hf Hl Hu]; rewrite Hu; auto;
      unfold upd; destruct (Nat.eqb_spec r r0); auto; subst.
    - constructor; auto. rewrite Forall_forall. intros [y k] Hy.
      assert (FOK := i_frames P s I _ Hf). destruct FOK as [S FOK].
      destruct (i_ent P s I _ _ _ Hy) as [Ey Sy].
      assert (Eo : parent P c = o).
      { assert (Q := law_suffix P s (i_laws P s I) _ Hf). apply (piece_In P W) in Q. now apply (m_parent P W). }
      destruct (sub_facts s _ _ _ _ I Hf) as (Sc & _ & Xc & _).
      split; simpl.
      + intros Epar. destruct (lt_eq_lt_dec (rk U r0 y) (rk U r0 c)) as [[Lt|Eq]|Gt]; [now left| |exfalso].
        * apply (m_rank P W) in Eq. subst y. right. split; [easy|].
          apply FOK in Hy as Hk. simpl in Hk. lia.
        * assert (Q := law_suffix P s (i_laws P s I) _ Hf). apply (piece_In P W), spawns_In in Q.
          destruct (i_pushed P s I y r0 k Ey Sy) with (p := c) as [_ N]; auto.
          -- intros o' rs' is' Hs. exact (proj2 (i_frames P s I _ Hs) _ _ Hy).
          -- rewrite <- Epar, Eo. exact Q.
          -- destruct S as [pre ->]. apply in_or_app. simpl. auto.
          -- apply (N _ _ _ Hf). now left.
      + intros Epar. apply (sp_parent P W s I) in Sy. rewrite Epar in Sy. simpl in Sy.
        pose proof (f_start P s I c). lia.
    - now apply sorted_filter.
  Qed.

  Lemma pres_gone s s' t : Inv P U s -> moves P s s' -> 1 <= zsum (v_take (EPost t)) (log s') -> no_entry s' t.
  Proof.
    intros I M Ht.
    assert (G : no_entry s t /\ rc s t).
    { destruct (Z_lt_le_dec (zsum (v_take (EPost t)) (log s)) 1) as [l|l].
      - destruct M as [i f fs s1 fr rest E H -> Hp Hp' | i pk s1 fr E H -> Hp'].
        + assert (Hf : In f (frames s)) by (apply (Permutation_in _ (Permutation_sym Hp)); now left).
          clear Hp Hp' E.
          cases_f H; simpl log in Ht; cbn [zsum v_take] in Ht; try lia.
          unfold ce in Ht. destruct (ev_eqb_spec e (EPost t)); [|simpl in Ht; lia]. subst e.
          apply Z.eqb_eq in Heqb. subst st. split; [exact (i_frames P s I _ Hf eq_refl)|].
          destruct (taking_facts P s I (EPost t) _ Hf) as [_ R]; [simpl; now rewrite Nat.eqb_refl|].
          unfold rc. lia.
        + cases_i H; simpl in Ht; lia.
      - split; [now apply (i_gone P s I)|]. pose proof (f_take P s I (EPost t)). unfold rc. lia. }
    destruct G as [G R]. intros r k Hi.
    destruct (moves_users s s' M) as [Hu|o c r0 rs is Hf Hu|t0 r0 rs Hf Hl Hu]; rewrite Hu in Hi; [exact (G _ _ Hi)| |];
      unfold upd in Hi; destruct (Nat.eqb_spec r r0); try exact (G _ _ Hi); subst.
    - destruct Hi as [Hi|Hi]; [|exact (G _ _ Hi)]. injection Hi as -> _.
      apply (sub_facts s _ _ _ _ I Hf). easy.
    - apply in_without in Hi. exact (G _ _ (proj1 Hi)).
  Qed.

  (** frames of submissions *)
  Lemma sub_dec s t k : (exists o rs is, In (FSub o t rs is) (frames s) /\ (k < length rs)%nat) \/
                        (forall o rs is, In (FSub o t rs is) (frames s) -> (length rs <= k)%nat).
  Proof.
    induction (frames s) as [|g l IH].
    - right. easy.
    - destruct IH as [(o & rs & is & H & L)|IH].
      + left. exists o, rs, is. split; [now right|easy].
      + destruct g; try (right; intros ? ? ? [H|H]; [discriminate|eauto]).
        destruct (Nat.eq_dec c t) as [->|n], (le_lt_dec (length rs) k).
        * right. intros ? ? ? [H|H]; [injection H as -> -> ->; auto|eauto].
        * left. exists o, rs, s0. split; [now left|easy].
        * right. intros ? ? ? [H|H]; [injection H; congruence|eauto].
        * right. intros ? ? ? [H|H]; [injection H; congruence|eauto].
  Qed.

  Lemma pushed_mono s s' p r : Inv P U s -> moves P s s' -> pushed s p r -> pushed s' p r.
  Proof.
    intros I M [Hs Hn]. split; [eapply sp_mono; eauto|]. intros o rs is Hi.
    destruct M as [i f fs s1 fr rest E H -> Hp Hp' | i pk s1 fr E H -> Hp'].
    - assert (Hf : In f (frames s)) by (apply (Permutation_in _ (Permutation_sym Hp)); now left).
      apply (Permutation_in _ Hp') in Hi. apply in_app_or in Hi as [Hi|Hi].
      + assert (SF : forall o' c is', f = FBody o' (ISpawn c :: is') -> c <> p).
        { intros o' c is' -> ->. destruct (spawn_facts P W s I _ _ _ Hf) as [_ V]. unfold sp in Hs. lia. }
        clear I Hp Hp' E.
        cases_f H; simpl in Hi; repeat (destruct Hi as [Hi|Hi]; [try discriminate Hi|]); try easy; injection Hi; intros; subst.
        * destruct (SF _ _ _ eq_refl eq_refl).
        * destruct (SF _ _ _ eq_refl eq_refl).
        * intros Hr. apply (Hn _ _ _ Hf). now right.
      + apply (Hn o rs is). apply (Permutation_in _ (Permutation_sym Hp)). now right.
    - apply (Permutation_in _ Hp') in Hi. apply in_app_or in Hi as [Hi|Hi]; [|exact (Hn _ _ _ Hi)].
      cases_i H; simpl in Hi; destruct Hi as [Hi|[]]; discriminate.
  Qed.

  Lemma pres_pushed s s' t r k : Inv P U s -> moves P s s' ->
    (forall o c r rs is, In (FSub o c (r :: rs) is) (frames s) -> ~ In (FSub o c (r :: rs) is) (frames s') ->
       forall p, In p (spawns (body P (parent P c))) -> (rk U r p < rk U r c)%nat -> In r (uniq P p) -> pushed s p r) ->
    ent P t r k -> sp s' t ->
    (forall o rs is, In (FSub o t rs is) (frames s') -> (length rs <= k)%nat) ->
    forall p, In p (spawns (body P (parent P t))) -> (rk U r p < rk U r t)%nat -> In r (uniq P p) -> pushed s' p r.
  Proof.
    intros I M PO He Hs Hf' p Hp0 Hlt Hr. eapply pushed_mono; eauto.
    destruct (sub_dec s t k) as [(o & rs & is & Hi & L)|OLD].
    - assert (NI : ~ In (FSub o t rs is) (frames s')) by (intros Q; apply Hf' in Q; lia).
      destruct rs as [|r0 rs]; [simpl in L; lia|].
      assert (Hi' : In (FSub o t rs is) (frames s')).
      { destruct M as [i f fs s1 fr rest E H -> Hp Hp' | i pk s1 fr E H -> Hp'].
        - assert (Hq := Permutation_in _ Hp Hi). destruct Hq as [->|Hq].
          + simpl in H. injection H as <- <-. apply (Permutation_in _ (Permutation_sym Hp')). now left.
          + destruct NI. apply (Permutation_in _ (Permutation_sym Hp')). apply in_or_app. auto.
        - destruct NI. apply (Permutation_in _ (Permutation_sym Hp')). apply in_or_app. auto. }
      apply Hf' in Hi'. simpl in L. assert (k = length rs) by lia. subst k.
      assert (r = r0).
      { eapply ent_fun; eauto. apply suffix_ent. assert (FOK := i_frames P s I _ Hi). apply FOK. }
      subst r0. eapply PO; eauto.
    - destruct (Z_lt_le_dec (zsum (v_spawn t) (log s)) 1) as [l|l].
      + exfalso. destruct M as [i f fs s1 fr rest E H -> Hp Hp' | i pk s1 fr E H -> Hp'].
        * unfold sp in Hs. assert (Q := fun g => Permutation_in g (Permutation_sym Hp')).
          clear E I Hp Hp' PO. cases_f H; simpl log in Hs; cbn [zsum v_spawn] in Hs; try lia.
          all: unfold ni in Hs; destruct (Nat.eqb_spec c t); [subst|simpl in Hs; lia].
          all: match type of Q with context [FSub ?o ?t ?rs ?is :: _] => specialize (Hf' o rs is (Q _ (or_introl eq_refl))) end.
          all: apply ent_lt in He; lia.
        * unfold sp in Hs. cases_i H; simpl in Hs; lia.
      + apply (i_pushed P s I t r k); auto.
  Qed.

  Lemma pres_present s s' t r k : Inv P U s -> moves P s s' -> ent P t r k -> sp s' t ->
    (forall o rs is, In (FSub o t rs is) (frames s') -> (length rs <= k)%nat) ->
    In (t, k) (users s' r) \/ rc s' t.
  Proof.
    intros I M He Hs Hf'.
    assert (KEEP : In (t, k) (users s r) \/ rc s t -> In (t, k) (users s' r) \/ rc s' t).
    { intros [H|H]; [|right; eapply rc_mono; eauto].
      destruct (moves_users s s' M) as [Hu|o c r0 rs is Hf Hu|t0 r0 rs Hf Hl Hu]; rewrite Hu; auto;
        unfold upd; destruct (Nat.eqb_spec r r0); auto; subst.
      - left. now right.
      - destruct (Nat.eq_dec t t0).
        + subst. right. eapply rc_mono; eauto. eapply delete_facts; eauto.
        + left. apply in_without. split; auto. congruence. }
    destruct (sub_dec s t k) as [(o & rs & is & Hi & L)|OLD].
    - destruct M as [i f fs s1 fr rest E H -> Hp Hp' | i pk s1 fr E H -> Hp'].
      + assert (Hi' := Permutation_in _ Hp Hi). destruct Hi' as [->|Hi'].
        * destruct rs as [|r0 rs]; [simpl in L; lia|]. simpl in H. injection H as <- <-. simpl.
          assert (k = length rs).
          { assert (In (FSub o t rs is) (frames (set_thr (set_users s (upd (users s) r0 ((t, length rs) :: users s r0)))
                 (set_nth i ([FSub o t rs is] ++ fs) (thr s))))) as Q.
            { apply (Permutation_in _ (Permutation_sym Hp')). now left. }
            apply Hf' in Q. simpl in L. lia. }
          subst k. assert (r = r0).
          { eapply ent_fun; eauto. apply suffix_ent. assert (FOK := i_frames P s I _ Hi). apply FOK. }
          subst. unfold upd. rewrite Nat.eqb_refl. left. now left.
        * exfalso. assert (Q := Permutation_in (FSub o t rs is) (Permutation_sym Hp')).
          specialize (Hf' o rs is (Q ltac:(apply in_or_app; auto))). lia.
      + exfalso. assert (Q := Permutation_in (FSub o t rs is) (Permutation_sym Hp')).
        specialize (Hf' o rs is (Q ltac:(apply in_or_app; auto))). lia.
    - destruct (Z_lt_le_dec (zsum (v_spawn t) (log s)) 1) as [l|l].
      + exfalso. destruct M as [i f fs s1 fr rest E H -> Hp Hp' | i pk s1 fr E H -> Hp'].
        * unfold sp in Hs. assert (Q := fun g => Permutation_in g (Permutation_sym Hp')).
          clear E KEEP I Hp Hp'. cases_f H; simpl log in Hs; cbn [zsum v_spawn] in Hs; try lia.
          all: unfold ni in Hs; destruct (Nat.eqb_spec c t); [subst|simpl in Hs; lia].
          all: match type of Q with context [FSub ?o ?t ?rs ?is :: _] => specialize (Hf' o rs is (Q _ (or_introl eq_refl))) end.
          all: apply ent_lt in He; lia.
        * unfold sp in Hs. cases_i H; simpl in Hs; lia.
      + apply KEEP. apply (i_present P s I); auto.
  Qed.
End Pres.
