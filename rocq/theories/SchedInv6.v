(** Preservation of the invariant, part 4: monotonicity, locks, user lists. *)
From Coq Require Import Bool List Arith NArith ZArith Lia Permutation Sorting.Sorted.
From Verif Require Import AccessModel AccessSpec AccessProof UserModel UserProof SchedModel SchedSpec SchedBase SchedInv1 SchedInv2 SchedInv3 SchedInv4 SchedInv5.
Import ListNotations.
Open Scope Z_scope.

Section Pres.
  Context (P : prog) {U : front} (W : wfc P U) (NW : p_wrap P = false).

  (** ** Monotonicity *)
  Lemma log_mono s s' : moves P s s' -> exists l, log s' = l ++ log s.
  Proof.
    intros M. destruct M as [i f fs s1 fr rest E H -> Hp Hp' | i pk s1 fr E H -> Hp'].
    - cases_f H; simpl; first [now exists [] | now eexists [_] | now eexists [_; _]].
    - cases_i H; simpl; first [now exists [] | now eexists [_]].
  Qed.

  Lemma sum_mono (v : lev -> Z) s s' : (forall x, 0 <= v x) -> moves P s s' -> zsum v (log s) <= zsum v (log s').
  Proof.
    intros N M. destruct (log_mono s s' M) as [l ->]. rewrite zsum_app. pose proof (nn_v v l N). lia.
  Qed.

  Lemma sp_mono s s' t : moves P s s' -> sp s t -> sp s' t.
  Proof. intros M. unfold sp. pose proof (sum_mono (v_spawn t) s s' (fun x => proj1 (v_nn t x)) M). lia. Qed.

  Lemma rc_mono s s' t : moves P s s' -> rc s t -> rc s' t.
  Proof. intros M. unfold rc. pose proof (sum_mono (v_reach (EPost t)) s s' (fun x => proj1 (v_nn2 _ x)) M). lia. Qed.

  Lemma event_mono s s' t e : moves P s s' -> zsum (v_event t e) (log s) <= zsum (v_event t e) (log s').
  Proof. intros M. exact (sum_mono (v_event t e) s s' (fun x => proj1 (v_nn3 _ _ x)) M). Qed.

  Lemma fol_mono s s' y x : moves P s s' -> In x (fol s y) -> In x (fol s' y).
  Proof.
    intros M Hx. destruct M as [i f fs s1 fr rest E H -> Hp Hp' | i pk s1 fr E H -> Hp'].
    - cases_f H; simpl; auto; unfold eupd; match goal with |- context [ev_eqb ?a ?b] => destruct (ev_eqb_spec a b) end; subst; simpl; auto.
    - cases_i H; simpl; auto.
  Qed.

  Lemma cov_mono s s' r p t : moves P s s' -> cov P U s r p t -> cov P U s' r p t.
  Proof.
    intros M [H|[H|(q & Hq & H1 & H2 & H3 & H4)]].
    - left. eapply rc_mono; eauto.
    - right. left. eapply fol_mono; eauto.
    - right. right. exists q. repeat (split; [solve [eauto using sp_mono]|]).
      destruct H4; [left; eapply rc_mono; eauto | right; eapply fol_mono; eauto].
  Qed.

  (** nothing is spawned late *)
  Lemma ent_ex t r : In r (uniq P t) -> exists k, ent P t r k.
  Proof. intros H. apply in_split in H as (a & b & H). exists (length b), a, b. auto. Qed.

  Lemma sp_back s s' p t r : Inv P U s -> moves P s s' -> sp s' p -> (rk U r p < rk U r t)%nat -> parent P p = parent P t ->
    In r (uniq P p) -> In r (uniq P t) -> sp s t -> (forall o rs is, ~ In (FSub o t rs is) (frames s)) -> sp s p.
  Proof.
    intros I M Hp' Hlt Hpar Rp Rt Ht NS.
    assert (L := law_spawn P s' (laws_step P W s s' (i_laws P s I) M) p).
    nnw n_spawn p s'. unfold sp in Hp'.
    assert (Hi : In p (spawns (body P (parent P t)))).
    { rewrite <- Hpar. destruct (Z_lt_le_dec 0 (zsum (ni p) (spawns (body P (parent P p))))) as [l|l]; [now apply ni_pos in l|].
      pose proof (ni_nonneg p (spawns (body P (parent P p)))) as N0. assert (E0 : zsum (ni p) (spawns (body P (parent P p))) = 0) by lia.
      rewrite E0, Z.mul_0_r in L. lia. }
    destruct (ent_ex t r Rt) as [k Hk].
    apply (i_pushed P s I t r k Hk Ht); auto. intros o rs is Hf. destruct (NS _ _ _ Hf).
  Qed.

  Lemma ser_share p t : ser P p t -> exists r, In r (uniq P p) /\ In r (uniq P t).
  Proof.
    intros (E & S). apply user_is_serial_spec in S as (a & b & Ha & Hb & S).
    exists (r_id (a_res b)). split; [|now apply (m_covers P W t b)].
    apply ra_is_serial_inv in S as [S _]. rewrite <- S. now apply (m_covers P W p a).
  Qed.

  Lemma ser_on_left r p t : ser_on P r p t -> In r (uniq P p).
  Proof. intros (_ & a & b & Ha & Hb & <- & _). now apply (m_covers P W p a). Qed.

  Lemma ser_on_right r p t : ser_on P r p t -> In r (uniq P t).
  Proof. intros (_ & a & b & Ha & Hb & <- & S). apply ra_is_serial_inv in S as [-> _]. now apply (m_covers P W t b). Qed.

  Lemma cov_all_mono s s' t : Inv P U s -> moves P s s' -> sp s t -> (forall o rs is, ~ In (FSub o t rs is) (frames s)) ->
    cov_all P U s t -> cov_all P U s' t.
  Proof.
    intros I M Ht NS [H H2]. split.
    - intros r p Hlt Hp Hs. eapply cov_mono; eauto. apply H; auto.
      eapply (sp_back s s' p t r); eauto; [apply Hs|eapply ser_on_left; eauto|eapply ser_on_right; eauto].
    - intros N S. eapply fol_mono; eauto. now apply H2.
  Qed.

  Lemma cov_done_mono s s' t rem : Inv P U s -> moves P s s' -> sp s t -> (forall o rs is, ~ In (FSub o t rs is) (frames s)) ->
    cov_done P U s t rem -> cov_done P U s' t rem.
  Proof.
    intros I M Ht NS (pre & E & H & H2). exists pre. split; [easy|]. split.
    - intros r Hr p Hlt Hp Hs. eapply cov_mono; eauto. eapply H; eauto.
      eapply (sp_back s s' p t r); eauto; [apply Hs|eapply ser_on_left; eauto|].
      rewrite E. apply in_or_app. auto.
    - intros N S. eapply fol_mono; eauto. now apply H2.
  Qed.

  (** ** Followers *)
  Lemma fol_ok_mono s s' y x : moves P s s' -> fol_ok P U s y x -> fol_ok P U s' y x.
  Proof.
    intros M. destruct y, x; simpl; auto.
    - intros (? & ? & ? & ?). repeat (split; [solve [eauto using sp_mono]|]). eauto using sp_mono.
    - intros (? & ?). eauto using sp_mono.
    - intros (? & ?). split; auto. pose proof (event_mono s s' t e M). lia.
  Qed.

  Lemma sorted_mid {A} (R : A -> A -> Prop) pre x mid y post :
    StronglySorted R (pre ++ x :: mid ++ y :: post) -> R x y.
  Proof.
    intros S. induction pre as [|a pre IH]; simpl in S; apply StronglySorted_inv in S as [S F]; auto.
    rewrite Forall_forall in F. apply F. apply in_or_app. simpl. auto.
  Qed.

  Lemma sorted_app_lr {A} (R : A -> A -> Prop) l m x y :
    StronglySorted R (l ++ m) -> In x l -> In y m -> R x y.
  Proof.
    intros S Hx Hy. apply in_split in Hx as (l1 & l2 & ->). apply in_split in Hy as (m1 & m2 & ->).
    apply (sorted_mid R l1 x (l2 ++ m1) y m2). now rewrite <- !app_assoc in *.
  Qed.

  Lemma ent_in t r k : ent P t r k -> In r (uniq P t).
  Proof. intros (a & b & -> & _). apply in_or_app. simpl. auto. Qed.

  Lemma ent_inj t r k k' : NoDup (uniq P t) -> ent P t r k -> ent P t r k' -> k = k'.
  Proof.
    intros N (p1 & s1 & E1 & <-) (p2 & s2 & E2 & <-).
    rewrite E1 in E2, N. f_equal. clear E1. revert p2 E2 N.
    induction p1 as [|x p1 IH]; intros [|y p2] H N; simpl in *.
    - now injection H.
    - injection H as <- ->. inversion N; subst. destruct H1. apply in_or_app; simpl; auto.
    - injection H as -> <-. inversion N; subst. destruct H1. apply in_or_app; simpl; auto.
    - injection H as _ H. inversion N; subst. eauto.
  Qed.

  Lemma dep_order s t p r it rs : Inv P U s -> dep_ok P U s t p r it rs ->
    ((rk U r p < rk U r t)%nat \/ (p = t /\ ~ NoDup (uniq P t))) /\ sp s p.
  Proof.
    intros I ((Ep & _) & _ & pre & mid & k & E & _). assert (S := i_newer P s I r). rewrite E in S.
    apply sorted_mid in S. destruct S as [S _]. simpl in S.
    assert (H1 : In (t, length rs) (users s r)) by (rewrite E, !in_app_iff; simpl; auto).
    assert (H2 : In (p, k) (users s r)) by (rewrite E, !in_app_iff; simpl; rewrite in_app_iff; simpl; auto).
    apply (i_ent P s I) in H1 as [H1 _]. apply (i_ent P s I) in H2 as [H2 H3].
    split; [|easy]. destruct S as [S|[-> S]]; [auto|auto|]. right. split; [easy|].
    intros N. pose proof (ent_inj t r _ _ N H1 H2). lia.
  Qed.

  Lemma pres_fol s s' y x : Inv P U s -> moves P s s' -> In x (fol s' y) -> fol_ok P U s' y x.
  Proof.
    intros I M Hx. assert (M' := M).
    assert (OLD : In x (fol s y) -> fol_ok P U s' y x) by (intros; eapply fol_ok_mono; eauto; apply (i_fol P s I); auto).
    destruct M as [i f fs s1 fr rest E H -> Hp Hp' | i pk s1 fr E H -> Hp'].
    - assert (Hf : In f (frames s)) by (apply (Permutation_in _ (Permutation_sym Hp)); now left).
      assert (FOK := i_frames P s I f Hf).
      cases_f H; simpl fol in Hx; auto; unfold eupd in Hx;
        match type of Hx with context [ev_eqb ?a ?b] => destruct (ev_eqb_spec a b); [subst y|now apply OLD] end;
        destruct Hx as [<-|Hx]; auto.
      + simpl. split; [easy|]. rewrite !Nat.eqb_refl. simpl.
        pose proof (nn_v (v_event n e) (log s) (fun l => proj1 (v_nn3 n e l))). lia.
      + simpl in FOK. destruct (dep_order _ _ _ _ _ _ I FOK) as [Hlt Hsp]. destruct FOK as [S FOK].
        pose proof (collect_facts P W s I t (in_collect s t _ Hf (ni_refl t))) as C.
        split; [destruct Hlt as [Hlt|Hlt]; [left; exists r|now right]|].
        { destruct FOK as (_ & pre & mid & k & E1 & _). assert (Q1 : In (t, length rs) (users s r)) by (rewrite E1, !in_app_iff; simpl; auto).
          assert (Q2 : In (p, k) (users s r)) by (rewrite E1, !in_app_iff; simpl; rewrite in_app_iff; simpl; auto).
          apply (i_ent P s I) in Q1 as [Q1 _]. apply (i_ent P s I) in Q2 as [Q2 _]. repeat split; auto; eapply ent_in; eauto. }
        split; [easy|]. split; eapply sp_mono; eauto. unfold sp. lia.
      + simpl in FOK. pose proof (collect_facts P W s I t (in_collect s t _ Hf (ni_refl t))) as C.
        split; [easy|]. eapply sp_mono; eauto. unfold sp. lia.
    - cases_i H; auto.
  Qed.

  (** ** Locks *)
  Lemma pres_lock s s' r : Inv P U s -> moves P s s' -> zsum (w_holds r) (frames s') = zb (lck s' r).
  Proof.
    intros I M. assert (A := i_lock P s I r).
    destruct M as [i f fs s1 fr rest E H -> Hp Hp' | i pk s1 fr E H -> Hp'].
    - nnw w_holds r s. rewrite (zsum_perm _ _ _ Hp) in *. rewrite (zsum_perm _ _ _ Hp').
      assert (N : 0 <= zsum (w_holds r) rest) by (apply nn_v; intro; apply w_nn).
      clear I Hp Hp' E.
      cases_f H; simpl in *; rewrite ?Z.add_0_l in *; auto; unfold upd, ni in *;
        try match goal with |- context [(?a =? r)%nat] => rewrite (Nat.eqb_sym a r) end;
        try match type of A with context [(?a =? r)%nat] => rewrite (Nat.eqb_sym a r) in * end;
        match goal with |- context [Nat.eqb ?a ?b] => destruct (Nat.eqb_spec a b); subst; simpl in * end;
        try match goal with B : lck _ _ = _ |- _ => rewrite B in * end; simpl in *; try lia;
        destruct (lck _ _); simpl in *; lia.
    - rewrite (zsum_perm _ _ _ Hp'). cases_i H; simpl in *; lia.
  Qed.

  (** ** Children of a finished body *)
  Lemma pres_guard s s' c q : Inv P U s -> moves P s s' ->
    (forall q, zsum (v_end q) (log s) < zsum (v_end q) (log s') ->
       forall c, parent P c = Some q -> sp s c -> 1 <= zsum (v_init c) (log s)) ->
    parent P c = Some q -> 1 <= zsum (v_end q) (log s') ->
    zsum (v_init c) (log s') = zsum (v_spawn c) (log s').
  Proof.
    intros I M G Hp He. specialize (G q). assert (A := i_guard P s I c q Hp).
    assert (PH := f_phase P s I c). assert (S1 := f_spawn P W s I c). unfold sp in G. nnv v_init c s.
    destruct M as [i f fs s1 fr rest E H -> Hq Hq' | i pk s1 fr E H -> Hq'].
    - assert (Hf : In f (frames s)) by (apply (Permutation_in _ (Permutation_sym Hq)); now left).
      assert (B : forall o is, f = FBody o (ISpawn c :: is) -> zsum (v_end q) (log s) = 0).
      { intros o is ->. destruct (spawn_facts P W s I _ _ _ Hf) as [Ep _]. rewrite Hp in Ep. subst o.
        assert (B := in_w s (is_body (Some q)) _ (w_nn4 (Some q)) Hf).
        simpl in B. rewrite Nat.eqb_refl in B. simpl in B. apply (body_facts P s I) in B. lia. }
      assert (C : f = FNotify (EPre c) NInit -> zsum (v_init c) (log s) = 0 /\ zsum (v_spawn c) (log s) = 1).
      { intros ->. assert (B1 := in_w s (w_ninit c) _ (fun g => proj1 (proj2 (proj2 (proj2 (w_nn c g))))) Hf).
        simpl in B1. rewrite ni_refl in B1. apply (ninit_facts P W s I) in B1. lia. }
      clear Hf I Hq Hq' E.
      cases_f H; simpl in *; rewrite ?Z.add_0_l in *; auto.
      all: unfold ni in *.
      all: try (destruct (Nat.eqb_spec t q); simpl in * ); try (destruct (Nat.eqb_spec t c); simpl in * );
           try (destruct (Nat.eqb_spec c0 c); simpl in * ); subst; try (specialize (B _ _ eq_refl)); try (specialize (C eq_refl));
           try (specialize (G ltac:(lia) c Hp)); try lia.
      destruct (Nat.eqb_spec n q); simpl in *; [specialize (G ltac:(lia) c Hp)|]; lia.
    - cases_i H; simpl in *; rewrite ?Z.add_0_l in *; auto.
  Qed.
End Pres.
