(** Conflicting operations are ordered also when a body goes on using what it lent to tasks it
    has waited for. *)
From Coq Require Import Bool List Arith NArith ZArith Lia Permutation Sorting.Sorted.
From Verif Require Import AccessModel AccessSpec AccessProof UserModel UserProof SchedModel SchedSpec SchedBase SchedInv1 SchedInv2 SchedInv3 SchedInv4 SchedInv5 SchedInv6 SchedInv7 SchedInv8 SchedFront SchedThm SchedSeq SchedMany NestSpec SchedNest SchedValue FreeNest HbModel HbSpec HbBase HbInv HbStep HbGlob HbFrame HbThm HbRace.
Import ListNotations.
Open Scope Z_scope.

Section Join.
  Context (P : prog) {U : front} (W : wfc P U) (NW : p_wrap P = false).

  Lemma use_parent o c : In (IGet c) (body P (Some o)) -> parent P c = Some o.
  Proof.
    intros H. apply in_split in H as (pre & post & E).
    assert (X := m_use_after P W (Some o) (body P (Some o)) pre _ post c eq_refl E (or_intror eq_refl)).
    apply spawns_In in X. apply (m_parent P W). rewrite E. apply in_or_app. auto.
  Qed.

  Section Run.
    Context (n : nat) (s : state) (tr : list rec) (H : hreach P U n s tr).

    (** what a body has waited for, it has waited for on its own thread, before *)
    Lemma got_before m a o is fs s1 s2 fr s3 : nth_error tr m = Some a -> hreach P U n s1 (firstn m tr) ->
      moved P s1 (r_who a) s2 a (FBody (Some o) is) fs s3 fr ->
      exists pre, body P (Some o) = pre ++ is /\ forall d, In (IGet d) pre -> exists g, does tr g (LGet d) /\ hb tr g m.
    Proof.
      intros Em H1 Mv. assert (Hf := moved_in P s1 _ s2 a _ _ _ _ Mv). assert (I := H_inv P W NW n s1 _ H1).
      destruct (mr_got P n s1 (H_mreach P n s1 _ H1) _ Hf) as (b & pre & C & E & A). change (b = body P (Some o)) in C. subst b.
      exists pre. split; auto. intros d Hd. apply A in Hd as Lg.
      assert (G1 := H_glob P W NW n s1 _ H1). apply (log_does P s1 _ G1) in Lg as [g Dg].
      destruct Dg as (r & Er & Hr). assert (Bg : (g < m)%nat).
      { assert (g < length (firstn m tr))%nat by (apply nth_error_Some; congruence). rewrite firstn_length in *. lia. }
      rewrite nth_firstn in Er by auto. assert (Dg : does tr g (LGet d)) by (exists r; auto). exists g. split; auto.
      eapply hb_po; eauto.
      (* the thread of the get *)
      assert (Pd : parent P d = Some o) by (apply use_parent; rewrite E; apply in_or_app; auto).
      destruct (hreach_at P n s tr g r H Er) as (s4 & i & s5 & H4 & HM).
      assert (Ei : r_who r = i) by (destruct HM; subst r; reflexivity).
      destruct (hm_cause P s4 i s5 r HM _ Hr) as [(f & fs' & s6 & fr' & Mv' & Q)|(x & y & Q)]; [|discriminate].
      destruct Q as ((o' & is' & ->) & _). assert (Hf' := moved_in P s4 _ s5 r _ _ _ _ Mv'). assert (I4 := H_inv P W NW n s4 _ H4).
      destruct (law_suffix P s4 (i_laws P s4 I4) _ Hf') as (b' & C' & pre' & E').
      assert (X := m_use_after P W o' b' pre' _ is' d C' E' (or_intror eq_refl)). apply spawns_In in X.
      assert (o' = Some o).
      { rewrite <- Pd. symmetry. apply (m_parent P W). apply (code_In P W o' b'); auto. rewrite E'. apply in_or_app. auto. }
      subst o'. assert (Kf := proj2 (hreach_HInv P W NW n s4 _ H4) i _ (moved_inst P s4 i s5 r _ _ _ _ Mv')). simpl in Kf.
      assert (Kf2 := proj2 (hreach_HInv P W NW n s1 _ H1) (r_who a) _ (moved_inst P s1 _ s2 a _ _ _ _ Mv)). simpl in Kf2.
      assert (St : In (LStart o) (log s4)).
      { apply in_start. destruct (body_facts P s4 I4 o) as (_ & _ & Z & _); [|lia].
        assert (Q := in_w s4 (is_body (Some o)) _ (w_nn4 (Some o)) Hf'). simpl in Q. rewrite Nat.eqb_refl in Q. exact Q. }
      apply (log_does P s4 _ (H_glob P W NW n s4 _ H4)) in St as [j (q & Ej & Hj)].
      rewrite Ei, <- (Kf j q _ Ej Hj eq_refl). apply (Kf2 j q (LStart o)); auto.
      assert (j < length (firstn g tr))%nat by (apply nth_error_Some; congruence). rewrite firstn_length in *.
      rewrite nth_firstn in Ej |- * by lia. exact Ej.
    Qed.

    Lemma joined_hb b t m : joined P b t -> (forall d, In (IGet d) b -> exists g, does tr g (LGet d) /\ hb tr g m) ->
      exists e, does tr e (LEnd t) /\ hb tr e m.
    Proof.
      intros J A. assert (G := H_glob P W NW n s tr H). induction J as [c Hc|c d J IH Hd].
      - destruct (A c Hc) as (g & Dg & Bg). destruct (h_get _ _ _ _ G g c Dg) as (e & De & Be). exists e. split; auto. eapply hb_trans; eauto.
      - destruct IH as (e & (r & Er & Hr) & Be). destruct (hreach_at P n s tr e r H Er) as (s1 & i & s2 & H1 & HM).
        assert (Ei : r_who r = i) by (destruct HM; subst r; reflexivity). subst i.
        destruct (hm_cause P s1 _ s2 r HM _ Hr) as [(f & fs' & s6 & fr' & Mv & Q)|(x & y & Q)]; [|discriminate]. simpl in Q. subst f.
        destruct (got_before e r c [] fs' s1 s2 fr' s6 Er H1 Mv) as (pre & E & A'). rewrite app_nil_r in E. rewrite E in Hd.
        destruct (A' d Hd) as (g & Dg & Bg). destruct (h_get _ _ _ _ G g d Dg) as (e' & De & Be'). exists e'. split; auto.
        eapply hb_trans; [exact Be'|]. eapply hb_trans; eauto.
    Qed.

    (** as [act_after], with what the body has waited for in between *)
    Lemma act_between m j t a c : does tr m (LAct (Some t) a) -> does tr j (LSpawn c) -> (j <= m)%nat ->
      In (ISpawn c) (body P (Some t)) -> exists pre mid post, body P (Some t) = pre ++ ISpawn c :: mid ++ IAct a :: post /\
      forall d, In (IGet d) mid -> exists g, does tr g (LGet d) /\ hb tr g m.
    Proof.
      intros Dm (q & Eq & Hq) L Ic. assert (Dm' := Dm). destruct Dm as (r & E & Hr). destruct (hreach_at P n s tr m r H E) as (s1 & i & s2 & H1 & HM).
      assert (Ei : r_who r = i) by (destruct HM; subst r; reflexivity). subst i.
      destruct (hm_cause P s1 _ s2 r HM _ Hr) as [(f & fs & s3 & fr & Mv & C)|(x & y & C)]; [|discriminate].
      destruct C as [is ->]. assert (Hf := moved_in P s1 _ s2 r _ _ _ _ Mv). assert (I := H_inv P W NW n s1 _ H1).
      destruct (got_before m r t _ fs s1 s2 fr s3 E H1 Mv) as (pre & E2 & A).
      destruct (Nat.eq_dec j m) as [->|d].
      { exfalso. rewrite E in Eq. injection Eq as <-.
        destruct (hm_cause P s1 _ s2 r HM _ Hq) as [(f2 & fs2 & s4 & fr2 & Mv2 & C2)|(x & y & C2)]; [|discriminate].
        destruct C2 as (o & is2 & ->). pose proof (mv_top _ _ _ _ _ _ _ _ _ Mv) as T1. pose proof (mv_top _ _ _ _ _ _ _ _ _ Mv2) as T2.
        rewrite T1 in T2. discriminate. }
      assert (Sc : sp s1 c).
      { apply sp_in. eapply (does_log P s1 (firstn m tr)); [exact (H_glob P W NW n s1 _ H1)|]. exists q. split; [|exact Hq].
        rewrite <- Eq. apply nth_firstn. lia. }
      assert (Pc : parent P c = Some t) by (apply (m_parent P W), Ic).
      assert (Y : ~ In (ISpawn c) is).
      { intros Y. pose proof (law_spawn P s1 (i_laws P s1 I) c) as LS. rewrite Pc in LS.
        pose proof (spawns_once P W c (Some t)). pose proof (f_startedz P s1 I (Some t)).
        assert (Z1 : n_spawn c (FBody (Some t) (IAct a :: is)) <= zsum (n_spawn c) (frames s1))
          by (apply in_w; auto; intro; apply w_nn).
        assert (Z2 : 1 <= n_spawn c (FBody (Some t) (IAct a :: is)))
          by (unfold n_spawn; simpl; apply spawns_In, ni_pos in Y; lia).
        unfold sp in Sc. nia. }
      rewrite E2 in Ic |- *. apply in_app_or in Ic as [Ic|[Ic|Ic]]; [|discriminate|easy].
      apply in_split in Ic as (x & y & ->). exists x, y, is. split; [now rewrite <- app_assoc|].
      intros d' Hd. apply A. apply in_or_app. right. now right.
    Qed.

    Context (BH : behaved P) (CC : children_covered P) (IP : inner_private P) (KC : keeps_clear P).

    Lemma down_hb2 u t m k a b : within P u t -> u <> t -> does tr m (LAct (Some u) b) -> does tr k (LAct (Some t) a) ->
      acts_conflict b a -> hb tr m k \/ hb tr k m.
    Proof.
      intros Wi D Dm Dk C. apply within_first in Wi as [->|(c & Ic & Wi)]; [easy|].
      assert (St := made_sp P W NW n s tr H k _ t Dk eq_refl). assert (Sc := in_sp P W NW n s tr H c t Wi St).
      apply sp_in, (log_does P s tr (H_glob P W NW n s tr H)) in Sc as [j Dj].
      destruct (le_lt_dec j m) as [L|L].
      - right. destruct (act_between m j u b c Dm Dj L Ic) as (pre & mid & post & E & A).
        destruct (KC u pre c mid b post t a E Wi (act_in P W NW n s tr k t a H Dk)) as [J|N]; [|easy].
        destruct (joined_hb mid t m J A) as (e & De & Be).
        destruct (h_end _ _ _ _ (H_glob P W NW n s tr H) e k t _ De Dk eq_refl) as [->|Q]; auto. eapply hb_trans; eauto.
      - left. destruct Dm as (x & Ex & Hx). destruct Dj as (y & Ey & Hy).
        apply (submit_hb P W NW n s tr H c t j m k x y (LAct (Some t) a)); auto; [|lia].
        eapply (same_body P W NW n s tr H m j x y _ _ u Ex Ey Hx Hy); [reflexivity|]. simpl. apply (m_parent P W), Ic.
    Qed.

    Lemma no_race_clear u t m k a b : does tr m (LAct (Some u) b) -> does tr k (LAct (Some t) a) -> acts_conflict b a ->
      m = k \/ hb tr m k \/ hb tr k m.
    Proof.
      intros Dm Dk C. destruct (Nat.eq_dec u t) as [->|D]; [eapply same_body_hb; eauto; reflexivity|]. right.
      assert (Su := made_sp P W NW n s tr H m _ u Dm eq_refl). assert (St := made_sp P W NW n s tr H k _ t Dk eq_refl).
      destruct (meet P W NW n s tr H (u + t) u t (le_n _) Su St) as [X|[X|(o & p & q & Ip & Iq & Dpq & Wp & Wq)]].
      - eapply down_hb2; eauto.
      - destruct (down_hb2 t u k m b a) as [Q|Q]; auto. now apply acts_conflict_sym.
      - assert (AP : forall x, within P p x -> within P q x -> False) by (intros x; now apply (mw_apart P W o)).
        assert (X1 : user_is_serial (user P u) (user P t) = true).
        { apply (conflict_serial P). eapply acts_tasks; eauto; eapply act_in; eauto. }
        assert (X2 : user_is_serial (user P p) (user P t) = true) by (apply (lift_within P CC IP p u t Wp); eauto).
        assert (X3 : user_is_serial (user P q) (user P p) = true).
        { apply (lift_within P CC IP q t p Wq); [|now rewrite user_is_serial_sym]. intros Z. apply (AP p); auto. constructor. }
        assert (Pp := m_parent P W _ _ Ip). assert (Pq := m_parent P W _ _ Iq).
        destruct (ser_ser_on P W q p) as (r & _ & Sr); [split; [congruence|exact X3]|].
        destruct (lt_eq_lt_dec (rk U r p) (rk U r q)) as [[L|L]|L].
        + left. eapply (siblings_hb P W NW n s tr H r p q u t); eauto; try reflexivity. now apply ser_on_sym.
        + apply (m_rank P W) in L. easy.
        + right. eapply (siblings_hb P W NW n s tr H r q p t u); eauto; reflexivity.
    Qed.
  End Run.
End Join.
