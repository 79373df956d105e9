(** Conflicting operations of any two tasks are ordered; the executions of one and of several
    user threads. *)
From Coq Require Import Bool List Arith NArith ZArith Lia Permutation Sorting.Sorted.
From Verif Require Import AccessModel AccessSpec AccessProof UserModel UserProof SchedModel SchedSpec SchedBase SchedInv1 SchedInv2 SchedInv3 SchedInv4 SchedInv5 SchedInv6 SchedInv7 SchedInv8 SchedFront SchedThm SchedSeq SchedMany NestSpec SchedNest HbModel HbSpec HbBase HbInv HbStep HbGlob HbFrame HbThm.
Import ListNotations.
Open Scope Z_scope.

Lemma nth_firstn {A} (l : list A) : forall m j, (j < m)%nat -> nth_error (firstn m l) j = nth_error l j.
Proof. induction l as [|x l IH]; intros [|m] [|j] L; simpl; auto; try lia. apply IH. lia. Qed.

Lemma touch_conflict_sym t : forall x y : touch t, conflict t x y -> conflict t y x.
Proof.
  induction t as [| |t IH n op|t IH u IHu op].
  - simpl. now intros [] [].
  - simpl. intros; now symmetry.
  - destruct op; simpl; induction n as [|n IHn]; simpl; auto.
    + intros x y [A B]. auto.
    + intros [x|x] [y|y]; auto.
  - destruct op; simpl.
    + intros x y [A B]. auto.
    + intros [x|x] [y|y]; auto.
Qed.

Lemma acts_conflict_sym a b : acts_conflict a b -> acts_conflict b a.
Proof.
  intros (r & T & x & y & c & d & -> & -> & C). exists r, T, y, x, d, c. repeat split; auto. now apply touch_conflict_sym.
Qed.

Lemma ser_on_sym P r p t : ser_on P r p t -> ser_on P r t p.
Proof.
  intros (E & a & b & Ha & Hb & Hr & S). split; [easy|]. exists b, a. repeat split; auto.
  - apply ra_is_serial_inv in S as [S _]. congruence.
  - now rewrite ra_is_serial_sym.
Qed.

Section Race.
  Context (P : prog) {U : front} (W : wfc P U) (NW : p_wrap P = false).

  (** ** The tree of tasks *)
  Lemma mw_le q t : within P q t -> (q <= t)%nat.
  Proof. induction 1 as [|b c H IH S]; auto. apply (m_lt P W) in S. lia. Qed.
  Lemma mw_chain a t : within P a t -> forall b, within P b t -> within P a b \/ within P b a.
  Proof.
    induction 1 as [|x t H IH S]; intros b Hb; auto.
    inversion Hb as [|y t' Hy Sy]; subst.
    - left. econstructor; eauto.
    - assert (x = y) by (apply (m_parent P W) in S, Sy; congruence). subst y. auto.
  Qed.
  Lemma mw_apart o a b t : In (ISpawn a) (body P o) -> In (ISpawn b) (body P o) -> a <> b ->
    within P a t -> within P b t -> False.
  Proof.
    assert (X : forall a b, In (ISpawn a) (body P o) -> In (ISpawn b) (body P o) -> a <> b -> within P a b -> False).
    { intros x y Hx Hy D H. inversion H as [|z y' Hz Sz]; subst; [easy|].
      apply (m_parent P W) in Sz as E1. pose proof (m_parent P W _ _ Hy) as E2. rewrite E1 in E2. subst o.
      apply mw_le in Hz. apply (m_lt P W) in Hx. lia. }
    intros Ha Hb D Wa Wb. destruct (mw_chain a t Wa b Wb) as [Q|Q]; [exact (X a b Ha Hb D Q)|].
    exact (X b a Hb Ha (not_eq_sym D) Q).
  Qed.

  Section Run.
    Context (n : nat) (s : state) (tr : list rec) (H : hreach P U n s tr).

    (** two tasks: one was emplaced inside the other, or they are inside siblings *)
    Lemma meet : forall k d e, (d + e <= k)%nat -> sp s d -> sp s e -> within P d e \/ within P e d \/
      exists o p t, In (ISpawn p) (body P o) /\ In (ISpawn t) (body P o) /\ p <> t /\ within P p d /\ within P t e.
    Proof.
      induction k as [|k IH]; intros d e L Sd Se.
      { assert (d = 0%nat) by lia. assert (e = 0%nat) by lia. subst. left. constructor. }
      destruct (Nat.eq_dec d e) as [->|D]; [left; constructor|].
      assert (Id := sp_body P W s (H_inv P W NW n s tr H) d Sd). assert (Ie := sp_body P W s (H_inv P W NW n s tr H) e Se).
      apply spawns_In in Id, Ie.
      destruct (parent P e) as [q|] eqn:Ee.
      - destruct (parent_sp P W NW n s tr H e q Se Ee) as [Sq Iq]. assert (Lq := m_lt P W _ _ Iq).
        destruct (IH d q ltac:(lia) Sd Sq) as [X|[X|(o & p & t & A1 & A2 & A3 & A4 & A5)]].
        + left. econstructor; eauto.
        + apply within_first in X as [->|(c & Ic & X)].
          * left. econstructor; [constructor|exact Iq].
          * destruct (Nat.eq_dec c e) as [->|Dc]; [right; left; exact X|].
            right; right. exists (Some q), c, e. repeat split; auto. constructor.
        + right; right. exists o, p, t. repeat split; auto. econstructor; eauto.
      - destruct (parent P d) as [q|] eqn:Ed.
        + destruct (parent_sp P W NW n s tr H d q Sd Ed) as [Sq Iq]. assert (Lq := m_lt P W _ _ Iq).
          destruct (IH q e ltac:(lia) Sq Se) as [X|[X|(o & p & t & A1 & A2 & A3 & A4 & A5)]].
          * apply within_first in X as [->|(c & Ic & X)].
            -- right; left. econstructor; [constructor|exact Iq].
            -- destruct (Nat.eq_dec c d) as [->|Dc]; [left; exact X|].
               right; right. exists (Some q), d, c. repeat split; auto. constructor.
          * right; left. econstructor; eauto.
          * right; right. exists o, p, t. repeat split; auto. econstructor; eauto.
        + right; right. exists None, d, e. repeat split; auto; constructor.
    Qed.
  End Run.

  (** ** The step that did something *)
  Lemma hreach_at n s tr m a : hreach P U n s tr -> nth_error tr m = Some a ->
    exists s1 i s2, hreach P U n s1 (firstn m tr) /\ hmove P s1 i s2 a.
  Proof.
    induction 1 as [|s tr i c s' H IH E1 E2 E3]; intros E; [destruct m; discriminate|].
    destruct (nth_inv tr _ m a E) as [E'|[-> ->]].
    - destruct (IH E') as (s1 & j & s2 & A & B). exists s1, j, s2. split; auto.
      rewrite firstn_app. replace (m - length tr)%nat with 0%nat; [simpl; now rewrite app_nil_r|].
      assert (m < length tr)%nat by (apply nth_error_Some; congruence). lia.
    - exists s, i, s'. rewrite firstn_app, Nat.sub_diag, firstn_all. simpl. rewrite app_nil_r. split; auto.
      now apply (step_hmove P s i c s').
  Qed.

  Lemma act_in n s tr m t a : hreach P U n s tr -> does tr m (LAct (Some t) a) -> In (IAct a) (body P (Some t)).
  Proof.
    intros H (r & E & Hr). destruct (hreach_at n s tr m r H E) as (s1 & i & s2 & H1 & HM).
    destruct (hm_cause P s1 i s2 r HM _ Hr) as [(f & fs & s3 & fr & Mv & C)|(x & y & C)]; [|discriminate].
    destruct C as [is ->]. assert (Hf := moved_in P s1 i s2 r _ _ _ _ Mv).
    assert (Q := law_suffix P s1 (i_laws P s1 (H_inv P W NW n s1 _ H1)) _ Hf).
    destruct Q as (b & C & [pre E2]). change (b = body P (Some t)) in C. subst b. rewrite E2. apply in_or_app. right. now left.
  Qed.

  (** an operation of a body made after it emplaced [c] stands after that in the code *)
  Lemma act_after n s tr m j t a c : hreach P U n s tr -> does tr m (LAct (Some t) a) -> does tr j (LSpawn c) -> (j <= m)%nat ->
    In (ISpawn c) (body P (Some t)) -> exists pre post, body P (Some t) = pre ++ ISpawn c :: post /\ In (IAct a) post.
  Proof.
    intros H (r & E & Hr) (q & Eq & Hq) L Ic. destruct (hreach_at n s tr m r H E) as (s1 & i & s2 & H1 & HM).
    destruct (hm_cause P s1 i s2 r HM _ Hr) as [(f & fs & s3 & fr & Mv & C)|(x & y & C)]; [|discriminate].
    destruct C as [is ->]. assert (Hf := moved_in P s1 i s2 r _ _ _ _ Mv). assert (I := H_inv P W NW n s1 _ H1).
    assert (Q := law_suffix P s1 (i_laws P s1 I) _ Hf).
    destruct Q as (b & C & [pre E2]). change (b = body P (Some t)) in C. subst b.
    destruct (Nat.eq_dec j m) as [->|d].
    { exfalso. rewrite E in Eq. injection Eq as <-.
      destruct (hm_cause P s1 i s2 r HM _ Hq) as [(f2 & fs2 & s4 & fr2 & Mv2 & C2)|(x & y & C2)]; [|discriminate].
      destruct C2 as (o & is2 & ->). pose proof (mv_top _ _ _ _ _ _ _ _ _ Mv) as T1. pose proof (mv_top _ _ _ _ _ _ _ _ _ Mv2) as T2.
      rewrite T1 in T2. discriminate. }
    assert (Sc : sp s1 c).
    { apply sp_in. eapply (does_log P s1 (firstn m tr)); [exact (H_glob P W NW n s1 _ H1)|]. exists q. split; [|exact Hq].
      rewrite <- Eq. apply nth_firstn. lia. }
    assert (Pc : parent P c = Some t) by (apply (m_parent P W), Ic).
    assert (Y : ~ In (ISpawn c) is).
    { intros Y. pose proof (law_spawn P s1 (i_laws P s1 I) c) as LS. rewrite Pc in LS.
      pose proof (spawns_once P W c (Some t)). pose proof (f_startedz P s1 I (Some t)).
      assert (Z1 : n_spawn c (FBody (Some t) (IAct a :: is)) <= zsum (n_spawn c) (frames s1))
        by (apply in_w; auto; intro; apply w_nn).
      assert (Z2 : 1 <= n_spawn c (FBody (Some t) (IAct a :: is)))
        by (unfold n_spawn; simpl; apply spawns_In, ni_pos in Y; lia).
      unfold sp in Sc. nia. }
    rewrite E2 in Ic |- *. apply in_app_or in Ic as [Ic|[Ic|Ic]]; [|discriminate|easy].
    apply in_split in Ic as (x & y & ->). exists x, (y ++ IAct a :: is). split; [now rewrite <- app_assoc|].
    apply in_or_app. right. now left.
  Qed.

  (** ** No data race *)
  Section All.
    Context (n : nat) (s : state) (tr : list rec) (H : hreach P U n s tr).
    Context (BH : behaved P) (CC : children_covered P) (IP : inner_private P) (KO : keeps_off P).

    Lemma down_hb u t m k a b : within P u t -> u <> t -> does tr m (LAct (Some u) b) -> does tr k (LAct (Some t) a) ->
      acts_conflict b a -> hb tr m k.
    Proof.
      intros Wi D Dm Dk C. apply within_first in Wi as [->|(c & Ic & Wi)]; [easy|].
      assert (St := made_sp P W NW n s tr H k _ t Dk eq_refl). assert (Sc := in_sp P W NW n s tr H c t Wi St).
      apply sp_in, (log_does P s tr (H_glob P W NW n s tr H)) in Sc as [j Dj].
      destruct (le_lt_dec j m) as [L|L].
      - exfalso. destruct (act_after n s tr m j u b c H Dm Dj L Ic) as (pre & post & E & Hi).
        exact (KO u pre c post b t a E Hi Wi (act_in n s tr k t a H Dk) C).
      - destruct Dm as (x & Ex & Hx). destruct Dj as (y & Ey & Hy).
        apply (submit_hb P W NW n s tr H c t j m k x y (LAct (Some t) a)); auto; [|lia].
        eapply (same_body P W NW n s tr H m j x y _ _ u Ex Ey Hx Hy); [reflexivity|]. simpl. apply (m_parent P W), Ic.
    Qed.

    Lemma no_race u t m k a b : does tr m (LAct (Some u) b) -> does tr k (LAct (Some t) a) -> acts_conflict b a ->
      m = k \/ hb tr m k \/ hb tr k m.
    Proof.
      intros Dm Dk C. destruct (Nat.eq_dec u t) as [->|D]; [eapply same_body_hb; eauto; reflexivity|]. right.
      assert (Su := made_sp P W NW n s tr H m _ u Dm eq_refl). assert (St := made_sp P W NW n s tr H k _ t Dk eq_refl).
      destruct (meet n s tr H (u + t) u t (le_n _) Su St) as [X|[X|(o & p & q & Ip & Iq & Dpq & Wp & Wq)]].
      - left. eapply down_hb; eauto.
      - right. eapply down_hb; eauto. now apply acts_conflict_sym.
      - assert (AP : forall x, within P p x -> within P q x -> False) by (intros x; now apply (mw_apart o)).
        assert (X1 : user_is_serial (user P u) (user P t) = true).
        { apply (conflict_serial P). eapply acts_tasks; eauto; eapply act_in; eauto. }
        assert (X2 : user_is_serial (user P p) (user P t) = true) by (apply (lift_within P CC IP p u t Wp); eauto).
        assert (X3 : user_is_serial (user P q) (user P p) = true).
        { apply (lift_within P CC IP q t p Wq); [|now rewrite user_is_serial_sym]. intros Z. apply (AP p); auto. constructor. }
        assert (Pp := m_parent P W _ _ Ip). assert (Pq := m_parent P W _ _ Iq).
        destruct (ser_ser_on P W q p) as (r & _ & Sr); [split; [congruence|exact X3]|].
        destruct (lt_eq_lt_dec (rk U r p) (rk U r q)) as [[L|L]|L].
        + left. eapply (siblings_hb P W NW n s tr H r p q u t); eauto; try reflexivity. now apply ser_on_sym.
        + apply (m_rank P W) in L. easy.
        + right. eapply (siblings_hb P W NW n s tr H r q p t u); eauto; reflexivity.
    Qed.
  End All.
End Race.

(** ** One thread of the user *)
Section OneThread.
  Context (P : prog) (W : wfa P) (NW : p_wrap P = false).

  Lemma ghist_hreach n s tr : ghist P n s tr -> hreach P (single P) n s tr.
  Proof.
    induction 1 as [|s tr i c s' H IH E1 E2].
    - exact (hreach_init P (single P) n).
    - apply hreach_step; auto. apply (push_one P W). exact (H_inv P W NW n s tr IH).
  Qed.

  Lemma recorded_hreach n s tr : recorded P n s tr -> hreach P (single P) n s tr.
  Proof.
    intros [[F H]|H]; [|now apply ghist_hreach]. apply ghist_hreach. induction H as [|s tr i c s' H IH E]; [constructor|].
    constructor; auto. intros q fs _ c' Hc Hs. exfalso.
    assert (I := H_inv P W NW n s tr (ghist_hreach n s tr IH)). apply in_spawn in Hs.
    apply (sp_body P W s I) in Hs. rewrite Hc, F in Hs. easy.
  Qed.
End OneThread.

(** ** Several threads *)
Section ManyThreads.
  Context (P : prog) (ms : list (list instr)) (W : wf_any P ms) (NW : p_wrap P = false) (n : nat).
  Notation FR := (fun l => mkFront ms (fun _ => rk_of l)).

  Lemma order_push s ord i : order P ms n s ord -> begin_ok P s i ->
    forall tl, push_ok P (FR ((ord ++ starts P s i) ++ tl)) s i.
  Proof.
    intros O B. assert (I := order_Inv P ms W NW n s ord O).
    assert (Top : forall f fs, nth_error (thr s) i = Some (f :: fs) -> In f (frames s)).
    { intros f fs E. unfold frames. apply in_concat. eexists. split; [exact (nth_error_In _ _ E)|now left]. }
    assert (SUB : forall o t rs is, In (FSub o t rs is) (frames s) -> submitted s t /\ parent P t = o /\ (length rs <= length (uniq P t))%nat).
    { intros o t rs is Hf. destruct (sub_facts P (wr P ms W ord) s _ _ _ _ I Hf) as (Q & _).
      split; [now apply in_spawn|]. split.
      - apply (m_parent P W). apply (piece_In P (wr P ms W ord) o _ is). exact (law_suffix P s (i_laws P s I) _ Hf).
      - destruct (i_frames P s I _ Hf) as [[pre E] _]. rewrite E, app_length. lia. }
    assert (ST : forall t, In t (starts P s i) -> exists o is fs, nth_error (thr s) i = Some (FSub o t (uniq P t) is :: fs) /\ starts P s i = [t]).
    { intros t Ht. unfold starts in *. destruct (nth_error (thr s) i) as [[|[] fs]|] eqn:E; try easy.
      destruct (Nat.eqb_spec (length rs) (length (uniq P c))) as [e|e]; [|easy]. destruct Ht as [->|[]].
      exists o, s0, fs. split; auto. assert (Hf := Top _ _ eq_refl). destruct (i_frames P s I _ Hf) as [[pre Q] _].
      assert (pre = []) by (destruct pre; auto; rewrite Q in e; simpl in e; rewrite app_length in e; lia).
      subst pre. simpl in Q. now rewrite Q. }
    assert (NEWT : forall t, In t (starts P s i) -> ~ In t ord).
    { intros t Ht Ho. destruct (ST t Ht) as (o & is & fs & E & _). apply (o_begun P ms n s ord O) in Ho as [_ Ho].
      specialize (Ho _ _ _ (Top _ _ E)). lia. }
    assert (ENT : forall t p r, In t (starts P s i) -> In p ord -> parent P p = parent P t -> In r (uniq P t) -> pushed s p r).
    { intros t p r Ht Hp Ep Hr. destruct (ST t Ht) as (o & is & fs & E & _). apply (o_begun P ms n s ord O) in Hp as [Hp1 Hp2].
      split; [now apply in_spawn|]. intros o' rs is' Hf Hi. exact (B o t is fs E o' p rs is' Hf Ep (Hp2 _ _ _ Hf) r Hi Hr). }
    assert (EN' : forall p t r, In t (ord ++ starts P s i) -> (rk_of (ord ++ starts P s i) p < rk_of (ord ++ starts P s i) t)%nat ->
                  parent P p = parent P t -> In r (uniq P p) -> In r (uniq P t) -> pushed s p r).
    { intros p t r Ht Lt Ep Hp Hr. apply in_app_or in Ht as [Ht|Ht].
      - apply rank_place in Lt; auto. eapply (o_entered P ms n s ord O); eauto.
      - apply (ENT t); auto. destruct (ST t Ht) as (_ & _ & _ & _ & Es). rewrite Es in Lt.
        rewrite rk_of_new in Lt by auto. destruct (in_dec Nat.eq_dec p ord) as [Q|Q]; auto.
        pose proof (rk_of_far ord [t] p Q). lia. }
    intros tl o t r rs is fs E p Hp Lt Hr. simpl in Lt.
    assert (Hf := Top _ _ E). destruct (SUB _ _ _ _ Hf) as (Q1 & Q2 & Q3).
    assert (Ep : parent P p = parent P t) by (apply (m_parent P W), spawns_In; exact Hp).
    assert (Ht : In t (ord ++ starts P s i)).
    { destruct (Nat.eq_dec (length (r :: rs)) (length (uniq P t))) as [e|e].
      - apply in_or_app. right. unfold starts. rewrite E. rewrite e, Nat.eqb_refl. now left.
      - apply in_or_app. left. apply (o_begun P ms n s ord O). split; auto. intros o2 rs2 is2 Hf2.
        apply in_split in Hf as (a & b & Es).
        assert (PE : Permutation (frames s) (FSub o t (r :: rs) is :: (a ++ b))) by (rewrite Es; symmetry; apply Permutation_middle).
        apply (Permutation_in _ PE) in Hf2 as [Hf2|Hf2].
        + injection Hf2 as <- <- <-. lia.
        + destruct (sub_one P ms W NW n s ord _ _ _ _ _ O PE _ _ _ Hf2). }
    apply rank_place in Lt; auto.
    assert (Hr2 : In r (uniq P t)).
    { destruct (i_frames P s I _ Hf) as [[pre Q] _]. rewrite Q. apply in_or_app. simpl. auto. }
    destruct (EN' p t r Ht Lt Ep Hr Hr2) as [A1 A2]. split; [now apply in_spawn|exact A2].
  Qed.

  Lemma chist_hreach s tr : chist P ms n s tr -> exists ord, order P ms n s ord /\ forall tl, hreach P (FR (ord ++ tl)) n s tr.
  Proof.
    induction 1 as [|s tr i c s' H (ord & O & R) E1 E2 E3].
    - exists []. split; [now apply order_init|]. intros tl. exact (hreach_init P (FR tl) n).
    - exists (ord ++ starts P s i). split; [now apply (order_step P ms W NW n s ord i c s')|].
      intros tl. apply hreach_step; auto.
      + rewrite <- app_assoc. apply R.
      + now apply order_push.
  Qed.

  (** a front for the execution; the tasks of one thread are ranked in its order *)
  Lemma chist_front s tr : chist P ms n s tr -> exists U, wfc P U /\ hreach P U n s tr /\
    forall p t, comes_before P ms p t -> started s t -> forall r, (rk U r p < rk U r t)%nat.
  Proof.
    intros H. destruct (chist_hreach s tr H) as (ord & O & R). exists (FR ord). split; [now apply wr|].
    split; [rewrite <- (app_nil_r ord); apply R|]. intros p t B St z. simpl.
    assert (Ht := started_in P ms W NW n s ord t O St). now destruct (o_thread P ms n s ord O p t B Ht).
  Qed.
End ManyThreads.
