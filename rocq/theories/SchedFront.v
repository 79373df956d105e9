(** One thread of the user is the special case of [mreach] with tasks ranked by name. *)
From Coq Require Import Bool List Arith NArith ZArith Lia Permutation Sorting.Sorted.
From Verif Require Import AccessModel AccessSpec AccessProof UserModel UserProof SchedModel SchedSpec SchedBase SchedInv1 SchedInv2 SchedInv3 SchedInv4 SchedInv5 SchedInv6 SchedInv7 SchedInv8.
Import ListNotations.
Open Scope Z_scope.

Lemma one_frame (w : frame -> Z) l f g : (forall x, 0 <= w x) -> zsum w l <= 1 -> In f l -> In g l ->
  w f = 1 -> w g = 1 -> f = g.
Proof.
  intros N L Hf Hg Wf Wg. apply in_split in Hf as (a & b & ->). rewrite zsum_app in L. simpl in L.
  pose proof (nn_v w a N). pose proof (nn_v w b N).
  apply in_app_or in Hg as [Hg|[Hg|Hg]]; auto; exfalso.
  - pose proof (zsum_ge w a g (fun x _ => N x) Hg). lia.
  - pose proof (zsum_ge w b g (fun x _ => N x) Hg). lia.
Qed.

Lemma sorted_lt_NoDup l : StronglySorted lt l -> NoDup l.
Proof.
  induction 1 as [|a l S IH F]; constructor; auto. rewrite Forall_forall in F. intros H. specialize (F a H). lia.
Qed.

Lemma wf_wfc (P : prog) : wfa P -> wfc P (single P).
Proof.
  intros W. split; try apply W.
  - simpl. now rewrite app_nil_r.
  - easy.
  - intros o. apply sorted_lt_NoDup, W.
  - intros o m pre i post c C Em Hu. apply (wf_use_after P W o pre i post c); auto.
    destruct o as [t|]; simpl in C; [simpl; congruence|]. destruct C as [<-|[]]. easy.
Qed.
Coercion wf_wfc : wfa >-> wfc.
Lemma wf_wfm (P : prog) : wfw P -> wfm P (single P).
Proof. intros W. split; [apply wf_wfc, W|apply W]. Qed.
Coercion wf_wfm : wfw >-> wfm.

Section Front.
  Context (P : prog) (W : wfa P) (NW : p_wrap P = false).
  Notation U1 := (single P).

  Lemma piece_body o is : piece P U1 o is -> suffix_of is (body P o).
  Proof. intros (m & C & S). destruct o; simpl in C; [now subst m|]. destruct C as [<-|[]]. exact S. Qed.

  Lemma owner_one s o : Inv P U1 s -> zsum (is_body o) (frames s) <= 1.
  Proof.
    intros I. destruct o as [t|].
    - pose proof (law_body P s (i_laws P s I) t). pose proof (f_start P s I t). pose proof (f_exec P s I t). pose proof (f_end P s I t). lia.
    - rewrite (law_main P s (i_laws P s I)). simpl. lia.
  Qed.

  Lemma spawn_order s o c is t : Inv P U1 s ->
    suffix_of (ISpawn c :: is) (body P o) ->
    (forall x, zsum (ni x) (spawns is) <= zsum (n_spawn x) (frames s)) ->
    parent P t = o -> sp s t -> (t <= c)%nat.
  Proof.
    intros I [pre Eb] Hn Hp Ht.
    assert (Hi : In t (spawns (body P o))) by (rewrite <- Hp; apply (sp_body P W s I t Ht)).
    assert (S := wf_sorted P W o). rewrite Eb in *.
    rewrite spawns_app in *. simpl in *. apply in_app_or in Hi as [Hi|[Hi|Hi]].
    - assert (t < c)%nat; [|lia]. clear -S Hi. induction (spawns pre) as [|a l IH]; [easy|].
      simpl in S. apply StronglySorted_inv in S as [S F]. destruct Hi as [->|Hi]; [|auto].
      rewrite Forall_forall in F. apply F. apply in_or_app. simpl. auto.
    - lia.
    - apply ni_pos in Hi. specialize (Hn t). unfold sp in Ht.
      pose proof (law_spawn P s (i_laws P s I) t) as L. pose proof (spawns_once P W t (parent P t)).
      pose proof (f_startedz P s I (parent P t)). nia.
  Qed.

  Lemma body_order s o c is t : Inv P U1 s -> In (FBody o (ISpawn c :: is)) (frames s) ->
    parent P t = o -> sp s t -> (t < c)%nat.
  Proof.
    intros I Hf Hp Ht. destruct (spawn_facts P W s I _ _ _ Hf) as [_ V].
    assert (t <= c)%nat.
    { eapply spawn_order; eauto. exact (piece_body _ _ (law_suffix P s (i_laws P s I) _ Hf)).
      intros x. assert (B := in_w s (n_spawn x) _ (fun g => proj1 (proj2 (proj2 (proj2 (proj2 (proj2 (proj2 (proj2 (proj2 (proj2 (w_nn x g)))))))))))  Hf).
      unfold n_spawn in B at 1. simpl in B. pose proof (zb_bound (Nat.eqb c x)). unfold ni in B at 1. lia. }
    assert (t <> c); [|lia]. intros ->. unfold sp in Ht. lia.
  Qed.

  (** one thread submits in the order of names *)
  Lemma push_one s i : Inv P U1 s -> push_ok P U1 s i.
  Proof.
    intros I o c r rs is fs E p Hp Hlt Hr. simpl in Hlt.
    assert (Hf : In (FSub o c (r :: rs) is) (frames s)).
    { unfold frames. apply in_concat. eexists. split; [exact (nth_error_In _ _ E)|now left]. }
    assert (PB := piece_body _ _ (law_suffix P s (i_laws P s I) _ Hf)). simpl in PB.
    assert (Ec : parent P c = o).
    { apply (m_parent P W). apply (piece_In P W o _ is).
      exact (law_suffix P s (i_laws P s I) _ Hf). }
    rewrite Ec in Hp. assert (Ep : parent P p = o) by (apply (wf_parent P W), spawns_In; exact Hp).
    assert (Wf : is_body o (FSub o c (r :: rs) is) = 1).
    { simpl. destruct (onat_eqb_spec o o); easy. }
    assert (ONE : forall g, In g (frames s) -> is_body o g = 1 -> g = FSub o c (r :: rs) is).
    { intros g Hg Wg. apply (one_frame (is_body o) (frames s)); auto; [apply w_nn4|now apply owner_one]. }
    split.
    - destruct (Z_lt_le_dec (zsum (v_spawn p) (log s)) 1) as [l|l].
      + exfalso. assert (L := law_spawn P s (i_laws P s I) p). rewrite Ep in L.
        assert (1 <= zsum (ni p) (spawns (body P o))) by (apply ni_pos in Hp; lia).
        assert (ST : startedz s o = 1).
        { destruct o as [q|]; [|easy]. simpl. assert (B := in_w s (is_body (Some q)) _ (w_nn4 (Some q)) Hf).
          rewrite Wf in B. apply (body_facts P s I) in B. lia. }
        rewrite ST, Z.mul_1_l in L.
        assert (L0 : 0 < zsum (n_spawn p) (frames s)) by lia. apply zsum_pos_ex in L0 as (g & Hg & Lg).
        assert (Hq : exists o' is', is_body o' g = 1 /\ piece P U1 o' is' /\ 0 < zsum (ni p) (spawns is') /\
                     left_of g = is').
        { assert (Q := law_suffix P s (i_laws P s I) _ Hg). unfold n_spawn in Lg. destruct g; simpl in Lg; try lia.
          - exists o0, s0. simpl. destruct (onat_eqb_spec o0 o0); auto. easy.
          - exists o0, s0. simpl. destruct (onat_eqb_spec o0 o0); [|easy]. repeat split; auto. eapply piece_cons; eauto. }
        destruct Hq as (o' & is' & B & PI & Hs & El).
        apply ni_pos in Hs. apply spawns_In in Hs as Hs'. assert (Eo : o' = o).
        { rewrite <- Ep. symmetry. apply (m_parent P W). destruct (piece_body _ _ PI) as [pre ->]. apply in_or_app. auto. }
        subst o'. specialize (ONE g Hg B). subst g. simpl in El. subst is'.
        destruct PB as [pre Eb]. assert (S := wf_sorted P W o). rewrite Eb, spawns_app in S. simpl in S.
        assert (c < p)%nat; [|lia]. clear - S Hs. induction (spawns pre) as [|a l IH]; simpl in S; apply StronglySorted_inv in S as [S F]; auto.
        rewrite Forall_forall in F. auto.
      + assert (L0 : 0 < zsum (v_spawn p) (log s)) by lia. apply zsum_pos_ex in L0 as (x & Hx & L).
        destruct x; simpl in L; try lia. unfold ni in L. destruct (Nat.eqb_spec t p); [now subst|simpl in L; lia].
    - intros o2 rs2 is2 Hg. exfalso. fold (frames s) in Hg.
      assert (E2 : o2 = o).
      { rewrite <- Ep. symmetry. apply (m_parent P W). apply (piece_In P W o2 _ is2).
        exact (law_suffix P s (i_laws P s I) _ Hg). }
      subst o2.
      assert (Q : FSub o p rs2 is2 = FSub o c (r :: rs) is).
      { apply ONE; [exact Hg|]. simpl. destruct (onat_eqb_spec o o); easy. }
      injection Q as Q _ _. lia.
  Qed.

  Lemma greach_mreach n s : greach P n s -> mreach P U1 n s.
  Proof.
    induction 1 as [|s i c s' R IH G H]; [exact (mreach_init P U1 n)|].
    econstructor; eauto. apply push_one. exact (mreach_Inv P W NW n s IH).
  Qed.

  Theorem greach_Inv n s : greach P n s -> Inv P U1 s.
  Proof. intros R. exact (mreach_Inv P W NW n s (greach_mreach n s R)). Qed.

  Theorem never_executed n s t : greach P n s -> ~ patient P t -> zsum (v_exec t) (log s) = 0.
  Proof. intros R. exact (m_never_executed P W NW n s t (greach_mreach n s R)). Qed.
End Front.
