(** Rounding up, progress of allocate(), chunks that are never given back. *)
From Coq Require Import Bool List Arith NArith Lia.
From Verif Require Import AllocModel AllocProof.
Import ListNotations.
Open Scope N_scope.

(** ** roundup_to_poweroftwo *)
Definition near (m s i : N) : Prop := exists j, j < m /\ N.testbit s (i + j) = true.
Lemma smear_near : forall m s r, (forall i, N.testbit r i = true <-> near m s i) -> forall i, N.testbit (smear m r) i = true <-> near (m + m) s i.
Proof.
  intros m s r H i. unfold smear. rewrite N.lor_spec, N.shiftr_spec, orb_true_iff, !H by lia. unfold near. split.
  - intros [(j & J & E)|(j & J & E)]; [exists j; split; [lia|assumption]|exists (j + m); split; [lia|]]. now replace (i + (j + m)) with (i + m + j) by lia.
  - intros (j & J & E). destruct (N.lt_ge_cases j m) as [L|L]; [left; exists j; auto|right]. exists (j - m). split; [lia|].
    now replace (i + m + (j - m)) with (i + j) by lia.
Qed.
Definition smeared (s : N) : N := smear 32 (smear 16 (smear 8 (smear 4 (smear 2 (smear 1 s))))).
Lemma smeared_near : forall s i, N.testbit (smeared s) i = true <-> near 64 s i.
Proof.
  intros s. unfold smeared. apply (smear_near 32), (smear_near 16), (smear_near 8), (smear_near 4), (smear_near 2), (smear_near 1).
  intros i. unfold near. split.
  - intros E. exists 0. split; [lia|]. now rewrite N.add_0_r.
  - intros (j & J & E). replace j with 0 in E by lia. now rewrite N.add_0_r in E.
Qed.
Lemma smeared_ones : forall s, 0 < s -> s < W64 -> smeared s = N.ones (N.succ (N.log2 s)).
Proof.
  intros s P L. apply N.bits_inj. intros i. apply eq_true_iff_eq. rewrite smeared_near, N.ones_spec_iff. unfold near.
  assert (Lg : N.log2 s < 64) by (apply N.log2_lt_pow2; assumption). split.
  - intros (j & J & E). destruct (N.le_gt_cases (i + j) (N.log2 s)) as [X|X]; [lia|]. rewrite N.bits_above_log2 in E by assumption. discriminate.
  - intros H. exists (N.log2 s - i). split; [lia|]. replace (i + (N.log2 s - i)) with (N.log2 s) by lia. apply N.bit_log2. lia.
Qed.
Lemma roundup_spec : forall n, 1 <= n -> n <= 2 ^ 63 -> roundup n = 2 ^ N.log2_up n.
Proof.
  intros n P L. unfold roundup. change (smear 32 _) with (smeared (sub64 n 1)).
  assert (B : 2 ^ 63 < W64) by reflexivity.
  rewrite (sub64_nowrap n 1) by lia. destruct (N.eq_dec n 1) as [->|N1]; [reflexivity|].
  rewrite smeared_ones by lia. rewrite N.ones_equiv. rewrite N.log2_up_eqn by lia. replace (N.pred n) with (n - 1) by lia.
  assert (X : N.succ (N.log2 (n - 1)) <= 63). { rewrite N.le_succ_l. apply N.log2_lt_pow2; lia. }
  assert (Y : 0 < 2 ^ N.succ (N.log2 (n - 1))) by (apply N.neq_0_lt_0, N.pow_nonzero; lia).
  replace (N.pred (2 ^ N.succ (N.log2 (n - 1))) + 1) with (2 ^ N.succ (N.log2 (n - 1))) by lia. apply N.mod_small.
  apply N.le_lt_trans with (2 ^ 63); [apply N.pow_le_mono_r; lia|assumption].
Qed.
Lemma roundup_0 : roundup 0 = 0.
Proof. reflexivity. Qed.
Lemma roundup_huge : forall n, 2 ^ 63 < n -> n < W64 -> roundup n = 0.
Proof.
  intros n P L. unfold roundup. change (smear 32 _) with (smeared (sub64 n 1)). rewrite (sub64_nowrap n 1) by lia.
  rewrite smeared_ones by lia. replace (N.log2 (n - 1)) with 63; [reflexivity|]. symmetry. apply N.log2_unique; [lia|].
  change (2 ^ N.succ 63) with W64. lia.
Qed.

Section Q.
Variables (cap ctrl isz : N) (T : nat).
Hypothesis Hcap : ctrl + isz <= cap.
Hypothesis Husable : usable cap ctrl isz < W16.
Notation step := (step cap ctrl isz).
Notation calm := (calm cap T).
Notation reach := (reach cap ctrl isz T calm).
Notation use := (usable cap ctrl isz).
(** continuations of a run *)
Inductive later : st -> st -> Prop :=
| l_refl : forall s, later s s
| l_step : forall s t l s1 s', (t < T)%nat -> step s t l s1 -> calm s l -> later s1 s' -> later s s'.
Lemma later_reach : forall s s', later s s' -> reach s -> reach s'.
Proof. intros s s' H. induction H as [|s t l s1 s' L ST K H IH]; intros R; [assumption|]. apply IH. eapply r_step; eauto. Qed.

(** no block is larger than what a chunk offers *)
Lemma block_size : forall s t c a n, reach s -> pcs s t = AInc c a n -> n <= use.
Proof.
  intros s t c a n R E. destruct (reach_inv cap ctrl isz T Hcap Husable s R) as [fl I]. assert (K := i_pc _ _ _ _ _ _ I t). rewrite E in K.
  destruct K as (_ & K & _). assert (C := k_c _ _ K). cbn [fst] in C. assert (CH := i_chunk _ _ _ _ _ _ I c C).
  assert (K1 := k_lo _ _ K). assert (K2 := k_up _ _ K). unfold addr, len in K1, K2. cbn [fst snd] in K1, K2.
  rewrite (ch_lo _ _ _ _ _ _ _ CH) in K1. rewrite (ch_up _ _ _ _ _ _ _ CH) in K2. unfold usable. lia.
Qed.
Definition asking (p : pc) (n : N) : Prop := match p with AHead m | ASub _ m | AApp m => m = n | _ => False end.
Lemma asks_for_ever : forall s s', later s s' -> reach s -> forall t n, asking (pcs s t) n -> use < n -> asking (pcs s' t) n.
Proof.
  intros s s' H. induction H as [|s u l s1 s' L ST K H IH]; intros R t n A U; [assumption|].
  assert (R1 : reach s1) by (eapply r_step; eauto). apply IH; auto. clear IH H.
  destruct (Nat.eq_dec t u) as [->|N].
  - destruct ST; simpl; try rewrite upd_eq; rewrite ?H in A; simpl in A; try contradiction; try assumption.
    + subst. now destruct (nch s).
    + subst. destruct (_ <=? _) eqn:G; [|reflexivity]. exfalso.
      assert (X := block_size _ t c a n R1). unfold with_bump in X. cbn [pcs] in X. rewrite upd_eq in X. specialize (X eq_refl). lia.
  - assert (X : pcs s1 t = pcs s t) by (destruct ST; simpl; auto; now apply upd_ne). now rewrite X.
Qed.

(** a request a chunk can serve is answered when the thread runs on its own *)
Inductive alone (t : nat) : nat -> st -> st -> Prop :=
| al_0 : forall s, alone t 0 s s
| al_S : forall k s l s1 s', step s t l s1 -> calm s l -> alone t k s1 s' -> alone t (S k) s s'.
Lemma answered_sub : forall s fl t c n, inv cap ctrl isz T s fl -> (t < T)%nat -> pcs s t = ASub c n -> n <= b_next (bump_of s c) - b_lo (bump_of s c) ->
  exists s' a, alone t 2 s s' /\ pcs s' t = Idle /\ held s' = (c, (a, n)) :: held s.
Proof.
  intros s fl t c n I L E H. destruct (no_wrap cap ctrl isz T Hcap Husable s fl t c n I L E) as [W WL].
  assert (K := i_pc _ _ _ _ _ _ I t). rewrite E in K. destruct K as ([K1 K2] & K3 & K4 & K5).
  assert (CH := i_chunk _ _ _ _ _ _ I c K3). destruct CH as [E1 E2 E3 _ _ _ _ _ _].
  set (a := fst (bump_take (bump_of s c) n)) in *. assert (A : b_lo (bump_of s c) <=? a = true) by (apply N.leb_le; lia).
  assert (A0 : a =? 0 = false) by (apply N.eqb_neq; lia).
  set (s1 := with_bump s c (snd (bump_take (bump_of s c) n)) (held s) t (AInc c a n)).
  exists (with_bump s1 c (bump_inc (bump_of s1 c)) ((c, (a, n)) :: held s1) t Idle), a. split; [|split; [apply upd_eq|reflexivity]].
  eapply al_S with (s1 := s1) (l := LOther); [|exact Logic.I|].
  - assert (X := s_sub cap ctrl isz s t c n E). cbv zeta in X. fold a in X. rewrite A in X. exact X.
  - eapply al_S with (l := LOther); [|exact Logic.I|apply al_0]. assert (X := s_inc cap ctrl isz s1 t c a n (upd_eq _ _ _ _)). rewrite A0 in X. exact X.
Qed.

Lemma answered : forall s t n p, reach s -> (t < T)%nat -> pcs s t = AHead n -> n <= use ->
  N.of_nat T * cap <= p -> 0 < p -> p + (cap + ctrl) < W64 -> (forall c, (c < nch s)%nat -> c_rec (chk s c) = false -> apart cap ctrl p (c_base (chk s c))) ->
  exists k s' c a, (k <= 6)%nat /\ alone t k s s' /\ pcs s' t = Idle /\ held s' = (c, (a, n)) :: held s.
Proof.
  intros s t n p R L E U P0 P1 P2 P3. destruct (reach_inv cap ctrl isz T Hcap Husable s R) as [fl I].
  assert (PH : forall u, ~ freeing (pcs s u)). { intros u F. apply (i_phase _ _ _ _ _ _ I u t) in F. apply F. now rewrite E. }
  (* from AApp on *)
  assert (APP : forall s1 fl1, inv cap ctrl isz T s1 fl1 -> pcs s1 t = AApp n -> held s1 = held s ->
     (forall c, (c < nch s1)%nat -> c_rec (chk s1 c) = false -> apart cap ctrl p (c_base (chk s1 c))) ->
     exists s' c a, alone t 4 s1 s' /\ pcs s' t = Idle /\ held s' = (c, (a, n)) :: held s).
  { intros s1 fl1 I1 E1 H1 A1.
    set (s2 := mkS (S (nch s1)) (upd (chk s1) (nch s1) (new_chunk cap ctrl isz p)) (held s1) (upd (pcs s1) t (AHead n))).
    assert (I2 : inv cap ctrl isz T s2 fl1) by (apply app_inv; auto).
    set (s3 := at_pc s2 t (ASub (nch s1) n)).
    assert (I3 : inv cap ctrl isz T s3 fl1) by (assert (X := head_inv cap ctrl isz T Hcap Husable s2 t n fl1 I2 L (upd_eq _ _ _ _)); exact X).
    assert (B3 : bump_of s3 (nch s1) = bump_new (p + ctrl + isz) (p + ctrl + isz + (cap - ctrl - isz))).
    { unfold bump_of. simpl. now rewrite upd_eq. }
    destruct (answered_sub s3 fl1 t (nch s1) n I3 L (upd_eq _ _ _ _)) as (s' & a & X1 & X2 & X3).
    { rewrite B3. cbn [bump_new b_next b_lo]. unfold usable in U. lia. }
    exists s', (nch s1), a. split; [|split; [assumption|]].
    - apply al_S with (l := LMem p) (s1 := s2); [now apply s_app|exact P0|].
      apply al_S with (l := LOther) (s1 := s3); [|exact Logic.I|exact X1]. exact (s_head cap ctrl isz s2 t n (upd_eq _ _ _ _)).
    - rewrite X3. simpl. now rewrite H1. }
  destruct (nch s) as [|c] eqn:Z.
  - (* no chunk *)
    assert (X := head_inv cap ctrl isz T Hcap Husable s t n fl I L E). rewrite Z in X.
    destruct (APP _ _ X (upd_eq _ _ _ _) eq_refl) as (s' & c & a & X1 & X2 & X3); [simpl; rewrite Z; lia|].
    exists 5%nat, s', c, a. split; [lia|]. split; [|split; assumption]. apply al_S with (l := LOther) (s1 := at_pc s t (AApp n)); [|exact Logic.I|exact X1].
    assert (Y := s_head cap ctrl isz s t n E). rewrite Z in Y. exact Y.
  - assert (X := head_inv cap ctrl isz T Hcap Husable s t n fl I L E). rewrite Z in X. set (s1 := at_pc s t (ASub c n)) in *.
    assert (Y := s_head cap ctrl isz s t n E). rewrite Z in Y. fold s1 in Y.
    assert (E1 : pcs s1 t = ASub c n) by apply upd_eq.
    destruct (N.leb_spec n (b_next (bump_of s1 c) - b_lo (bump_of s1 c))) as [S|S].
    + destruct (answered_sub s1 fl t c n X L E1 S) as (s' & a & X1 & X2 & X3). exists 3%nat, s', c, a. split; [lia|]. split; [|split; assumption].
      apply al_S with (l := LOther) (s1 := s1); [exact Y|exact Logic.I|exact X1].
    + destruct (sub_inv cap ctrl isz T Hcap Husable s1 t c n fl X L E1) as [fl2 I2].
      destruct (no_wrap cap ctrl isz T Hcap Husable s1 fl t c n X L E1) as [W WL].
      assert (K := i_pc _ _ _ _ _ _ X t). rewrite E1 in K. destruct K as ([K1 K2] & _).
      assert (ST := s_sub cap ctrl isz s1 t c n E1). cbv zeta in ST.
      assert (G : b_lo (bump_of s1 c) <=? fst (bump_take (bump_of s1 c) n) = false) by (apply N.leb_gt; lia).
      rewrite G in ST, I2. set (s2 := with_bump s1 c _ _ t _) in *.
      destruct (APP s2 fl2 I2 (upd_eq _ _ _ _) eq_refl) as (s' & d & a & X1 & X2 & X3).
      { intros d D. unfold s2. rewrite wb_rec, wb_base. apply P3. simpl in D. now rewrite Z in D. }
      exists 6%nat, s', d, a. split; [lia|]. split; [|split; assumption].
      apply al_S with (l := LOther) (s1 := s1); [exact Y|exact Logic.I|]. apply al_S with (l := LOther) (s1 := s2); [exact ST|exact Logic.I|exact X1].
Qed.

(** a chunk that is not the head, holds nothing and was not erased when its last block
    was freed is never erased *)
Definition forgotten (s : st) (c : nat) : Prop :=
  (S c < nch s)%nat /\ c_del (chk s c) = false /\ of_chunk c (held s) = 0 /\ forall u, ~ uses (pcs s u) c.
Lemma forgotten_for_ever : forall s s', later s s' -> reach s -> forall c, forgotten s c -> forgotten s' c.
Proof.
  intros s s' H. induction H as [|s t l s1 s' L ST K H IH]; intros R c F; [assumption|].
  destruct (reach_inv cap ctrl isz T Hcap Husable s R) as [fl I]. apply IH; [eapply r_step; eauto|]. clear IH H. destruct F as (F1 & F2 & F3 & F4).
  assert (Ut : forall d, uses (pcs s t) d -> d <> c) by (intros d X ->; now apply (F4 t)).
  assert (MV : forall p, ~ uses p c -> forall u, ~ uses (upd (pcs s) t p u) c).
  { intros p X u. destruct (Nat.eq_dec u t) as [->|N]; [now rewrite upd_eq|rewrite upd_ne by assumption; apply F4]. }
  unfold forgotten. destruct ST; simpl; auto.
  - split; [assumption|]. split; [assumption|]. split; [assumption|]. apply MV. simpl. auto.
  - split; [assumption|]. split; [assumption|]. split; [assumption|]. apply MV. destruct (nch s) eqn:Z; simpl; [auto|]. lia.
  - rewrite H in Ut. specialize (Ut c0 eq_refl). rewrite upd_ne by congruence. split; [assumption|]. split; [assumption|]. split; [assumption|]. apply MV.
    destruct (_ <=? _); simpl; auto.
  - rewrite H in Ut. specialize (Ut c0 eq_refl). rewrite upd_ne by congruence. split; [assumption|]. split; [assumption|]. split.
    + destruct (Nat.eqb_spec c0 c); [congruence|]. rewrite F3. reflexivity.
    + apply MV. destruct (_ =? _); simpl; auto.
  - rewrite upd_ne by lia. split; [lia|]. split; [assumption|]. split; [assumption|]. apply MV. simpl. auto.
  - split; [assumption|]. split; [assumption|]. split; [assumption|]. apply MV. simpl.
    rewrite (owner cap ctrl isz T Hcap Husable s fl b c0 I H0 H2 H3 H4). intros X. assert (Y := of_chunk_pos c b (held s) H0 X). lia.
  - assert (Kb := i_pc _ _ _ _ _ _ I t). rewrite H in Ut, Kb. specialize (Ut c0 eq_refl). destruct Kb as [Kb1 Kb2].
    rewrite upd_ne by congruence. split; [assumption|]. split; [assumption|]. split.
    + assert (X := of_chunk_remove c b (held s) Kb1). lia.
    + apply MV. destruct (_ =? _); simpl; auto.
  - rewrite H in Ut. specialize (Ut c0 eq_refl). split; [assumption|]. split; [|split; [assumption|apply MV; simpl; auto]].
    destruct (bump_full _); [now rewrite upd_ne by congruence|assumption].
  - assert (N : c <> c0) by congruence. rewrite upd_ne by assumption. auto.
Qed.
End Q.
