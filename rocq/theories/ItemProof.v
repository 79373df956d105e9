From Coq Require Import Bool List Arith ZArith Lia.
From Verif Require Import ItemModel.
Import ListNotations.
Open Scope Z_scope.

Lemma upd_eq : forall f t p, upd f t p t = p.
Proof. intros. unfold upd. now rewrite Nat.eqb_refl. Qed.
Lemma upd_neq : forall f t p u, u <> t -> upd f t p u = f u.
Proof. intros. unfold upd. now destruct (Nat.eqb_spec u t). Qed.

(** the references an iterator contributes to the count *)
Definition counts (p : ipc) : Z := match p with Acq3 _ | Acq4 _ | Hold => 1 | _ => 0 end.
(** sum over the first [n] *)
Fixpoint total (f : nat -> ipc) (n : nat) : Z := match n with O => 0 | S n => counts (f n) + total f n end.
Lemma counts_range : forall p, 0 <= counts p <= 1.
Proof. destruct p; simpl; lia. Qed.
Lemma total_nonneg : forall f n, 0 <= total f n.
Proof. induction n; cbn [total]; [lia|]. assert (C := counts_range (f n)). lia. Qed.
Lemma total_le : forall f n, total f n <= Z.of_nat n.
Proof. induction n; cbn [total]; [lia|]. assert (C := counts_range (f n)). lia. Qed.
Lemma total_upd : forall f t p n, total (upd f t p) n = total f n + (if (t <? n)%nat then counts p - counts (f t) else 0).
Proof.
  induction n as [|n IH]; [reflexivity|]. cbn [total]. rewrite IH. unfold upd at 1.
  destruct (Nat.eqb_spec n t).
  - subst. replace (t <? t)%nat with false by (symmetry; apply Nat.ltb_ge; lia).
    replace (t <? S t)%nat with true by (symmetry; apply Nat.ltb_lt; lia). lia.
  - destruct (Nat.ltb_spec t n), (Nat.ltb_spec t (S n)); lia.
Qed.
Lemma total_ge : forall f n t, (t < n)%nat -> counts (f t) <= total f n.
Proof.
  induction n as [|n IH]; intros t H; [lia|]. cbn [total]. assert (P := total_nonneg f n).
  destruct (Nat.eq_dec t n); [subst; lia|]. specialize (IH t ltac:(lia)). assert (C := counts_range (f n)). lia.
Qed.

(** Invariant of runs without a stale read.  [n]: bound on the threads used;
    [done]: the remover has released *)
Record iinv (n : nat) (s : ist) : Prop := {
  v_idle : forall t, (n <= t)%nat -> thr s t = Idle;
  (* reference counting *)
  v_rc : exists d : bool, rc s = total (thr s) n - (if d then 1 else 0) /\
         (d = true -> taken s = true /\ forall t, thr s t <> Rem1) /\
         (d = false -> lf s <> Dead /\ destr s = 0%nat /\ (taken s = true -> exists t, thr s t = Rem1));
  v_raw : lf s = Raw -> off s = 1%nat /\ taken s = false /\ rc s = 0 /\ forall t, thr s t = Idle \/ thr s t = Acq1 1 ;
  v_off : lf s <> Raw -> (off s = 0%nat <-> taken s = false);
  v_rem : forall t t', thr s t = Rem1 -> thr s t' = Rem1 -> t = t';
  v_rem_taken : forall t, thr s t = Rem1 -> taken s = true;
  (* a destroyed element has no holder; it is destroyed once *)
  v_dead : lf s = Dead -> destr s = 1%nat /\ taken s = true /\ (forall t, thr s t <> Hold) /\ (forall t, thr s t <> Rem1);
  v_alive : lf s <> Dead -> destr s = 0%nat;
  v_undo : forall t o, thr s t = Acq4 o -> o <> 0%nat /\ taken s = true;
  v_neg : forall t old, thr s t = Acq3 old -> old < 0 -> taken s = true;
  v_threw : threw s = false
}.
Lemma iinv_init : iinv 0 i_init.
Proof.
  split; simpl; try easy; auto. exists false. repeat split; easy.
Qed.
Lemma total_more : forall f n m, (n <= m)%nat -> (forall t, (n <= t)%nat -> f t = Idle) -> total f m = total f n.
Proof.
  induction 1; intros H1; [reflexivity|]. cbn [total]. rewrite IHle by assumption. rewrite (H1 m) by assumption. reflexivity.
Qed.
Lemma iinv_more : forall n m s, (n <= m)%nat -> iinv n s -> iinv m s.
Proof.
  intros n m s L I. destruct I. split; try assumption.
  - intros t H. apply v_idle0. lia.
  - rewrite (total_more (thr s) n m) by assumption. assumption.
Qed.

Ltac thr_cases u t :=
  let E := fresh "E" in
  destruct (Nat.eq_dec u t) as [E|E]; [subst u; rewrite ?upd_eq in *|rewrite ?(upd_neq _ t _ u E) in *].

(** a thread that moves between two states without a reference, or keeps its one *)
Lemma iinv_at : forall n s t p, (t < n)%nat -> iinv n s -> counts p = counts (thr s t) ->
  thr s t <> Rem1 -> p <> Rem1 ->
  (lf s = Raw -> p = Idle \/ p = Acq1 1) ->
  (p = Hold -> lf s <> Dead) ->
  (forall o, p = Acq4 o -> o <> 0%nat /\ taken s = true) ->
  (forall old, p = Acq3 old -> old < 0 -> taken s = true) ->
  iinv n (at_pc s t p).
Proof.
  intros n s t p L I C N1 N2 R H A4 A3. destruct I. split; cbn [at_pc off rc lf destr taken threw thr]; try assumption.
  - intros u Hu. thr_cases u t; [lia|auto].
  - destruct v_rc0 as (d & X & Y & Z). exists d. rewrite total_upd, C.
    split; [rewrite X; destruct (t <? n)%nat; lia|]. split.
    + intros D. destruct (Y D) as [Y1 Y2]. split; [assumption|]. intros u. thr_cases u t; auto.
    + intros D. destruct (Z D) as (Z1 & Z2 & Z3). split; [assumption|split; [assumption|]]. intros T. destruct (Z3 T) as [u U].
      exists u. thr_cases u t; [congruence|assumption].
  - intros X. destruct (v_raw0 X) as (a & b & c & d). split; [assumption|split; [assumption|split; [assumption|]]].
    intros u. thr_cases u t; auto.
  - intros u u'. thr_cases u t; thr_cases u' t; intros; try congruence. auto.
  - intros u. thr_cases u t; [easy|]. apply v_rem_taken0.
  - intros X. destruct (v_dead0 X) as (a & b & c & d). repeat split; try assumption; intros u; thr_cases u t; auto.
    intros K. now apply (H K).
  - intros u o. thr_cases u t; [apply A4|apply v_undo0].
  - intros u old. thr_cases u t; [apply A3|apply v_neg0].
Qed.

Lemma iinv_step : forall n s s', iinv n s -> istep s LOther s' -> exists m, iinv m s'.
Proof.
  intros n s s' I0 ST.
  assert (forall t, exists m, (t < m)%nat /\ iinv m s) as G.
  { intros t. exists (max n (S t)). split; [lia|]. apply (iinv_more n); [lia|assumption]. }
  inversion ST; subst; clear ST.
  - (* assign *)
    exists n. destruct I0. destruct (v_raw0 H) as (a & b & c & d).
    split; cbn [off rc lf destr taken threw thr]; try assumption; try easy.
    + destruct v_rc0 as (dd & X & Y & Z). exists dd. split; [assumption|split; [assumption|]]. intros D.
      destruct (Z D) as (_ & Z2 & Z3). easy.
    + intros _. apply v_alive0. congruence.
  - (* load off *)
    destruct (G t) as (m & L & I). exists m. apply iinv_at; try assumption; try easy.
    + now rewrite H.
    + rewrite H. easy.
    + intros R. right. f_equal. now apply (v_raw m s I).
  - (* load rc *)
    destruct (G t) as (m & L & I). exists m. destruct (Nat.eqb_spec o 0).
    + subst. apply iinv_at; try assumption; try easy; rewrite ?H; try easy.
      intros R. destruct (v_raw m s I R) as (_ & _ & _ & X). destruct (X t); congruence.
    + apply iinv_at; try assumption; try easy; rewrite ?H; try easy. auto.
  - (* fetch_add *)
    destruct (G t) as (m & L & I). exists m. destruct I.
    assert (NR : lf s <> Raw) by (intros R; destruct (v_raw0 R) as (_ & _ & _ & X); destruct (X t); congruence).
    split; cbn [off rc lf destr taken threw thr]; try assumption; try easy.
    + intros u Hu. thr_cases u t; [lia|auto].
    + destruct v_rc0 as (d & X & Y & Z). exists d. rewrite total_upd, H. apply Nat.ltb_lt in L. rewrite L. simpl counts.
      split; [lia|]. split.
      * intros D. destruct (Y D) as [Y1 Y2]. split; [assumption|]. intros u. thr_cases u t; auto. easy.
      * intros D. destruct (Z D) as (Z1 & Z2 & Z3). split; [assumption|split; [assumption|]]. intros T. destruct (Z3 T) as [u U].
        exists u. thr_cases u t; [congruence|assumption].
    + intros u u'. thr_cases u t; thr_cases u' t; intros; try congruence. auto.
    + intros u. thr_cases u t; [easy|]. apply v_rem_taken0.
    + intros X. destruct (v_dead0 X) as (a & b & c & d). repeat split; try assumption; intros u; thr_cases u t; auto; easy.
    + intros u o. thr_cases u t; [easy|apply v_undo0].
    + intros u old. thr_cases u t; [|apply v_neg0]. intros [= <-] Neg.
      destruct v_rc0 as (d & X & Y & Z). destruct d; [now apply Y|]. assert (T := total_nonneg (thr s) m). lia.
  - (* check *)
    destruct (G t) as (m & L & I). exists m. 
    assert (NR : lf s <> Raw) by (intros R; destruct (v_raw m s I R) as (_ & _ & _ & X); destruct (X t); congruence).
    destruct ((0 <=? old) && (off s =? 0)%nat) eqn:E.
    + apply andb_true_iff in E. destruct E as [_ E]. apply Nat.eqb_eq in E. apply (v_off m s I NR) in E.
      apply iinv_at; try assumption; try easy; rewrite ?H; try easy.
      intros _ D. destruct (v_dead m s I D) as (_ & T & _). congruence.
    + apply iinv_at; try assumption; try easy; rewrite ?H; try easy.
      intros o [= <-]. apply andb_false_iff in E. assert (T : taken s = true).
      { destruct E as [E|E].
        - apply Z.leb_gt in E. exact (v_neg m s I t old H E).
        - apply Nat.eqb_neq in E. destruct (taken s) eqn:T; [reflexivity|]. apply (v_off m s I NR) in T. easy. }
      split; [|assumption]. intros Z. apply (v_off m s I NR) in Z. congruence.
  - (* undo *)
    destruct (G t) as (m & L & I). exists m. destruct I. destruct (v_undo0 t o H) as [O T].
    assert (NR : lf s <> Raw) by (intros R; destruct (v_raw0 R) as (_ & _ & _ & X); destruct (X t); congruence).
    destruct (Nat.eqb_spec o 0); [easy|].
    split; cbn [off rc lf destr taken threw thr]; try assumption; try easy.
    + intros u Hu. thr_cases u t; [lia|auto].
    + destruct v_rc0 as (d & X & Y & Z). exists d. rewrite total_upd, H. apply Nat.ltb_lt in L. rewrite L. simpl counts.
      split; [lia|]. split.
      * intros D. destruct (Y D) as [Y1 Y2]. split; [assumption|]. intros u. thr_cases u t; auto. easy.
      * intros D. destruct (Z D) as (Z1 & Z2 & Z3). split; [assumption|split; [assumption|]]. intros _. destruct (Z3 T) as [u U].
        exists u. thr_cases u t; [congruence|assumption].
    + intros u u'. thr_cases u t; thr_cases u' t; intros; try congruence. auto.
    + intros X. destruct (v_dead0 X) as (a & b & c & d). repeat split; try assumption; intros u; thr_cases u t; auto; easy.
    + intros u o'. thr_cases u t; [easy|apply v_undo0].
  - (* release *)
    destruct (G t) as (m & L & I). exists m. destruct I.
    assert (NR : lf s <> Raw) by (intros R; destruct (v_raw0 R) as (_ & _ & _ & X); destruct (X t); congruence).
    assert (ND : lf s <> Dead) by (intros D; destruct (v_dead0 D) as (_ & _ & X & _); exact (X t H)).
    assert (TG := total_ge (thr s) m t L). rewrite H in TG. simpl counts in TG.
    destruct v_rc0 as (d & X & Y & Z).
    assert (RC : 0 <= rc s) by (destruct d; lia).
    assert (DZ : rc s = 0 -> d = true /\ total (thr s) m = 1) by (destruct d; [split; lia|lia]).
    unfold rel. split; cbn [off rc lf destr taken threw thr]; try assumption; try easy.
    + intros u Hu. thr_cases u t; [lia|auto].
    + exists d. rewrite total_upd, H. apply Nat.ltb_lt in L. rewrite L. simpl counts.
      split; [lia|]. split.
      * intros D. destruct (Y D) as [Y1 Y2]. split; [assumption|]. intros u. thr_cases u t; auto. easy.
      * intros D. destruct (Z D) as (Z1 & Z2 & Z3). destruct (Z.eqb_spec (rc s) 0) as [E|E]; [destruct (DZ E); congruence|].
        split; [assumption|split; [assumption|]]. intros T. destruct (Z3 T) as [u U].
        exists u. thr_cases u t; [congruence|assumption].
    + intros R. destruct (rc s =? 0); easy.
    + intros _. apply v_off0, NR.
    + intros u u'. thr_cases u t; thr_cases u' t; intros; try congruence. auto.
    + intros u. thr_cases u t; [easy|]. apply v_rem_taken0.
    + destruct (Z.eqb_spec (rc s) 0) as [E|E]; [|easy]. intros _. destruct (DZ E) as [-> TT]. destruct (Y eq_refl) as [Y1 Y2].
      split; [now rewrite (v_alive0 ND)|]. split; [assumption|]. split; intros u; thr_cases u t; auto; try easy.
      intros K. destruct (le_lt_dec m u); [rewrite v_idle0 in K by assumption; discriminate|].
      assert (TT2 : total (upd (thr s) t Idle) m = 0) by (rewrite total_upd, H; apply Nat.ltb_lt in L; rewrite L; simpl counts; lia).
      assert (K2 := total_ge (upd (thr s) t Idle) m u ltac:(assumption)). rewrite upd_neq, K in K2 by assumption. simpl counts in K2. lia.
    + destruct (Z.eqb_spec (rc s) 0) as [E|E]; [easy|assumption].
    + intros u o'. thr_cases u t; [easy|apply v_undo0].
    + intros u old. thr_cases u t; [easy|apply v_neg0].
    + rewrite v_threw0. simpl. apply Z.ltb_ge. lia.
  - (* remove *)
    destruct (G t) as (m & L & I). exists m. destruct I.
    destruct v_rc0 as (d & X & Y & Z). assert (D : d = false) by (destruct d; [destruct (Y eq_refl); congruence|reflexivity]). subst d.
    destruct (Z eq_refl) as (Z1 & Z2 & Z3).
    split; cbn [off rc lf destr taken threw thr]; try assumption; try easy.
    + intros u Hu. thr_cases u t; [lia|auto].
    + exists false. rewrite total_upd, H. simpl counts. split; [destruct (t <? m)%nat; lia|]. split; [easy|]. intros _.
      split; [assumption|split; [assumption|]]. intros _. exists t. apply upd_eq.
    + intros u u'. thr_cases u t; thr_cases u' t; intros A B; try congruence.
      * apply v_rem_taken0 in B. congruence.
      * apply v_rem_taken0 in A. congruence.
      * auto.
    + intros u o'. thr_cases u t; [easy|]. intros K. split; [|reflexivity]. now apply (v_undo0 u o').
  - (* remove: release *)
    destruct (G t) as (m & L & I). exists m. destruct I.
    assert (TK := v_rem_taken0 t H).
    assert (NR : lf s <> Raw) by (intros R; destruct (v_raw0 R) as (_ & X & _); congruence).
    assert (ND : lf s <> Dead) by (intros D; destruct (v_dead0 D) as (_ & _ & _ & X); exact (X t H)).
    destruct v_rc0 as (d & X & Y & Z). assert (D : d = false) by (destruct d; [destruct (Y eq_refl) as [_ Q]; now destruct (Q t)|reflexivity]). subst d.
    assert (TN := total_nonneg (thr s) m).
    unfold rel. split; cbn [off rc lf destr taken threw thr]; try assumption; try easy.
    + intros u Hu. thr_cases u t; [lia|auto].
    + exists true. rewrite total_upd, H. simpl counts. split; [destruct (t <? m)%nat; lia|]. split; [|easy]. intros _.
      split; [assumption|]. intros u. thr_cases u t; [easy|]. intros K. apply E. exact (v_rem0 _ _ K H).
    + intros R. destruct (rc s =? 0); easy.
    + intros _. apply v_off0, NR.
    + intros u u'. thr_cases u t; thr_cases u' t; intros; try congruence. auto.
    + destruct (Z.eqb_spec (rc s) 0) as [E0|E0]; [|easy]. intros _.
      split; [now rewrite (v_alive0 ND)|]. split; [assumption|]. split; intros u; thr_cases u t; try easy.
      * intros K. destruct (le_lt_dec m u); [rewrite v_idle0 in K by assumption; discriminate|].
        assert (K2 := total_ge (thr s) m u ltac:(assumption)). rewrite K in K2. simpl counts in K2. lia.
      * intros K. apply E. exact (v_rem0 _ _ K H).
    + destruct (Z.eqb_spec (rc s) 0) as [E|E]; [easy|assumption].
    + intros u o'. thr_cases u t; [easy|apply v_undo0].
    + rewrite v_threw0. simpl. apply Z.ltb_ge. lia.
Qed.
Lemma ireach_inv : forall s, ireach (fun l => l = LOther) s -> exists n, iinv n s.
Proof.
  induction 1 as [|s l s' R [n I] ST ->]; [exists 0%nat; apply iinv_init|]. now apply (iinv_step n s).
Qed.
