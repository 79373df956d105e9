(** The marks of the workers: invariants, refinement of the pool, bound. *)
From Coq Require Import Bool List Arith NArith ZArith Lia Permutation.
From Verif Require Import AccessModel AccessSpec UserModel SchedModel SchedSpec SchedBase SchedInv1 PoolModel PoolProof MarkModel MarkProof.
Import ListNotations.
Open Scope nat_scope.

Record minv (n m : nat) (x : mpool) : Prop := {
  mi_p : pinv n m (pl x);
  mi_g : forall i v, sees (pl x) i v -> good n i v (av x i) (todo x i) (srch x i) (busy x i);
  mi_out : forall i, 1 + n + m <= i -> todo x i = [] /\ srch x i = LNone /\ busy x i = None
}.

Lemma sees_in n m c i : pinv n m c -> i < 1 + n + m -> exists v, sees c i v.
Proof.
  intros I H. destruct (nth_error (thr (core c)) i) as [st|] eqn:E.
  - exists (mkView st (wp c i) (due c i)). repeat split; auto.
  - apply nth_error_None in E. rewrite (pi_thr n m c I) in E. lia.
Qed.
Lemma sees_lt n m c i v : pinv n m c -> sees c i v -> i < 1 + n + m.
Proof. intros I (E & _). apply nth_lt in E. now rewrite (pi_thr n m c I) in E. Qed.
Lemma sees_fun c i v v' : sees c i v -> sees c i v' -> v = v'.
Proof. intros (A & B & C) (A' & B' & C'). destruct v, v'; simpl in *. congruence. Qed.

Lemma good_false n i v a td sr bz : good n i v a td sr bz -> good n i v false td sr bz.
Proof. intros [G1 G2 G3 G4 G5 G6 G7 G8 G9 G10]. split; auto. Qed.

Lemma groups_in n i v : In v (concat (groups n (start_of n i))) -> is_worker n v = true.
Proof.
  destruct n as [|n].
  - unfold start_of. replace (is_worker 0 i) with false; [easy|]. unfold is_worker. destruct i; reflexivity.
  - intros H. apply (Permutation_in _ (groups_all (S n) _ (start_lt (S n) i ltac:(lia)))) in H. now apply In_is_worker.
Qed.
Lemma groups_len n i : length (concat (groups n (start_of n i))) <= n.
Proof.
  destruct n as [|n].
  - unfold start_of. replace (is_worker 0 i) with false; [simpl; lia|]. unfold is_worker. destruct i; reflexivity.
  - rewrite (Permutation_length (groups_all (S n) _ (start_lt (S n) i ltac:(lia)))). rewrite seq_length. lia.
Qed.
Lemma untried_len v p : In v p -> length (untried v p) < length p.
Proof.
  unfold untried. intros H. induction p as [|u p IH]; [easy|]. simpl. destruct (Nat.eqb_spec u v) as [->|N]; simpl.
  - assert (X : length (filter (fun u => negb (u =? v)) p) <= length p) by apply filter_length_le || (clear; induction p; simpl; [lia|destruct (negb _); simpl; lia]). lia.
  - destruct H as [->|H]; [easy|]. specialize (IH H). lia.
Qed.

(** one access of a search *)
Lemma lookstep_rem n x i a l : lookstep n x i = Some (a, l) ->
  (forall u, In u (remaining l) -> is_worker n u = true \/ In u (remaining (srch x i))) /\
  (srch x i <> LNone -> length (remaining l) <= length (remaining (srch x i))) /\
  (srch x i = LNone -> length (remaining l) <= n) /\
  (activates (pl x) i = false -> forall v, l <> LGot v) /\
  (forall u, a u = true -> av x u = true) /\ l <> LNone.
Proof.
  unfold lookstep. intros H. destruct (srch x i) as [|[|p ps]|v ps| |] eqn:E; try discriminate.
  - injection H as <- <-. simpl. repeat split; auto; try easy; try discriminate.
    + intros u Hu. left. now apply groups_in in Hu.
    + intros _. apply groups_len.
  - injection H as <- <-. simpl. repeat split; auto; try easy; discriminate.
  - destruct (first_marked x (activates (pl x) i) p) as [v|] eqn:F; injection H as <- <-; simpl.
    + apply find_some in F as [F _]. assert (UL := untried_len v p F). repeat split; auto; try easy; try discriminate.
      * intros u [<-|Hu]; right; apply in_or_app; auto. apply in_app_or in Hu as [Hu|Hu]; auto. left. unfold untried in Hu. now apply filter_In in Hu.
      * intros _. rewrite !app_length. simpl. lia.
    + repeat split; auto; try easy; try discriminate.
      * intros u Hu. right. apply in_or_app. auto.
      * intros _. rewrite app_length. lia.
  - destruct (activates (pl x) i) eqn:A; [|discriminate]. injection H as <- <-.
    assert (X : forall u, upd (av x) v false u = true -> av x u = true).
    { intros u. unfold upd. destruct (u =? v); [discriminate|auto]. }
    destruct (av x v && low v); simpl; repeat split; auto; try easy; try discriminate; intros; simpl in *; lia || tauto.
Qed.

Lemma minv_init P n m : minv n m (minit P n m).
Proof.
  split; simpl.
  - apply pinv_init.
  - intros i v (A & B & C). simpl in *. split; simpl; auto; try easy.
    + destruct (is_worker n i); easy.
    + intros k E. unfold stlv in E. rewrite <- B in E. destruct (is_worker n i), (vst v); discriminate.
    + intros W _ f Hf. destruct i; [discriminate W|]. simpl in A.
      assert (vst v = []) as Q; [|now rewrite Q in Hf]. clear -A. revert i A. induction (n + m); intros [|i] A; simpl in A; try discriminate; [congruence|eauto].
    + intros Ne. destruct (is_worker n i) eqn:W; [|easy]. exfalso. apply Ne. destruct i; [discriminate W|]. simpl in A.
      clear -A. revert i A. induction (n + m); intros [|i] A; simpl in A; try discriminate; [congruence|eauto].
    + intros _. destruct (is_worker n i); auto.
  - intros i H. unfold is_worker. destruct (1 <=? i); simpl; auto. destruct (Nat.leb_spec i n); [lia|auto].
Qed.

Lemma mstep_inv P n m x k x' : minv n m x -> mstep P n m x k = Some x' -> minv n m x'.
Proof.
  intros [I G O] H. destruct k as [mv|w|i|i]; simpl in H.
  - destruct (idle_of x (actor mv)) eqn:Q; [|discriminate]. destruct (allows n m x mv) as [l|] eqn:L; [|discriminate].
    destruct (pstep P n m (pl x) mv) as [c'|] eqn:E; [|discriminate]. injection H as <-.
    assert (I' := pinv_step P n m _ _ _ I E). destruct (pstep_view P n m _ _ _ I E) as (v & v' & A & B & C & D & F).
    split; simpl; auto.
    + intros j u Hu. destruct (Nat.eq_dec j (actor mv)) as [->|Nj].
      * rewrite !upd_eq. rewrite (sees_fun _ _ _ _ Hu B). exact (good_pool P n m x mv c' v v' l I A B C L Q (G _ _ A)).
      * rewrite !upd_ne by auto. destruct (D j Nj) as (D1 & D2 & D3). apply G. destruct Hu as (U1 & U2 & U3). repeat split; congruence.
    + intros j Hj. assert (actor mv < 1 + n + m) by exact (sees_lt n m _ _ _ I A). rewrite !upd_ne by lia. auto.
  - destruct (todo x w) as [|b l] eqn:T; [discriminate|]. injection H as <-. split; simpl; auto.
    + intros j u Hu. specialize (G j u Hu). destruct (Nat.eq_dec j w) as [->|Nj]; [|now rewrite !upd_ne by auto].
      rewrite !upd_eq. rewrite T in G. destruct G as [G1 G2 G3 G4 G5 G6 G7 G8 G9 G10]. split; auto.
      * intros _. apply G1. discriminate.
      * intros _ Ne _ _. destruct b; auto. exfalso. apply (G8 Ne). now left.
      * intros Ne X. apply (G8 Ne). now right.
      * intros Em. destruct (G9 Em) as [X|X]; [discriminate|injection X as _ ->; auto].
    + intros j Hj. destruct (O j Hj) as (A & B & C). rewrite upd_ne by congruence. auto.
  - destruct (busy x i) as [w|] eqn:B; [|discriminate]. injection H as <-. split; simpl; auto.
    + intros j u Hu. specialize (G j u Hu). assert (G' : good n j u (upd (av x) w false j) (todo x j) (srch x j) (busy x j)).
      { unfold upd. destruct (j =? w); auto. now apply good_false in G. }
      destruct (Nat.eq_dec j i) as [->|Nj]; [|now rewrite (upd_ne (busy x)) by auto].
      rewrite upd_eq. destruct G' as [G1 G2 G3 G4 G5 G6 G7 G8 G9 G10]. split; auto. discriminate.
    + intros j Hj. destruct (O j Hj) as (A & C & D). rewrite upd_ne by congruence. auto.
  - destruct (idle_of x i) eqn:Q; [|discriminate]. destruct (due (pl x) i) eqn:Du; [|discriminate].
    destruct (_ || _) eqn:S; [|discriminate]. destruct (lookstep n x i) as [[a l]|] eqn:L; [|discriminate]. injection H as <-.
    destruct (lookstep_rem n x i a l L) as (R1 & R2 & R3 & R4 & R5 & R6).
    assert (Hi : i < 1 + n + m).
    { destruct (nth_error (thr (core (pl x))) i) eqn:E; [apply nth_lt in E; now rewrite (pi_thr n m _ I) in E|].
      unfold activates, steals in S. rewrite E in S. destruct (is_worker n i); discriminate. }
    split; simpl; auto.
    + intros j u Hu. specialize (G j u Hu).
      assert (G' : good n j u (a j) (todo x j) (srch x j) (busy x j)).
      { destruct (a j) eqn:Aj; [now rewrite (R5 j Aj) in G|now apply good_false in G]. }
      destruct (Nat.eq_dec j i) as [->|Nj]; [|now rewrite upd_ne by auto].
      rewrite upd_eq. destruct G' as [G1 G2 G3 G4 G5 G6 G7 G8 G9 G10]. rewrite (acts_view _ _ _ Hu), (steals_view n _ _ _ Hu) in S.
      rewrite (acts_view _ _ _ Hu) in R4. split; auto.
      * intros v Hv. destruct (R1 v Hv); auto.
      * intros A B. rewrite A, B in S. discriminate.
      * intros k E. specialize (G5 k E).
        assert (A : actv (vst u) = false) by (unfold stlv in E; destruct (is_worker n i), (vst u); try discriminate; reflexivity).
        specialize (R4 A). destruct l; try (now destruct R6); try (now destruct (R4 v eq_refl)); simpl in *.
        -- destruct (srch x i); simpl in *; try lia; [specialize (R3 eq_refl); lia|specialize (R2 ltac:(discriminate)); lia|specialize (R2 ltac:(discriminate)); lia..].
        -- destruct (srch x i); simpl in *; try lia; [specialize (R3 eq_refl); lia|specialize (R2 ltac:(discriminate)); lia|specialize (R2 ltac:(discriminate)); lia..].
        -- lia.
    + intros j Hj. rewrite upd_ne by lia. auto.
Qed.

(** ** Number of accesses to the marks *)
Definition ng (n : nat) : nat := 2 + (words n - 1).
Lemma groups_ng n s : length (groups n s) = ng n.
Proof. unfold groups, ng. rewrite map_length. simpl. now rewrite map_length, seq_length. Qed.
Definition phi (n : nat) (l : look) : nat :=
  match l with
  | LNone => 2 * n + ng n + 2
  | LLook ps => 2 * length (concat ps) + length ps + 1
  | LTry _ ps => 2 * length (concat ps) + length ps + 2
  | _ => 0
  end.
Definition bz (o : option nat) : nat := match o with Some _ => 1 | None => 0 end.
Definition mpot (n m : nat) (x : mpool) : nat :=
  let l := seq 0 (1 + n + m) in total (@length bool) (todo x) l + total bz (busy x) l + total (phi n) (srch x) l.
Definition mgain (n : nat) : nat := 2 * n + ng n + 5.

Lemma lookstep_phi n x i a l : lookstep n x i = Some (a, l) -> phi n l + 1 <= phi n (srch x i).
Proof.
  unfold lookstep. intros H. destruct (srch x i) as [|[|p ps]|v ps| |] eqn:E; try discriminate.
  - injection H as <- <-. cbn [phi]. assert (X := groups_len n i). rewrite groups_ng. lia.
  - injection H as <- <-. simpl. lia.
  - destruct (first_marked x (activates (pl x) i) p) as [v|] eqn:F; injection H as <- <-; cbn [phi concat length].
    + apply find_some in F as [F _]. assert (UL := untried_len v p F). rewrite !app_length. lia.
    + rewrite app_length. lia.
  - destruct (activates (pl x) i); [|discriminate]. injection H as <- <-. destruct (av x v && low v); cbn [phi]; lia.
Qed.
Lemma chores_len n c mv c' : length (chores n c mv c') <= 2.
Proof.
  destruct mv; simpl; try lia; repeat match goal with |- context [match ?y with _ => _ end] => destruct y; simpl; try lia end.
Qed.
Lemma allows_phi n m x mv l : allows n m x mv = Some l -> phi n l <= phi n (srch x (actor mv)) + (2 * n + ng n + 2).
Proof.
  unfold allows. intros H. destruct mv as [i w|i|w k|w|w v k|i k]; cbn [actor] in *; try (injection H as <-; lia).
  - destruct (activates (pl x) i); [|injection H as <-; lia].
    destruct (srch x i); try discriminate; [destruct (_ =? _); [|discriminate]|]; injection H as <-; cbn [phi]; lia.
  - destruct (steals n (pl x) w) as [[|k]|], (srch x w); try discriminate; try (destruct (_ && _); [|discriminate]); injection H as <-; cbn [phi]; lia.
  - destruct (srch x w); try discriminate. destruct (_ || _); [|discriminate]. injection H as <-. cbn [phi]. lia.
Qed.

Lemma mstep_pot P n m x k x' : minv n m x -> mstep P n m x k = Some x' ->
  match k with
  | KPool mv => pstep P n m (pl x) mv = Some (pl x') /\ mpot n m x' <= mpot n m x + mgain n
  | _ => pl x' = pl x /\ mpot n m x' + 1 <= mpot n m x
  end.
Proof.
  intros I H. assert (N := seq_NoDup (1 + n + m) 0). destruct k as [mv|w|i|i]; simpl in H.
  - destruct (idle_of x (actor mv)) eqn:Q; [|discriminate]. destruct (allows n m x mv) as [l|] eqn:L; [|discriminate].
    destruct (pstep P n m (pl x) mv) as [c'|] eqn:E; [|discriminate]. injection H as <-. split; auto.
    unfold mpot. cbn [todo busy srch].
    destruct (pstep_view P n m _ _ _ (mi_p n m x I) E) as (v & v' & A & _).
    assert (Hi : In (actor mv) (seq 0 (1 + n + m))) by (apply in_seq; assert (X := sees_lt n m _ _ _ (mi_p n m x I) A); lia).
    assert (T1 := total_upd (@length bool) (todo x) (actor mv) (chores n (pl x) mv c') _ N Hi).
    assert (T2 := total_upd bz (busy x) (actor mv) (marks (pl x) mv) _ N Hi).
    assert (T3 := total_upd (phi n) (srch x) (actor mv) l _ N Hi).
    assert (C := chores_len n (pl x) mv c'). assert (A' := allows_phi n m x mv l L).
    assert (bz (marks (pl x) mv) <= 1) by (destruct (marks (pl x) mv); simpl; lia). unfold mgain. lia.
  - destruct (todo x w) as [|b l] eqn:T; [discriminate|]. injection H as <-. split; auto. unfold mpot. cbn [todo busy srch].
    assert (Hw : In w (seq 0 (1 + n + m))).
    { apply in_seq. destruct (Nat.le_gt_cases (1 + n + m) w) as [X|X]; [|lia]. destruct (mi_out n m x I w X) as [Y _]. congruence. }
    assert (T1 := total_upd (@length bool) (todo x) w l _ N Hw). rewrite T in T1. simpl length in T1. lia.
  - destruct (busy x i) as [w|] eqn:B; [|discriminate]. injection H as <-. split; auto. unfold mpot. cbn [todo busy srch].
    assert (Hw : In i (seq 0 (1 + n + m))).
    { apply in_seq. destruct (Nat.le_gt_cases (1 + n + m) i) as [X|X]; [|lia]. destruct (mi_out n m x I i X) as (_ & _ & Y). congruence. }
    assert (T1 := total_upd bz (busy x) i None _ N Hw). rewrite B in T1. simpl bz in T1. lia.
  - destruct (idle_of x i) eqn:Q; [|discriminate]. destruct (due (pl x) i) eqn:Du; [|discriminate].
    destruct (_ || _) eqn:S; [|discriminate]. destruct (lookstep n x i) as [[a l]|] eqn:L; [|discriminate]. injection H as <-.
    split; auto. unfold mpot. cbn [todo busy srch].
    assert (Hi : In i (seq 0 (1 + n + m))).
    { destruct (nth_error (thr (core (pl x))) i) eqn:E; [apply nth_lt in E; rewrite (pi_thr n m _ (mi_p n m x I)) in E; apply in_seq; lia|].
      unfold activates, steals in S. rewrite E in S. destruct (is_worker n i); discriminate. }
    assert (T1 := total_upd (phi n) (srch x) i l _ N Hi). assert (X := lookstep_phi n x i a l L). lia.
Qed.

Definition mstart (n m : nat) : nat := (1 + n + m) * (2 * n + ng n + 3).
Lemma mark_run P n m g j x : msteps P n m g j x ->
  minv n m x /\ exists k, psteps P n m g k (pl x) /\ j + mpot n m x <= k * (1 + mgain n) + mstart n m.
Proof.
  induction 1 as [|j x k x' _ [I (a & A & B)] G H].
  - split; [apply minv_init|]. exists 0. split; [constructor|]. unfold mpot, mstart, total, minit. cbn [todo busy srch].
    assert (X : forall (f : nat -> nat) b l, (forall i, f i <= b) -> list_sum (map f l) <= length l * b).
    { intros f b l Hf. induction l as [|y l IH]; simpl; [lia|]. specialize (Hf y). lia. }
    assert (X1 := X (fun i => length (if is_worker n i then [true] else [])) 1 (seq 0 (1 + n + m)) ltac:(intros i; cbn beta; destruct (is_worker n i); simpl; auto)).
    assert (X2 := X (fun i => bz None) 0 (seq 0 (1 + n + m)) ltac:(intros i; simpl; lia)).
    assert (X3 := X (fun i => phi n LNone) (2 * n + ng n + 2) (seq 0 (1 + n + m)) ltac:(intros i; cbn [phi]; lia)).
    rewrite seq_length in X1, X2, X3. cbn beta in *.
    replace (2 * n + ng n + 3) with (1 + (2 * n + ng n + 2)) by lia. rewrite (Nat.mul_add_distr_l (1 + n + m)).
    set (L := (1 + n + m) * (2 * n + ng n + 2)) in *. lia.
  - split; [exact (mstep_inv P n m x k x' I H)|]. assert (S := mstep_pot P n m x k x' I H). destruct k as [mv|w|i|i].
    + destruct S as [S L]. exists (Datatypes.S a). split; [econstructor; eauto|]. cbn [Nat.mul]. lia.
    + destruct S as [S L]. exists a. rewrite S. split; auto. lia.
    + destruct S as [S L]. exists a. rewrite S. split; auto. lia.
    + destruct S as [S L]. exists a. rewrite S. split; auto. lia.
Qed.

(** ** Progress: the marks stop nobody *)
Lemma mstuck_idle P n m x : mstuck P n m x -> forall i, todo x i = [] /\ busy x i = None /\ idle_of x i = true.
Proof.
  intros K i. assert (K1 := K (KMark i)). assert (K2 := K (KBusy i)). simpl in K1, K2. unfold idle_of.
  destruct (todo x i); [|discriminate]. destruct (busy x i); [discriminate|auto].
Qed.
Lemma pool_miss P n m c w k : is_worker n w = true -> due c w = [] -> steals n c w = Some k -> exists c', pstep P n m c (MMiss w) = Some c'.
Proof.
  intros W D S. unfold steals in S. unfold pstep. rewrite W, D in *. destruct (nth_error (thr (core c)) w) as [[|]|]; try discriminate.
  destruct (wp c w) as [| | |[|j]|[|j]]; try discriminate; eauto.
Qed.

Lemma mstuck_pstuck P n m x : minv n m x -> mstuck P n m x -> pstuck P n m (pl x).
Proof.
  intros [I G O] K. assert (ID := mstuck_idle P n m x K).
  assert (DU : forall i, due (pl x) i = []).
  { intros i. destruct (due (pl x) i) as [|w l] eqn:E; auto. exfalso. assert (X := K (KPool (MWake i))). cbn [mstep actor] in X.
    destruct (ID i) as (_ & _ & Q). rewrite Q in X. simpl in X. rewrite E in X. discriminate. }
  assert (LK : forall i, activates (pl x) i = true \/ steals n (pl x) i <> None -> lookstep n x i = None).
  { intros i S. assert (X := K (KLook i)). cbn [mstep] in X. destruct (ID i) as (_ & _ & E). rewrite E, (DU i) in X.
    replace (activates (pl x) i || match steals n (pl x) i with Some _ => true | None => false end) with true in X.
    - destruct (lookstep n x i) as [[a l]|]; [discriminate|auto].
    - destruct S as [->|S]; auto. destruct (steals n (pl x) i); [|easy]. now rewrite orb_true_r. }
  assert (NS : forall w, steals n (pl x) w = None).
  { intros w. destruct (steals n (pl x) w) as [k|] eqn:S; auto. exfalso.
    assert (W : is_worker n w = true) by (unfold steals in S; destruct (is_worker n w); auto; discriminate).
    assert (L := LK w ltac:(right; congruence)).
    destruct (sees_in n m (pl x) w I ltac:(apply (worker_range n m) in W; apply in_seq in W; lia)) as (v & V).
    assert (Gw := G w v V). assert (GT := gd_tries _ _ _ _ _ _ _ Gw k). rewrite <- (steals_view n _ _ _ V) in GT. specialize (GT S).
    destruct (pool_miss P n m (pl x) w k W (DU w) S) as (c' & M).
    assert (X := K (KPool (MMiss w))). cbn [mstep actor] in X. destruct (ID w) as (_ & _ & E). rewrite E, M in X.
    unfold allows in X. rewrite S in X. unfold lookstep in L.
    destruct (srch x w) as [|[|p ps]|u ps|u|] eqn:Sr; try discriminate.
    - destruct (first_marked _ _ p); discriminate.
    - destruct k as [|k]; [simpl in GT; lia|].
      assert (U : is_worker n u = true) by (apply (gd_rem _ _ _ _ _ _ _ Gw); left; auto).
      (* something to steal *)
      assert (ST : forall z, is_worker n z = true -> (z =? u) || (z =? w) && bare n m (pl x) (loot (pl x) w) u = true ->
        loot (pl x) w z = []).
      { intros z Z Hz. destruct (loot (pl x) w z) as [|t q] eqn:Q; auto. exfalso. assert (Y := K (KPool (MSteal w z 0))). cbn [mstep actor] in Y.
        rewrite E in Y. unfold allows in Y. rewrite Sr, Hz in Y. unfold pstep in Y. rewrite W, Z, (DU w) in Y.
        unfold steals in S. rewrite W in S. destruct (nth_error (thr (core (pl x))) w) as [[|]|]; try discriminate.
        unfold loot in Q. destruct (wp (pl x) w) as [| | |j|j]; try discriminate; injection S as ->; rewrite Q in Y; simpl in Y; discriminate. }
      assert (BU : bare n m (pl x) (loot (pl x) w) u = true) by (unfold bare; now rewrite (ST u U ltac:(now rewrite Nat.eqb_refl))).
      assert (BW : bare n m (pl x) (loot (pl x) w) w = true).
      { unfold bare. rewrite (ST w W); auto. rewrite BU, Nat.eqb_refl. now rewrite orb_true_r. }
      rewrite BU, BW in X. discriminate.
    - exact GT.
    - destruct k; discriminate. }
  intros mv. destruct (pstep P n m (pl x) mv) as [c'|] eqn:E; auto. exfalso.
  assert (X := K (KPool mv)). cbn [mstep] in X. destruct (ID (actor mv)) as (_ & _ & Q). rewrite Q, E in X.
  unfold allows in X. destruct mv as [i w|i|w k|w|w v k|i k]; cbn [actor] in *; try discriminate.
  - destruct (activates (pl x) i) eqn:A; [|discriminate]. assert (L := LK i (or_introl A)). unfold lookstep in L. rewrite A in L.
    destruct (srch x i) as [|[|p ps]|u ps|u|] eqn:Sr; try discriminate.
    + destruct (first_marked _ _ p); discriminate.
    + (* the claimed worker *)
      destruct (u =? w); [discriminate|]. assert (Y := K (KPool (MStep i u))). cbn [mstep actor] in Y. rewrite Q in Y. unfold allows in Y.
      rewrite A, Sr, Nat.eqb_refl in Y. unfold pstep in E, Y. rewrite (DU i) in *.
      destruct (nth_error (thr (core (pl x))) i) as [[|f fs]|] eqn:Ei; try discriminate. destruct (fstep P (core (pl x)) f) as [[s' fr]|]; [|discriminate].
      assert (V : sees (pl x) i (mkView (f :: fs) (wp (pl x) i) (due (pl x) i))) by (repeat split; auto).
      assert (U : is_worker n u = true) by (apply (gd_rem _ _ _ _ _ _ _ (G i _ V)); rewrite Sr; simpl; auto).
      rewrite U in Y. discriminate.
  - rewrite NS in X. discriminate.
  - assert (S := NS w). unfold pstep in E. unfold steals in S. destruct (is_worker n w), (is_worker n v); try discriminate. destruct (due (pl x) w); [|discriminate].
    destruct (nth_error (thr (core (pl x))) w) as [[|]|]; try discriminate. destruct (wp (pl x) w); discriminate.
Qed.
