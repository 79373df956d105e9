(** Tiled Cholesky decomposition: every tile on or below the diagonal is named in as many
    calls as there are rows. *)
From Coq Require Import Bool List Arith NArith ZArith Lia.
From Verif Require Import AccessModel AccessSpec UserModel AppModel AppProof AppChol AppMore.
Import ListNotations.
Open Scope nat_scope.

Definition total (a b : nat) (f : nat -> nat) : nat := list_sum (map f (range a b)).
Lemma total_ext a b f g : (forall i, a <= i < b -> f i = g i) -> total a b f = total a b g.
Proof. intros H. unfold total. f_equal. apply map_ext_in. intros i Hi. apply in_range in Hi. auto. Qed.
Lemma total_add a b f g : total a b (fun i => f i + g i) = total a b f + total a b g.
Proof. unfold total. induction (range a b) as [|i l IH]; simpl; lia. Qed.
Lemma total_const a b v : total a b (fun _ => v) = (b - a) * v.
Proof. unfold total, range. generalize (b - a). intros n. revert a. induction n as [|n IH]; intros a; simpl; auto. Qed.
Lemma total_mul a b v f : total a b (fun i => v * f i) = v * total a b f.
Proof. unfold total. induction (range a b) as [|i l IH]; simpl; [lia|]. rewrite IH. lia. Qed.
Lemma total_S n f : total 0 (S n) f = total 0 n f + f n.
Proof. unfold total. rewrite range_S, map_app, list_sum_app. simpl. lia. Qed.
(** one of the values *)
Lemma total_pick a b c (P : bool) v : total a b (fun i => if (i =? c) && P then v else 0) = if (a <=? c) && (c <? b) && P then v else 0.
Proof.
  unfold total, range. destruct (Nat.leb_spec a c) as [A|A]; cbn [andb].
  - destruct (Nat.ltb_spec c b) as [B|B]; cbn [andb].
    + replace (b - a) with ((c - a) + S (b - S c)) by lia. rewrite seq_app, map_app, list_sum_app. replace (a + (c - a)) with c by lia. simpl. rewrite Nat.eqb_refl. cbn [andb].
      assert (Z : forall l, ~ In c l -> list_sum (map (fun i => if (i =? c) && P then v else 0) l) = 0).
      { induction l as [|x l IH]; intros N; [reflexivity|]. simpl. destruct (Nat.eqb_spec x c) as [->|]; [destruct N; now left|]. simpl. apply IH. intros Q. apply N. now right. }
      rewrite !Z by (rewrite in_seq; lia). lia.
    + assert (Z : forall l, ~ In c l -> list_sum (map (fun i => if (i =? c) && P then v else 0) l) = 0).
      { induction l as [|x l IH]; intros N; [reflexivity|]. simpl. destruct (Nat.eqb_spec x c) as [->|]; [destruct N; now left|]. simpl. apply IH. intros Q. apply N. now right. }
      apply Z. rewrite in_seq. lia.
  - assert (Z : forall l, ~ In c l -> list_sum (map (fun i => if (i =? c) && P then v else 0) l) = 0).
    { induction l as [|x l IH]; intros N; [reflexivity|]. simpl. destruct (Nat.eqb_spec x c) as [->|]; [destruct N; now left|]. simpl. apply IH. intros Q. apply N. now right. }
    apply Z. rewrite in_seq. lia.
Qed.

Section Count.
  Context (nb c r : nat) (Hc : c < nb) (Hr : r < nb).
  Notation x := (c * nb + r).
  Definition d (a b : nat) : nat := if (a =? c) && (b =? r) then 1 else 0.
  Lemma d_is a b : b < nb -> (if Nat.eq_dec (a * nb + b) x then 1 else 0) = d a b.
  Proof.
    intros Hb. unfold d. destruct (Nat.eq_dec (a * nb + b) x) as [E|E].
    - apply tile_inj in E as [-> ->]; auto. now rewrite !Nat.eqb_refl.
    - destruct (Nat.eqb_spec a c) as [->|]; auto. destruct (Nat.eqb_spec b r) as [->|]; [lia|reflexivity].
  Qed.
  Lemma one_gemm i j k : i < nb -> j < nb -> count_occ Nat.eq_dec (ids (gemm_task nb i j k)) x = d k i + d k j + d j i.
  Proof. intros Hi Hj. rewrite <- !d_is by auto. simpl. repeat match goal with |- context [Nat.eq_dec ?a ?b] => destruct (Nat.eq_dec a b) end; lia. Qed.
  Lemma one_syrk i j : j < nb -> count_occ Nat.eq_dec (ids (syrk_task nb i j)) x = d i j + d j j.
  Proof. intros Hj. rewrite <- !d_is by auto. simpl. repeat match goal with |- context [Nat.eq_dec ?a ?b] => destruct (Nat.eq_dec a b) end; lia. Qed.
  Lemma one_potrf j : j < nb -> count_occ Nat.eq_dec (ids (potrf_task nb j)) x = d j j.
  Proof. intros Hj. rewrite <- !d_is by auto. simpl. repeat match goal with |- context [Nat.eq_dec ?a ?b] => destruct (Nat.eq_dec a b) end; lia. Qed.
  Lemma one_trsm i j : i < nb -> j < nb -> count_occ Nat.eq_dec (ids (trsm_task nb i j)) x = d j j + d j i.
  Proof. intros Hi Hj. rewrite <- !d_is by auto. simpl. repeat match goal with |- context [Nat.eq_dec ?a ?b] => destruct (Nat.eq_dec a b) end; lia. Qed.
  Lemma pick_first a b k : total a b (fun i => d i k) = if (a <=? c) && (c <? b) && (k =? r) then 1 else 0.
  Proof. apply total_pick. Qed.
  Lemma pick_second a b k : total a b (fun i => d k i) = if (a <=? r) && (r <? b) && (k =? c) then 1 else 0.
  Proof. rewrite <- (total_pick a b r). apply total_ext. intros i _. unfold d. now rewrite andb_comm. Qed.

  (** the calls of column [j] *)
  Definition in_column (j : nat) : nat :=
    if c <? r then (if j =? c then S c else if (c <? j) && (j <? r) then 1 else if j =? r then nb - r else 0)
    else if c =? r then (if j =? c then nb else 0) else 0.
  Lemma column_count j : j < nb ->
    cnt x (flat_map (fun k => map (fun i => gemm_task nb i j k) (range (S j) nb)) (range 0 j)
    ++ map (fun i => syrk_task nb i j) (range 0 j) ++ [potrf_task nb j] ++ map (fun i => trsm_task nb i j) (range (S j) nb)) = in_column j.
  Proof.
    intros Hj. rewrite !cnt_app, cnt_flat, !cnt_map.
    assert (E1 : list_sum (map (fun k => cnt x (map (fun i => gemm_task nb i j k) (range (S j) nb))) (range 0 j))
      = total 0 j (fun k => total (S j) nb (fun i => d k i) + (nb - S j) * d k j + total (S j) nb (fun i => d j i))).
    { apply (total_ext 0 j). intros k Hk. rewrite cnt_map, <- (total_const (S j) nb (d k j)), <- !total_add. apply total_ext. intros i Hi. apply one_gemm; lia. }
    assert (E2 : list_sum (map (fun i => count_occ Nat.eq_dec (ids (syrk_task nb i j)) x) (range 0 j)) = total 0 j (fun i => d i j) + j * d j j).
    { transitivity (total 0 j (fun i => d i j) + (j - 0) * d j j); [|now rewrite Nat.sub_0_r]. rewrite <- (total_const 0 j (d j j)), <- total_add. apply (total_ext 0 j). intros i Hi. now apply one_syrk. }
    assert (E3 : cnt x [potrf_task nb j] = d j j).
    { unfold cnt. cbn [map list_sum fold_right]. rewrite one_potrf by auto. lia. }
    assert (E4 : list_sum (map (fun i => count_occ Nat.eq_dec (ids (trsm_task nb i j)) x) (range (S j) nb)) = (nb - S j) * d j j + total (S j) nb (fun i => d j i)).
    { rewrite <- (total_const (S j) nb (d j j)), <- total_add. apply (total_ext (S j) nb). intros i Hi. apply one_trsm; lia. }
    rewrite E1, E2, E3, E4. rewrite !total_add, total_const, Nat.sub_0_r.
    assert (E5 : total 0 j (fun k => (nb - S j) * d k j) = (nb - S j) * total 0 j (fun k => d k j)).
    { apply total_mul. }
    assert (E6 : total 0 j (fun k => total (S j) nb (fun i => d k i)) = if (c <? j) && (j <? r) then 1 else 0).
    { rewrite (total_ext 0 j _ (fun k => if (k =? c) && (j <? r) then 1 else 0)).
      - rewrite total_pick. reflexivity.
      - intros k _. rewrite pick_second. destruct (Nat.leb_spec (S j) r); destruct (Nat.ltb_spec j r); destruct (Nat.ltb_spec r nb); destruct (k =? c); simpl; auto; lia. }
    rewrite E5, E6, !pick_first, !pick_second. unfold d, in_column. clear E1 E2 E3 E4 E5 E6.
    destruct (Nat.leb_spec 0 c); [|lia]. destruct (Nat.ltb_spec r nb); [|lia].
    destruct (Nat.ltb_spec c r); destruct (Nat.eqb_spec j c); destruct (Nat.ltb_spec c j); destruct (Nat.ltb_spec j r); destruct (Nat.eqb_spec j r);
      destruct (Nat.leb_spec (S j) r); destruct (Nat.eqb_spec c r); cbn [andb]; lia.
  Qed.
  Lemma columns_count n : n <= nb -> total 0 n in_column = if c <? r then (if n <=? c then 0 else if n <=? r then n else nb) else if c =? r then (if n <=? c then 0 else nb) else 0.
  Proof.
    induction n as [|n IH]; intros Hn.
    - unfold total. simpl. now destruct (c <? r), (c =? r).
    - rewrite total_S, IH by lia. unfold in_column.
      destruct (Nat.ltb_spec c r); destruct (Nat.eqb_spec n c); destruct (Nat.ltb_spec c n); destruct (Nat.ltb_spec n r); destruct (Nat.eqb_spec n r);
        destruct (Nat.leb_spec n c); destruct (Nat.leb_spec (S n) c); destruct (Nat.leb_spec n r); destruct (Nat.leb_spec (S n) r); destruct (Nat.eqb_spec c r); cbn [andb]; lia.
  Qed.
  Lemma chol_count : cnt x (chol_jobs nb) = if c <=? r then nb else 0.
  Proof.
    unfold chol_jobs. rewrite cnt_flat.
    change (total 0 nb (fun j => cnt x (flat_map (fun k => map (fun i => gemm_task nb i j k) (range (S j) nb)) (range 0 j)
      ++ map (fun i => syrk_task nb i j) (range 0 j) ++ [potrf_task nb j] ++ map (fun i => trsm_task nb i j) (range (S j) nb))) = if c <=? r then nb else 0).
    rewrite (total_ext 0 nb _ in_column) by (intros; apply column_count; lia). rewrite columns_count by lia.
    destruct (Nat.ltb_spec c r); destruct (Nat.leb_spec c r); destruct (Nat.leb_spec nb c); destruct (Nat.leb_spec nb r); destruct (Nat.eqb_spec c r); lia.
  Qed.
End Count.

Lemma chol_few nb : (Z.of_nat nb <= 21844)%Z -> few (chol_jobs nb).
Proof.
  intros H j Hj. apply chol_jobs_are in Hj.
  assert (B : forall a b, a < nb -> b < nb -> cnt (a * nb + b) (chol_jobs nb) <= nb).
  { intros a b Ha Hb. rewrite chol_count by auto. destruct (a <=? b); lia. }
  destruct Hj as [i j k A1 A2 A3|i j A1 A2|j A1|i j A1 A2]; unfold ids; cbn [gemm_task syrk_task potrf_task trsm_task j_acc map tile_read tile_write a_res r_id list_sum fold_right];
    repeat match goal with |- context [cnt (?a * nb + ?b) (chol_jobs nb)] => let X := fresh in pose proof (B a b ltac:(lia) ltac:(lia)) as X; revert X; generalize (cnt (a * nb + b) (chol_jobs nb)); intros ? X end; lia.
Qed.
