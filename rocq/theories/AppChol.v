(** The tiled Cholesky example: its tasks compute what its loops compute, and that is a
    Cholesky decomposition. *)
From Coq Require Import Bool List Arith NArith ZArith Lia.
From Verif Require Import AccessModel AccessSpec AccessProof UserModel SchedModel SchedSpec AppModel AppSpec AppProof.
Import ListNotations.
Open Scope nat_scope.

Lemma in_range i a b : In i (range a b) <-> a <= i < b.
Proof. unfold range. rewrite in_seq. lia. Qed.

(** ** The program is well-formed *)
Lemma tile_inj nb i j k l : i < nb -> k < nb -> j * nb + i = l * nb + k -> i = k /\ j = l.
Proof.
  intros H1 H2 E. assert (j = l); [|subst; lia].
  apply (f_equal (fun x => x / nb)) in E. rewrite !Nat.div_add_l, !Nat.div_small, !Nat.add_0_r in E by lia. exact E.
Qed.
Inductive chol_job (nb : nat) : job -> Prop :=
| cj_gemm i j k : i < nb -> j < i -> k < j -> chol_job nb (gemm_task nb i j k)
| cj_syrk i j : j < nb -> i < j -> chol_job nb (syrk_task nb i j)
| cj_potrf j : j < nb -> chol_job nb (potrf_task nb j)
| cj_trsm i j : i < nb -> j < i -> chol_job nb (trsm_task nb i j).
Lemma chol_jobs_are nb j : In j (chol_jobs nb) -> chol_job nb j.
Proof.
  unfold chol_jobs. intros H. apply in_flat_map in H as (c & Hc & H). apply in_range in Hc.
  rewrite !in_app_iff in H. destruct H as [H|[H|[[<-|[]]|H]]].
  - apply in_flat_map in H as (k & Hk & H). apply in_range in Hk. apply in_map_iff in H as (i & <- & Hi). apply in_range in Hi. constructor; lia.
  - apply in_map_iff in H as (i & <- & Hi). apply in_range in Hi. constructor; lia.
  - constructor; lia.
  - apply in_map_iff in H as (i & <- & Hi). apply in_range in Hi. constructor; lia.
Qed.
Lemma chol_io nb j a : chol_job nb j -> In a (j_acc j) -> a_ty a = TIO.
Proof. intros H Ha. destruct H; simpl in Ha; repeat (destruct Ha as [<-|Ha]; [reflexivity|]); destruct Ha. Qed.
Ltac differ := let E := fresh in intros E; apply tile_inj in E; lia.
Lemma chol_sound nb : sound_app (chol_jobs nb).
Proof.
  split.
  - intros i j a b Hi Hj Ha Hb _. apply chol_jobs_are in Hi, Hj. now rewrite (chol_io nb i a), (chol_io nb j b).
  - intros j Hj. apply chol_jobs_are in Hj. split; [|split].
    + intros a Ha. destruct Hj; simpl in Ha; repeat (destruct Ha as [<-|Ha]; [reflexivity|]); destruct Ha.
    + destruct Hj as [i j k|i j|j|i j]; simpl.
      * repeat (constructor; [simpl; intros X; repeat (destruct X as [X|X]; [apply eq_sym in X; revert X; differ|]); destruct X|]). constructor.
      * repeat (constructor; [simpl; intros X; repeat (destruct X as [X|X]; [apply eq_sym in X; revert X; differ|]); destruct X|]). constructor.
      * repeat constructor; simpl; auto.
      * repeat (constructor; [simpl; intros X; repeat (destruct X as [X|X]; [apply eq_sym in X; revert X; differ|]); destruct X|]). constructor.
    + intros a Ha. destruct Hj; simpl in Ha; repeat (destruct Ha as [<-|Ha];
        [match goal with |- context [get_tile ?x] => exists (mkRes x 0), MRead | |- context [set_tile ?x _] => exists (mkRes x 0), MWrite end;
         split; [simpl; unfold tile_read, tile_write; auto 6|split; [reflexivity|simpl; auto]]|]); destruct Ha.
Qed.

(** ** The calls one after another are the loops *)
Lemma fold_flat {A B C} (f : A -> list B) (g : C -> B -> C) l c :
  fold_left g (flat_map f l) c = fold_left (fun c a => fold_left g (f a) c) l c.
Proof. revert c. induction l as [|a l IH]; intros c; simpl; auto. now rewrite fold_left_app, IH. Qed.
Lemma fold_map {A B C} (f : A -> B) (g : C -> B -> C) l c : fold_left g (map f l) c = fold_left (fun c a => g c (f a)) l c.
Proof. revert c. induction l as [|a l IH]; intros c; simpl; auto. Qed.
Lemma fold_ext {A B} (f g : A -> B -> A) l a : (forall a b, f a b = g a b) -> fold_left f l a = fold_left g l a.
Proof. intros E. revert a. induction l as [|b l IH]; intros a; simpl; auto. now rewrite E, IH. Qed.
Lemma chol_calls K nb m : memory_after (blas K) [] (chol_jobs nb) m = chol_seq K nb m.
Proof.
  unfold memory_after, chol_jobs, chol_seq, loop. rewrite fold_flat. apply fold_ext. intros a j.
  rewrite !fold_left_app, fold_flat, !fold_map. cbv zeta. cbn [fold_left].
  assert (E1 : forall m, fold_left (fun c i => fold_left (fun m0 j0 => snd (run_acts (blas K) (j_acts j0) [] m0)) (map (fun i0 => gemm_task nb i0 j i) (range (S j) nb)) c) (range 0 j) m
    = fold_left (fun m k => fold_left (fun m i => alter (j * nb + i) (gemm K (at_ K nb m i k) (at_ K nb m j k)) m) (range (S j) nb) m) (range 0 j) m).
  { intros m0. apply fold_ext. intros b k. rewrite fold_map. apply fold_ext. reflexivity. }
  rewrite E1. reflexivity.
Qed.

(** ** Steps of the loops *)
Section Factor.
  Context (K : kernels) (nb : nat).
  Notation at_ := (at_ K nb).
  Notation tiles := (list (tile K)).

  Lemma tile_small i j : i < nb -> j < nb -> j * nb + i < nb * nb. Proof. nia. Qed.
  Lemma at_alter m i j k l f : length m = nb * nb -> i < nb -> j < nb -> k < nb -> l < nb ->
    at_ (alter (j * nb + i) f m) k l = if (k =? i) && (l =? j) then f (at_ m k l) else at_ m k l.
  Proof.
    intros L Hi Hj Hk Hl. unfold AppSpec.at_. rewrite nth_alter. assert (B := tile_small k l Hk Hl). rewrite <- L in B. apply Nat.ltb_lt in B. rewrite B, andb_true_r.
    destruct (Nat.eqb_spec (l * nb + k) (j * nb + i)) as [E|E].
    - apply tile_inj in E as [-> ->]; auto. now rewrite !Nat.eqb_refl.
    - destruct (Nat.eqb_spec k i) as [->|]; auto. destruct (Nat.eqb_spec l j) as [->|]; [lia|reflexivity].
  Qed.

  (** a loop over rows of column j, in which a step does not depend on the rows changed *)
  Lemma row_loop j rows (f : nat -> tiles -> tile K -> tile K) : j < nb -> NoDup rows -> (forall i, In i rows -> i < nb) ->
    (forall i i' m g c, In i rows -> In i' rows -> length m = nb * nb -> f i (alter (j * nb + i') g m) c = f i m c) ->
    forall m, length m = nb * nb ->
    let m' := fold_left (fun m i => alter (j * nb + i) (f i m) m) rows m in
    length m' = nb * nb /\
    forall k l, k < nb -> l < nb -> at_ m' k l = if (l =? j) && existsb (Nat.eqb k) rows then f k m (at_ m k l) else at_ m k l.
  Proof.
    intros Hj. induction rows as [|i rows IH]; intros ND B D m L; simpl.
    - split; auto. intros k l _ _. now rewrite andb_false_r.
    - inversion ND as [|? ? NI ND']; subst. assert (Hi := B i (or_introl eq_refl)).
      destruct (IH ND' (fun x H => B x (or_intror H)) (fun a b m g c Ha Hb => D a b m g c (or_intror Ha) (or_intror Hb)) (alter (j * nb + i) (f i m) m)) as [L' A].
      { now rewrite alter_len. }
      split; [exact L'|]. intros k l Hk Hl. rewrite (A k l Hk Hl), at_alter by auto.
      destruct (Nat.eqb_spec l j) as [->|NE]; simpl; [|now rewrite andb_false_r]. rewrite andb_true_r.
      destruct (Nat.eqb_spec k i) as [->|NE]; simpl.
      + assert (X : existsb (Nat.eqb i) rows = false); [|now rewrite X].
        destruct (existsb (Nat.eqb i) rows) eqn:X; auto. apply existsb_exists in X as (y & Hy & E). apply Nat.eqb_eq in E. now subst.
      + destruct (existsb (Nat.eqb k) rows) eqn:X; auto. apply existsb_exists in X as (y & Hy & E). apply Nat.eqb_eq in E. subst y.
        apply D; simpl; auto.
  Qed.
  Lemma range_nodup a b : NoDup (range a b). Proof. apply seq_NoDup. Qed.
  Lemma in_rangeb i a b : existsb (Nat.eqb i) (range a b) = (a <=? i) && (i <? b).
  Proof.
    destruct (existsb (Nat.eqb i) (range a b)) eqn:X.
    - apply existsb_exists in X as (y & Hy & E). apply Nat.eqb_eq in E. subst y. apply in_range in Hy. symmetry. apply andb_true_iff. rewrite Nat.leb_le, Nat.ltb_lt. lia.
    - destruct (Nat.leb_spec a i); auto. destruct (Nat.ltb_spec i b); auto. exfalso.
      assert (existsb (Nat.eqb i) (range a b) = true); [|congruence]. apply existsb_exists. exists i. rewrite in_range, Nat.eqb_refl. auto.
  Qed.
  Lemma range_S n : range 0 (S n) = range 0 n ++ [n].
  Proof. unfold range. rewrite !Nat.sub_0_r, seq_S. reflexivity. Qed.

  (** the loop with dgemm, columns below n *)
  Definition gemms (i j n : nat) (m : tiles) : tile K := fold_left (fun c k => gemm K (at_ m i k) (at_ m j k) c) (range 0 n) (at_ m i j).
  Definition syrks (j n : nat) (m : tiles) : tile K := fold_left (fun c k => syrk K (at_ m j k) c) (range 0 n) (at_ m j j).
  Lemma gemm_loop j m n : j < nb -> n <= j -> length m = nb * nb ->
    let m' := fold_left (fun m k => fold_left (fun m i => alter (j * nb + i) (gemm K (at_ m i k) (at_ m j k)) m) (range (S j) nb) m) (range 0 n) m in
    length m' = nb * nb /\
    forall k l, k < nb -> l < nb -> at_ m' k l = if (l =? j) && (j <? k) then gemms k j n m else at_ m k l.
  Proof.
    intros Hj Hn L. induction n as [|n IH].
    - simpl. split; auto. intros k l _ _. destruct (Nat.eqb_spec l j) as [->|]; simpl; auto. destruct (j <? k); reflexivity.
    - rewrite range_S, fold_left_app. cbn [fold_left]. destruct (IH ltac:(lia)) as [L1 A1]. cbv zeta in *. revert L1 A1.
      generalize (fold_left (fun m0 k => fold_left (fun m1 i => alter (j * nb + i) (gemm K (at_ m1 i k) (at_ m1 j k)) m1) (range (S j) nb) m0) (range 0 n) m).
      intros m1 L1 A1.
      destruct (row_loop j (range (S j) nb) (fun i m => gemm K (at_ m i n) (at_ m j n)) Hj (range_nodup _ _)) with (m := m1) as [L2 A2]; auto.
      { intros i H. apply in_range in H. lia. }
      { intros i i' m2 g c Hi Hi' L2. apply in_range in Hi, Hi'. rewrite !at_alter by lia. destruct (Nat.eqb_spec n j); [lia|]. now rewrite !andb_false_r. }
      split; [exact L2|]. intros k l Hk Hl. rewrite (A2 k l Hk Hl), in_rangeb.
      assert (X : (S j <=? k) && (k <? nb) = (j <? k)).
      { destruct (Nat.leb_spec (S j) k); destruct (Nat.ltb_spec k nb); destruct (Nat.ltb_spec j k); simpl; auto; lia. }
      rewrite X. destruct (Nat.eqb_spec l j) as [->|NE]; simpl.
      + destruct (Nat.ltb_spec j k) as [J|J].
        * rewrite !A1 by lia. destruct (Nat.eqb_spec n j); [lia|]. rewrite Nat.eqb_refl. simpl. destruct (Nat.ltb_spec j k); [|lia].
          unfold gemms. now rewrite range_S, fold_left_app.
        * rewrite A1 by lia. rewrite Nat.eqb_refl. simpl. destruct (Nat.ltb_spec j k); [lia|reflexivity].
      + rewrite A1 by lia. destruct (Nat.eqb_spec l j); [lia|reflexivity].
  Qed.
  Lemma syrk_loop j m n : j < nb -> n <= j -> length m = nb * nb ->
    let m' := fold_left (fun m i => alter (j * nb + j) (syrk K (at_ m j i)) m) (range 0 n) m in
    length m' = nb * nb /\
    forall k l, k < nb -> l < nb -> at_ m' k l = if (l =? j) && (k =? j) then syrks j n m else at_ m k l.
  Proof.
    intros Hj Hn L. induction n as [|n IH].
    - simpl. split; auto. intros k l _ _. destruct (Nat.eqb_spec l j) as [->|]; simpl; auto. destruct (Nat.eqb_spec k j) as [->|]; reflexivity.
    - rewrite range_S, fold_left_app. cbn [fold_left]. destruct (IH ltac:(lia)) as [L1 A1]. cbv zeta in *. revert L1 A1.
      generalize (fold_left (fun m0 i => alter (j * nb + j) (syrk K (at_ m0 j i)) m0) (range 0 n) m). intros m1 L1 A1.
      split; [now rewrite alter_len|]. intros k l Hk Hl. rewrite at_alter by auto. rewrite !A1 by lia.
      destruct (Nat.eqb_spec n j); [lia|]. simpl. rewrite andb_comm. destruct (Nat.eqb_spec l j) as [->|]; simpl; auto.
      destruct (Nat.eqb_spec k j) as [->|]; simpl; auto. unfold syrks. now rewrite range_S, fold_left_app.
  Qed.

  (** one column *)
  Definition column (j : nat) (m : tiles) : tiles :=
    let m := loop 0 j (fun k m => loop (S j) nb (fun i m => alter (j * nb + i) (gemm K (at_ m i k) (at_ m j k)) m) m) m in
    let m := loop 0 j (fun i m => alter (j * nb + j) (syrk K (at_ m j i)) m) m in
    let m := alter (j * nb + j) (potrf K) m in
    loop (S j) nb (fun i m => alter (j * nb + i) (trsm K (at_ m j j)) m) m.
  Lemma fold_agree {A B} (f g : A -> B -> A) l a : (forall a b, In b l -> f a b = g a b) -> fold_left f l a = fold_left g l a.
  Proof. revert a. induction l as [|b l IH]; intros a E; simpl; auto. rewrite (E a b (or_introl eq_refl)). apply IH. intros. apply E. now right. Qed.
  Lemma column_step j m : j < nb -> length m = nb * nb ->
    length (column j m) = nb * nb /\
    (forall k l, k < nb -> l < nb -> l <> j \/ k < j -> at_ (column j m) k l = at_ m k l) /\
    at_ (column j m) j j = potrf K (syrks j j m) /\
    (forall i, j < i < nb -> at_ (column j m) i j = trsm K (at_ (column j m) j j) (gemms i j j m)).
  Proof.
    intros Hj L. unfold column, loop.
    destruct (gemm_loop j m j Hj (le_n _) L) as [L1 A1]. cbv zeta in *. revert L1 A1.
    match goal with |- context [fold_left ?f (range 0 j) m] => generalize (fold_left f (range 0 j) m) end. intros m1 L1 A1.
    destruct (syrk_loop j m1 j Hj (le_n _) L1) as [L2 A2]. cbv zeta in *. revert L2 A2.
    generalize (fold_left (fun m0 i => alter (j * nb + j) (syrk K (at_ m0 j i)) m0) (range 0 j) m1). intros m2 L2 A2.
    destruct (row_loop j (range (S j) nb) (fun i m => trsm K (at_ m j j)) Hj (range_nodup _ _)) with (m := alter (j * nb + j) (potrf K) m2) as [L4 A4]; auto.
    { intros i H. apply in_range in H. lia. }
    { intros i i' m3 g c Hi Hi' L3. apply in_range in Hi, Hi'. rewrite at_alter by lia. destruct (Nat.eqb_spec j i'); [lia|reflexivity]. }
    { now rewrite alter_len. }
    assert (SJ : syrks j j m1 = syrks j j m).
    { unfold syrks. rewrite A1 by lia. destruct (Nat.ltb_spec j j); [lia|]. rewrite andb_false_r. apply fold_agree. intros a k Hk. apply in_range in Hk.
      rewrite A1 by lia. destruct (Nat.eqb_spec k j); [lia|reflexivity]. }
    assert (P3 : forall k l, k < nb -> l < nb -> at_ (alter (j * nb + j) (potrf K) m2) k l = if (k =? j) && (l =? j) then potrf K (syrks j j m) else at_ m1 k l).
    { intros k l Hk Hl. rewrite at_alter, A2 by auto. rewrite (andb_comm (l =? j)). destruct ((k =? j) && (l =? j)); now rewrite ?SJ. }
    assert (JJ : forall M, (forall k l, k < nb -> l < nb -> at_ M k l = if (l =? j) && existsb (Nat.eqb k) (range (S j) nb) then trsm K (at_ (alter (j * nb + j) (potrf K) m2) j j) (at_ (alter (j * nb + j) (potrf K) m2) k l) else at_ (alter (j * nb + j) (potrf K) m2) k l) ->
       at_ M j j = potrf K (syrks j j m)).
    { intros M HM. rewrite HM by auto. rewrite in_rangeb. destruct (Nat.leb_spec (S j) j); [lia|]. rewrite andb_false_r. rewrite P3 by auto. now rewrite Nat.eqb_refl. }
    split; [exact L4|]. split; [|split].
    - intros k l Hk Hl C. rewrite (A4 k l Hk Hl), in_rangeb. destruct (Nat.eqb_spec l j) as [->|NE]; cbn [andb].
      + destruct (Nat.leb_spec (S j) k); [lia|]. cbn [andb]. rewrite P3 by auto. destruct (Nat.eqb_spec k j); [lia|]. cbn [andb]. rewrite A1 by auto.
        destruct (Nat.ltb_spec j k); [lia|]. now rewrite ?andb_false_r.
      + rewrite P3 by auto. destruct (Nat.eqb_spec l j); [lia|]. rewrite andb_false_r. rewrite A1 by auto. now destruct (Nat.eqb_spec l j).
    - exact (JJ _ A4).
    - intros i Hi. rewrite (JJ _ A4). rewrite (A4 i j) by lia. rewrite in_rangeb, Nat.eqb_refl. destruct (Nat.leb_spec (S j) i); [|lia]. destruct (Nat.ltb_spec i nb); [|lia]. simpl.
      rewrite !P3 by lia. rewrite !Nat.eqb_refl. destruct (Nat.eqb_spec i j); [lia|]. simpl. rewrite A1 by lia. rewrite Nat.eqb_refl.
      destruct (Nat.ltb_spec j i); [|lia]. reflexivity.
  Qed.

  (** all columns *)
  Lemma chol_columns A n : length A = nb * nb -> n <= nb ->
    let l := loop 0 n column A in
    length l = nb * nb /\
    (forall i j, i < nb -> j < nb -> n <= j \/ i < j -> at_ l i j = at_ A i j) /\
    forall j, j < n ->
      at_ l j j = potrf K (fold_left (fun c k => syrk K (at_ l j k) c) (range 0 j) (at_ A j j)) /\
      forall i, j < i < nb -> at_ l i j = trsm K (at_ l j j) (fold_left (fun c k => gemm K (at_ l i k) (at_ l j k) c) (range 0 j) (at_ A i j)).
  Proof.
    intros L. induction n as [|n IH]; intros Hn; cbv zeta.
    - unfold loop. simpl. repeat split; auto; lia.
    - destruct (IH ltac:(lia)) as (L1 & U1 & E1). cbv zeta in *. unfold loop in *. rewrite range_S, fold_left_app. cbn [fold_left]. revert L1 U1 E1.
      generalize (fold_left (fun m i => column i m) (range 0 n) A). intros l L1 U1 E1.
      destruct (column_step n l ltac:(lia) L1) as (L2 & U2 & D2 & T2). split; [exact L2|]. split.
      + intros i j Hi Hj C. rewrite U2, U1 by lia. reflexivity.
      + intros j Hj. destruct (Nat.eq_dec j n) as [->|NE].
        * assert (X : forall i, n <= i < nb -> forall c (f : tile K -> tile K -> tile K -> tile K), fold_left (fun c k => f (at_ (column n l) i k) (at_ (column n l) n k) c) (range 0 n) c
             = fold_left (fun c k => f (at_ l i k) (at_ l n k) c) (range 0 n) c).
          { intros i Hi c f. apply fold_agree. intros a k Hk. apply in_range in Hk. rewrite !U2 by lia. reflexivity. }
          split.
          -- rewrite D2. f_equal. unfold syrks. rewrite (U1 n n) by lia. symmetry. exact (X n ltac:(lia) _ (fun a _ => syrk K a)).
          -- intros i Hi. rewrite (T2 i Hi). f_equal. unfold gemms. rewrite (U1 i n) by lia. symmetry. apply X. lia.
        * destruct (E1 j ltac:(lia)) as [E2 E3]. rewrite U2 by lia. split.
          -- rewrite E2 at 1. f_equal. apply fold_agree. intros a k Hk. apply in_range in Hk. rewrite U2 by lia. reflexivity.
          -- intros i Hi. rewrite U2 by lia. rewrite (E3 i Hi) at 1. f_equal. apply fold_agree. intros a k Hk. apply in_range in Hk. rewrite !U2 by lia. reflexivity.
  Qed.

  (** ** The factorisation *)
  Context (G : algebra K).
  Lemma sum_ext f g n : (forall k, k < n -> f k = g k) -> sum K G f n = sum K G g n.
  Proof. induction n as [|n IH]; intros E; simpl; auto. rewrite IH, E by auto. reflexivity. Qed.
  Lemma opp_add a b : opp G (add G a b) = add G (opp G a) (opp G b).
  Proof.
    assert (H : forall x y, add G x y = zero G -> y = opp G x).
    { intros x y E. rewrite <- (add_zero G (opp G x)), <- E, (add_assoc G), (add_comm G (opp G x) x), (add_opp G), (add_comm G (zero G)), (add_zero G). reflexivity. }
    symmetry. apply H. rewrite (add_comm G a b), <- (add_assoc G), (add_assoc G a), (add_opp G), (add_comm G (zero G)), (add_zero G), (add_opp G). reflexivity.
  Qed.
  Lemma opp_zero : opp G (zero G) = zero G.
  Proof. rewrite <- (add_zero G (opp G (zero G))), (add_comm G). apply (add_opp G). Qed.
  Lemma take_away f n c : fold_left (fun c k => add G c (opp G (f k))) (range 0 n) c = add G c (opp G (sum K G f n)).
  Proof.
    induction n as [|n IH]; [simpl; now rewrite opp_zero, (add_zero G)|]. rewrite range_S, fold_left_app, IH. simpl.
    rewrite opp_add, (add_assoc G). reflexivity.
  Qed.
  Lemma put_back a b : add G b (add G a (opp G b)) = a.
  Proof. rewrite (add_comm G a), (add_assoc G), (add_opp G), (add_comm G), (add_zero G). reflexivity. Qed.

  Theorem chol_factor A : length A = nb * nb ->
    let l := chol_seq K nb A in
    length l = nb * nb /\
    (forall i j, i < j < nb -> at_ l i j = at_ A i j) /\
    (forall j, j < nb -> at_ l j j = potrf K (remainder K G nb A l j j)) /\
    (forall i j, j < i < nb -> at_ l i j = trsm K (at_ l j j) (remainder K G nb A l i j)).
  Proof.
    intros L. destruct (chol_columns A nb L (le_n _)) as (L1 & U1 & E1). cbv zeta in *. change (loop 0 nb column A) with (chol_seq K nb A) in *.
    revert L1 U1 E1. generalize (chol_seq K nb A). intros l L1 U1 E1. split; auto. split; [intros; apply U1; lia|]. split.
    - intros j Hj. rewrite (proj1 (E1 j Hj)) at 1. f_equal. unfold remainder, dot. rewrite <- take_away. apply fold_agree. intros; apply (syrk_is G).
    - intros i j Hi. rewrite (proj2 (E1 j ltac:(lia)) i Hi) at 1. f_equal. unfold remainder, dot. rewrite <- take_away. apply fold_agree. intros; apply (gemm_is G).
  Qed.
  Theorem chol_product A : length A = nb * nb ->
    let l := chol_seq K nb A in
    (forall j, j < nb -> let p := remainder K G nb A l j j in mul G (potrf K p) (potrf K p) = p) ->
    (forall i j, j < i < nb -> let p := remainder K G nb A l i j in mul G (trsm K (at_ l j j) p) (at_ l j j) = p) ->
    forall i j, j <= i < nb -> dot K G nb l i j (S j) = at_ A i j.
  Proof.
    intros L. cbv zeta. intros HP HT i j Hi. destruct (chol_factor A L) as (_ & _ & D & T). cbv zeta in *. unfold dot. simpl. fold (dot K G nb (chol_seq K nb A) i j j).
    destruct (Nat.eq_dec i j) as [->|NE].
    - rewrite (D j ltac:(lia)), (HP j ltac:(lia)). unfold remainder. apply put_back.
    - rewrite (T i j ltac:(lia)), (HT i j ltac:(lia)). unfold remainder. apply put_back.
  Qed.
End Factor.
