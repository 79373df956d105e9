(** Game of life: the program is well-formed, and the calls one after another compute the
    generations on a torus. *)
From Coq Require Import Bool List Arith NArith ZArith Lia.
From Verif Require Import AccessModel AccessSpec AccessProof UserModel SchedModel SchedSpec AppModel AppSpec AppProof AppChol AppMore.
Import ListNotations.
Open Scope nat_scope.

(** ** Lists *)
Lemma flat_prod {A B C} (f : A -> B -> list C) l1 l2 :
  flat_map (fun x => flat_map (fun y => f x y) l2) l1 = flat_map (fun p => f (fst p) (snd p)) (list_prod l1 l2).
Proof.
  induction l1 as [|x l1 IH]; [reflexivity|]. simpl. rewrite IH, flat_map_app. f_equal. clear IH.
  induction l2 as [|y l2 IH2]; [reflexivity|]. simpl. now rewrite IH2.
Qed.
Lemma map_prod {A B C} (f : A -> B -> C) l1 l2 : flat_map (fun x => map (fun y => f x y) l2) l1 = map (fun p => f (fst p) (snd p)) (list_prod l1 l2).
Proof. induction l1 as [|x l1 IH]; [reflexivity|]. simpl. rewrite IH, map_app, map_map. reflexivity. Qed.
Lemma flat_of_map {A B C} (f : B -> list C) (g : A -> B) l : flat_map f (map g l) = flat_map (fun x => f (g x)) l.
Proof. induction l as [|x l IH]; simpl; congruence. Qed.
Definition pair_eqb (p q : nat * nat) : bool := (fst p =? fst q) && (snd p =? snd q).
Definition member (x y : nat) (ps : list (nat * nat)) : bool := existsb (pair_eqb (x, y)) ps.
Lemma member_in x y ps : member x y ps = true <-> In (x, y) ps.
Proof.
  unfold member. rewrite existsb_exists. split.
  - intros ([a b] & H & E). unfold pair_eqb in E. apply andb_true_iff in E as [E1 E2]. simpl in *. apply Nat.eqb_eq in E1, E2. now subst.
  - intros H. exists (x, y). split; auto. unfold pair_eqb. simpl. now rewrite !Nat.eqb_refl.
Qed.

(** ** Memory *)
Lemma field_act r T (x : touch T) c : (exists k u v, mkAct r T x c = mkAct r (field_ty 2) (k, (u, (v, tt))) c) \/ (forall l m, life_op (mkAct r T x c) l m = (l, m)).
Proof.
  destruct T as [| |T n cb|T1 T2 cb]; try (right; reflexivity).
  destruct T1; try (right; reflexivity). destruct T2 as [| |T n cb2|]; try (right; reflexivity).
  destruct T; try (right; reflexivity). destruct n as [|[|[|n]]]; try (right; reflexivity). destruct cb2; try (right; reflexivity). destruct cb; try (right; reflexivity).
  left. destruct x as [k [u [v []]]]. exists k, u, v. reflexivity.
Qed.
Lemma field_conflict r s k1 k2 u1 v1 u2 v2 c d :
  ~ acts_conflict (mkAct r (field_ty 2) (k1, (u1, (v1, tt))) c) (mkAct s (field_ty 2) (k2, (u2, (v2, tt))) d) ->
  r <> s \/ kind_conflict k1 k2 = false \/ u1 <> u2 \/ v1 <> v2.
Proof.
  intros H. destruct (Nat.eq_dec r s) as [->|]; auto. right. destruct (kind_conflict k1 k2) eqn:E; auto. right.
  destruct (N.eq_dec u1 u2) as [->|]; auto. right. intros ->. apply H.
  exists s, (field_ty 2), (k1, (u2, (v2, tt))), (k2, (u2, (v2, tt))), c, d. split; [reflexivity|]. split; [reflexivity|]. simpl. auto.
Qed.
Lemma set_swap b x y v b' x' y' v' m : b <> b' \/ x <> x' \/ y <> y' -> set_cell b x y v (set_cell b' x' y' v' m) = set_cell b' x' y' v' (set_cell b x y v m).
Proof.
  intros H. unfold set_cell. destruct (Nat.eq_dec b b') as [->|N]; [|now apply alter_swap]. rewrite !alter_same. apply alter_ext. intros z.
  destruct (Nat.eq_dec x x') as [->|N]; [|now apply alter_swap]. rewrite !alter_same. apply alter_ext. intros w. apply alter_swap. lia.
Qed.
Lemma cell_other b x y v b' x' y' m : b' <> b \/ x' <> x \/ y' <> y -> cell (set_cell b x y v m) b' x' y' = cell m b' x' y'.
Proof.
  intros H. unfold cell, set_cell. rewrite nth_alter. destruct (Nat.eqb_spec b' b) as [->|]; [|reflexivity]. cbn [andb]. destruct (b <? length m); auto.
  rewrite nth_alter. destruct (Nat.eqb_spec x' x) as [->|]; [|reflexivity]. cbn [andb]. destruct (x <? _); auto. rewrite nth_alter_ne; auto. lia.
Qed.
Lemma life_sensible : sensible life.
Proof.
  intros [r T x c] [s U y d] l1 l2 m H. cbn [op life].
  destruct (field_act r T x c) as [(k1 & u1 & v1 & E1)|E1]; [|rewrite !E1; destruct (life_op (mkAct s U y d) l2 m) as [a b] eqn:Q; rewrite E1; auto].
  destruct (field_act s U y d) as [(k2 & u2 & v2 & E2)|E2]; [|rewrite !E2; destruct (life_op (mkAct r T x c) l1 m) as [a b] eqn:Q; rewrite ?E2; auto].
  rewrite E1, E2 in *. apply field_conflict in H.
  assert (D : kind_conflict k1 k2 = true -> r <> s \/ N.to_nat u1 <> N.to_nat u2 \/ N.to_nat v1 <> N.to_nat v2) by (intros Q; destruct H as [H|[H|[H|H]]]; [auto|congruence|right; left; lia|right; right; lia]).
  destruct k1, k2; simpl in *; auto.
  - rewrite cell_other; auto.
  - rewrite cell_other; auto. assert (Q := D eq_refl). clear -Q. intuition congruence.
  - repeat split; auto. symmetry. apply set_swap. auto.
Qed.

Section Life.
  Context (sx sy cx cy : nat) (seed : nat -> nat -> bool).
  Context (HX : 1 <= sx) (HY : 1 <= sy).
  Definition shape (m : board) : Prop := length m = 4 /\ forall b, b < 4 -> length (nth b m []) = sx + 2 /\ forall x, x < sx + 2 -> length (nth x (nth b m []) []) = sy + 2.
  Lemma shape_set b x y v m : shape m -> shape (set_cell b x y v m).
  Proof.
    intros [L S]. unfold set_cell. split; [now rewrite alter_len|]. intros b' Hb. destruct (S b' Hb) as [L2 S2]. rewrite nth_alter.
    destruct ((b' =? b) && (b' <? length m)); [|auto]. split; [now rewrite alter_len|]. intros x' Hx. rewrite nth_alter.
    destruct ((x' =? x) && (x' <? _)); rewrite ?alter_len; auto.
  Qed.
  Lemma cell_set b x y v m : shape m -> b < 4 -> x < sx + 2 -> y < sy + 2 -> forall b' x' y',
    cell (set_cell b x y v m) b' x' y' = if (b' =? b) && pair_eqb (x', y') (x, y) then v else cell m b' x' y'.
  Proof.
    intros [L S] Hb Hx Hy b' x' y'. unfold pair_eqb. cbn [fst snd].
    destruct (Nat.eqb_spec b' b) as [->|]; cbn [andb]; [|apply cell_other; auto].
    destruct (Nat.eqb_spec x' x) as [->|]; cbn [andb]; [|apply cell_other; auto].
    destruct (Nat.eqb_spec y' y) as [->|]; [|apply cell_other; auto].
    destruct (S b Hb) as [L2 S2]. unfold cell, set_cell. rewrite nth_alter, L, Nat.eqb_refl. apply Nat.ltb_lt in Hb. rewrite Hb. cbn [andb].
    rewrite nth_alter, L2, Nat.eqb_refl. assert (Q := Hx). apply Nat.ltb_lt in Q. rewrite Q. cbn [andb].
    rewrite nth_alter, (S2 x Hx), Nat.eqb_refl. apply Nat.ltb_lt in Hy. now rewrite Hy.
  Qed.

  Lemma run_app S l1 l2 a m : run_acts S (l1 ++ l2) a m = let '(a', m') := run_acts S l1 a m in run_acts S l2 a' m'.
  Proof. revert a m. induction l1 as [|x l1 IH]; intros a m; simpl; [now destruct (run_acts S l2 a m)|]. destruct (op S x a m). apply IH. Qed.
  Lemma look_op b x y l m : op life (look b x y) l m = (cell m b x y :: l, m).
  Proof. simpl. now rewrite !Nnat.Nat2N.id. Qed.
  Lemma put_op b x y c l m : op life (put b x y c) l m = (l, set_cell b x y (life_value c l) m).
  Proof. simpl. now rewrite !Nnat.Nat2N.id. Qed.

  (** *** The initial values *)
  Definition tag (v : bool) : Z := if v then 3%Z else 2%Z.
  Lemma seed_run ps : (forall p, In p ps -> fst p < sx + 2 /\ snd p < sy + 2) -> forall l m, shape m ->
    let m' := snd (run_acts life (map (fun p => put 0 (fst p) (snd p) (tag (seed (fst p) (snd p)))) ps) l m) in
    shape m' /\ forall b x y, cell m' b x y = if (b =? 0) && member x y ps then seed x y else cell m b x y.
  Proof.
    induction ps as [|[x0 y0] ps IH]; intros B l m S.
    - simpl. split; auto. intros. now rewrite andb_false_r.
    - cbn [map run_acts fst snd]. rewrite put_op. destruct (B (x0, y0) (or_introl eq_refl)) as [B1 B2]. simpl in B1, B2.
      assert (V : life_value (tag (seed x0 y0)) l = seed x0 y0) by (destruct (seed x0 y0); reflexivity). rewrite V.
      destruct (IH (fun p H => B p (or_intror H)) l (set_cell 0 x0 y0 (seed x0 y0) m) (shape_set _ _ _ _ _ S)) as [S' C]. split; [exact S'|].
      intros b x y. rewrite C, cell_set by (auto; lia). unfold member. cbn [existsb]. destruct (Nat.eqb_spec b 0) as [->|]; cbn [andb]; auto.
      fold (member x y ps). destruct (member x y ps); [now rewrite orb_true_r|]. rewrite orb_false_r.
      unfold pair_eqb. cbn [fst snd]. destruct (Nat.eqb_spec x x0) as [->|]; auto. destruct (Nat.eqb_spec y y0) as [->|]; auto.
  Qed.

  (** *** The border *)
  Definition wrapc (s x : nat) : nat := if x =? 0 then s else if x =? s + 1 then 1 else x.
  Lemma wrapc_idem s x : 1 <= s -> wrapc s (wrapc s x) = wrapc s x.
  Proof. intros H. unfold wrapc. destruct (Nat.eqb_spec x 0); destruct (Nat.eqb_spec x (s + 1)); repeat match goal with |- context [?a =? ?b] => destruct (Nat.eqb_spec a b) end; lia. Qed.
  Lemma wrapc_lt s x : 1 <= s -> x < s + 2 -> wrapc s x < s + 2.
  Proof. intros. unfold wrapc. destruct (x =? 0); [lia|]. destruct (x =? s + 1); lia. Qed.
  Lemma rows_run b xs : b < 4 -> (forall x, In x xs -> x < sx + 2) -> forall l m, shape m ->
    let m' := snd (run_acts life (flat_map (fun x => [look b x sy; put b x 0 1%Z; look b x 1; put b x (sy + 1) 1%Z]) xs) l m) in
    shape m' /\ forall b' x y, y < sy + 2 -> cell m' b' x y = if (b' =? b) && existsb (Nat.eqb x) xs then cell m b x (wrapc sy y) else cell m b' x y.
  Proof.
    intros Hb. induction xs as [|x0 xs IH]; intros B l m S.
    - simpl. split; auto. intros. now rewrite andb_false_r.
    - cbn [flat_map]. rewrite run_app. cbn [run_acts]. rewrite look_op. rewrite put_op. rewrite look_op. rewrite put_op. assert (B0 := B x0 (or_introl eq_refl)).
      change (life_value 1 (cell m b x0 sy :: l)) with (cell m b x0 sy). set (m1 := set_cell b x0 0 (cell m b x0 sy) m).
      assert (S1 : shape m1) by now apply shape_set.
      change (life_value 1 (cell m1 b x0 1 :: cell m b x0 sy :: l)) with (cell m1 b x0 1). set (m2 := set_cell b x0 (sy + 1) (cell m1 b x0 1) m1).
      assert (S2 : shape m2) by now apply shape_set.
      assert (C2 : forall b' x y, y < sy + 2 -> cell m2 b' x y = if (b' =? b) && (x =? x0) then cell m b x (wrapc sy y) else cell m b' x y).
      { intros b' x y Hy. unfold m2. rewrite cell_set by (auto; lia). unfold m1. rewrite !cell_set by (auto; lia). unfold pair_eqb, wrapc. cbn [fst snd].
        destruct (Nat.eqb_spec b' b) as [->|]; cbn [andb]; auto. destruct (Nat.eqb_spec x x0) as [->|]; cbn [andb]; auto. rewrite !Nat.eqb_refl. cbn [andb].
        destruct (Nat.eqb_spec y (sy + 1)) as [E1|E1]; destruct (Nat.eqb_spec y 0) as [E2|E2]; try lia; reflexivity. }
      destruct (IH (fun x H => B x (or_intror H)) (cell m1 b x0 1 :: cell m b x0 sy :: l) m2 S2) as [S' C]. split; [exact S'|].
      intros b' x y Hy. rewrite C by auto. cbn [existsb]. destruct (Nat.eqb_spec b' b) as [->|]; cbn [andb].
      + rewrite !C2 by (auto; apply wrapc_lt; auto). rewrite Nat.eqb_refl. cbn [andb]. destruct (x =? x0); cbn [orb]; [|reflexivity].
        rewrite wrapc_idem by auto. now destruct (existsb (Nat.eqb x) xs).
      + rewrite C2 by auto. destruct (Nat.eqb_spec b' b); [contradiction|reflexivity].
  Qed.
  Lemma cols_run b ys : b < 4 -> (forall y, In y ys -> y < sy + 2) -> forall l m, shape m ->
    let m' := snd (run_acts life (flat_map (fun y => [look b sx y; put b 0 y 1%Z; look b 1 y; put b (sx + 1) y 1%Z]) ys) l m) in
    shape m' /\ forall b' x y, x < sx + 2 -> cell m' b' x y = if (b' =? b) && existsb (Nat.eqb y) ys then cell m b (wrapc sx x) y else cell m b' x y.
  Proof.
    intros Hb. induction ys as [|y0 ys IH]; intros B l m S.
    - simpl. split; auto. intros. now rewrite andb_false_r.
    - cbn [flat_map]. rewrite run_app. cbn [run_acts]. rewrite look_op. rewrite put_op. rewrite look_op. rewrite put_op. assert (B0 := B y0 (or_introl eq_refl)).
      change (life_value 1 (cell m b sx y0 :: l)) with (cell m b sx y0). set (m1 := set_cell b 0 y0 (cell m b sx y0) m).
      assert (S1 : shape m1) by now apply shape_set.
      change (life_value 1 (cell m1 b 1 y0 :: cell m b sx y0 :: l)) with (cell m1 b 1 y0). set (m2 := set_cell b (sx + 1) y0 (cell m1 b 1 y0) m1).
      assert (S2 : shape m2) by now apply shape_set.
      assert (C2 : forall b' x y, x < sx + 2 -> cell m2 b' x y = if (b' =? b) && (y =? y0) then cell m b (wrapc sx x) y else cell m b' x y).
      { intros b' x y Hx. unfold m2. rewrite cell_set by (auto; lia). unfold m1. rewrite !cell_set by (auto; lia). unfold pair_eqb, wrapc. cbn [fst snd].
        destruct (Nat.eqb_spec b' b) as [->|]; cbn [andb]; auto. destruct (Nat.eqb_spec y y0) as [->|]; rewrite ?andb_false_r; auto. rewrite ?Nat.eqb_refl, ?andb_true_r. cbn [andb].
        destruct (Nat.eqb_spec x (sx + 1)) as [E1|E1]; destruct (Nat.eqb_spec x 0) as [E2|E2]; try lia; reflexivity. }
      destruct (IH (fun x H => B x (or_intror H)) (cell m1 b 1 y0 :: cell m b sx y0 :: l) m2 S2) as [S' C]. split; [exact S'|].
      intros b' x y Hx. rewrite C by auto. cbn [existsb]. destruct (Nat.eqb_spec b' b) as [->|]; cbn [andb].
      + rewrite !C2 by (auto; apply wrapc_lt; auto). rewrite Nat.eqb_refl. cbn [andb]. destruct (y =? y0); cbn [orb]; [|reflexivity].
        rewrite wrapc_idem by auto. now destruct (existsb (Nat.eqb y) ys).
      + rewrite C2 by auto. destruct (Nat.eqb_spec b' b); [contradiction|reflexivity].
  Qed.
  Lemma border_run b l m : b < 4 -> shape m ->
    let m' := snd (run_acts life (j_acts (border_task sx sy b)) l m) in
    shape m' /\ (forall b' x y, x < sx + 2 -> y < sy + 2 -> cell m' b' x y = if b' =? b then cell m b (wrapc sx x) (wrapc sy y) else cell m b' x y).
  Proof.
    intros Hb S. cbn [border_task j_acts]. rewrite run_app.
    destruct (rows_run b (range 0 (sx + 2)) Hb ltac:(intros x H; apply in_range in H; lia) l m S) as [S1 C1]. cbv zeta in *.
    destruct (run_acts life (flat_map (fun x => [look b x sy; put b x 0 1%Z; look b x 1; put b x (sy + 1) 1%Z]) (range 0 (sx + 2))) l m) as [l1 m1]. cbn [snd] in *.
    destruct (cols_run b (range 0 (sy + 2)) Hb ltac:(intros x H; apply in_range in H; lia) l1 m1 S1) as [S2 C2]. cbv zeta in *. split; [exact S2|].
    intros b' x y Hx Hy. rewrite C2 by auto. rewrite in_rangeb. apply Nat.ltb_lt in Hy as Hy'. rewrite Hy'. cbn [andb Nat.leb]. rewrite andb_true_r.
    destruct (Nat.eqb_spec b' b) as [->|NE].
    - rewrite C1 by auto. rewrite Nat.eqb_refl, in_rangeb. assert (Q := wrapc_lt sx x HX Hx). apply Nat.ltb_lt in Q. rewrite Q. reflexivity.
    - rewrite C1 by auto. destruct (Nat.eqb_spec b' b); [contradiction|reflexivity].
  Qed.

  (** *** Output *)
  Lemma print_run b ps l m : run_acts life (map (fun p => look b (fst p) (snd p)) ps) l m = (rev (map (fun p => cell m b (fst p) (snd p)) ps) ++ l, m).
  Proof.
    revert l. induction ps as [|p ps IH]; intros l; [reflexivity|]. cbn [map run_acts]. rewrite look_op, IH. cbn [rev]. now rewrite <- app_assoc.
  Qed.

  (** *** The next generation *)
  Definition fresh (m : board) (b x y : nat) : bool :=
    life_rule (list_sum (map alive [cell m b (x - 1) (y - 1); cell m b x (y - 1); cell m b (x + 1) (y - 1); cell m b (x - 1) y; cell m b (x + 1) y;
      cell m b (x - 1) (y + 1); cell m b x (y + 1); cell m b (x + 1) (y + 1)])) (cell m b x y).
  Lemma fresh_ext m m' b x y : (forall x y, cell m b x y = cell m' b x y) -> fresh m b x y = fresh m' b x y.
  Proof. intros E. unfold fresh. now rewrite !E. Qed.
  Lemma cell_run src dst x y l m : exists l', run_acts life (cell_acts src dst x y) l m = (l', set_cell dst x y (fresh m src x y) m).
  Proof.
    unfold cell_acts. cbn [run_acts]. do 9 rewrite look_op. rewrite put_op. eexists. f_equal. f_equal.
    unfold life_value, fresh. cbn [Z.eqb nth]. f_equal. unfold range. cbn [seq Nat.sub map nth]. unfold list_sum. cbn [fold_right]. change (0 =? 0)%Z with true. cbv iota. f_equal. lia.
  Qed.
  Lemma cells_run src dst ps : src <> dst -> dst < 4 -> (forall p, In p ps -> fst p < sx + 2 /\ snd p < sy + 2) -> forall l m, shape m ->
    let m' := snd (run_acts life (flat_map (fun p => cell_acts src dst (fst p) (snd p)) ps) l m) in
    shape m' /\ forall b x y, cell m' b x y = if (b =? dst) && member x y ps then fresh m src x y else cell m b x y.
  Proof.
    intros NE Hd. induction ps as [|[x0 y0] ps IH]; intros B l m S.
    - simpl. split; auto. intros. now rewrite andb_false_r.
    - cbn [flat_map fst snd]. rewrite run_app. destruct (cell_run src dst x0 y0 l m) as [l' E]. rewrite E.
      destruct (B (x0, y0) (or_introl eq_refl)) as [B1 B2]. simpl in B1, B2. set (m1 := set_cell dst x0 y0 (fresh m src x0 y0) m).
      assert (S1 : shape m1) by now apply shape_set. destruct (IH (fun p H => B p (or_intror H)) l' m1 S1) as [S' C]. split; [exact S'|].
      assert (SR : forall x y, cell m1 src x y = cell m src x y) by (intros; apply cell_other; auto).
      intros b x y. rewrite C. unfold member. cbn [existsb]. fold (member x y ps). rewrite (fresh_ext _ _ _ _ _ SR). unfold m1. rewrite cell_set by auto.
      destruct (Nat.eqb_spec b dst) as [->|]; cbn [andb]; auto. unfold pair_eqb. cbn [fst snd]. destruct (member x y ps); [now rewrite orb_true_r|]. rewrite orb_false_r.
      destruct (Nat.eqb_spec x x0) as [->|]; cbn [andb]; auto. destruct (Nat.eqb_spec y y0) as [->|]; auto.
  Qed.
  Definition block (q : nat * nat) : list (nat * nat) := map (fun p => (fst q + fst p, snd q + snd p)) (list_prod (range 0 cx) (range 0 cy)).
  Lemma chunk_acts src dst x y : j_acts (chunk_task cx cy src dst x y) = flat_map (fun p => cell_acts src dst (fst p) (snd p)) (block (x, y)).
  Proof.
    cbn [chunk_task j_acts]. rewrite (flat_prod (fun xi yi => cell_acts src dst (x + xi) (y + yi))). unfold block. rewrite flat_of_map. reflexivity.
  Qed.
  Lemma chunks_run src dst qs : src <> dst -> dst < 4 -> (forall q, In q qs -> forall p, In p (block q) -> fst p < sx + 2 /\ snd p < sy + 2) -> forall m, shape m ->
    let m' := memory_after life [] (map (fun q => chunk_task cx cy src dst (fst q) (snd q)) qs) m in
    shape m' /\ forall b x y, cell m' b x y = if (b =? dst) && member x y (flat_map block qs) then fresh m src x y else cell m b x y.
  Proof.
    intros NE Hd. induction qs as [|[x0 y0] qs IH]; intros B m S.
    - simpl. split; auto. intros. now rewrite andb_false_r.
    - cbn [map fst snd]. unfold memory_after. cbn [fold_left]. rewrite chunk_acts.
      destruct (cells_run src dst (block (x0, y0)) NE Hd (B (x0, y0) (or_introl eq_refl)) [] m S) as [S1 C1]. cbv zeta in *. revert S1 C1.
      generalize (snd (run_acts life (flat_map (fun p => cell_acts src dst (fst p) (snd p)) (block (x0, y0))) [] m)). intros m1 S1 C1.
      destruct (IH (fun q H => B q (or_intror H)) m1 S1) as [S2 C2]. split; [exact S2|]. intros b x y. unfold memory_after in C2. rewrite C2.
      cbn [flat_map]. unfold member. rewrite existsb_app. fold (member x y (block (x0, y0))). fold (member x y (flat_map block qs)).
      rewrite (fresh_ext m1 m). 2:{ intros. rewrite C1. destruct (Nat.eqb_spec src dst); [contradiction|reflexivity]. }
      rewrite C1. destruct (Nat.eqb_spec b dst); cbn [andb]; auto. destruct (member x y (block (x0, y0))); cbn [orb]; auto. now destruct (member x y (flat_map block qs)).
  Qed.

  (** *** Chunks cover the field *)
  Context (px py : nat) (DX : sx = px * cx) (DY : sy = py * cy).
  Lemma strides_are c s p : 1 <= c -> s = p * c -> strides s c s 1 = map (fun i => 1 + i * c) (seq 0 p).
  Proof.
    intros Hc E.
    assert (H : forall k fuel x i, p - i = k -> p - i <= fuel -> i <= p -> x = 1 + i * c -> strides fuel c s x = map (fun i => 1 + i * c) (seq i (p - i))).
    { induction k as [|k IH]; intros fuel x i Ek Hf Hi ->.
      - rewrite Ek. assert (i = p) by lia. subst i. destruct fuel; cbn [strides seq map]; auto. destruct (Nat.leb_spec (1 + p * c) s); [lia|reflexivity].
      - rewrite Ek. destruct fuel as [|fuel]; [lia|]. cbn [strides seq map]. assert (i * c < s) by (rewrite E; apply Nat.mul_lt_mono_pos_r; lia).
        destruct (Nat.leb_spec (1 + i * c) s); [|lia]. f_equal. replace k with (p - S i) by lia. apply IH; simpl; lia. }
    rewrite (H p s 1 0); auto; try lia. now rewrite Nat.sub_0_r. rewrite E. rewrite Nat.sub_0_r. nia.
  Qed.
  Definition corners : list (nat * nat) := list_prod (strides sx cx sx 1) (strides sy cy sy 1).
  Lemma divides_pos c s p : 1 <= s -> s = p * c -> 1 <= c. Proof. intros H ->. destruct c; lia. Qed.
  Lemma in_strides c s p x : 1 <= c -> s = p * c -> In x (strides s c s 1) -> 1 <= x /\ x + c <= s + 1.
  Proof.
    intros Hc E H. rewrite (strides_are c s p Hc E) in H. apply in_map_iff in H as (i & <- & Hi). apply in_seq in Hi. split; [lia|]. rewrite E. nia.
  Qed.
  Lemma strides_cover c s p x : 1 <= c -> s = p * c -> 1 <= x <= s -> exists u v, In u (strides s c s 1) /\ v < c /\ x = u + v.
  Proof.
    intros Hc E H. exists (1 + (x - 1) / c * c), ((x - 1) mod c). split; [|split].
    - rewrite (strides_are c s p Hc E). apply in_map_iff. exists ((x - 1) / c). split; auto. apply in_seq. split; [lia|]. simpl. apply Nat.div_lt_upper_bound; lia.
    - apply Nat.mod_upper_bound. lia.
    - pose proof (Nat.div_mod (x - 1) c ltac:(lia)). lia.
  Qed.
  Lemma in_block q x y : In (x, y) (block q) <-> fst q <= x < fst q + cx /\ snd q <= y < snd q + cy.
  Proof.
    unfold block. rewrite in_map_iff. split.
    - intros ([u v] & E & H). apply in_prod_iff in H as [H1 H2]. apply in_range in H1, H2. simpl in E. injection E as <- <-. lia.
    - intros [H1 H2]. exists (x - fst q, y - snd q). cbn [fst snd]. split; [f_equal; lia|]. apply in_prod_iff. rewrite !in_range. lia.
  Qed.
  Lemma covered x y : In (x, y) (flat_map block corners) <-> 1 <= x <= sx /\ 1 <= y <= sy.
  Proof.
    assert (CX := divides_pos cx sx px HX DX). assert (CY := divides_pos cy sy py HY DY).
    rewrite in_flat_map. unfold corners. split.
    - intros ([u v] & H & Q). apply in_prod_iff in H as [H1 H2]. apply (in_strides cx sx px) in H1; auto. apply (in_strides cy sy py) in H2; auto.
      apply in_block in Q. simpl in Q. lia.
    - intros [H1 H2]. destruct (strides_cover cx sx px x CX DX H1) as (u & a & Hu & Ha & ->). destruct (strides_cover cy sy py y CY DY H2) as (v & b & Hv & Hb & ->).
      exists (u, v). rewrite in_prod_iff, in_block. cbn [fst snd]. repeat split; auto; lia.
  Qed.

  (** *** One turn *)
  Lemma rule_is n me : life_rule n me = (n =? 3) || (n =? 2) && me.
  Proof. unfold life_rule. destruct n as [|[|[|[|n]]]]; simpl; auto. Qed.
  Lemma count_alive l : list_sum (map alive l) = length (filter (fun b => b) l).
  Proof. induction l as [|[] l IH]; [reflexivity| |]; simpl; rewrite IH; reflexivity. Qed.
  Lemma generation_is cur : generation sx sy cx cy cur =
    border_task sx sy cur :: print_task sx sy cur :: map (fun q => chunk_task cx cy cur ((cur + 1) mod 4) (fst q) (snd q)) corners.
  Proof. unfold generation. cbn [app]. now rewrite (map_prod (fun x y => chunk_task cx cy cur ((cur + 1) mod 4) x y)). Qed.
  (** the cells of buffer [b] are [c] *)
  Definition holds (m : board) (b : nat) (c : nat -> nat -> bool) : Prop := forall x y, 1 <= x <= sx -> 1 <= y <= sy -> cell m b x y = c x y.
  Lemma print_acts b : j_acts (print_task sx sy b) = map (fun p => look b (fst p) (snd p)) (list_prod (range 1 sx) (range 1 sy)).
  Proof. cbn [print_task j_acts]. apply map_prod. Qed.
  Lemma generation_run cur m c : cur < 4 -> shape m -> holds m cur c ->
    let m1 := memory_after life [] [border_task sx sy cur] m in
    let m' := memory_after life [] (generation sx sy cx cy cur) m in
    holds m1 cur c /\ shape m' /\ holds m' ((cur + 1) mod 4) (next sx sy c).
  Proof.
    intros Hc S H. cbv zeta. rewrite generation_is. unfold memory_after. cbn [fold_left].
    destruct (border_run cur [] m Hc S) as [S1 C1]. cbv zeta in *. revert S1 C1. generalize (snd (run_acts life (j_acts (border_task sx sy cur)) [] m)). intros m1 S1 C1.
    assert (W : forall s x, 1 <= s -> 1 <= x <= s -> wrapc s x = x).
    { intros s x Hs Hx. unfold wrapc. destruct (Nat.eqb_spec x 0); [lia|]. destruct (Nat.eqb_spec x (s + 1)); lia. }
    split.
    { intros x y Hx Hy. rewrite C1 by lia. rewrite Nat.eqb_refl, !W by auto. apply H; auto. }
    rewrite print_acts, print_run. cbn [snd].
    set (dst := (cur + 1) mod 4). assert (Hd : dst < 4) by (apply Nat.mod_upper_bound; lia).
    assert (NE : cur <> dst) by (unfold dst; destruct cur as [|[|[|[|]]]]; simpl; lia).
    destruct (chunks_run cur dst corners NE Hd) with (m := m1) as [S2 C2]; auto.
    { intros q Hq [x y] Hp. assert (Q : In (x, y) (flat_map block corners)) by (apply in_flat_map; eauto). apply covered in Q. simpl. lia. }
    split; [exact S2|]. intros x y Hx Hy. unfold memory_after in C2. rewrite C2, Nat.eqb_refl. assert (Q := proj2 (covered x y) (conj Hx Hy)). apply member_in in Q. rewrite Q. cbn [andb].
    assert (A : forall u v, u < sx + 2 -> v < sy + 2 -> cell m1 cur u v = c (wrapc sx u) (wrapc sy v)).
    { intros u v Hu Hv. rewrite C1, Nat.eqb_refl by auto. apply H; unfold wrapc; [destruct (Nat.eqb_spec u 0); [lia|]; destruct (Nat.eqb_spec u (sx + 1)); lia|destruct (Nat.eqb_spec v 0); [lia|]; destruct (Nat.eqb_spec v (sy + 1)); lia]. }
    assert (Bx : forall s x, 1 <= x <= s -> wrapc s (x - 1) = AppSpec.before s x).
    { intros s z Hz. unfold wrapc, AppSpec.before. destruct (Nat.eqb_spec (z - 1) 0); destruct (Nat.eqb_spec z 1); try lia. destruct (Nat.eqb_spec (z - 1) (s + 1)); lia. }
    assert (Ax : forall s x, 1 <= x <= s -> wrapc s (x + 1) = after s x).
    { intros s z Hz. unfold wrapc, after. destruct (Nat.eqb_spec (z + 1) 0); [lia|]. destruct (Nat.eqb_spec (z + 1) (s + 1)); destruct (Nat.eqb_spec z s); lia. }
    unfold fresh, next. rewrite !A by lia. rewrite !Bx, !Ax, !W by auto. rewrite rule_is, count_alive. reflexivity.
  Qed.
  Lemma evolve_S n c : evolve sx sy (S n) c = next sx sy (evolve sx sy n c). Proof. reflexivity. Qed.
  Lemma evolve_next n c : evolve sx sy n (next sx sy c) = next sx sy (evolve sx sy n c).
  Proof. induction n as [|n IH]; [reflexivity|]. now rewrite !evolve_S, IH. Qed.

  Lemma after_app S l0 j1 j2 m : memory_after S l0 (j1 ++ j2) m = memory_after S l0 j2 (memory_after S l0 j1 m).
  Proof. apply fold_left_app. Qed.
  Lemma next_buffer k cur : (((cur + 1) mod 4) + k) mod 4 = (cur + S k) mod 4.
  Proof. rewrite Nat.add_mod_idemp_l by lia. f_equal. lia. Qed.
  Lemma generations_run n : forall cur m c, cur < 4 -> shape m -> holds m cur c ->
    let m' := memory_after life [] (generations sx sy cx cy n cur) m in shape m' /\ holds m' ((cur + n) mod 4) (evolve sx sy n c).
  Proof.
    induction n as [|n IH]; intros cur m c Hc S H; cbv zeta.
    - unfold memory_after. cbn [generations fold_left evolve]. rewrite Nat.add_0_r, Nat.mod_small by auto. auto.
    - cbn [generations]. rewrite after_app. destruct (generation_run cur m c Hc S H) as (_ & S1 & H1). cbv zeta in *.
      destruct (IH ((cur + 1) mod 4) _ _ (Nat.mod_upper_bound _ 4 ltac:(lia)) S1 H1) as [S2 H2]. split; [exact S2|].
      rewrite next_buffer in H2. rewrite evolve_next in H2. exact H2.
  Qed.
  Lemma seed_acts : j_acts (seed_task sx sy seed) = map (fun p => put 0 (fst p) (snd p) (tag (seed (fst p) (snd p)))) (list_prod (range 0 (sx + 2)) (range 0 (sy + 2))).
  Proof. cbn [seed_task j_acts]. apply (map_prod (fun x y => put 0 x y (tag (seed x y)))). Qed.
  Lemma seeded m : shape m -> let m' := memory_after life [] [seed_task sx sy seed] m in shape m' /\ holds m' 0 seed.
  Proof.
    intros S. cbv zeta. unfold memory_after. cbn [fold_left]. rewrite seed_acts.
    destruct (seed_run (list_prod (range 0 (sx + 2)) (range 0 (sy + 2)))) with (l := @nil bool) (m := m) as [S1 C1]; auto.
    { intros [x y] H. apply in_prod_iff in H as [H1 H2]. apply in_range in H1, H2. simpl. lia. }
    split; [exact S1|]. intros x y Hx Hy. rewrite C1. assert (Q : member x y (list_prod (range 0 (sx + 2)) (range 0 (sy + 2))) = true).
    { apply member_in, in_prod_iff. rewrite !in_range. lia. }
    now rewrite Q.
  Qed.
  Theorem life_calls n m : shape m -> let m' := memory_after life [] (life_jobs sx sy cx cy seed n) m in shape m' /\ holds m' (n mod 4) (evolve sx sy n seed).
  Proof.
    intros S. cbv zeta. unfold life_jobs. change (seed_task sx sy seed :: generations sx sy cx cy n 0) with ([seed_task sx sy seed] ++ generations sx sy cx cy n 0).
    rewrite after_app. destruct (seeded m S) as [S1 H1]. cbv zeta in *. exact (generations_run n 0 _ _ ltac:(lia) S1 H1).
  Qed.

  (** *** Numbers of the calls *)
  Lemma corners_len : length corners = px * py.
  Proof.
    unfold corners. rewrite prod_length, (strides_are cx sx px (divides_pos _ _ _ HX DX) DX), (strides_are cy sy py (divides_pos _ _ _ HY DY) DY), !map_length, !seq_length. reflexivity.
  Qed.
  Lemma generation_len cur : length (generation sx sy cx cy cur) = 2 + px * py.
  Proof. rewrite generation_is. simpl. now rewrite map_length, corners_len. Qed.
  Lemma generations_split g k : forall cur, generations sx sy cx cy (g + k) cur = generations sx sy cx cy g cur ++ generations sx sy cx cy k ((cur + g) mod 4) \/ 4 <= cur.
  Proof.
    induction g as [|g IH]; intros cur.
    - destruct (Nat.lt_ge_cases cur 4); auto. left. cbn [generations Nat.add app]. rewrite Nat.add_0_r, Nat.mod_small by auto. reflexivity.
    - left. cbn [generations Nat.add]. destruct (IH ((cur + 1) mod 4)) as [E|E]; [|pose proof (Nat.mod_upper_bound (cur + 1) 4 ltac:(lia)); lia].
      rewrite E, next_buffer, app_assoc. reflexivity.
  Qed.
  Lemma generations_len g cur : length (generations sx sy cx cy g cur) = g * (2 + px * py).
  Proof. revert cur. induction g as [|g IH]; intros cur; [reflexivity|]. cbn [generations]. rewrite app_length, generation_len, IH. lia. Qed.
  Lemma print_call n g : g < n -> exists rest,
    life_jobs sx sy cx cy seed n = (seed_task sx sy seed :: generations sx sy cx cy g 0) ++ border_task sx sy (g mod 4) :: print_task sx sy (g mod 4) :: rest /\
    length (seed_task sx sy seed :: generations sx sy cx cy g 0) = 1 + g * (2 + px * py).
  Proof.
    intros H. unfold life_jobs. replace n with (g + S (n - S g)) by lia. destruct (generations_split g (S (n - S g)) 0) as [E|E]; [|lia].
    rewrite E. cbn [generations]. rewrite Nat.add_0_l. rewrite generation_is. eexists. split; [reflexivity|]. simpl. now rewrite generations_len.
  Qed.
  (** what the output task of generation [g] sees *)
  Theorem life_output n g m : g < n -> shape m ->
    let t := 2 + g * (2 + px * py) in let js := life_jobs sx sy cx cy seed n in
    nth_error js t = Some (print_task sx sy (g mod 4)) /\
    fst (run_acts life (j_acts (print_task sx sy (g mod 4))) [] (memory_after life [] (firstn t js) m)) =
    rev (map (fun p => evolve sx sy g seed (fst p) (snd p)) (list_prod (range 1 sx) (range 1 sy))).
  Proof.
    intros Hg S. cbv zeta. destruct (print_call n g Hg) as (rest & E & LN). rewrite E. set (pre := seed_task sx sy seed :: generations sx sy cx cy g 0) in *.
    replace (2 + g * (2 + px * py)) with (length pre + 1) by lia. split.
    - rewrite nth_error_app2 by lia. now replace (length pre + 1 - length pre) with 1 by lia.
    - rewrite firstn_app, firstn_all2 by lia. replace (length pre + 1 - length pre) with 1 by lia. cbn [firstn]. rewrite after_app.
      destruct (life_calls g m S) as [S1 H1]. cbv zeta in *. change (life_jobs sx sy cx cy seed g) with pre in *.
      destruct (generation_run (g mod 4) _ _ (Nat.mod_upper_bound g 4 ltac:(lia)) S1 H1) as (H2 & _). cbv zeta in H2.
      rewrite print_acts, print_run. cbn [fst]. rewrite app_nil_r. f_equal. apply map_ext_in. intros [x y] H. apply in_prod_iff in H as [Q1 Q2]. apply in_range in Q1, Q2.
      apply H2; simpl; lia.
  Qed.

  (** ** The program is well-formed *)
  Context (FX : (N.of_nat (sx + cx + 2) <= size_max)%N) (FY : (N.of_nat (sy + cy + 2) <= size_max)%N).
  Inductive life_job : job -> Prop :=
  | lj_seed : life_job (seed_task sx sy seed)
  | lj_border b : life_job (border_task sx sy b)
  | lj_print b : life_job (print_task sx sy b)
  | lj_chunk a b x y : a <> b -> 1 <= x -> x + cx <= sx + 1 -> 1 <= y -> y + cy <= sy + 1 -> life_job (chunk_task cx cy a b x y).
  Lemma life_jobs_are n j : In j (life_jobs sx sy cx cy seed n) -> life_job j.
  Proof.
    assert (CX := divides_pos cx sx px HX DX). assert (CY := divides_pos cy sy py HY DY).
    assert (H : forall n cur, cur < 4 -> In j (generations sx sy cx cy n cur) -> life_job j).
    { clear n. induction n as [|n IH]; intros cur Hc H; [destruct H|]. cbn [generations] in H. apply in_app_iff in H as [H|H]; [|exact (IH _ (Nat.mod_upper_bound _ 4 ltac:(lia)) H)].
      rewrite generation_is in H. destruct H as [<-|[<-|H]]; [constructor|constructor|]. apply in_map_iff in H as ([x y] & <- & H). cbn [fst snd].
      apply in_prod_iff in H as [H1 H2]. apply (in_strides cx sx px) in H1; auto. apply (in_strides cy sy py) in H2; auto.
      constructor; try lia. destruct cur as [|[|[|[|]]]]; simpl; lia. }
    intros [<-|Q]; [constructor|]. apply (H n 0); [lia|exact Q].
  Qed.
  Lemma part_wf b m x0 x1 y0 y1 : (N.of_nat x0 <= size_max)%N -> (N.of_nat x1 <= size_max)%N -> (N.of_nat y0 <= size_max)%N -> (N.of_nat y1 <= size_max)%N -> ra_wf (part b m x0 x1 y0 y1) = true.
  Proof. intros A B C D. apply N.leb_le in A, B, C, D. unfold ra_wf, part. cbn -[N.leb size_max N.of_nat]. now rewrite A, B, C, D. Qed.
  Lemma look_ok b m x y r0 : In r0 [whole b m] -> m = MWrite \/ m = MRead -> x < sx + 2 -> y < sy + 2 ->
    permits (field_ty 2) (m, ((0%N, size_max), ((0%N, size_max), tt))) (cell_touch KRead x y).
  Proof. intros _ Hm Hx Hy. simpl. split; [destruct Hm as [->| ->]; first [exact I|reflexivity]|]. split; [lia|]. split; [lia|exact I]. Qed.
  Lemma put_ok x y : x < sx + 2 -> y < sy + 2 ->
    permits (field_ty 2) (MWrite, ((0%N, size_max), ((0%N, size_max), tt))) (cell_touch KWrite x y).
  Proof. intros Hx Hy. simpl. split; [exact I|]. split; [lia|]. split; [lia|exact I]. Qed.
  Lemma life_sound n : sound_app (life_jobs sx sy cx cy seed n).
  Proof.
    assert (CX := divides_pos cx sx px HX DX). assert (CY := divides_pos cy sy py HY DY).
    assert (TY : forall j a, life_job j -> In a (j_acc j) -> a_ty a = field_ty 2).
    { intros j a H Ha. destruct H; simpl in Ha; repeat (destruct Ha as [<-|Ha]; [reflexivity|]); destruct Ha. }
    split.
    - intros i j a b Hi Hj Ha Hb _. apply life_jobs_are in Hi, Hj. now rewrite (TY i a), (TY j b).
    - intros j Hj. apply life_jobs_are in Hj. split; [|split].
      + intros a Ha. destruct Hj; cbn [seed_task border_task print_task chunk_task j_acc] in Ha; repeat (destruct Ha as [<-|Ha]; [first [reflexivity|apply part_wf; lia]|]); destruct Ha.
      + destruct Hj; simpl; repeat (constructor; [simpl; lia|]); constructor.
      + intros a Ha. destruct Hj as [|b|b|s d x y NE X1 X2 Y1 Y2].
        * rewrite seed_acts in Ha. apply in_map_iff in Ha as ([x y] & <- & H). apply in_prod_iff in H as [H1 H2]. apply in_range in H1, H2.
          exists (mkRes 0 0), (MWrite, ((0%N, size_max), ((0%N, size_max), tt))). split; [left; reflexivity|]. split; [reflexivity|]. apply put_ok; simpl; lia.
        * set (G := exists r (v : val (ac_ty a)), In (mkAcc r (ac_ty a) v) (j_acc (border_task sx sy b)) /\ r_id r = ac_res a /\ permits (ac_ty a) v (ac_touch a)).
          assert (RD : forall p q, p < sx + 2 -> q < sy + 2 -> look b p q = a -> G).
          { intros p q Hp Hq <-. exists (mkRes b 0), (MWrite, ((0%N, size_max), ((0%N, size_max), tt))). split; [left; reflexivity|]. split; [reflexivity|].
            apply (look_ok b MWrite _ _ (whole b MWrite)); simpl; auto. }
          assert (WR : forall p q c, p < sx + 2 -> q < sy + 2 -> put b p q c = a -> G).
          { intros p q c Hp Hq <-. exists (mkRes b 0), (MWrite, ((0%N, size_max), ((0%N, size_max), tt))). split; [left; reflexivity|]. split; [reflexivity|]. now apply put_ok. }
          cbn [border_task j_acts] in Ha. apply in_app_iff in Ha as [Ha|Ha]; apply in_flat_map in Ha as (z & Hz & Ha); apply in_range in Hz;
            destruct Ha as [Ha|[Ha|[Ha|[Ha|[]]]]]; (eapply RD + eapply WR); try exact Ha; lia.
        * rewrite print_acts in Ha. apply in_map_iff in Ha as ([x y] & <- & H). apply in_prod_iff in H as [H1 H2]. apply in_range in H1, H2.
          exists (mkRes b 0), (MRead, ((0%N, size_max), ((0%N, size_max), tt))). split; [left; reflexivity|]. split; [reflexivity|].
          apply (look_ok b MRead _ _ (whole b MRead)); simpl; auto; lia.
        * rewrite chunk_acts in Ha. apply in_flat_map in Ha as ([u v] & Hp & Ha). apply in_block in Hp. cbn [fst snd] in *. destruct Hp as [Hu Hv].
          assert (RD : forall p q, u - 1 <= p <= u + 1 -> v - 1 <= q <= v + 1 -> look s p q = a -> exists r (w : val (ac_ty a)), In (mkAcc r (ac_ty a) w) (j_acc (chunk_task cx cy s d x y)) /\ r_id r = ac_res a /\ permits (ac_ty a) w (ac_touch a)).
          { intros p q Hp Hq <-. exists (mkRes s 0), (MRead, ((N.of_nat (x - 1), N.of_nat (x + cx + 2)), ((N.of_nat (y - 1), N.of_nat (y + cy + 2)), tt))).
            split; [right; left; reflexivity|]. split; [reflexivity|]. simpl. split; [reflexivity|]. split; [lia|]. split; [lia|exact I]. }
          unfold cell_acts in Ha. do 9 (destruct Ha as [Ha|Ha]; [eapply RD; [| |exact Ha]; lia|]). destruct Ha as [<-|[]].
          exists (mkRes d 0), (MWrite, ((N.of_nat x, N.of_nat (x + cx)), ((N.of_nat y, N.of_nat (y + cy)), tt))).
          split; [left; reflexivity|]. split; [reflexivity|]. simpl. split; [exact I|]. split; [lia|]. split; [lia|exact I].
  Qed.

  (** ** 16-bit counters *)
  Lemma all_names x y js : x <> y -> cnt x js + cnt y js <= list_sum (map (fun j => length (j_acc j)) js).
  Proof.
    intros NE. unfold cnt. induction js as [|j js IH]; [simpl; lia|]. cbn [map list_sum fold_right].
    assert (H : forall l, count_occ Nat.eq_dec l x + count_occ Nat.eq_dec l y <= length l).
    { induction l as [|z l IHl]; [simpl; lia|]. simpl. destruct (Nat.eq_dec z x); destruct (Nat.eq_dec z y); lia. }
    specialize (H (ids j)). unfold ids in H at 3. rewrite map_length in H. unfold list_sum in IH. lia.
  Qed.
  Lemma names n cur : list_sum (map (fun j => length (j_acc j)) (generations sx sy cx cy n cur)) = n * (2 + 2 * (px * py)).
  Proof.
    revert cur. induction n as [|n IH]; intros cur; [reflexivity|]. cbn [generations]. rewrite map_app, list_sum_app, IH, generation_is.
    cbn [map]. rewrite map_map. rewrite <- corners_len. change (list_sum (?a :: ?b :: ?l)) with (a + (b + list_sum l)).
    assert (E : list_sum (map (fun q => length (j_acc (chunk_task cx cy cur ((cur + 1) mod 4) (fst q) (snd q)))) corners) = 2 * length corners).
    { induction corners as [|q l IHl]; [reflexivity|]. cbn [map length]. unfold list_sum in *. cbn [fold_right]. rewrite IHl. simpl. lia. }
    rewrite E. simpl. lia.
  Qed.
  Lemma life_few n : (3 + Z.of_nat (n * (2 + 2 * (px * py))) <= 65535)%Z -> few (life_jobs sx sy cx cy seed n).
  Proof.
    intros B j Hj. assert (T : list_sum (map (fun j => length (j_acc j)) (life_jobs sx sy cx cy seed n)) = 1 + n * (2 + 2 * (px * py))).
    { unfold life_jobs. cbn [map]. change (list_sum (?a :: ?l)) with (a + list_sum l). rewrite names. reflexivity. }
    apply life_jobs_are in Hj.
    assert (O : forall x, cnt x (life_jobs sx sy cx cy seed n) <= 1 + n * (2 + 2 * (px * py))).
    { intros x. pose proof (all_names x (S x) (life_jobs sx sy cx cy seed n) ltac:(lia)). lia. }
    destruct Hj as [|b|b|s d x y NE _ _ _ _]; unfold ids; cbn [seed_task border_task print_task chunk_task j_acc map whole part a_res r_id list_sum fold_right].
    - specialize (O 0). lia.
    - specialize (O b). lia.
    - specialize (O b). lia.
    - pose proof (all_names d s (life_jobs sx sy cx cy seed n) ltac:(auto)). lia.
  Qed.
End Life.
