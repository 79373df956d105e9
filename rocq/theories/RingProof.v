(** examples/mpi.cpp: the program is well-formed, and what the calls of one rank do one after
    another. *)
From Coq Require Import Bool List Arith NArith ZArith Lia.
From Verif Require Import AccessModel AccessSpec AccessProof UserModel SchedModel SchedSpec AppModel AppSpec AppProof AppChol AppMore AppLife RingModel.
Import ListNotations.
Open Scope nat_scope.

(** ** Memory *)
Lemma ring_act w rk sz inp a : (exists k c, a = mkAct 2 TIO k c) \/ (exists r k u c, a = mkAct r (field_ty 1) (k, (u, tt)) c) \/
  (forall l m, ring_op w rk sz inp a l m = (l, m)).
Proof.
  destruct a as [r T x c]. destruct T as [| |T n cb|T1 T2 cb]; try (right; right; reflexivity).
  - destruct (Nat.eq_dec r 2) as [->|N]; [left; eauto|]. right; right. intros l m. simpl. apply Nat.eqb_neq in N. rewrite N. now destruct x.
  - destruct T1; try (right; right; reflexivity). destruct T2 as [| |T n cb2|]; try (right; right; reflexivity).
    destruct T; try (right; right; reflexivity). destruct n as [|[|n]]; try (right; right; reflexivity). destruct cb2; try (right; right; reflexivity). destruct cb; try (right; right; reflexivity).
    right; left. destruct x as [k [u []]]. exists r, k, u, c. reflexivity.
Qed.
Lemma slot_conflict r s k1 k2 u1 u2 c d :
  ~ acts_conflict (mkAct r (field_ty 1) (k1, (u1, tt)) c) (mkAct s (field_ty 1) (k2, (u2, tt)) d) -> r <> s \/ kind_conflict k1 k2 = false \/ u1 <> u2.
Proof.
  intros H. destruct (Nat.eq_dec r s) as [->|]; auto. right. destruct (kind_conflict k1 k2) eqn:E; auto. right.
  intros ->. apply H. exists s, (field_ty 1), (k1, (u2, tt)), (k2, (u2, tt)), c, d. split; [reflexivity|]. split; [reflexivity|]. simpl. auto.
Qed.
Definition slot_of (m : cells) (b x : nat) : Z := nth x (nth b (snd m) []) 0%Z.
Definition slot_set (b x : nat) (f : Z -> Z) (m : cells) : cells := (fst m, alter b (alter x f) (snd m)).
Lemma slot_swap b x f b' x' f' m : b <> b' \/ x <> x' -> slot_set b x f (slot_set b' x' f' m) = slot_set b' x' f' (slot_set b x f m).
Proof.
  intros H. unfold slot_set. f_equal. simpl. destruct (Nat.eq_dec b b') as [->|N]; [|now apply alter_swap]. rewrite !alter_same. apply alter_ext. intros z.
  apply alter_swap. lia.
Qed.
Lemma slot_other b x f b' x' m : b' <> b \/ x' <> x -> slot_of (slot_set b x f m) b' x' = slot_of m b' x'.
Proof.
  intros H. unfold slot_of, slot_set. simpl. rewrite nth_alter. destruct (Nat.eqb_spec b' b) as [->|]; [|reflexivity]. cbn [andb]. destruct (b <? _); auto.
  apply nth_alter_ne. lia.
Qed.
Lemma ring_sensible w rk sz inp : sensible (ring_sem w rk sz inp).
Proof.
  intros a b l1 l2 m H. cbn [op ring_sem].
  destruct (ring_act w rk sz inp a) as [(k1 & c1 & ->)|[(r1 & k1 & u1 & c1 & ->)|E]];
    [| |rewrite !E; destruct (ring_op w rk sz inp b l2 m) as [x y]; rewrite E; auto];
  (destruct (ring_act w rk sz inp b) as [(k2 & c2 & ->)|[(r2 & k2 & u2 & c2 & ->)|E]];
    [| |rewrite !E; match goal with |- context [ring_op w rk sz inp ?a l1 m] => destruct (ring_op w rk sz inp a l1 m) as [x y] end; rewrite E; auto]).
  - apply io_no_conflict in H as [H|H]; [lia|]. destruct k1, k2; simpl in *; auto; discriminate.
  - destruct k1, k2; simpl; auto.
  - destruct k1, k2; simpl; auto.
  - apply slot_conflict in H.
    assert (D : kind_conflict k1 k2 = true -> r1 <> r2 \/ N.to_nat u1 <> N.to_nat u2) by (intros Q; destruct H as [H|[H|H]]; [auto|congruence|right; lia]).
    destruct k1, k2; simpl in *; auto.
    + repeat split; auto. f_equal. symmetry. apply (slot_other r2 (N.to_nat u2) (slot_value w inp c2 l2) r1 (N.to_nat u1) m). auto.
    + repeat split; auto. f_equal. apply (slot_other r1 (N.to_nat u1) (slot_value w inp c1 l1) r2 (N.to_nat u2) m). destruct (D eq_refl); auto.
    + repeat split; auto. apply (slot_swap r2 (N.to_nat u2) (slot_value w inp c2 l2) r1 (N.to_nat u1) (slot_value w inp c1 l1) m). destruct (D eq_refl); auto.
Qed.

Section Lists.
  Context (w : nat).
  Definition others (k : nat) : nat := (k mod 2 + 1) mod 2.
  Lemma turn_len k cur : length (turn w k cur) = w + 3.
  Proof. unfold turn. rewrite !app_length, map_length. unfold range. rewrite seq_length. simpl. lia. Qed.
  Lemma turns_len n : forall k cur, length (turns w n k cur) = n * (w + 3).
  Proof. induction n as [|n IH]; intros k cur; [reflexivity|]. cbn [turns]. rewrite app_length, turn_len, IH. lia. Qed.
  Lemma turns_split a b : forall k, turns w (a + b) k (k mod 2) = turns w a k (k mod 2) ++ turns w b (k + a) ((k + a) mod 2).
  Proof.
    induction a as [|a IH]; intros k; [now rewrite Nat.add_0_r|]. cbn [Nat.add turns]. rewrite Nat.add_mod_idemp_l, Nat.add_1_r by lia. rewrite IH.
    rewrite <- app_assoc. now replace (k + S a) with (S k + a) by lia.
  Qed.
  Definition upto (k : nat) : list job := [comm_task; fill_task w] ++ turns w k 0 0.
  Lemma upto_len k : length (upto k) = turn_at w k.
  Proof. unfold upto, turn_at. rewrite app_length, turns_len. reflexivity. Qed.
  Lemma ring_split n k : k < n -> exists post, ring_jobs w n = upto k ++ turn w k (k mod 2) ++ post.
  Proof.
    intros H. unfold ring_jobs, upto. replace n with (k + (1 + (n - k - 1))) by lia. assert (Q := turns_split k (1 + (n - k - 1)) 0). change (0 mod 2) with 0 in Q. rewrite Q.
    cbn [Nat.add turns]. exists (turns w (n - k - 1) (S k) ((k mod 2 + 1) mod 2) ++ [fin_task]). rewrite !app_assoc_reverse. reflexivity.
  Qed.
End Lists.

Section Rank.
  Context (w : nat) (rk sz : Z) (inp : Z -> nat -> option Z) (X : nat -> Z) (T : nat).
  (** either something is received in every turn, or nothing in none, by rank 0 *)
  Context (never : bool) (HX : forall k, k < T -> inp (source rk sz) k = if never then None else Some (X k)).
  Context (HN : never = true -> rk = 0%Z /\ forall k, X k = 0%Z).
  Context (HW : 1 <= w).
  Notation sem := (ring_sem w rk sz inp).
  Definition fits (m : cells) : Prop := length (snd m) = 2 /\ forall b, b < 2 -> length (nth b (snd m) []) = w + 1.
  Lemma fits_set b x f m : fits m -> fits (slot_set b x f m).
  Proof.
    intros [L S]. unfold slot_set. split; simpl; [now rewrite alter_len|]. intros b' Hb. rewrite nth_alter.
    destruct ((b' =? b) && _); rewrite ?alter_len; auto.
  Qed.
  Lemma slot_of_set b x f m : fits m -> b < 2 -> x < w + 1 -> forall b' x',
    slot_of (slot_set b x f m) b' x' = if (b' =? b) && (x' =? x) then f (slot_of m b x) else slot_of m b' x'.
  Proof.
    intros [L S] Hb Hx b' x'. destruct (Nat.eqb_spec b' b) as [->|]; cbn [andb]; [|apply slot_other; auto].
    destruct (Nat.eqb_spec x' x) as [->|]; [|apply slot_other; auto].
    unfold slot_of, slot_set. simpl. rewrite nth_alter, L, Nat.eqb_refl. assert (Q := Hb). apply Nat.ltb_lt in Q. rewrite Q. cbn [andb].
    rewrite nth_alter, (S b Hb), Nat.eqb_refl. apply Nat.ltb_lt in Hx. now rewrite Hx.
  Qed.
  Lemma get_op b x l m : op sem (slot_get b x) l m = (slot_of m b x :: l, m).
  Proof. simpl. now rewrite Nnat.Nat2N.id. Qed.
  Lemma put_op b x c l m : op sem (slot_put b x c) l m = (l, slot_set b x (slot_value w inp c l) m).
  Proof. simpl. now rewrite Nnat.Nat2N.id. Qed.

  (** *** what the rank holds in turn [k] when it receives X 0, X 1, .. *)
  Fixpoint own (k i : nat) : Z :=
    match k with O => (Z.of_nat w * rk + Z.of_nat i)%Z | S k => if i =? 1 then X k else own k (i - 1) end.
  Definition good (k : nat) (m : cells) : Prop :=
    fits m /\ fst m = [rk; sz] /\ (never = true -> slot_of m 0 0 = 0%Z /\ slot_of m 1 0 = 0%Z) /\
    forall i, 1 <= i <= w -> slot_of m (k mod 2) i = own k i.

  Lemma fill_run is l : (forall i, In i is -> i < w + 1) -> forall m, fits m ->
    let m' := snd (run_acts sem (map (fun i => slot_put 0 i (Z.of_nat (S i))) is) (rk :: l) m) in
    fits m' /\ fst m' = fst m /\ slot_of m' 1 0 = slot_of m 1 0 /\ forall i, slot_of m' 0 i = if existsb (Nat.eqb i) is then (Z.of_nat w * rk + Z.of_nat i)%Z else slot_of m 0 i.
  Proof.
    induction is as [|i0 is IH]; intros B m F; [simpl; auto|]. cbn [map run_acts]. rewrite put_op.
    assert (B0 := B i0 (or_introl eq_refl)).
    destruct (IH (fun i H => B i (or_intror H)) (slot_set 0 i0 (slot_value w inp (Z.of_nat (S i0)) (rk :: l)) m) (fits_set _ _ _ _ F)) as (F' & E & U & C).
    split; [exact F'|]. split; [exact E|]. split; [rewrite U; apply slot_other; auto|]. intros i. rewrite C, slot_of_set by (auto; lia). cbn [existsb]. destruct (existsb (Nat.eqb i) is); [now rewrite orb_true_r|].
    rewrite orb_false_r. simpl (0 =? 0). cbn [andb]. destruct (Nat.eqb_spec i i0) as [->|]; auto. unfold slot_value.
    replace (Z.of_nat (S i0) =? 0)%Z with false by (symmetry; apply Z.eqb_neq; lia). replace (0 <? Z.of_nat (S i0))%Z with true by (symmetry; apply Z.ltb_lt; lia).
    simpl nth. lia.
  Qed.
  Lemma start_good m : fits m -> (never = true -> slot_of m 1 0 = 0%Z) -> good 0 (memory_after sem [] [comm_task; fill_task w] m).
  Proof.
    intros F Z1. unfold memory_after. cbn [fold_left comm_task fill_task j_acts run_acts]. set (m1 := ([rk; sz], snd m)).
    change (op sem conf_put [] m) with (@nil Z, m1). cbn [snd]. change (op sem conf_get [] m1) with ([rk; sz], m1). cbn iota beta.
    destruct (fill_run (range 0 (w + 1)) [sz]) with (m := m1) as (F' & E & U & C); [intros i H; apply in_seq in H; lia|exact F|].
    split; [exact F'|]. split; [exact E|]. split.
    { intros NV. rewrite C, in_rangeb, U. destruct (HN NV) as [-> _]. split; [|exact (Z1 NV)]. replace ((0 <=? 0) && (0 <? w + 1)) with true; [lia|]. symmetry. apply andb_true_iff. split; [apply Nat.leb_le|apply Nat.ltb_lt]; lia. }
    intros i Hi. change (0 mod 2) with 0. rewrite C, in_rangeb.
    replace ((0 <=? i) && (i <? w + 1)) with true; [reflexivity|]. symmetry. apply andb_true_iff. split; [apply Nat.leb_le|apply Nat.ltb_lt]; lia.
  Qed.

  Lemma shift_run cur nxt is : cur < 2 -> nxt < 2 -> cur <> nxt -> (forall i, In i is -> 1 <= i < w + 1) -> forall m, fits m ->
    let m' := memory_after sem [] (map (shift_task cur nxt) is) m in
    fits m' /\ fst m' = fst m /\ (forall i, slot_of m' cur i = slot_of m cur i) /\
    forall i, slot_of m' nxt i = if existsb (Nat.eqb i) is then slot_of m cur (i - 1) else slot_of m nxt i.
  Proof.
    intros Hc Hn NE. induction is as [|i0 is IH]; intros B m F; [simpl; auto|].
    unfold memory_after in *. cbn [map fold_left shift_task j_acts run_acts]. rewrite get_op, put_op. cbn [snd].
    assert (B0 := B i0 (or_introl eq_refl)).
    set (m1 := slot_set nxt i0 (slot_value w inp 0 [slot_of m cur (i0 - 1)]) m).
    destruct (IH (fun i H => B i (or_intror H)) m1 (fits_set _ _ _ _ F)) as (F' & E & C & N).
    assert (C1 : forall i, slot_of m1 cur i = slot_of m cur i) by (intros i; apply slot_other; auto).
    split; [exact F'|]. split; [exact E|]. split; [intros i; now rewrite C, C1|].
    intros i. rewrite N, C1. cbn [existsb]. destruct (existsb (Nat.eqb i) is); [now rewrite orb_true_r|]. rewrite orb_false_r.
    unfold m1. rewrite slot_of_set by (auto; lia). rewrite Nat.eqb_refl. cbn [andb]. destruct (Nat.eqb_spec i i0) as [->|]; reflexivity.
  Qed.
  Lemma looks_run b is : forall l m, run_acts sem (map (slot_get b) is) l m = (rev (map (slot_of m b) is) ++ l, m).
  Proof.
    induction is as [|i is IH]; intros l m; [reflexivity|]. cbn [map run_acts]. rewrite get_op, IH. simpl. now rewrite <- app_assoc.
  Qed.

  (** *** one turn: what is shown and what is left *)
  Lemma turn_run k m : k < T -> good k m ->
    (let pre := [send_task w (k mod 2); recv_task (k mod 2) k] ++ map (shift_task (k mod 2) (others k)) (range 1 (w + 1)) in
     fst (run_acts sem (j_acts (out_task w (k mod 2))) [] (memory_after sem [] pre m)) = rev (map (own k) (seq 1 w)) ++ [X k; rk; sz]) /\
    good (S k) (memory_after sem [] (turn w k (k mod 2)) m).
  Proof.
    intros Hk (F & E & Z1 & V). assert (M2 : k mod 2 < 2) by (apply Nat.mod_upper_bound; lia). assert (N2 : others k < 2) by (apply Nat.mod_upper_bound; lia).
    assert (NE : k mod 2 <> others k). { unfold others. destruct (k mod 2) as [|[|q]]; [discriminate|discriminate|lia]. }
    assert (NX : S k mod 2 = others k) by (unfold others; rewrite Nat.add_mod_idemp_l by lia; f_equal; lia).
    assert (CG : forall l m', fst m' = [rk; sz] -> op sem conf_get l m' = (rk :: sz :: l, m')) by (intros l m' Q; simpl; now rewrite Q).
    set (m1 := slot_set (k mod 2) 0 (slot_value w inp (- Z.of_nat (S k)) [rk; sz]) m).
    assert (F1 : fits m1) by now apply fits_set. assert (E1 : fst m1 = [rk; sz]) by exact E.
    assert (C1 : forall i, slot_of m1 (k mod 2) i = if i =? 0 then X k else slot_of m (k mod 2) i).
    { intros i. unfold m1. rewrite slot_of_set by (auto; lia). rewrite Nat.eqb_refl. cbn [andb]. destruct (i =? 0); auto. unfold slot_value.
      replace (- Z.of_nat (S k) =? 0)%Z with false by (symmetry; apply Z.eqb_neq; lia). replace (0 <? - Z.of_nat (S k))%Z with false by (symmetry; apply Z.ltb_ge; lia).
      simpl nth. replace (Z.to_nat (- - Z.of_nat (S k) - 1)) with k by lia. rewrite HX by exact Hk.
      destruct never eqn:NV; [|reflexivity]. destruct (HN eq_refl) as [_ X0]. destruct (Z1 eq_refl) as [Z2 Z3]. rewrite X0. destruct (k mod 2) as [|[|z]]; auto; lia. }
    assert (P1 : forall js, memory_after sem [] ([send_task w (k mod 2); recv_task (k mod 2) k] ++ js) m = memory_after sem [] js m1).
    { intros js. unfold memory_after. cbn [Datatypes.app fold_left send_task recv_task j_acts run_acts]. rewrite !CG by auto. rewrite get_op. cbn [snd]. rewrite ?CG by auto. now rewrite put_op. }
    destruct (shift_run (k mod 2) (others k) (range 1 (w + 1)) M2 N2 NE) with (m := m1) as (F2 & E2 & C2 & V2); [intros i H; apply in_seq in H; lia|exact F1|].
    set (m2 := memory_after sem [] (map (shift_task (k mod 2) (others k)) (range 1 (w + 1))) m1) in *. rewrite E1 in E2.
    split.
    - cbv zeta. rewrite P1. fold m2. cbn [out_task j_acts run_acts]. rewrite CG by auto. rewrite looks_run. cbn [fst].
      unfold range. rewrite Nat.sub_0_r, Nat.add_1_r. cbn [seq map rev]. rewrite <- app_assoc. cbn [Datatypes.app]. f_equal.
      + f_equal. apply map_ext_in. intros i H. apply in_seq in H. rewrite C2, C1. destruct (Nat.eqb_spec i 0); [lia|]. apply V. lia.
      + now rewrite C2, C1.
    - unfold turn. fold (others k). rewrite P1. unfold memory_after. rewrite fold_left_app. fold (memory_after sem [] (map (shift_task (k mod 2) (others k)) (range 1 (w + 1))) m1). fold m2.
      cbn [fold_left out_task j_acts run_acts]. rewrite CG by auto. rewrite looks_run. cbn [snd]. split; [exact F2|]. split; [exact E2|]. split.
      { intros NV. destruct (HN NV) as [_ X0]. destruct (Z1 NV) as [Z2 Z3].
        assert (A1 : slot_of m2 (k mod 2) 0 = 0%Z) by (rewrite C2, C1; apply X0).
        assert (A2 : slot_of m2 (others k) 0 = 0%Z).
        { rewrite V2, in_rangeb. cbn [andb Nat.leb]. unfold m1. rewrite slot_other by auto. destruct (others k) as [|[|z]]; auto; lia. }
        unfold others in A2. destruct (k mod 2) as [|[|z]]; [|change ((1 + 1) mod 2) with 0 in A2|lia]; auto. }
      intros i Hi. rewrite NX, V2, in_rangeb. replace ((1 <=? i) && (i <? w + 1)) with true by (symmetry; apply andb_true_iff; split; [apply Nat.leb_le|apply Nat.ltb_lt]; lia).
      rewrite C1. cbn [own]. destruct (Nat.eqb_spec i 1) as [->|]; [reflexivity|]. destruct (Nat.eqb_spec (i - 1) 0); [lia|]. apply V. lia.
  Qed.
  Lemma memory_app js1 js2 m : memory_after sem [] (js1 ++ js2) m = memory_after sem [] js2 (memory_after sem [] js1 m).
  Proof. unfold memory_after. apply fold_left_app. Qed.
  Lemma turns_run n : forall k m, k + n <= T -> good k m -> good (k + n) (memory_after sem [] (turns w n k (k mod 2)) m).
  Proof.
    induction n as [|n IH]; intros k m L G; [now rewrite Nat.add_0_r|]. cbn [turns]. rewrite memory_app.
    rewrite Nat.add_mod_idemp_l by lia. rewrite Nat.add_1_r. rewrite Nat.add_succ_r, <- Nat.add_succ_l. apply IH; [lia|]. apply turn_run; [lia|exact G].
  Qed.
  Lemma upto_good k m : k <= T -> fits m -> (never = true -> slot_of m 1 0 = 0%Z) -> good k (memory_after sem [] (upto w k) m).
  Proof. intros L F Z1. unfold upto. rewrite memory_app. apply (turns_run k 0); [lia|]. now apply start_good. Qed.

  Lemma ring_send n k m : k < n -> k <= T -> fits m -> (never = true -> slot_of m 1 0 = 0%Z) ->
    nth_error (ring_jobs w n) (turn_at w k) = Some (send_task w (k mod 2)) /\
    fst (run_acts sem (j_acts (send_task w (k mod 2))) [] (memory_after sem [] (firstn (turn_at w k) (ring_jobs w n)) m)) = [own k w; rk; sz].
  Proof.
    intros L LT F Z1. destruct (ring_split w n k L) as (post & E). rewrite E, <- (upto_len w k). split.
    - rewrite nth_error_app2 by lia. rewrite Nat.sub_diag. reflexivity.
    - rewrite firstn_app, Nat.sub_diag, firstn_all. cbn [firstn]. rewrite app_nil_r. destruct (upto_good k m LT F Z1) as (_ & E2 & _ & V).
      assert (CG : forall l m', fst m' = [rk; sz] -> op sem conf_get l m' = (rk :: sz :: l, m')) by (intros l m' Q; simpl; now rewrite Q).
      cbn [send_task j_acts run_acts]. rewrite (CG _ _ E2).
      rewrite get_op. cbn [fst]. rewrite V by lia. reflexivity.
  Qed.
  Lemma ring_out n k m : k < n -> k < T -> fits m -> (never = true -> slot_of m 1 0 = 0%Z) ->
    nth_error (ring_jobs w n) (turn_at w k + w + 2) = Some (out_task w (k mod 2)) /\
    fst (run_acts sem (j_acts (out_task w (k mod 2))) [] (memory_after sem [] (firstn (turn_at w k + w + 2) (ring_jobs w n)) m)) = rev (map (own k) (seq 1 w)) ++ [X k; rk; sz].
  Proof.
    intros L LT F Z1. destruct (ring_split w n k L) as (post & E).
    set (pre := [send_task w (k mod 2); recv_task (k mod 2) k] ++ map (shift_task (k mod 2) (others k)) (range 1 (w + 1))).
    assert (E2 : ring_jobs w n = (upto w k ++ pre) ++ out_task w (k mod 2) :: post).
    { rewrite E. unfold turn, pre. fold (others k). now rewrite <- !app_assoc. }
    assert (LP : length (upto w k ++ pre) = turn_at w k + w + 2).
    { rewrite app_length, upto_len. unfold pre. rewrite app_length, map_length. unfold range. rewrite seq_length. simpl. lia. }
    rewrite E2, <- LP. split.
    - rewrite nth_error_app2 by lia. rewrite Nat.sub_diag. reflexivity.
    - rewrite firstn_app, Nat.sub_diag, firstn_all. cbn [firstn]. rewrite app_nil_r, memory_app. apply turn_run; [lia|]. apply upto_good; [lia|exact F|exact Z1].
  Qed.
End Rank.

(** ** Well-formed *)
Inductive ring_job (w : nat) : job -> Prop :=
| RJcomm : ring_job w comm_task
| RJfill : ring_job w (fill_task w)
| RJsend b : b < 2 -> ring_job w (send_task w b)
| RJrecv b k : b < 2 -> ring_job w (recv_task b k)
| RJshift b c i : b < 2 -> c < 2 -> b <> c -> i <= w -> ring_job w (shift_task b c i)
| RJout b : b < 2 -> ring_job w (out_task w b)
| RJfin : ring_job w fin_task.
Lemma turns_are w n j : forall k cur, cur < 2 -> In j (turns w n k cur) -> ring_job w j.
Proof.
  induction n as [|n IH]; intros k cur Hc H; [easy|]. cbn [turns] in H.
  assert (N : (cur + 1) mod 2 < 2) by (apply Nat.mod_upper_bound; lia).
  assert (NE : cur <> (cur + 1) mod 2) by (destruct cur as [|[|q]]; [discriminate|discriminate|lia]).
  apply in_app_iff in H as [H|H]; [|exact (IH _ _ N H)].
  unfold turn in H. apply in_app_iff in H as [H|H]; [destruct H as [<-|[<-|[]]]; constructor; auto|].
  apply in_app_iff in H as [H|H]; [|destruct H as [<-|[]]; constructor; auto].
  apply in_map_iff in H as (i & <- & H). apply in_seq in H. constructor; auto; lia.
Qed.
Lemma ring_are w n j : In j (ring_jobs w n) -> ring_job w j.
Proof.
  unfold ring_jobs. intros H. apply in_app_iff in H as [H|H]; [destruct H as [<-|[<-|[]]]; constructor|].
  apply in_app_iff in H as [H|H]; [|destruct H as [<-|[]]; constructor]. apply (turns_are w n j 0 0); [lia|exact H].
Qed.
Lemma ring_sound w n : (N.of_nat (w + 1) <= size_max)%N -> sound_app (ring_jobs w n).
Proof.
  intros SM.
  assert (TY : forall j a, ring_job w j -> In a (j_acc j) -> a_ty a = if r_id (a_res a) =? 2 then TIO else field_ty 1).
  { intros j a H Ha. destruct H; simpl in Ha; repeat (destruct Ha as [<-|Ha]; [simpl; try reflexivity|]); try destruct Ha;
      repeat match goal with H : ?b < 2 |- context [?b] => destruct b as [|[|]]; [reflexivity|reflexivity|lia] end. }
  split.
  - intros i j a b Hi Hj Ha Hb E. apply ring_are in Hi, Hj. rewrite (TY i a Hi Ha), (TY j b Hj Hb), E. reflexivity.
  - intros j Hj. apply ring_are in Hj. split; [|split].
    + intros a Ha.
      assert (SW : forall b m x, x <= w -> ra_wf (slot b m x) = true).
      { intros b m x Hx. unfold ra_wf, slot. simpl. rewrite ?andb_true_r. apply andb_true_iff; split; apply N.leb_le; lia. }
      destruct Hj; cbn [comm_task fill_task send_task recv_task shift_task out_task fin_task j_acc] in Ha;
        repeat (destruct Ha as [<-|Ha]; [first [reflexivity|apply SW; lia]|]); destruct Ha.
    + destruct Hj; simpl; repeat (constructor; [simpl; lia|]); constructor.
    + assert (CO : forall (acc : list raccess) m, In (conf m) acc -> m = MRead -> exists r (v : val (ac_ty conf_get)), In (mkAcc r (ac_ty conf_get) v) acc /\ r_id r = ac_res conf_get /\ permits (ac_ty conf_get) v (ac_touch conf_get)).
      { intros acc m H ->. exists (mkRes 2 0), MRead. split; [exact H|]. split; [reflexivity|]. reflexivity. }
      intros a Ha. destruct Hj as [| |b Hb|b k Hb|b c i Hb Hc NE Hi|b Hb|]; cbn [comm_task fill_task send_task recv_task shift_task out_task fin_task j_acts] in Ha.
      * destruct Ha as [<-|[]]. exists (mkRes 2 0), MWrite. split; [now left|]. split; [reflexivity|]. exact I.
      * destruct Ha as [<-|Ha]; [apply (CO _ MRead); [right; now left|reflexivity]|]. apply in_map_iff in Ha as (i & <- & H). apply in_seq in H.
        exists (mkRes 0 0), (MWrite, ((0%N, size_max), tt)). split; [now left|]. split; [reflexivity|]. simpl. split; [exact I|]. split; [lia|exact I].
      * destruct Ha as [<-|[<-|[]]]; [apply (CO _ MRead); [right; now left|reflexivity]|].
        exists (mkRes b 0), (MRead, ((N.of_nat w, N.of_nat (w + 1)), tt)). split; [now left|]. split; [reflexivity|]. simpl. split; [reflexivity|]. split; [lia|exact I].
      * destruct Ha as [<-|[<-|[]]]; [apply (CO _ MRead); [right; now left|reflexivity]|].
        exists (mkRes b 0), (MWrite, ((0%N, 1%N), tt)). split; [now left|]. split; [reflexivity|]. simpl. split; [exact I|]. split; [lia|exact I].
      * destruct Ha as [<-|[<-|[]]].
        -- exists (mkRes b 0), (MRead, ((N.of_nat (i - 1), N.of_nat (i - 1 + 1)), tt)). split; [right; now left|]. split; [reflexivity|]. simpl. split; [reflexivity|]. split; [lia|exact I].
        -- exists (mkRes c 0), (MWrite, ((N.of_nat i, N.of_nat (i + 1)), tt)). split; [now left|]. split; [reflexivity|]. simpl. split; [exact I|]. split; [lia|exact I].
      * destruct Ha as [<-|Ha]; [apply (CO _ MRead); [right; now left|reflexivity]|]. apply in_map_iff in Ha as (i & <- & H). apply in_seq in H.
        exists (mkRes b 0), (MRead, ((0%N, size_max), tt)). split; [now left|]. split; [reflexivity|]. simpl. split; [reflexivity|]. split; [lia|exact I].
      * destruct Ha.
Qed.

(** ** 16-bit counters *)
Lemma two_names x y js : x <> y -> cnt x js + cnt y js <= list_sum (map (fun j => length (j_acc j)) js).
Proof.
  intros NE. unfold cnt. induction js as [|j js IH]; [simpl; lia|]. cbn [map list_sum fold_right].
  assert (H : forall l, count_occ Nat.eq_dec l x + count_occ Nat.eq_dec l y <= length l).
  { induction l as [|z l IHl]; [simpl; lia|]. simpl. destruct (Nat.eq_dec z x); destruct (Nat.eq_dec z y); lia. }
  specialize (H (ids j)). unfold ids in H at 3. rewrite map_length in H. unfold list_sum in IH. lia.
Qed.
Lemma ring_names w n : list_sum (map (fun j => length (j_acc j)) (ring_jobs w n)) = 4 + n * (6 + 2 * w).
Proof.
  assert (C : forall is cur nxt, list_sum (map (fun j => length (j_acc j)) (map (shift_task cur nxt) is)) = 2 * length is).
  { induction is as [|i is IH]; intros cur nxt; [reflexivity|]. cbn [map length]. change (list_sum (?a :: ?l)) with (a + list_sum l). rewrite IH. simpl. lia. }
  assert (TU : forall k cur, list_sum (map (fun j => length (j_acc j)) (turn w k cur)) = 6 + 2 * w).
  { intros k cur. unfold turn. rewrite !map_app, !list_sum_app, C. unfold range. rewrite seq_length. simpl. lia. }
  assert (TS : forall n k cur, list_sum (map (fun j => length (j_acc j)) (turns w n k cur)) = n * (6 + 2 * w)).
  { induction n0 as [|n0 IH]; intros k cur; [reflexivity|]. cbn [turns]. rewrite map_app, list_sum_app, TU, IH. lia. }
  unfold ring_jobs. rewrite !map_app, !list_sum_app, TS. simpl. lia.
Qed.
Lemma ring_few w n : (6 + Z.of_nat (n * (6 + 2 * w)) <= 65535)%Z -> few (ring_jobs w n).
Proof.
  intros B j Hj. apply ring_are in Hj. assert (AN := fun x y NE => two_names x y (ring_jobs w n) NE).
  assert (RN := ring_names w n). rewrite RN in AN.
  destruct Hj as [| |b Hb|b k Hb|b c i Hb Hc NE Hi|b Hb|];
    unfold ids; cbn [comm_task fill_task send_task recv_task shift_task out_task fin_task j_acc map conf field slot a_res r_id list_sum fold_right].
  - specialize (AN 2 0 ltac:(lia)). lia.
  - specialize (AN 2 0 ltac:(lia)). lia.
  - specialize (AN 2 b ltac:(lia)). lia.
  - specialize (AN 2 b ltac:(lia)). lia.
  - specialize (AN b c NE). lia.
  - specialize (AN 2 b ltac:(lia)). lia.
  - specialize (AN 2 0 ltac:(lia)). lia.
Qed.
