(** AtomicBitfield: proofs. *)
From Coq Require Import Bool List Arith NArith ZArith Lia.
From Verif Require Import BitsModel.
Import ListNotations.
Open Scope N_scope.

(** ** Words *)
Lemma ones64_spec i : N.testbit ones64 i = (i <? 64).
Proof.
  unfold ones64. destruct (N.ltb_spec i 64).
  - now apply N.ones_spec_low.
  - now apply N.ones_spec_high.
Qed.
Lemma not64_spec x i : i < 64 -> N.testbit (not64 x) i = negb (N.testbit x i).
Proof.
  intros H. unfold not64. rewrite N.lxor_spec, ones64_spec. apply N.ltb_lt in H. rewrite H. now destruct (N.testbit x i).
Qed.
Lemma shl64_spec x k i : N.testbit (shl64 x k) i = (k <=? i) && (i <? 64) && N.testbit x (i - k).
Proof.
  unfold shl64. rewrite N.land_spec, ones64_spec. destruct (N.leb_spec k i).
  - rewrite N.shiftl_spec_high' by easy. simpl. apply andb_comm.
  - rewrite N.shiftl_spec_low by easy. reflexivity.
Qed.
Lemma bit_spec k i : k < 64 -> N.testbit (shl64 1 k) i = (i =? k).
Proof.
  intros H. rewrite shl64_spec. destruct (N.eqb_spec i k) as [->|D].
  - rewrite N.leb_refl, N.sub_diag. apply N.ltb_lt in H. now rewrite H.
  - destruct (N.leb_spec k i); simpl; auto. destruct (i <? 64); simpl; auto.
    apply (N.pow2_bits_false 0). lia.
Qed.
Lemma testbit_high x i : x < 2 ^ 64 -> 64 <= i -> N.testbit x i = false.
Proof.
  intros H L. destruct (N.eq_dec x 0) as [->|D]; [apply N.bits_0|].
  apply N.bits_above_log2. assert (N.log2 x < 64); [|lia]. apply N.log2_lt_pow2; lia.
Qed.
Lemma not64_lt x : x < 2 ^ 64 -> not64 x < 2 ^ 64.
Proof.
  intros H. destruct (N.eq_dec (not64 x) 0) as [->|D]; [reflexivity|].
  apply N.log2_lt_pow2; [lia|]. assert (N.log2 (not64 x) < 64 \/ 64 <= N.log2 (not64 x)) as [Q|Q] by lia; auto.
  assert (B := N.bit_log2 _ D). unfold not64 in B at 1. rewrite N.lxor_spec, ones64_spec in B.
  rewrite testbit_high in B by auto. apply N.ltb_ge in Q. rewrite Q in B. discriminate.
Qed.
Lemma land_zero x : x = 0 <-> forall i, N.testbit x i = false.
Proof.
  split; [intros -> i; apply N.bits_0|]. intros H. apply N.bits_inj_0. exact H.
Qed.

(** ** The lowest set bit *)
Lemma lowest v : v <> 0 -> exists k m, v = 2 ^ k * (2 * m + 1).
Proof.
  revert v. apply (well_founded_induction N.lt_wf_0 (fun v => v <> 0 -> exists k m, v = 2 ^ k * (2 * m + 1))).
  intros v IH H. destruct (N.even v) eqn:E.
  - apply N.even_spec in E as (u & E). destruct (IH u) as (k & m & Hu); [lia|lia|].
    exists (N.succ k), m. rewrite N.pow_succ_r', E, Hu, N.mul_assoc. reflexivity.
  - rewrite <- N.negb_odd in E. apply negb_false_iff, N.odd_spec in E as (m & E). exists 0, m. rewrite E. now rewrite N.pow_0_r, N.mul_1_l.
Qed.
Lemma land_odd a b : N.land (2 * a + 1) (2 * b + 1) = 2 * N.land a b + 1.
Proof.
  apply N.bits_inj. intros i. rewrite N.land_spec. destruct (N.eq_dec i 0) as [->|D].
  - now rewrite !N.testbit_odd_0.
  - replace i with (N.succ (N.pred i)) by lia. rewrite !N.testbit_odd_succ by lia. now rewrite N.land_spec.
Qed.
Lemma land_pow k a b : N.land (2 ^ k * a) (2 ^ k * b) = 2 ^ k * N.land a b.
Proof.
  rewrite !(N.mul_comm (2 ^ k)), <- !N.shiftl_mul_pow2. symmetry. apply N.shiftl_land.
Qed.
Lemma land_compl n m : m < 2 ^ n -> N.land m (N.ones n - m) = 0.
Proof.
  intros H. assert (Z : N.ldiff m (N.ones n) = 0).
  { apply N.bits_inj_0. intros i. rewrite N.ldiff_spec. destruct (N.ltb_spec i n).
    - rewrite N.ones_spec_low by easy. apply andb_false_r.
    - rewrite N.ones_spec_high by easy. rewrite andb_true_r. destruct (N.eq_dec m 0) as [->|D]; [apply N.bits_0|].
      apply N.bits_above_log2. apply N.log2_lt_pow2 in H; lia. }
  rewrite (N.sub_nocarry_ldiff _ _ Z). apply N.bits_inj_0. intros i. rewrite N.land_spec, N.ldiff_spec.
  destruct (N.testbit m i); simpl; auto. apply andb_false_r.
Qed.
Lemma isolate_pow k m : 2 ^ k * (2 * m + 1) < 2 ^ 64 ->
  N.land (2 ^ k * (2 * m + 1)) ((2 ^ 64 - 2 ^ k * (2 * m + 1)) mod 2 ^ 64) = 2 ^ k.
Proof.
  intros H. set (v := 2 ^ k * (2 * m + 1)) in *.
  assert (K : k < 64).
  { apply (N.pow_lt_mono_r_iff 2); [lia|]. unfold v in H. nia. }
  assert (P : 2 ^ 64 = 2 ^ k * 2 * 2 ^ (63 - k)).
  { rewrite <- N.mul_assoc. change 2 with (2 ^ 1) at 3. rewrite <- !N.pow_add_r. f_equal. lia. }
  assert (Hm : m < 2 ^ (63 - k)).
  { rewrite P in H. unfold v in H. assert (0 < 2 ^ k) by (apply N.neq_0_lt_0, N.pow_nonzero; lia). nia. }
  assert (V : 0 < v) by (unfold v; assert (0 < 2 ^ k) by (apply N.neq_0_lt_0, N.pow_nonzero; lia); nia).
  rewrite N.mod_small by lia.
  assert (E : 2 ^ 64 - v = 2 ^ k * (2 * (N.ones (63 - k) - m) + 1)).
  { unfold v. rewrite P. rewrite N.ones_equiv. assert (0 < 2 ^ k) by (apply N.neq_0_lt_0, N.pow_nonzero; lia). nia. }
  rewrite E. unfold v. rewrite land_pow, land_odd, land_compl by exact Hm. lia.
Qed.
Lemma count_zeros_pow k : k < 64 -> count_zeros (2 ^ k) = k.
Proof.
  intros H. assert (A : forallb (fun i => count_zeros (2 ^ N.of_nat i) =? N.of_nat i) (seq 0 64) = true) by (vm_compute; reflexivity).
  rewrite forallb_forall in A. specialize (A (N.to_nat k)). rewrite N2Nat.id in A. apply N.eqb_eq, A. apply in_seq. lia.
Qed.

(** index of the lowest set bit *)
Lemma lowest_bits k m : N.testbit (2 ^ k * (2 * m + 1)) k = true /\ forall i, i < k -> N.testbit (2 ^ k * (2 * m + 1)) i = false.
Proof.
  rewrite N.mul_comm, <- N.shiftl_mul_pow2. split.
  - rewrite N.shiftl_spec_high' by lia. rewrite N.sub_diag. apply N.testbit_odd_0.
  - intros i Hi. now apply N.shiftl_spec_low.
Qed.
Lemma isolate_low v : v < 2 ^ 64 -> v <> 0 -> exists k, k < 64 /\ N.testbit v k = true /\
  (forall i, i < k -> N.testbit v i = false) /\ N.land v ((2 ^ 64 - v) mod 2 ^ 64) = 2 ^ k.
Proof.
  intros H D. destruct (lowest v D) as (k & m & E). exists k. rewrite E in *. split.
  - apply (N.pow_lt_mono_r_iff 2); [lia|]. nia.
  - destruct (lowest_bits k m). split; auto. split; auto. now apply isolate_pow.
Qed.
Lemma first_one v : v < 2 ^ 64 -> v <> 2 ^ 63 ->
  (v = 0 /\ first_one_idx v = Some 64) \/
  exists k, first_one_idx v = Some k /\ k < 64 /\ N.testbit v k = true /\ forall i, i < k -> N.testbit v i = false.
Proof.
  intros H D. destruct (N.eq_dec v 0) as [->|NZ]; [left; split; [easy|reflexivity]|right].
  destruct (isolate_low v H NZ) as (k & K & B & L & E). exists k. unfold first_one_idx, isolate.
  apply N.eqb_neq in D. rewrite D, E. rewrite count_zeros_pow by easy. auto.
Qed.

(** ** Probing a chunk *)
Definition bits (m : N) : nat := length (filter (fun i => N.testbit m (N.of_nat i)) (seq 0 64)).

Lemma filter_le {A} (p q : A -> bool) l : (forall x, In x l -> p x = true -> q x = true) -> (length (filter p l) <= length (filter q l))%nat.
Proof.
  induction l as [|x l IH]; simpl; intros H; auto. assert (IH' := IH (fun y Hy => H y (or_intror Hy))).
  destruct (p x) eqn:E; [rewrite (H x (or_introl eq_refl) E); simpl; lia|destruct (q x); simpl; lia].
Qed.
Lemma filter_lt {A} (p q : A -> bool) l y : (forall x, In x l -> p x = true -> q x = true) ->
  In y l -> p y = false -> q y = true -> (length (filter p l) < length (filter q l))%nat.
Proof.
  induction l as [|x l IH]; simpl; intros H Hy P Q; [easy|].
  assert (H' : forall z, In z l -> p z = true -> q z = true) by auto.
  destruct Hy as [->|Hy].
  - rewrite P, Q. simpl. pose proof (filter_le p q l H'). lia.
  - pose proof (IH H' Hy P Q). destruct (p x) eqn:E; [rewrite (H x (or_introl eq_refl) E); simpl; lia|destruct (q x); simpl; lia].
Qed.
Lemma bits_clear m k : k < 64 -> N.testbit m k = true -> (bits (N.land m (not64 (shl64 1 k))) < bits m)%nat.
Proof.
  intros K H. unfold bits. apply (filter_lt _ _ _ (N.to_nat k)).
  - intros x Hx. rewrite N.land_spec. intros Q. now apply andb_true_iff in Q.
  - apply in_seq. lia.
  - rewrite N2Nat.id, N.land_spec, not64_spec, bit_spec, N.eqb_refl by easy. apply andb_false_r.
  - now rewrite N2Nat.id.
Qed.
Lemma bits_64 m : (bits m <= 64)%nat.
Proof. unfold bits. etransitivity; [|apply (le_n 64)]. rewrite <- (seq_length 64 0) at 2. 
  assert (G : forall l, (length (filter (fun i => N.testbit m (N.of_nat i)) l) <= length l)%nat).
  { induction l as [|x l IH]; simpl; auto. destruct (N.testbit m (N.of_nat x)); simpl; lia. }
  apply G. Qed.

  (** calls follow a read of their bit with the wanted value; [ok] says which
      indices may be asked for *)
  Fixpoint well (ok : N -> Prop) (expected : bool) (last : option (N * N)) (tr : list pev) : Prop :=
    match tr with
    | [] => True
    | ERead j w :: tr => well ok expected (Some (j, w)) tr
    | ECall i _ :: tr => ok i /\ (match last with
                         | Some (j, w) => j = i / 64 /\ N.testbit w (i mod 64) = expected
                         | None => False end) /\ well ok expected None tr
    end.
  Fixpoint lastr (l : option (N * N)) (tr : list pev) : option (N * N) :=
    match tr with [] => l | ERead j w :: tr => lastr (Some (j, w)) tr | ECall _ _ :: tr => lastr None tr end.
  Lemma well_app ok e tr1 : forall l tr2, well ok e l (tr1 ++ tr2) <-> well ok e l tr1 /\ well ok e (lastr l tr1) tr2.
  Proof. induction tr1 as [|[]tr1 IH]; intros l tr2; simpl; [tauto|apply IH|rewrite IH; tauto]. Qed.

Section Probe.
  Context {World T : Type}.
  Variable rd : N -> World -> N * World.
  Variable f : N -> World -> option T * World.

  (** [Inv w tr]: anything that holds of the world and the events so far *)
  Variable Inv : bool -> World -> list pev -> Prop.
  Hypothesis rd_inv : forall e j w tr, Inv e w tr -> fst (rd j w) < 2 ^ 64 /\ Inv e (snd (rd j w)) (tr ++ [ERead j (fst (rd j w))]).
  Hypothesis f_inv : forall e i w tr x, Inv e w tr -> lastr None tr = Some (i / 64, x) -> N.testbit x (i mod 64) = e ->
    Inv e (snd (f i w)) (tr ++ [ECall i (match fst (f i w) with Some _ => true | None => false end)]).

  (** what the search has found out about bit [i] *)
  Definition settled (expected : bool) (tr : list pev) (i : N) : Prop :=
    In (ECall i false) tr \/ exists w, In (ERead (i / 64) w) tr /\ N.testbit w (i mod 64) <> expected.
  Lemma settled_app e tr tr' i : settled e tr i -> settled e (tr ++ tr') i.
  Proof.
    intros [H|(w & H & Q)]; [left|right; exists w; split; auto]; apply in_app_iff; auto.
  Qed.

  Definition good (ok : N -> Prop) (e : bool) (tr : list pev) : Prop := well ok e None tr.

  (** one answer: what it means *)
  Definition meaning (e : bool) (todo : N -> Prop) (a : answer T) (tr : list pev) : Prop :=
    match a with
    | NotFound => (forall i, ~ In (ECall i true) tr) /\ forall i, todo i -> settled e tr i
    | Found x => exists tr' i w0, tr = tr' ++ [ECall i true] /\ fst (f i w0) = Some x /\ forall i, ~ In (ECall i true) tr'
    | Undefined => exists tr' j w, tr = tr' ++ [ERead j w] /\ N.testbit w 63 = e /\ (forall i, ~ In (ECall i true) tr')
    | Looping => False
    end.

  Lemma div_idx j k : k < 64 -> (j * len64 + k) / 64 = j /\ (j * len64 + k) mod 64 = k.
  Proof.
    intros H. unfold len64. rewrite N.add_comm. split.
    - rewrite N.div_add by lia. rewrite N.div_small by easy. lia.
    - rewrite N.mod_add by lia. now apply N.mod_small.
  Qed.

  Lemma probe_chunk_ok (ok : N -> Prop) e j fuel : forall mask w tr a w' tr',
    (bits mask < fuel)%nat -> mask < 2 ^ 64 ->
    (forall k, k < 64 -> N.testbit mask k = true -> ok (j * 64 + k)) ->
    good ok e tr -> (forall i, ~ In (ECall i true) tr) -> Inv e w tr ->
    probe_chunk rd f fuel j mask e w tr = (a, w', tr') ->
    good ok e tr' /\ Inv e w' tr' /\ (exists tr1, tr' = tr ++ tr1) /\
    meaning e (fun i => exists k, k < 64 /\ N.testbit mask k = true /\ i = j * 64 + k) a tr' /\
    (a = Undefined -> ok (j * 64 + 63)).
  Proof.
    induction fuel as [|fuel IH]; intros mask w tr a w' tr' B M O G NC IV H; [lia|].
    simpl in H. destruct (rd_inv e j w tr IV) as [X IV1]. destruct (rd j w) as [x w1] eqn:ER. simpl in X, IV1.
    set (field := if e then x else not64 x) in *.
    assert (F : field < 2 ^ 64) by (unfold field; destruct e; auto using not64_lt).
    assert (FB : forall k, k < 64 -> N.testbit field k = eqb (N.testbit x k) e).
    { intros k K. unfold field. destruct e; [|rewrite not64_spec by easy]; now destruct (N.testbit x k). }
    assert (G1 : good ok e (tr ++ [ERead j x])) by (apply well_app; split; simpl; auto).
    assert (NC1 : forall i, ~ In (ECall i true) (tr ++ [ERead j x])).
    { intros i Q. apply in_app_iff in Q as [Q|[Q|[]]]; [now apply NC in Q|discriminate]. }
    destruct (N.eqb_spec (N.land field mask) 0) as [Z|Z].
    - injection H as <- <- <-. split; auto. split; auto. split; [eauto|]. split; [|discriminate]. split; auto.
      intros i (k & K & Hk & ->). right. exists x. destruct (div_idx j k K) as [Dq Dm]. unfold len64 in *. rewrite Dq, Dm. split.
      + apply in_app_iff. right. now left.
      + intros Q. rewrite land_zero in Z. specialize (Z k). rewrite N.land_spec, Hk, (FB k K), Q, eqb_reflx in Z. discriminate.
    - set (v := N.land field mask) in *.
      assert (V : v < 2 ^ 64).
      { unfold v. apply N.log2_lt_pow2; [lia|]. pose proof (N.log2_land field mask). 
        destruct (N.eq_dec field 0) as [Q|Q]; [unfold v in Z; rewrite Q, N.land_0_l in Z; lia|].
        assert (N.log2 field < 64) by (apply N.log2_lt_pow2; lia). lia. }
      assert (VB : forall k, N.testbit v k = true -> k < 64 /\ N.testbit mask k = true /\ N.testbit x k = e).
      { intros k Q. assert (K : k < 64) by (assert (k < 64 \/ 64 <= k) as [?|?] by lia; auto; rewrite testbit_high in Q by auto; discriminate).
        unfold v in Q. rewrite N.land_spec, (FB k K) in Q. apply andb_true_iff in Q as [Q1 Q2]. apply eqb_prop in Q1. auto. }
      destruct (N.eq_dec v (2 ^ 63)) as [E63|N63].
      + assert (first_one_idx v = None) as E by (rewrite E63; reflexivity). rewrite E in H. injection H as <- <- <-.
        destruct (VB 63) as (_ & Q1 & Q2); [rewrite E63; reflexivity|].
        split; auto. split; auto. split; [eauto|]. split; [|intros _; apply O; [reflexivity|exact Q1]]. exists tr, j, x. auto.
      + destruct (first_one v V N63) as [[Q _]|(k & E & K & Bk & Lk)]; [lia|]. rewrite E in H.
        assert (KL : k <? len64 = true) by (now apply N.ltb_lt). rewrite KL in H.
        destruct (VB k Bk) as (_ & Mk & Xk). destruct (div_idx j k K) as [Dq Dm].
        destruct (f (j * len64 + k) w1) as [r w2] eqn:EF.
        assert (LR : forall l, lastr l (tr ++ [ERead j x]) = Some (j, x)) by (clear; induction tr as [|[] tr IH]; simpl; auto).
        assert (IV2 := f_inv e (j * len64 + k) w1 (tr ++ [ERead j x]) x IV1 ltac:(rewrite Dq; apply LR) ltac:(rewrite Dm; exact Xk)).
        rewrite EF in IV2. simpl in IV2.
        assert (G2 : forall b, good ok e ((tr ++ [ERead j x]) ++ [ECall (j * len64 + k) b])).
        { intros b. apply well_app. split; [exact G1|]. cbn [app well].
          rewrite LR. rewrite Dq, Dm. split; [unfold len64; now apply O|auto]. }
        destruct r as [y|].
        * injection H as <- <- <-. split; [apply G2|]. split; [exact IV2|]. split; [rewrite <- app_assoc; eauto|]. split; [|discriminate].
          exists (tr ++ [ERead j x]), (j * len64 + k), w1. rewrite EF. auto.
        * assert (M2 : N.land mask (not64 (shl64 1 k)) < 2 ^ 64).
          { destruct (N.eq_dec (N.land mask (not64 (shl64 1 k))) 0) as [->|Q]; [reflexivity|].
            apply N.log2_lt_pow2; [lia|]. pose proof (N.log2_land mask (not64 (shl64 1 k))).
            destruct (N.eq_dec mask 0) as [Q2|Q2]; [rewrite Q2, N.land_0_l in Q; lia|].
            assert (N.log2 mask < 64) by (apply N.log2_lt_pow2; lia). lia. }
          assert (B2 := bits_clear mask k K Mk).
          edestruct IH as (R1 & RI & (tr1 & R2) & R3 & R4); [| exact M2 | | apply (G2 false) | | exact IV2 | exact H |]; [lia| | |].
          { intros k' K' Q. apply O; auto. rewrite N.land_spec in Q. now apply andb_true_iff in Q. }
          { intros i Q. apply in_app_iff in Q as [Q|[Q|[]]]; [now apply NC1 in Q|discriminate]. }
          split; auto. split; auto. split; [exists ([ERead j x] ++ [ECall (j * len64 + k) false] ++ tr1); rewrite R2, !app_assoc; reflexivity|].
          split; [|exact R4]. destruct a; simpl in *; auto. destruct R3 as [R3 R5]. split; auto.
          intros i (k' & K' & Hk' & ->). destruct (N.eq_dec k' k) as [->|D].
          { left. rewrite R2. apply in_app_iff. left. apply in_app_iff. right. now left. }
          apply R5. exists k'. split; auto. split; auto. rewrite N.land_spec, Hk', not64_spec, bit_spec by easy.
          apply N.eqb_neq in D. now rewrite D.
  Qed.

  (** ** The whole search *)
  Lemma limit_lt size j m : m < 2 ^ 64 -> limit size j m < 2 ^ 64.
  Proof.
    intros H. unfold limit. destruct (_ && _); auto.
    destruct (N.eq_dec (N.land m (shl64 1 (size mod len64) - 1)) 0) as [->|Q]; [reflexivity|].
    apply N.log2_lt_pow2; [lia|]. pose proof (N.log2_land m (shl64 1 (size mod len64) - 1)).
    destruct (N.eq_dec m 0) as [Q2|Q2]; [rewrite Q2, N.land_0_l in Q; lia|].
    assert (N.log2 m < 64) by (apply N.log2_lt_pow2; lia). lia.
  Qed.
  Lemma shl_pow k : k < 64 -> shl64 1 k = 2 ^ k.
  Proof.
    intros H. apply N.bits_inj. intros i. rewrite bit_spec by easy. destruct (N.eqb_spec i k) as [->|D].
    - now rewrite N.pow2_bits_true.
    - now rewrite N.pow2_bits_false by auto.
  Qed.
  Lemma chunks size : 0 < size -> exists q r, size = 64 * q + r /\ 0 < r <= 64 /\ ceil_div size len64 = q + 1 /\
    (size mod 64 = if r =? 64 then 0 else r).
  Proof.
    intros H. exists ((size - 1) / 64), ((size - 1) mod 64 + 1). unfold ceil_div, len64.
    pose proof (N.div_mod (size - 1) 64 ltac:(lia)). pose proof (N.mod_lt (size - 1) 64 ltac:(lia)).
    set (q := (size - 1) / 64) in *. set (r := (size - 1) mod 64) in *. split; [lia|]. split; [lia|]. split.
    - replace (size + 64 - 1) with (r + (q + 1) * 64) by lia. rewrite N.div_add by lia. rewrite N.div_small by lia. lia.
    - replace size with (r + 1 + q * 64) by lia. rewrite N.mod_add by lia. destruct (N.eqb_spec (r + 1) 64) as [->|D]; [reflexivity|].
      apply N.mod_small. lia.
  Qed.
  (** masks select exactly the indices below the size *)
  Lemma limit_spec size j m k : 0 < size -> j < ceil_div size len64 -> k < 64 ->
    N.testbit (limit size j m) k = N.testbit m k && (j * 64 + k <? size).
  Proof.
    intros S J K. destruct (chunks size S) as (q & r & E & R & C & Mo). unfold limit. fold len64 in *. unfold len64 in *. rewrite C, Mo in *.
    destruct (N.eqb_spec j (q + 1 - 1)) as [->|D]; simpl.
    - destruct (N.eqb_spec r 64) as [->|Dr]; simpl.
      + assert ((q + 1 - 1) * 64 + k <? size = true) as -> by (apply N.ltb_lt; lia). now rewrite andb_true_r.
      + destruct (N.eqb_spec r 0); [lia|]. simpl. rewrite N.land_spec. f_equal.
        rewrite shl_pow by lia. replace (2 ^ r - 1) with (N.ones r) by (rewrite N.ones_equiv; lia).
        destruct (N.ltb_spec k r).
        * rewrite N.ones_spec_low by easy. symmetry. apply N.ltb_lt. lia.
        * rewrite N.ones_spec_high by easy. symmetry. apply N.ltb_ge. lia.
    - assert (j * 64 + k <? size = true) as -> by (apply N.ltb_lt; lia). now rewrite andb_true_r.
  Qed.

  Definition result_ok (size : N) (e : bool) (todo : N -> Prop) (r : answer T * World * list pev) : Prop :=
    let '(a, w, tr) := r in
    good (fun i => i < size) e tr /\ Inv e w tr /\ meaning e todo a tr /\ (a = Undefined -> 64 <= size).

  Lemma chunk_result size e j fuel mask w tr (todo : N -> Prop) :
    0 < size -> j < ceil_div size len64 -> (65 <= fuel)%nat -> mask < 2 ^ 64 ->
    (forall k, k < 64 -> N.testbit mask k = true -> j * 64 + k < size) ->
    good (fun i => i < size) e tr -> (forall i, ~ In (ECall i true) tr) -> Inv e w tr ->
    (forall i, todo i -> settled e tr i \/ exists k, k < 64 /\ N.testbit mask k = true /\ i = j * 64 + k) ->
    result_ok size e todo (probe_chunk rd f fuel j mask e w tr).
  Proof.
    intros S J Fu M O G NC IV Td. destruct (probe_chunk rd f fuel j mask e w tr) as [[a w'] tr'] eqn:E.
    pose proof (bits_64 mask).
    destruct (probe_chunk_ok (fun i => i < size) e j fuel mask w tr a w' tr' ltac:(lia) M O G NC IV E) as (A & IV1 & (tr1 & B) & C & D).
    split; auto. split; auto. split; [|intros Q; specialize (D Q); lia].
    destruct a; simpl in *; auto. destruct C as [C1 C2]. split; auto. intros i Hi. destruct (Td i Hi) as [Q|Q]; auto.
    rewrite B. now apply settled_app.
  Qed.

  Lemma rest_result size e sf fuel n : forall b w tr (todo : N -> Prop),
    0 < size -> (65 <= fuel)%nat ->
    good (fun i => i < size) e tr -> (forall i, ~ In (ECall i true) tr) -> Inv e w tr ->
    (forall i, todo i -> settled e tr i \/ (i < size /\ exists d, b <= d < b + N.of_nat n /\ i / 64 = (sf + d) mod ceil_div size len64)) ->
    result_ok size e todo (probe_rest rd f fuel n size sf b e w tr).
  Proof.
    induction n as [|n IH]; intros b w tr todo S Fu G NC IV Td.
    - simpl. split; auto. split; auto. split; [|discriminate]. split; auto. intros i Hi. destruct (Td i Hi) as [Q|(_ & d & Q & _)]; auto. lia.
    - cbn [probe_rest]. set (j := (sf + b) mod ceil_div size len64).
      assert (J : j < ceil_div size len64).
      { apply N.mod_lt. destruct (chunks size S) as (q & r & _ & _ & C & _). rewrite C. lia. }
      assert (L := chunk_result size e j fuel (limit size j ones64) w tr (fun i => i < size /\ i / 64 = j) S J Fu
                     (limit_lt size j ones64 eq_refl)).
      destruct (probe_chunk rd f fuel j (limit size j ones64) e w tr) as [[a w1] tr1] eqn:E.
      assert (EX : exists tr2, tr1 = tr ++ tr2).
      { pose proof (bits_64 (limit size j ones64)).
        eapply (probe_chunk_ok (fun i => i < size) e j fuel (limit size j ones64) w tr a w1 tr1); eauto; [lia|now apply limit_lt|].
        intros k K Q. rewrite limit_spec in Q by auto. apply andb_true_iff in Q as [_ Q]. now apply N.ltb_lt in Q. }
      destruct EX as (tr2 & EX).
      assert (R : result_ok size e (fun i => i < size /\ i / 64 = j) (a, w1, tr1)).
      { apply L; auto.
        - intros k K Q. rewrite limit_spec in Q by auto. apply andb_true_iff in Q as [_ Q]. now apply N.ltb_lt in Q.
        - intros i [Hi Hj]. right. exists (i mod 64). pose proof (N.mod_lt i 64 ltac:(lia)). split; auto.
          pose proof (N.div_mod i 64 ltac:(lia)). assert (Ei : i = j * 64 + i mod 64) by lia. split; auto.
          rewrite limit_spec by auto. rewrite ones64_spec. rewrite andb_true_iff. split; [now apply N.ltb_lt|]. apply N.ltb_lt. lia. }
      destruct R as (R1 & RI & R2 & R3). destruct a; try (split; [exact R1|split; [exact RI|split; [exact R2|exact R3]]]).
      destruct R2 as [R2 R4]. apply IH; auto. intros i Hi. destruct (Td i Hi) as [Q|(Q & d & D & Ed)].
      + left. rewrite EX. now apply settled_app.
      + destruct (N.eq_dec d b) as [->|Db]; [left; apply R4; auto|]. right. split; auto. exists d. split; auto. lia.
  Qed.

  Theorem probe_ok fuel size start e ex w : Inv e w [] -> start < size -> (65 <= fuel)%nat ->
    result_ok size e (fun i => i < size) (probe rd f fuel size start e ex w).
  Proof.
    intros IV0 St Fu. assert (S : 0 < size) by lia. destruct (chunks size S) as (q & r & Es & R & C & Mo).
    set (sf := start / len64). set (off := start mod len64).
    assert (Est : start = sf * 64 + off) by (unfold sf, off, len64; pose proof (N.div_mod start 64 ltac:(lia)); lia).
    assert (Off : off < 64) by (apply N.mod_lt; unfold len64; lia).
    assert (J : sf < ceil_div size len64) by (rewrite C; lia).
    unfold probe. fold sf off.
    set (m2 := if ex then _ else _).
    assert (FM : forall k, k < 64 -> N.testbit (shl64 ones64 off) k = (off <=? k)).
    { intros k K. rewrite shl64_spec, ones64_spec. apply N.ltb_lt in K. rewrite K. destruct (off <=? k) eqn:Q; simpl; auto.
      apply N.ltb_lt. apply N.ltb_lt in K. lia. }
    assert (FL : shl64 ones64 off < 2 ^ 64).
    { unfold shl64. destruct (N.eq_dec (N.land (N.shiftl ones64 off) ones64) 0) as [->|Q]; [reflexivity|].
      apply N.log2_lt_pow2; [lia|]. pose proof (N.log2_land (N.shiftl ones64 off) ones64).
      assert (N.log2 ones64 = 63) as HL by reflexivity. rewrite HL in H. lia. }
    assert (M2 : m2 < 2 ^ 64).
    { unfold m2. assert (limit size sf (not64 (shl64 ones64 off)) < 2 ^ 64) by (apply limit_lt, not64_lt, FL).
      destruct ex; auto. set (a := limit _ _ _) in *. set (b := not64 (shl64 1 off)).
      destruct (N.eq_dec (N.land a b) 0) as [->|Q]; [reflexivity|].
      apply N.log2_lt_pow2; [lia|]. pose proof (N.log2_land a b).
      destruct (N.eq_dec a 0) as [Q2|Q2]; [rewrite Q2, N.land_0_l in Q; lia|].
      assert (N.log2 a < 64) by (apply N.log2_lt_pow2; lia). lia. }
    assert (B2 : forall k, k < 64 -> N.testbit m2 k = (k <? off) && (sf * 64 + k <? size)).
    { intros k K. unfold m2. assert (Q : N.testbit (limit size sf (not64 (shl64 ones64 off))) k = (k <? off) && (sf * 64 + k <? size)).
      { rewrite limit_spec by auto. rewrite not64_spec, FM by easy. f_equal. destruct (N.leb_spec off k), (N.ltb_spec k off); simpl; auto; lia. }
      destruct ex; auto. rewrite N.land_spec, Q, not64_spec, bit_spec by easy. destruct (N.eqb_spec k off) as [->|D]; simpl.
      - rewrite N.ltb_irrefl. reflexivity.
      - now rewrite andb_true_r. }
    assert (R1 : result_ok size e (fun i => i / 64 = sf /\ i < start) (probe_chunk rd f fuel sf m2 e w [])).
    { apply chunk_result; auto.
      - intros k K Q. rewrite B2 in Q by easy. apply andb_true_iff in Q as [_ Q]. now apply N.ltb_lt in Q.
      - simpl. exact I.
      - intros i [Hi Hs]. right. exists (i mod 64). pose proof (N.mod_lt i 64 ltac:(lia)). pose proof (N.div_mod i 64 ltac:(lia)).
        split; auto. assert (Ei : i = sf * 64 + i mod 64) by lia. split; auto. rewrite B2 by easy.
        apply andb_true_iff. split; apply N.ltb_lt; lia. }
    destruct (probe_chunk rd f fuel sf m2 e w []) as [[a1 w1] tr1] eqn:E1.
    destruct R1 as (G1 & IV1 & Me1 & U1). destruct a1; try (split; [exact G1|split; [exact IV1|split; [exact Me1|exact U1]]]).
    destruct Me1 as [NC1 Me1].
    assert (BF : forall k, k < 64 -> N.testbit (limit size sf (shl64 ones64 off)) k = (off <=? k) && (sf * 64 + k <? size)).
    { intros k K. rewrite limit_spec by auto. now rewrite FM. }
    assert (R2 : result_ok size e (fun i => i / 64 = sf /\ i < size) (probe_chunk rd f fuel sf (limit size sf (shl64 ones64 off)) e w1 tr1)).
    { apply chunk_result; auto.
      - apply limit_lt, FL.
      - intros k K Q. rewrite BF in Q by easy. apply andb_true_iff in Q as [_ Q]. now apply N.ltb_lt in Q.
      - intros i [Hi Hs]. assert (i < start \/ start <= i) as [Q|Q] by lia; [left; auto|].
        right. exists (i mod 64). pose proof (N.mod_lt i 64 ltac:(lia)). pose proof (N.div_mod i 64 ltac:(lia)).
        split; auto. assert (Ei : i = sf * 64 + i mod 64) by lia. split; auto. rewrite BF by easy.
        apply andb_true_iff. split; [apply N.leb_le|apply N.ltb_lt]; lia. }
    destruct (probe_chunk rd f fuel sf (limit size sf (shl64 ones64 off)) e w1 tr1) as [[a2 w2] tr2] eqn:E2.
    destruct R2 as (G2 & IV2 & Me2 & U2). destruct a2; try (split; [exact G2|split; [exact IV2|split; [exact Me2|exact U2]]]).
    destruct Me2 as [NC2 Me2]. apply rest_result; auto.
    intros i Hi. destruct (N.eq_dec (i / 64) sf) as [Q|Q]; [left; auto|]. right. split; auto.
    set (n := ceil_div size len64) in *. assert (Hn : i / 64 < n).
    { cbv beta in Hi. rewrite C. pose proof (N.div_mod i 64 ltac:(lia)). pose proof (N.mod_lt i 64 ltac:(lia)). set (d := i / 64) in *. set (mm := i mod 64) in *. clearbody d mm. clear - Hi Es R H H0. lia. }
    rewrite N2Nat.id.
    set (c := i / 64) in *. clearbody c sf n. assert (N0 : n <> 0) by lia.
    exists (if c <? sf then c + n - sf else c - sf). destruct (N.ltb_spec c sf).
    - split; [lia|]. replace (sf + (c + n - sf)) with (c + 1 * n) by lia. rewrite N.mod_add by exact N0. symmetry. now apply N.mod_small.
    - split; [lia|]. replace (sf + (c - sf)) with c by lia. symmetry. now apply N.mod_small.
  Qed.
End Probe.

(** ** Single bits *)
Lemma bf_get_spec i s : bf_get i s = N.testbit (s (i / 64)) (i mod 64).
Proof.
  unfold bf_get, len64. assert (K : i mod 64 < 64) by (apply N.mod_lt; lia). generalize dependent (i mod 64). intros k K.
  generalize (s (i / 64)). intros x. destruct (N.testbit x k) eqn:E.
  - destruct (N.eqb_spec (N.land x (shl64 1 k)) 0) as [Z|]; auto. rewrite land_zero in Z. specialize (Z k).
    rewrite N.land_spec, E, bit_spec, N.eqb_refl in Z by easy. discriminate.
  - assert (N.land x (shl64 1 k) = 0) as ->; auto. apply land_zero. intros i'. rewrite N.land_spec, bit_spec by easy.
    destruct (N.eqb_spec i' k) as [->|]; [now rewrite E|apply andb_false_r].
Qed.
Lemma low32_spec x k : N.testbit (low32 x) k = (k <? 32) && N.testbit x k.
Proof.
  unfold low32. rewrite N.land_spec, andb_comm. f_equal. destruct (N.ltb_spec k 32).
  - now apply N.ones_spec_low.
  - now apply N.ones_spec_high.
Qed.
Lemma bf_set_old i v s : fst (bf_set i v s) = (i mod 64 <? 32) && bf_get i s.
Proof.
  rewrite bf_get_spec. unfold bf_set, len64. simpl. assert (K : i mod 64 < 64) by (apply N.mod_lt; lia).
  assert (Q := bf_get_spec i (fun _ => low32 (s (i / 64)))). unfold bf_get, len64 in Q. rewrite Q. apply low32_spec.
Qed.
Lemma idx_inj i i' : i / 64 = i' / 64 -> i mod 64 = i' mod 64 -> i = i'.
Proof. intros A B. rewrite (N.div_mod i 64), (N.div_mod i' 64) by lia. now rewrite A, B. Qed.
Lemma bf_set_new i v s i' : bf_get i' (snd (bf_set i v s)) = if i' =? i then v else bf_get i' s.
Proof.
  rewrite !bf_get_spec. unfold bf_set, wput, len64. cbn [snd].
  assert (K : i mod 64 < 64) by (apply N.mod_lt; lia). assert (K' : i' mod 64 < 64) by (apply N.mod_lt; lia).
  destruct (N.eqb_spec (i' / 64) (i / 64)) as [E|D].
  - rewrite E. destruct v.
    + rewrite N.lor_spec, bit_spec by easy. destruct (N.eqb_spec i' i) as [->|D]; [rewrite N.eqb_refl; apply orb_true_r|].
      destruct (N.eqb_spec (i' mod 64) (i mod 64)); [|apply orb_false_r]. now contradiction D; apply idx_inj.
    + rewrite N.land_spec, not64_spec, bit_spec by easy. destruct (N.eqb_spec i' i) as [->|D]; [rewrite N.eqb_refl; apply andb_false_r|].
      destruct (N.eqb_spec (i' mod 64) (i mod 64)); [|apply andb_true_r]. now contradiction D; apply idx_inj.
  - destruct (N.eqb_spec i' i) as [->|]; [now contradiction D|reflexivity].
Qed.

Definition wordsized (s : words) : Prop := forall j, s j < 2 ^ 64.
Lemma wordsized_set i v s : wordsized s -> wordsized (snd (bf_set i v s)).
Proof.
  intros H j. unfold bf_set, wput, len64. cbn [snd]. destruct (j =? i / 64); [|apply H].
  assert (K : i mod 64 < 64) by (apply N.mod_lt; lia). assert (X := H (i / 64)). 
  set (y := if v then _ else _). destruct (N.eq_dec y 0) as [->|D]; [reflexivity|]. apply N.log2_lt_pow2; [lia|].
  assert (N.log2 y < 64 \/ 64 <= N.log2 y) as [Q|Q] by lia; auto. assert (B := N.bit_log2 _ D). unfold y in B at 1. destruct v.
  - rewrite N.lor_spec, testbit_high, bit_spec in B by auto. apply N.eqb_eq in B. lia.
  - rewrite N.land_spec, testbit_high in B by auto. discriminate.
Qed.

(** ** Claiming a free worker, other threads silent *)
Definition ff_inv (s0 : words) (e : bool) (s : words) (tr : list pev) : Prop :=
  e = true /\ wordsized s /\
  (forall i, bf_get i s = bf_get i s0 && negb (existsb (fun ev => match ev with ECall i' _ => i' =? i | _ => false end) tr)) /\
  (forall j x, lastr None tr = Some (j, x) -> x = s j) /\
  (forall i b, In (ECall i b) tr -> bf_get i s0 = true /\ b = (i mod 64 <? 32)) /\
  (forall j x i, In (ERead j x) tr -> i / 64 = j -> N.testbit x (i mod 64) = false ->
      bf_get i s0 = false \/ exists b, In (ECall i b) tr).

Lemma called_true tr i : existsb (fun ev => match ev with ECall i' _ => i' =? i | _ => false end) tr = true <-> exists b, In (ECall i b) tr.
Proof.
  rewrite existsb_exists. split.
  - intros ([|i' b] & H & Q); [discriminate|]. apply N.eqb_eq in Q as ->. eauto.
  - intros (b & H). exists (ECall i b). split; auto. apply N.eqb_refl.
Qed.
Lemma lastr_snoc_read tr : forall l j x, lastr l (tr ++ [ERead j x]) = Some (j, x).
Proof. induction tr as [|[] tr IH]; simpl; auto. Qed.
Lemma lastr_snoc_call tr : forall l i b, lastr l (tr ++ [ECall i b]) = None.
Proof. induction tr as [|[] tr IH]; simpl; auto. Qed.

Lemma find_free_ok size start s0 : wordsized s0 -> start < size ->
  result_ok (T:=N) (fun idx s => let '(ok, s') := set_worker_state idx false s in (if ok then Some idx else None, s')) (ff_inv s0) size true (fun i => i < size) (find_free_worker size start s0).
Proof.
  intros W St. unfold find_free_worker. apply probe_ok; auto.
  - intros e j s tr (E & Ws & G & L & C & R). simpl. split; [apply Ws|]. unfold ff_inv. split; auto. split; auto. split; [|split; [|split]].
    + intros i. rewrite existsb_app. simpl. now rewrite orb_false_r.
    + intros j' x Q. rewrite lastr_snoc_read in Q. now injection Q as <- <-.
    + intros i b Q. apply in_app_iff in Q as [Q|[Q|[]]]; [auto|discriminate].
    + intros j' x i Q. apply in_app_iff in Q as [Q|[Q|[]]].
      * intros Ei X. destruct (R _ _ _ Q Ei X) as [?|(b & ?)]; auto. right. exists b. apply in_app_iff. auto.
      * injection Q as <- <-. intros Ei X. rewrite <- Ei in X. rewrite <- bf_get_spec, G in X. apply andb_false_iff in X as [X|X]; auto.
        right. apply negb_false_iff, called_true in X as (b & X). exists b. apply in_app_iff. auto.
  - intros e i s tr x (E & Ws & G & L & C & R) LR X. unfold set_worker_state.
    assert (Q1 := bf_set_old i false s). assert (Q2 := bf_set_new i false s). assert (Q3 := wordsized_set i false s Ws).
    destruct (bf_set i false s) as [old s'] eqn:Es. cbn [fst snd] in *.
    assert (GI : bf_get i s = true) by (rewrite bf_get_spec, <- (L _ _ LR), X; exact E).
    rewrite GI, andb_true_r in Q1. rewrite xorb_false_r.
    assert (G0 : bf_get i s0 = true) by (rewrite G in GI; now apply andb_true_iff in GI).
    assert (B : (match (if old then Some i else None) with Some _ => true | None => false end) = (i mod 64 <? 32)).
    { rewrite <- Q1. now destruct old. }
    unfold ff_inv. rewrite B. split; auto. split; auto. split; [|split; [|split]].
    + intros i'. rewrite Q2, existsb_app. simpl. rewrite orb_false_r, (N.eqb_sym i i'). destruct (i' =? i) eqn:D.
      * rewrite orb_true_r. symmetry. apply andb_false_r.
      * rewrite orb_false_r. apply G.
    + intros j y Q. rewrite lastr_snoc_call in Q. discriminate.
    + intros i' b Q. apply in_app_iff in Q as [Q|[Q|[]]]; [auto|]. injection Q as <- <-. auto.
    + intros j y i' Q Ei Y. apply in_app_iff in Q as [Q|[Q|[]]]; [|discriminate].
      destruct (R _ _ _ Q Ei Y) as [?|(b & ?)]; auto. right. exists b. apply in_app_iff. auto.
  - unfold ff_inv. split; auto. split; auto. split; [|split; [|split]]; simpl; try easy.
    intros i. now rewrite andb_true_r.
Qed.
