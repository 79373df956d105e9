(** Placement, tag matching, MPI request pool, identifiers, task spaces: proofs. *)
From Coq Require Import Bool List Arith NArith Lia Permutation.
From Verif Require Import MiscModel.
Import ListNotations.
Open Scope N_scope.

(** ** Placement *)
Lemma placements_nth : forall size k next i, 0 < size -> next + N.of_nat k <= u32 -> (i < k)%nat ->
  nth_error (placements size next k) i = Some ((next + N.of_nat i) mod size).
Proof.
  intros size k. induction k as [|k IH]; intros next i Hs Hb Hi; [lia|]. simpl. unfold emplace_place.
  destruct (N.eqb_spec size 0); [lia|]. destruct i as [|i].
  - simpl. do 2 f_equal. lia.
  - destruct k as [|k']; [lia|]. assert (Hn : (next + 1) mod u32 = next + 1) by (apply N.mod_small; lia).
    rewrite Hn. cbn [nth_error]. rewrite IH by lia. do 2 f_equal. lia.
Qed.
Lemma placements_length : forall size k next, 0 < size -> length (placements size next k) = k.
Proof.
  intros size k. induction k as [|k IH]; intros next Hs; [reflexivity|]. simpl. unfold emplace_place.
  destruct (N.eqb_spec size 0); [lia|]. simpl. now rewrite IH.
Qed.
Lemma placements_range : forall size k next w, In w (placements size next k) -> w < size.
Proof.
  intros size k. induction k as [|k IH]; intros next w H; [easy|]. simpl in H. unfold emplace_place in H.
  destruct (N.eqb_spec size 0); [easy|]. destruct H as [<-|H]; [apply N.mod_lt; assumption|eauto].
Qed.
Lemma mod_inj : forall size a b, 0 < size -> a <= b -> b < a + size -> a mod size = b mod size -> a = b.
Proof.
  intros size a b Hs L U E. assert (A := N.div_mod a size ltac:(lia)). assert (B := N.div_mod b size ltac:(lia)).
  rewrite E in A. set (p := a / size) in *. set (q := b / size) in *. set (m := b mod size) in *. clearbody p q m.
  assert (p = q) by nia. nia.
Qed.
Lemma placements_nodup : forall size k next, 0 < size -> N.of_nat k <= size -> next + N.of_nat k <= u32 ->
  NoDup (placements size next k).
Proof.
  intros size k next Hs Hk Hb. apply NoDup_nth_error. rewrite placements_length by assumption. intros i j Hi E.
  destruct (lt_dec j k) as [Hj|Hj].
  - rewrite !placements_nth in E by lia. injection E as E.
    destruct (le_lt_dec i j).
    + apply mod_inj in E; lia.
    + symmetry in E. apply mod_inj in E; lia.
  - assert (X : nth_error (placements size next k) j = None) by (apply nth_error_None; rewrite placements_length; lia).
    rewrite X, placements_nth in E by lia. discriminate.
Qed.
Lemma placements_app : forall size j k next, 0 < size -> next + N.of_nat (j + k) <= u32 ->
  placements size next (j + k) = placements size next j ++ placements size (next + N.of_nat j) k.
Proof.
  intros size j. induction j as [|j IH]; intros k next Hs Hb.
  - simpl. f_equal. lia.
  - simpl plus. cbn [placements]. unfold emplace_place. destruct (N.eqb_spec size 0); [lia|]. cbn [app]. f_equal.
    destruct (Nat.eq_dec (j + k) 0) as [Z|Z].
    { replace j with 0%nat by lia. replace k with 0%nat by lia. reflexivity. }
    rewrite (N.mod_small (next + 1)) by lia. rewrite IH by lia. do 2 f_equal. lia.
Qed.

(** how often [w] occurs *)
Definition occ (w : N) (l : list N) : nat := count_occ N.eq_dec l w.
Lemma occ_app : forall w l m, occ w (l ++ m) = (occ w l + occ w m)%nat.
Proof. intros. apply count_occ_app. Qed.
Definition workers (size : N) : list N := map N.of_nat (seq 0 (N.to_nat size)).
Lemma in_workers : forall size w, In w (workers size) <-> w < size.
Proof.
  intros. unfold workers. rewrite in_map_iff. split.
  - intros (x & <- & H). apply in_seq in H. lia.
  - intros H. exists (N.to_nat w). split; [lia|]. apply in_seq. lia.
Qed.
Lemma placements_cycle : forall size next, 0 < size -> next + size <= u32 ->
  Permutation (placements size next (N.to_nat size)) (workers size).
Proof.
  intros size next Hs Hb. apply NoDup_Permutation_bis.
  - apply placements_nodup; lia.
  - unfold workers. rewrite map_length, seq_length, placements_length; lia.
  - intros w H. apply in_workers. eapply placements_range. exact H.
Qed.
Lemma workers_occ : forall size w, w < size -> occ w (workers size) = 1%nat.
Proof.
  intros size w H. apply NoDup_count_occ'.
  - unfold workers. apply FinFun.Injective_map_NoDup; [intros a b; lia|apply seq_NoDup].
  - now apply in_workers.
Qed.
Lemma placements_cycles : forall size w q next, 0 < size -> w < size -> next + N.of_nat q * size <= u32 ->
  occ w (placements size next (q * N.to_nat size)) = q.
Proof.
  intros size w q. induction q as [|q IH]; intros next Hs Hw Hb; [reflexivity|].
  cbn [Nat.mul]. rewrite placements_app by lia. rewrite occ_app, IH by lia.
  assert (P := placements_cycle size next Hs ltac:(lia)). rewrite (Permutation_count_occ N.eq_dec) in P.
  unfold occ at 1. rewrite P. change (count_occ N.eq_dec (workers size) w) with (occ w (workers size)). rewrite workers_occ; lia.
Qed.
Lemma placements_fair : forall size w k next, 0 < size -> w < size -> next + N.of_nat k <= u32 ->
  (k / N.to_nat size <= occ w (placements size next k) <= S (k / N.to_nat size))%nat.
Proof.
  intros size w k next Hs Hw Hb. set (n := N.to_nat size). assert (n <> 0)%nat by lia.
  assert (E := Nat.div_mod k n ltac:(assumption)). assert (R := Nat.mod_upper_bound k n ltac:(assumption)).
  set (q := (k / n)%nat) in *. set (r := (k mod n)%nat) in *. clearbody q r.
  assert (Ek : N.of_nat k = N.of_nat q * size + N.of_nat r) by (unfold n in E; rewrite E, Nat2N.inj_add, Nat2N.inj_mul, N2Nat.id; lia).
  replace k with (q * n + r)%nat by lia. rewrite placements_app by lia. rewrite occ_app.
  assert (C : occ w (placements size next (q * n)) = q) by (apply placements_cycles; assumption || lia).
  assert (D : NoDup (placements size (next + N.of_nat (q * n)) r)) by (apply placements_nodup; lia).
  rewrite (NoDup_count_occ N.eq_dec) in D. specialize (D w). unfold occ in *. lia.
Qed.

(** ** Tags *)
Definition has (b t : N) : Prop := N.testbit b t = true.
Lemma mk_tags_ok : forall l b, mk_tags l = Some b -> forall t, has b t <-> In t l.
Proof.
  unfold has. induction l as [|x l IH]; intros b H t; simpl in H.
  - injection H as <-. rewrite N.bits_0. easy.
  - destruct (mk_tags l) as [b'|]; [|easy]. destruct (x <? 64); [|easy]. injection H as <-.
    simpl. rewrite <- (IH b' eq_refl). rewrite N.setbit_iff. tauto.
Qed.
Lemma mk_tags_defined : forall l, (exists b, mk_tags l = Some b) <-> forall t, In t l -> t < 64.
Proof.
  induction l as [|x l IH]; simpl; [split; [easy|eauto]|]. destruct (mk_tags l) as [b|].
  - destruct (N.ltb_spec x 64).
    + split; [|eauto]. intros _ t [<-|H1]; [assumption|]. apply IH; eauto.
    + split; [now intros [b' H1]|]. intros H1. specialize (H1 x (or_introl eq_refl)). lia.
  - split; [now intros [b' H1]|]. intros H1. exfalso. destruct IH as [_ IH]. destruct IH as [b' E]; [auto|easy].
Qed.
Lemma supports_iff : forall b r, (N.land b r =? r) = true <-> forall t, has r t -> has b t.
Proof.
  unfold has. intros b r. rewrite N.eqb_eq. split.
  - intros E t H. rewrite <- E, N.land_spec in H. now apply andb_true_iff in H.
  - intros H. apply N.bits_inj. intros t. rewrite N.land_spec. specialize (H t). destruct (N.testbit r t).
    + now rewrite H.
    + apply andb_false_r.
Qed.
Lemma get_matching_some : forall S (subs : list (N * S)) r s,
  get_matching subs r = Some s <->
  exists i b, nth_error subs i = Some (b, s) /\ (forall t, has r t -> has b t) /\
              forall j b' s', (j < i)%nat -> nth_error subs j = Some (b', s') -> ~ (forall t, has r t -> has b' t).
Proof.
  intros S subs r s. induction subs as [|[b s0] subs IH]; simpl.
  - split; [easy|]. now intros ([|i] & b & H & _).
  - destruct (N.land b r =? r) eqn:E.
    + rewrite supports_iff in E. split.
      * intros [= <-]. exists 0%nat, b. split; [reflexivity|split; [assumption|lia]].
      * intros ([|i] & b' & H & H1 & H2); [simpl in H; congruence|]. exfalso. exact (H2 0%nat b s0 ltac:(lia) eq_refl E).
    + rewrite IH. assert (E' : ~ forall t, has r t -> has b t) by (rewrite <- supports_iff; congruence). split.
      * intros (i & b' & H & H1 & H2). exists (Datatypes.S i), b'. split; [assumption|split; [assumption|]].
        intros [|j] b1 s1 Hj H3; [cbn in H3; injection H3 as <- _; exact E'|]. apply (H2 j b1 s1); [lia|assumption].
      * intros ([|i] & b' & H & H1 & H2); [simpl in H; injection H as <- <-; contradiction|].
        exists i, b'. split; [assumption|split; [assumption|]]. intros j b1 s1 Hj H3. apply (H2 (Datatypes.S j) b1 s1); [lia|assumption].
Qed.
Lemma get_matching_none : forall S (subs : list (N * S)) r,
  get_matching subs r = None <-> forall b s, In (b, s) subs -> ~ (forall t, has r t -> has b t).
Proof.
  intros S subs r. induction subs as [|[b s0] subs IH]; simpl; [easy|].
  destruct (N.land b r =? r) eqn:E.
  - rewrite supports_iff in E. split; [easy|]. intros H. exfalso. exact (H b s0 (or_introl eq_refl) E).
  - rewrite IH. split.
    + intros H b' s' [[= <- <-]|H1]; [|eauto]. rewrite <- supports_iff. congruence.
    + intros H b' s' H1. apply (H b' s'). now right.
Qed.

(** ** MPI request pool *)
Definition shift (idx j : nat) : nat := if (idx <? j)%nat then (j - 1)%nat else j.
Lemma erase_nth : forall A (l : list A) i j, i <> j -> nth_error (erase l i) (shift i j) = nth_error l j.
Proof.
  unfold shift. induction l as [|x l IH]; intros i j H; cbn [erase].
  - transitivity (@None A); [|symmetry]; apply nth_error_None; simpl; lia.
  - destruct i as [|i].
    + destruct j as [|j]; [easy|]. simpl. now rewrite Nat.sub_0_r.
    + destruct j as [|j]; [reflexivity|]. specialize (IH i j ltac:(lia)).
      change (S i <? S j)%nat with (i <? j)%nat. destruct (i <? j)%nat eqn:E.
      * apply Nat.ltb_lt in E. replace (S j - 1)%nat with (S (j - 1)) by lia. exact IH.
      * exact IH.
Qed.
Lemma erase_map : forall A B (f : A -> B) l i, erase (map f l) i = map f (erase l i).
Proof. induction l as [|x l IH]; intros [|i]; simpl; try easy. now rewrite IH. Qed.
Lemma erase_length : forall A (l : list A) i, (i < length l)%nat -> length (erase l i) = pred (length l).
Proof.
  induction l as [|x l IH]; intros [|i] H; simpl in *; try lia. rewrite IH by lia. lia.
Qed.

(** elements whose position satisfies [f], positions counted from [k] *)
Fixpoint keep {A} (f : nat -> bool) (k : nat) (l : list A) : list A :=
  match l with
  | [] => []
  | x :: l => if f k then x :: keep f (S k) l else keep f (S k) l
  end.
Definition outside (out : list (nat * N)) (j : nat) : bool := negb (existsb (Nat.eqb j) (map fst out)).
Lemma keep_ext : forall A (f g : nat -> bool) (l : list A) k, (forall j, (k <= j)%nat -> f j = g j) -> keep f k l = keep g k l.
Proof.
  induction l as [|x l IH]; intros k H; [reflexivity|]. simpl. rewrite (H k) by lia.
  rewrite (IH (S k)); [reflexivity|]. intros. apply H. lia.
Qed.
Lemma keep_shift : forall A f (l : list A) k m, keep f (k + m) l = keep (fun j => f (j + m)%nat) k l.
Proof.
  induction l as [|x l IH]; intros k m; [reflexivity|]. cbn [keep]. change (S (k + m)) with (S k + m)%nat. rewrite (IH (S k) m). reflexivity.
Qed.
Lemma keep_erase : forall A (l : list A) i f k, f (k + i)%nat = false ->
  keep (fun j => f (if (k + i <=? j)%nat then S j else j)) k (erase l i) = keep f k l.
Proof.
  induction l as [|x l IH]; intros i f k H; [reflexivity|]. destruct i as [|i]; simpl erase.
  - simpl. rewrite Nat.add_0_r in *. rewrite H. replace (S k) with (k + 1)%nat by lia. rewrite keep_shift.
    apply keep_ext. intros j Hj. apply Nat.leb_le in Hj. rewrite Hj. f_equal. lia.
  - cbn [keep]. replace (k + S i <=? k)%nat with false by (symmetry; apply Nat.leb_gt; lia).
    rewrite <- (IH i f (S k)) by (rewrite <- H; f_equal; lia).
    assert (E : forall m, keep (fun j => f (if (k + S i <=? j)%nat then S j else j)) m (erase l i) =
                          keep (fun j => f (if (S k + i <=? j)%nat then S j else j)) m (erase l i)).
    { intros m. apply keep_ext. intros j _. replace (k + S i)%nat with (S k + i)%nat by lia. reflexivity. }
    now rewrite E.
Qed.
Lemma keep_true : forall A (l : list A) k, keep (fun _ => true) k l = l.
Proof. induction l as [|x l IH]; intros; simpl; [reflexivity|now rewrite IH]. Qed.

(** the pool of the pending triples [l] *)
Definition pool_of (l : list (N * N * N)) (w : list (N * N)) (n : list N) : mpool :=
  mkPool (map (fun t => fst (fst t)) l) (map (fun t => snd (fst t)) l) (map snd l) w n.
Definition valid (out : list (nat * N)) (n : nat) : Prop :=
  NoDup (map fst out) /\ forall j s, In (j, s) out -> (j < n)%nat.
(** what is reported for the triples at the given positions *)
Fixpoint reported (l : list (N * N * N)) (out : list (nat * N)) : list (N * N * N * N) :=
  match out with
  | [] => []
  | (j, s) :: out => match nth_error l j with Some t => (t, s) :: reported l out | None => reported l out end
  end.
Definition shift_out (i : nat) (out : list (nat * N)) : list (nat * N) := map (fun '(j, s) => (shift i j, s)) out.
Lemma shift_out_eq : forall i out,
  map (fun '(j, s) => (if i <? j then j - 1 else j, s)%nat) out = shift_out i out.
Proof. reflexivity. Qed.
Lemma shift_inj : forall i j k, i <> j -> i <> k -> shift i j = shift i k -> j = k.
Proof. unfold shift. intros i j k H1 H2. destruct (Nat.ltb_spec i j), (Nat.ltb_spec i k); lia. Qed.
Lemma shift_out_fst : forall i out, map fst (shift_out i out) = map (shift i) (map fst out).
Proof. intros. unfold shift_out. rewrite !map_map. apply map_ext. now intros [j s]. Qed.
Lemma valid_shift : forall i s out n, valid ((i, s) :: out) n -> valid (shift_out i out) (pred n).
Proof.
  intros i s out n [D V]. simpl in D. inversion D as [|? ? D1 D2]; subst. split.
  - rewrite shift_out_fst. clear V D. induction (map fst out) as [|j l IH]; simpl; [constructor|].
    inversion D2; subst. constructor.
    + intros H. apply in_map_iff in H. destruct H as (k & E & H). apply shift_inj in E.
      * now subst.
      * intros <-. apply D1. now right.
      * intros <-. apply D1. now left.
    + apply IH; [|assumption]. intros H. apply D1. now right.
  - intros j s1 H. unfold shift_out in H. apply in_map_iff in H. destruct H as ([k s2] & [= <- <-] & H).
    assert (V1 := V k s2 (or_intror H)). assert (V2 := V i s (or_introl eq_refl)).
    assert (i <> k) by (intros ->; apply D1; now apply (in_map fst) in H).
    unfold shift. destruct (Nat.ltb_spec i k); lia.
Qed.
Lemma reported_shift : forall l i out, ~ In i (map fst out) -> reported (erase l i) (shift_out i out) = reported l out.
Proof.
  intros l i out. induction out as [|[j s] out IH]; intros H; [reflexivity|]. simpl in *.
  rewrite erase_nth by (intros ->; tauto). rewrite IH by tauto. reflexivity.
Qed.
Lemma outside_shift : forall i s out j, ~ In i (map fst out) ->
  outside (shift_out i out) j = outside ((i, s) :: out) (if (i <=? j)%nat then S j else j).
Proof.
  intros i s out j H. unfold outside. rewrite shift_out_fst. cbn [map fst existsb]. 
  replace ((if (i <=? j)%nat then S j else j) =? i)%nat with false.
  2: { symmetry. apply Nat.eqb_neq. destruct (Nat.leb_spec i j); lia. }
  simpl orb. f_equal. induction (map fst out) as [|k l IH]; [reflexivity|]. simpl in *. rewrite IH by tauto.
  f_equal. unfold shift. destruct (Nat.leb_spec i j), (Nat.ltb_spec i k);
    repeat match goal with |- context [(?a =? ?b)%nat] => destruct (Nat.eqb_spec a b) end; try reflexivity; lia || tauto.
Qed.
Lemma mp_loop_ok : forall out fuel l w n, (length out <= fuel)%nat -> valid out (length l) ->
  mp_loop fuel out (pool_of l w n) =
  Some (pool_of (keep (outside out) 0 l) (w ++ map (fun '(_, _, c, s) => (c, s)) (reported l out))
                (n ++ map (fun '(_, e, _, _) => e) (reported l out))).
Proof.
  intros out fuel. revert out. induction fuel as [|fuel IH]; intros out l w n Hf V.
  - destruct out; [|simpl in Hf; lia]. simpl. rewrite !app_nil_r. unfold outside. simpl. now rewrite keep_true.
  - destruct out as [|[i s] out].
    { simpl. rewrite !app_nil_r. unfold outside. simpl. now rewrite keep_true. }
    assert (L : (i < length l)%nat) by (destruct V as [_ V]; apply (V i s); now left).
    destruct (nth_error l i) as [[[r e] c]|] eqn:E; [|apply nth_error_None in E; lia].
    cbn [mp_loop]. set (rhs := Some (pool_of (keep _ _ _) _ _)). unfold pool_of. cbn [m_req m_ev m_st written notified].
    rewrite (map_nth_error _ _ _ E), (map_nth_error _ _ _ E), (map_nth_error _ _ _ E). cbn [fst snd].
    rewrite shift_out_eq. rewrite !erase_map. subst rhs.
    fold (pool_of (erase l i) (w ++ [(c, s)]) (n ++ [e])).
    assert (D1 : ~ In i (map fst out)) by (destruct V as [D _]; simpl in D; now inversion D).
    rewrite IH.
    + rewrite reported_shift by assumption. cbn [reported]. rewrite E. cbn [map].
      rewrite <- !app_assoc. cbn [app]. f_equal. f_equal.
      rewrite <- (keep_erase _ l i (outside ((i, s) :: out)) 0).
      2: { unfold outside. cbn [map fst existsb]. simpl plus. now rewrite Nat.eqb_refl. }
      apply keep_ext. intros j _. simpl plus. now apply outside_shift.
    + simpl in Hf. unfold shift_out. rewrite map_length. lia.
    + rewrite erase_length by assumption. now apply (valid_shift i s).
Qed.

(** the pending requests are the reported ones and the kept ones *)
Lemma erase_perm : forall A (l : list A) i x, nth_error l i = Some x -> Permutation l (x :: erase l i).
Proof.
  induction l as [|y l IH]; intros [|i] x H; simpl in *; try easy.
  - now injection H as ->.
  - rewrite (IH i x H) at 1. apply perm_swap.
Qed.
Lemma keep_reported : forall out l, valid out (length l) ->
  Permutation l (keep (outside out) 0 l ++ map fst (reported l out)).
Proof.
  intros out. remember (length out) as m eqn:Em. revert out Em.
  induction m as [|m IH]; intros [|[i s] out] Em l V; try easy.
  - unfold outside. simpl. now rewrite keep_true, app_nil_r.
  - assert (L : (i < length l)%nat) by (destruct V as [_ V]; apply (V i s); now left).
    destruct (nth_error l i) as [t|] eqn:E; [|apply nth_error_None in E; lia].
    assert (D1 : ~ In i (map fst out)) by (destruct V as [D _]; simpl in D; now inversion D).
    cbn [reported]. rewrite E. cbn [map fst]. rewrite <- Permutation_middle, (erase_perm _ l i t E) at 1. constructor.
    rewrite <- (keep_erase _ l i (outside ((i, s) :: out)) 0).
    2: { unfold outside. cbn [map fst existsb]. simpl plus. now rewrite Nat.eqb_refl. }
    rewrite (keep_ext _ _ (outside (shift_out i out))).
    2: { intros j _. simpl plus. symmetry. now apply outside_shift. }
    rewrite <- (reported_shift l i out D1). apply IH.
    + unfold shift_out. rewrite map_length. simpl in Em. lia.
    + rewrite erase_length by assumption. now apply (valid_shift i s).
Qed.
Lemma keep_incl : forall A f (l : list A) k x, In x (keep f k l) -> In x l.
Proof.
  induction l as [|y l IH]; intros k x H; [easy|]. simpl in H. destruct (f k); [destruct H as [H|H]; [now left|]|]; right; eauto.
Qed.

Inductive mop := MAdd (r e c : N) | MPoll (out : list (nat * N)).
Definition mp_step (o : mop) (p : mpool) : option mpool :=
  match o with MAdd r e c => Some (mp_add r e c p) | MPoll out => mp_poll out p end.
Fixpoint mp_run (ops : list mop) (p : mpool) : option mpool :=
  match ops with [] => Some p | o :: ops => match mp_step o p with Some p => mp_run ops p | None => None end end.
Definition added (ops : list mop) : list (N * N * N) :=
  flat_map (fun o => match o with MAdd r e c => [(r, e, c)] | MPoll _ => [] end) ops.
(** MPI_Testsome reports distinct positions of the request array *)
Fixpoint mp_valid (ops : list mop) (n : nat) : Prop :=
  match ops with
  | [] => True
  | MAdd _ _ _ :: ops => mp_valid ops (S n)
  | MPoll out :: ops => valid out n /\ mp_valid ops (n - length out)
  end.
Lemma reported_length : forall l out, (forall j s, In (j, s) out -> (j < length l)%nat) -> length (reported l out) = length out.
Proof.
  intros l out. induction out as [|[j s] out IH]; intros H; [reflexivity|]. simpl.
  assert (L := H j s (or_introl eq_refl)). destruct (nth_error l j) eqn:E; [|apply nth_error_None in E; lia].
  simpl. f_equal. apply IH. intros. apply (H j0 s0). now right.
Qed.
Lemma mp_run_ok : forall ops l log w n,
  w = map (fun '(_, _, c, s) => (c, s)) log -> n = map (fun '(_, e, _, _) => e) log ->
  mp_valid ops (length l) ->
  exists l' log', mp_run ops (pool_of l w n) =
    Some (pool_of l' (map (fun '(_, _, c, s) => (c, s)) log') (map (fun '(_, e, _, _) => e) log')) /\
    Permutation (l ++ map fst log ++ added ops) (l' ++ map fst log') /\
    exists more, log' = log ++ more.
Proof.
  induction ops as [|o ops IH]; intros l log w n -> -> V.
  - exists l, log. simpl. rewrite app_nil_r. split; [reflexivity|split; [reflexivity|]]. exists []. now rewrite app_nil_r.
  - destruct o as [r e c|out].
    + assert (P : mp_add r e c (pool_of l (map (fun '(_, _, c, s) => (c, s)) log) (map (fun '(_, e, _, _) => e) log)) =
               pool_of (l ++ [(r, e, c)]) (map (fun '(_, _, c, s) => (c, s)) log) (map (fun '(_, e, _, _) => e) log)).
      { unfold mp_add, pool_of. simpl. now rewrite !map_app. }
      cbn [mp_run mp_step]. rewrite P. simpl in V.
      destruct (IH (l ++ [(r, e, c)]) log _ _ eq_refl eq_refl) as (l' & log' & E & Q & M).
      { rewrite app_length. simpl. now rewrite Nat.add_1_r. }
      exists l', log'. split; [assumption|split; [|assumption]]. rewrite <- Q. simpl. rewrite <- !app_assoc.
      apply Permutation_app_head. simpl. rewrite <- Permutation_middle. apply Permutation_refl.
    + destruct V as [V1 V2]. cbn [mp_run mp_step]. unfold mp_poll. rewrite mp_loop_ok by (assumption || lia).
      rewrite <- !map_app.
      assert (K := keep_reported out l V1). assert (KL := Permutation_length K).
      rewrite app_length, map_length, reported_length in KL by apply V1.
      destruct (IH (keep (outside out) 0 l) (log ++ reported l out) _ _ eq_refl eq_refl) as (l' & log' & E & Q & M).
      { replace (length (keep (outside out) 0 l)) with (length l - length out)%nat by lia. assumption. }
      exists l', log'. split; [exact E|split].
      * rewrite <- Q. cbn [added flat_map app]. fold (added ops). rewrite map_app. rewrite K at 1. rewrite <- !app_assoc.
        apply Permutation_app_head. rewrite !app_assoc. apply Permutation_app_tail, Permutation_app_comm.
      * destruct M as [more ->]. rewrite <- app_assoc. eauto.
Qed.

(** ** Identifiers *)
Lemma give_ids_nth : forall ts c i t, c < u32 -> nth_error ts i = Some t ->
  nth_error (give_ids c ts) i = Some (t, (c + N.of_nat i) mod u32).
Proof.
  induction ts as [|t0 ts IH]; intros c i t Hc H; [now destruct i|]. destruct i as [|i]; simpl in *.
  - injection H as ->. do 2 f_equal. rewrite N.mod_small; lia.
  - rewrite (IH _ i t); [| apply N.mod_lt; discriminate |assumption]. do 2 f_equal.
    rewrite N.add_mod_idemp_l by discriminate. f_equal. lia.
Qed.
Lemma give_ids_length : forall ts c, length (give_ids c ts) = length ts.
Proof. induction ts as [|t ts IH]; intros; simpl; [reflexivity|now rewrite IH]. Qed.
Lemma give_ids_snd : forall ts c i, c < u32 -> (i < length ts)%nat ->
  nth_error (map snd (give_ids c ts)) i = Some ((c + N.of_nat i) mod u32).
Proof.
  intros ts c i Hc Hi. destruct (nth_error ts i) as [t|] eqn:E; [|apply nth_error_None in E; lia].
  now rewrite (map_nth_error snd _ _ (give_ids_nth ts c i t Hc E)).
Qed.
Lemma give_ids_unique : forall ts c, c < u32 -> N.of_nat (length ts) <= u32 -> NoDup (map snd (give_ids c ts)).
Proof.
  intros ts c Hc Hn. apply NoDup_nth_error. rewrite map_length, give_ids_length. intros i j Hi E.
  destruct (lt_dec j (length ts)) as [Hj|Hj].
  - rewrite !give_ids_snd in E by assumption. injection E as E. destruct (le_lt_dec i j).
    + apply mod_inj in E; unfold u32 in *; lia.
    + symmetry in E. apply mod_inj in E; unfold u32 in *; lia.
  - assert (X : nth_error (map snd (give_ids c ts)) j = None).
    { apply nth_error_None. rewrite map_length, give_ids_length. lia. }
    rewrite X, give_ids_snd in E by assumption. discriminate.
Qed.
Lemma give_ids_repeat : forall ts c, c < u32 -> u32 < N.of_nat (length ts) -> ~ NoDup (map snd (give_ids c ts)).
Proof.
  intros ts c Hc Hn D. rewrite NoDup_nth_error in D.
  assert (E : 0%nat = N.to_nat u32).
  { apply D.
    - rewrite map_length, give_ids_length. lia.
    - rewrite !give_ids_snd by lia. f_equal. rewrite N2Nat.id. rewrite N.add_0_r.
      symmetry. rewrite <- (N.mul_1_l u32) at 1. apply N.mod_add. discriminate. }
  apply (f_equal N.of_nat) in E. rewrite N2Nat.id in E. discriminate.
Qed.

(** ** Task spaces *)
(** what bodies do: create a task, ask for the current space (scope_depth) *)
Inductive wop := WNew (cur : option nat) | WAsk (cur : option nat).
Definition w_step (w : world) (o : wop) : option world :=
  match o with
  | WNew cur => new_task cur w
  | WAsk cur => match scope_depth cur w with Some (_, w) => Some w | None => None end
  end.
Fixpoint w_run (ops : list wop) (w : world) : option world :=
  match ops with [] => Some w | o :: ops => match w_step w o with Some w => w_run ops w | None => None end end.
(** the creators of the tasks, in order of creation *)
Definition creators (ops : list wop) : list (option nat) :=
  flat_map (fun o => match o with WNew cur => [cur] | WAsk _ => [] end) ops.
(** a task and its ancestors, innermost first *)
Inductive lineage (ps : list (option nat)) : option nat -> list nat -> Prop :=
| lin_root : lineage ps None []
| lin_task : forall t c l, nth_error ps t = Some c -> lineage ps c l -> lineage ps (Some t) (t :: l).

(** [w] represents the creators [ps] *)
Record rep (ps : list (option nat)) (w : world) : Prop := {
  rep_len : length (tasks w) = length ps;
  (* the root space *)
  rep_root : nth_error (spaces w) 0 = Some (mkSpace 0 None);
  (* the space of a task belongs to its creator *)
  rep_task : forall t s ch, nth_error (tasks w) t = Some (s, ch) ->
    exists sp c, nth_error (spaces w) s = Some sp /\ nth_error ps t = Some c /\ sp_parent sp = c;
  (* depth of a space; a parent is an earlier task *)
  rep_space : forall s sp, nth_error (spaces w) s = Some sp ->
    exists l, lineage ps (sp_parent sp) l /\ sp_depth sp = N.of_nat (length l) mod u32;
  (* the children space belongs to the task *)
  rep_child : forall t s c, nth_error (tasks w) t = Some (s, Some c) ->
    exists sp, nth_error (spaces w) c = Some sp /\ sp_parent sp = Some t
}.
Lemma lineage_app : forall ps x cur l, lineage ps cur l -> lineage (ps ++ x) cur l.
Proof.
  induction 1; [constructor|]. econstructor; [|eassumption]. rewrite nth_error_app1; [assumption|].
  apply nth_error_Some. congruence.
Qed.
Lemma lineage_fun : forall ps cur l l', lineage ps cur l -> lineage ps cur l' -> l = l'.
Proof.
  intros ps cur l l' H. revert l'. induction H; intros l' H'; inversion H'; subst; [reflexivity|].
  f_equal. apply IHlineage. congruence.
Qed.
Lemma rep_lineage : forall ps w t, rep ps w -> (t < length ps)%nat -> exists l, lineage ps (Some t) l.
Proof.
  intros ps w t R H. destruct (nth_error (tasks w) t) as [[s ch]|] eqn:E.
  - destruct (rep_task ps w R _ _ _ E) as (sp & c & S1 & P & Q).
    destruct (rep_space ps w R _ _ S1) as (l & L & _). rewrite Q in L. exists (t :: l). econstructor; eassumption.
  - apply nth_error_None in E. rewrite (rep_len ps w R) in E. lia.
Qed.
Lemma rep_init : rep [] w_init.
Proof.
  split; try reflexivity.
  - now intros [|t] s ch.
  - intros [|[|s]] sp; simpl; try easy. intros [= <-]. exists []. split; [constructor|reflexivity].
  - now intros [|t].
Qed.
Lemma replace_nth : forall A (l : list A) t x j, (t < length l)%nat ->
  nth_error (firstn t l ++ x :: skipn (S t) l) j = if (j =? t)%nat then Some x else nth_error l j.
Proof.
  induction l as [|y l IH]; intros t x j H; [simpl in H; lia|]. destruct t as [|t].
  - simpl. destruct j; reflexivity.
  - cbn [firstn skipn app]. destruct j as [|j]; [reflexivity|]. cbn [nth_error]. rewrite IH by (simpl in H; lia). reflexivity.
Qed.
Lemma replace_length : forall A (l : list A) t x, (t < length l)%nat ->
  length (firstn t l ++ x :: skipn (S t) l) = length l.
Proof.
  induction l as [|y l IH]; intros t x H; [simpl in H; lia|]. destruct t as [|t]; [reflexivity|].
  cbn [firstn skipn app length]. rewrite IH by (simpl in H; lia). reflexivity.
Qed.
Lemma current_space_ok : forall ps w cur, rep ps w -> (forall t, cur = Some t -> (t < length ps)%nat) ->
  exists s w' sp, current_space cur w = Some (s, w') /\ rep ps w' /\ nth_error (spaces w') s = Some sp /\ sp_parent sp = cur.
Proof.
  intros ps w cur R V. destruct cur as [t|].
  2: { exists 0%nat, w, (mkSpace 0 None). split; [reflexivity|split; [assumption|split; [apply R|reflexivity]]]. }
  specialize (V t eq_refl). unfold current_space.
  destruct (nth_error (tasks w) t) as [[s ch]|] eqn:E; [|apply nth_error_None in E; rewrite (rep_len ps w R) in E; lia].
  destruct ch as [c|].
  { destruct (rep_child ps w R _ _ _ E) as (sp & H1 & H2). exists c, w, sp. auto. }
  destruct (rep_task ps w R _ _ _ E) as (sp & c & S1 & P & Q). rewrite S1.
  assert (Lt : (t < length (tasks w))%nat) by (now rewrite (rep_len ps w R)).
  eexists _, _, _. split; [reflexivity|]. split; [|split; [cbn [spaces]; rewrite nth_error_app2 by lia; now rewrite Nat.sub_diag|reflexivity]].
  assert (OLD : forall s0 sp0, nth_error (spaces w) s0 = Some sp0 ->
             nth_error (spaces w ++ [mkSpace ((sp_depth sp + 1) mod u32) (Some t)]) s0 = Some sp0).
  { intros s0 sp0 H. rewrite nth_error_app1; [assumption|]. apply nth_error_Some. congruence. }
  split; cbn [spaces tasks].
  - rewrite replace_length by assumption. apply R.
  - apply OLD, R.
  - intros t1 s1 ch1 H. rewrite replace_nth in H by assumption. destruct (Nat.eqb_spec t1 t).
    + subst t1. injection H as <- <-. exists sp, c. auto.
    + destruct (rep_task ps w R _ _ _ H) as (sp1 & c1 & A & B & C). exists sp1, c1. auto.
  - intros s1 sp1 H. destruct (lt_dec s1 (length (spaces w))) as [L|L].
    + rewrite nth_error_app1 in H by assumption. now apply (rep_space ps w R s1).
    + rewrite nth_error_app2 in H by lia. destruct (s1 - length (spaces w))%nat as [|k]; [|now destruct k].
      injection H as <-. cbn [sp_parent sp_depth]. destruct (rep_space ps w R _ _ S1) as (l & L1 & L2). rewrite Q in L1.
      exists (t :: l). split; [econstructor; eassumption|]. rewrite L2, N.add_mod_idemp_l by discriminate. f_equal. simpl length. lia.
  - intros t1 s1 c1 H. rewrite replace_nth in H by assumption. destruct (Nat.eqb_spec t1 t).
    + subst. injection H as <- <-. eexists. split; [rewrite nth_error_app2 by lia; rewrite Nat.sub_diag; reflexivity|reflexivity].
    + destruct (rep_child ps w R _ _ _ H) as (sp1 & A & B). exists sp1. auto.
Qed.
Lemma scope_depth_ok : forall ps w cur l, rep ps w -> (forall t, cur = Some t -> (t < length ps)%nat) -> lineage ps cur l ->
  exists w', scope_depth cur w = Some (N.of_nat (length l) mod u32, w') /\ rep ps w'.
Proof.
  intros ps w cur l R V L. destruct (current_space_ok ps w cur R V) as (s & w' & sp & E & R' & S1 & P).
  unfold scope_depth. rewrite E, S1. exists w'. split; [|assumption]. do 2 f_equal.
  destruct (rep_space ps w' R' _ _ S1) as (l' & L' & ->). rewrite P in L'. now rewrite (lineage_fun _ _ _ _ L L').
Qed.
Lemma new_task_ok : forall ps w cur, rep ps w -> (forall t, cur = Some t -> (t < length ps)%nat) ->
  exists w', new_task cur w = Some w' /\ rep (ps ++ [cur]) w'.
Proof.
  intros ps w cur R V. destruct (current_space_ok ps w cur R V) as (s & w' & sp & E & R' & S1 & P).
  unfold new_task. rewrite E. eexists. split; [reflexivity|]. split; cbn [tasks spaces].
  - rewrite !app_length, (rep_len _ _ R'). reflexivity.
  - apply R'.
  - intros t s1 ch H. destruct (lt_dec t (length (tasks w'))) as [L|L].
    + rewrite nth_error_app1 in H by assumption. destruct (rep_task _ _ R' _ _ _ H) as (sp1 & c & A & B & C).
      exists sp1, c. split; [assumption|split; [|assumption]]. rewrite nth_error_app1; [assumption|].
      now rewrite <- (rep_len _ _ R').
    + rewrite nth_error_app2 in H by lia. destruct (t - length (tasks w'))%nat as [|k] eqn:K; [|now destruct k].
      injection H as <- <-. exists sp, cur. split; [assumption|split; [|assumption]].
      rewrite (rep_len _ _ R') in *. rewrite nth_error_app2 by lia. now rewrite K.
  - intros s1 sp1 H. destruct (rep_space _ _ R' _ _ H) as (l & L1 & L2). exists l. split; [now apply lineage_app|assumption].
  - intros t s1 c H. destruct (lt_dec t (length (tasks w'))) as [L|L].
    + rewrite nth_error_app1 in H by assumption. eapply rep_child; eassumption.
    + rewrite nth_error_app2 in H by lia. destruct (t - length (tasks w'))%nat as [|k]; [|now destruct k]. discriminate.
Qed.
(** a body can only run in a task that was created before *)
Fixpoint w_valid (ops : list wop) (n : nat) : Prop :=
  match ops with
  | [] => True
  | WNew cur :: ops => (forall t, cur = Some t -> (t < n)%nat) /\ w_valid ops (S n)
  | WAsk cur :: ops => (forall t, cur = Some t -> (t < n)%nat) /\ w_valid ops n
  end.
Lemma w_run_ok : forall ops ps w, rep ps w -> w_valid ops (length ps) ->
  exists w', w_run ops w = Some w' /\ rep (ps ++ creators ops) w'.
Proof.
  induction ops as [|o ops IH]; intros ps w R V; simpl.
  - exists w. now rewrite app_nil_r.
  - destruct o as [cur|cur]; destruct V as [V1 V2]; simpl.
    + destruct (new_task_ok ps w cur R V1) as (w' & -> & R').
      destruct (IH _ w' R') as (w2 & E & R2); [now rewrite app_length, Nat.add_1_r|].
      exists w2. split; [assumption|]. now rewrite <- app_assoc in R2.
    + assert (exists l, lineage ps cur l) as [l L].
      { destruct cur as [t|]; [apply (rep_lineage ps w t R); now apply V1|exists []; constructor]. }
      destruct (scope_depth_ok ps w cur l R V1 L) as (w' & -> & R'). now apply IH.
Qed.
Lemma backtrace_ok : forall ps w cur l fuel, rep ps w -> lineage ps cur l -> (length l <= fuel)%nat ->
  backtrace fuel cur w = Some l.
Proof.
  intros ps w cur l fuel R L. revert fuel. induction L as [|t c l P L IH]; intros fuel F.
  - now destruct fuel.
  - destruct fuel as [|fuel]; [simpl in F; lia|]. cbn [backtrace].
    destruct (nth_error (tasks w) t) as [[s ch]|] eqn:E.
    + destruct (rep_task _ _ R _ _ _ E) as (sp & c' & A & B & C). rewrite A. assert (C' : sp_parent sp = c) by congruence.
      rewrite C', IH by (simpl in F; lia). reflexivity.
    + apply nth_error_None in E. rewrite (rep_len _ _ R) in E. apply nth_error_None in E. congruence.
Qed.
Lemma lineage_nodup_len : forall ps cur l, (forall t c, nth_error ps t = Some (Some c) -> (c < t)%nat) ->
  lineage ps cur l -> (length l <= length ps)%nat.
Proof.
  intros ps cur l V L.
  assert (G : match cur with Some t => (length l <= S t)%nat /\ (t < length ps)%nat | None => l = [] end).
  { induction L as [|t c l P L IH]; [reflexivity|]. assert (T : (t < length ps)%nat) by (apply nth_error_Some; congruence).
    split; [|assumption]. destruct c as [c|]; [specialize (V t c P); simpl; lia|subst; simpl; lia]. }
  destruct cur; [lia|subst; simpl; lia].
Qed.
Lemma creators_earlier : forall ops n ps, w_valid ops n -> n = length ps ->
  (forall t c, nth_error ps t = Some (Some c) -> (c < t)%nat) ->
  forall t c, nth_error (ps ++ creators ops) t = Some (Some c) -> (c < t)%nat.
Proof.
  induction ops as [|o ops IH]; intros n ps V E H t c K; simpl in *.
  - rewrite app_nil_r in K. eauto.
  - destruct o as [cur|cur]; destruct V as [V1 V2]; simpl in *.
    + apply (IH (S n) (ps ++ [cur])) with (t := t); [assumption|rewrite app_length; simpl; lia| |now rewrite <- app_assoc].
      intros t0 c0 K0. destruct (lt_dec t0 (length ps)).
      * rewrite nth_error_app1 in K0 by assumption. eauto.
      * rewrite nth_error_app2 in K0 by lia. destruct (t0 - length ps)%nat as [|k] eqn:Z; [|now destruct k].
        injection K0 as ->. specialize (V1 c0 eq_refl). lia.
    + eapply IH; eauto.
Qed.
