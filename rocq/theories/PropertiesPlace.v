(** Property C78: where workers and their memory are placed. *)
From Coq Require Import Bool List Arith NArith Lia.
From Verif Require Import PlaceModel.
Import ListNotations.
Open Scope nat_scope.

(** Specification: the workers whose thread is bound to a unit *)
Definition bound_to (n p q : nat) : list nat := filter (fun i => cpubind p i =? q) (seq 0 n).

Lemma emplace_spec : forall n p k, 0 < p -> k <= n ->
  emplace_upto n p k = Some (mkPool (map (fun i => i mod p) (seq 0 k)) (map (fun i => (i mod p, i mod p, i)) (seq 0 k))).
Proof.
  intros n p k P. induction k as [|k IH]; intros L; [reflexivity|]. cbn [emplace_upto]. rewrite IH by lia. unfold emplace_one.
  replace (p =? 0) with false by (symmetry; apply Nat.eqb_neq; lia). replace (n =? 0) with false by (symmetry; apply Nat.eqb_neq; lia).
  cbn [orb p_allocs p_workers]. rewrite app_length, map_length, seq_length. cbn [length].
  assert (M : k mod p <= k) by (apply Nat.mod_le; lia). rewrite (Nat.mod_small (k mod p) n) by lia.
  replace (k mod p <? k + 1) with true by (symmetry; apply Nat.ltb_lt; lia). cbn [andb].
  rewrite seq_S, !map_app. reflexivity.
Qed.
Lemma nth_map_seq : forall A (f : nat -> A) n i d, i < n -> nth i (map f (seq 0 n)) d = f i.
Proof. intros A f n i d H. rewrite (nth_indep _ d (f 0)) by (rewrite map_length, seq_length; lia). rewrite map_nth. now rewrite seq_nth. Qed.

(** With at least one unit every pool can be made, and no index is out of range.  The thread of a
    worker, the arena of the same number, the arena its object lies in and the arena it refers to
    are all on one unit. *)
Theorem C78_on_one_unit : forall n p, 0 < p -> exists s, emplace_workers n p = Some s /\ length (p_allocs s) = n /\ length (p_workers s) = n /\
  forall i, i < n -> exists o a, nth_error (p_workers s) i = Some (o, a, i) /\ o < n /\ a < n /\
    nth_error (p_allocs s) i = Some (cpubind p i) /\ nth_error (p_allocs s) o = Some (cpubind p i) /\ nth_error (p_allocs s) a = Some (cpubind p i) /\ cpubind p i < p.
Proof.
  intros n p P. eexists. split; [apply emplace_spec; [exact P|apply le_n]|]. cbn [p_allocs p_workers]. rewrite !map_length, seq_length.
  split; [reflexivity|]. split; [reflexivity|]. intros i H. exists (i mod p), (i mod p). assert (M : i mod p <= i) by (apply Nat.mod_le; lia).
  assert (E : forall A (f : nat -> A) j, j < n -> nth_error (map f (seq 0 n)) j = Some (f j)).
  { intros A f j J. rewrite (nth_error_nth' _ (f 0)) by (rewrite map_length, seq_length; lia). now rewrite nth_map_seq. }
  rewrite !E by lia. unfold cpubind. rewrite Nat.mod_mod by lia. assert (L := Nat.mod_upper_bound i p ltac:(lia)). repeat split; lia.
Qed.
Example C78_ex : emplace_workers 5 2 = Some (mkPool [0;1;0;1;0] [(0,0,0);(1,1,1);(0,0,2);(1,1,3);(0,0,4)]) /\ map (cpubind 2) [0;1;2;3;4] = [0;1;0;1;0] /\
  emplace_workers 2 4 = Some (mkPool [0;1] [(0,0,0);(1,1,1)]).
Proof. vm_compute. repeat split. Qed.
(** without any unit (hwloc finds none) there is no pool, not even of one worker *)
Theorem C78_any_machine_refuted : forall n, 0 < n -> emplace_workers n 0 = None.
Proof.
  intros n H. unfold emplace_workers. enough (G : forall k, 0 < k -> emplace_upto n 0 k = None) by auto.
  induction k as [|k IH]; intros K; [lia|]. cbn [emplace_upto]. destruct (emplace_upto n 0 k); reflexivity.
Qed.

Lemma bound_length : forall n p q, q < p -> length (bound_to n p q) = (n + p - 1 - q) / p.
Proof.
  intros n p q Q. induction n as [|n IH].
  - simpl. symmetry. apply Nat.div_small. lia.
  - unfold bound_to in *. rewrite seq_S, filter_app, app_length, IH, Nat.add_0_l. cbn [filter]. unfold cpubind.
    assert (D := Nat.div_mod n p ltac:(lia)). assert (M := Nat.mod_upper_bound n p ltac:(lia)). set (a := n / p) in *. set (r := n mod p) in *.
    destruct (r =? q) eqn:E; cbn [length].
    + apply Nat.eqb_eq in E. rewrite <- (Nat.div_unique (n + p - 1 - q) p a (p - 1)) by lia. rewrite <- (Nat.div_unique (S n + p - 1 - q) p (S a) 0) by nia. lia.
    + apply Nat.eqb_neq in E. destruct (Nat.lt_trichotomy r q) as [L|[L|L]]; [|lia|].
      * rewrite <- (Nat.div_unique (n + p - 1 - q) p a (r + p - 1 - q)) by nia. rewrite <- (Nat.div_unique (S n + p - 1 - q) p a (r + p - q)) by nia. lia.
      * rewrite <- (Nat.div_unique (n + p - 1 - q) p (S a) (r - 1 - q)) by nia. rewrite <- (Nat.div_unique (S n + p - 1 - q) p (S a) (r - q)) by nia. lia.
Qed.
(** The units share the workers evenly: on each there are n / p of them, or one more; no two units
    differ by more than one worker, and every worker is on one unit. *)
Theorem C78_units_share_evenly : forall n p q, q < p -> length (bound_to n p q) = n / p \/ length (bound_to n p q) = S (n / p).
Proof.
  intros n p q Q. rewrite bound_length by assumption.
  assert (D := Nat.div_mod n p ltac:(lia)). assert (M := Nat.mod_upper_bound n p ltac:(lia)). set (a := n / p) in *. set (r := n mod p) in *.
  destruct (le_lt_dec r q) as [L|L].
  - left. symmetry. apply (Nat.div_unique _ p a (r + p - 1 - q)); nia.
  - right. symmetry. apply (Nat.div_unique _ p (S a) (r - 1 - q)); nia.
Qed.
Example C78_ex_shared : map (fun q => length (bound_to 10 4 q)) [0;1;2;3] = [3;3;2;2] /\ 10 / 4 = 2 /\ bound_to 10 4 1 = [1;5;9].
Proof. vm_compute. repeat split. Qed.
(** The warning is given exactly if two workers share a unit. *)
Theorem C78_warns_iff_shared : forall n p, 0 < p -> (warns n p = true <-> exists i j, i < j < n /\ cpubind p i = cpubind p j).
Proof.
  intros n p P. unfold warns, cpubind. rewrite Nat.ltb_lt. split.
  - intros H. exists 0, p. split; [lia|]. now rewrite Nat.mod_same, Nat.mod_0_l by lia.
  - intros (i & j & H & E). destruct (le_lt_dec n p) as [L|L]; [|exact L]. rewrite !Nat.mod_small in E by lia. lia.
Qed.
Example C78_ex_warns : warns 5 4 = true /\ cpubind 4 0 = cpubind 4 4 /\ warns 4 4 = false.
Proof. vm_compute. repeat split. Qed.
(** The comment in emplace_workers, that worker i is allocated on arena i, holds for all workers
    exactly if there are not more of them than units. *)
Theorem C78_own_arena_iff : forall n p s, 0 < p -> emplace_workers n p = Some s ->
  ((forall i, i < n -> nth_error (p_workers s) i = Some (i, i, i)) <-> n <= p).
Proof.
  intros n p s P H. unfold emplace_workers in H. rewrite emplace_spec in H by lia. inversion H; subst s; clear H. cbn [p_workers].
  assert (E : forall j, j < n -> nth_error (map (fun i => (i mod p, i mod p, i)) (seq 0 n)) j = Some (j mod p, j mod p, j)).
  { intros j J. rewrite (nth_error_nth' _ (0,0,0)) by (rewrite map_length, seq_length; lia). now rewrite nth_map_seq. }
  split.
  - intros A. destruct (le_lt_dec n p) as [L|L]; [exact L|]. specialize (A p L). rewrite E, Nat.mod_same in A by lia. inversion A. lia.
  - intros L i I. rewrite E by lia. now rewrite Nat.mod_small by lia.
Qed.
Theorem C78_own_arena_refuted : exists s, emplace_workers 3 2 = Some s /\ nth_error (p_workers s) 2 = Some (0, 0, 2).
Proof. eexists. split; [vm_compute; reflexivity|reflexivity]. Qed.

(** A pinned thread may run on one CPU, the one asked for, if its number is less than 1024. *)
Theorem C78_pinned : forall i, (i < CPU_SETSIZE)%N -> forall c, pin_cpu i c = true <-> c = i.
Proof. intros i H c. unfold pin_cpu. now rewrite N.mod_small, N.eqb_eq by assumption. Qed.
Theorem C78_pinned_refuted : pin_cpu 1030 1030 = false /\ pin_cpu 1030 6 = true.
Proof. vm_compute. split; reflexivity. Qed.
(** An unpinned thread may run on the first 64 CPUs, and on no other. *)
Theorem C78_unpinned_runs_anywhere_refuted : (forall c, (c < 64)%N -> unpin_cpu c = true) /\ forall c, (64 <= c)%N -> unpin_cpu c = false.
Proof. split; intros c H; unfold unpin_cpu; [now apply N.ltb_lt|now apply N.ltb_ge]. Qed.
Example C78_ex_pin : pin_cpu 5 5 = true /\ pin_cpu 5 6 = false /\ unpin_cpu 63 = true /\ unpin_cpu 64 = false.
Proof. vm_compute. repeat split. Qed.

Definition all_place := (@C78_on_one_unit, @C78_ex, @C78_any_machine_refuted, @C78_units_share_evenly, @C78_ex_shared, @C78_warns_iff_shared, @C78_ex_warns,
  @C78_own_arena_iff, @C78_own_arena_refuted, @C78_pinned, @C78_pinned_refuted, @C78_unpinned_runs_anywhere_refuted, @C78_ex_pin).
Print Assumptions all_place.
