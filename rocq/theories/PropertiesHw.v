(** Property C77: the memory of chunks given back. *)
From Coq Require Import Bool List Arith NArith Lia.
From Verif Require Import HwModel.
Import ListNotations.
Open Scope nat_scope.

(** Specification *)
Definition is_back (o : hop) : bool := match o with Back _ => true | _ => false end.
Definition backs (os : list hop) : nat := length (filter is_back os).

Lemma in_eqb : forall x l, existsb (Nat.eqb x) l = true <-> In x l.
Proof. intros x l. rewrite existsb_exists. split; [intros (y & H & E); apply Nat.eqb_eq in E; now subst|intros H; exists x; now rewrite Nat.eqb_refl]. Qed.
Lemma not_in_eqb : forall x l, existsb (Nat.eqb x) l = false <-> ~ In x l.
Proof. intros x l. rewrite <- in_eqb. destruct (existsb (Nat.eqb x) l); intuition congruence. Qed.
Lemma backs_cons : forall o os, backs (o :: os) = (if is_back o then 1 else 0) + backs os.
Proof. intros o os. unfold backs. simpl. now destruct (is_back o). Qed.
Lemma count_filter : forall l r, NoDup l -> NoDup r -> (forall x, In x r -> In x l) ->
  length (filter (fun x => negb (existsb (Nat.eqb x) r)) l) + length r = length l.
Proof.
  intros l r NL NR Inc. assert (P : length (filter (fun x => existsb (Nat.eqb x) r) l) = length r).
  { apply Nat.le_antisymm; apply NoDup_incl_length.
    - now apply NoDup_filter.
    - intros x X. apply filter_In in X. now apply in_eqb.
    - assumption.
    - intros x X. apply filter_In. split; [auto|now apply in_eqb]. }
  rewrite <- P. clear. induction l as [|x l IH]; simpl; [reflexivity|]. destruct (existsb (Nat.eqb x) r); simpl; lia.
Qed.

Section Inv.
Context (pg asz sz : N).
Notation full := (pages pg asz).
Notation part := (pages pg (sz * 1)).
Definition hinv (s : hst) (gone : nat) : Prop :=
  NoDup (mapped s) /\ NoDup (live s) /\ (forall b, In b (live s) -> forall x, b <= x < b + full -> In x (mapped s)) /\
  (forall b d x, In b (live s) -> In d (live s) -> b <= x < b + full -> d <= x < d + full -> b = d) /\
  length (mapped s) = length (live s) * full + gone * (full - part).
Lemma hinv_step : forall s o s' g, part <= full -> 1 <= full -> hinv s g -> hstep pg asz sz s o = Some s' -> hinv s' ((if is_back o then 1 else 0) + g).
Proof.
  intros s o s' g L F (N1 & N2 & I & D & C) H. destruct o as [b|b]; cbn [hstep is_back] in *.
  - destruct (existsb _ (seq b full)) eqn:E; [discriminate|]. inversion H; subst s'; clear H.
    assert (Fr : forall x, b <= x < b + full -> ~ In x (mapped s)).
    { intros x X M. assert (T : existsb (fun x => existsb (Nat.eqb x) (mapped s)) (seq b full) = true); [|congruence].
      apply existsb_exists. exists x. split; [apply in_seq; lia|now apply in_eqb]. }
    assert (Nb : ~ In b (live s)) by (intros X; apply (Fr b); [lia|apply (I b X); lia]).
    split; [|split; [|split; [|split]]]; cbn [mapped live].
    + assert (S := seq_NoDup full b). clear I C Nb E D. revert N1 Fr. generalize (mapped s). intros m Nm Fr.
      assert (Fr' : forall x, In x (seq b full) -> ~ In x m) by (intros x X; apply in_seq in X; apply Fr; lia). clear Fr.
      induction (seq b full) as [|y l IHl]; [exact Nm|]. inversion S; subst. constructor; [|apply IHl; auto; intros x X; apply Fr'; now right].
      rewrite in_app_iff. intros [X|X]; [auto|]. apply (Fr' y); [now left|assumption].
    + now constructor.
    + intros d [<-|X] x Y; apply in_or_app; [left; apply in_seq; lia|right; now apply (I d)].
    + intros d e x [<-|X] [<-|Y] Hd He; [reflexivity| | |now apply (D d e x)].
      * exfalso. apply (Fr x Hd). now apply (I e).
      * exfalso. apply (Fr x He). now apply (I d).
    + rewrite app_length, seq_length, C. cbn [length]. lia.
  - destruct (existsb (Nat.eqb b) (live s)) eqn:E; [|discriminate]. inversion H; subst s'; clear H. apply in_eqb in E.
    split; [|split; [|split; [|split]]]; cbn [mapped live].
    + now apply NoDup_filter.
    + clear - N2. induction (live s) as [|y l IHl]; simpl; [constructor|]. inversion N2; subst. destruct (Nat.eq_dec b y); [auto|].
      constructor; [|auto]. intros X. apply in_remove in X. tauto.
    + intros d X x Y. apply in_remove in X. destruct X as [X Nd]. apply filter_In. split; [now apply (I d)|].
      apply negb_true_iff, not_in_eqb. intros S. apply in_seq in S. apply Nd. symmetry. apply (D b d x); auto; lia.
    + intros d e x X Y. apply in_remove in X. apply in_remove in Y. apply D; tauto.
    + assert (Q := count_filter (mapped s) (seq b part) N1 (seq_NoDup part b)). rewrite seq_length in Q.
      assert (Q' : forall x, In x (seq b part) -> In x (mapped s)) by (intros x X; apply in_seq in X; apply (I b E); lia). specialize (Q Q').
      assert (R : S (length (remove Nat.eq_dec b (live s))) = length (live s)).
      { clear - N2 E. induction (live s) as [|y l IHl]; [destruct E|]. inversion N2; subst. simpl. destruct (Nat.eq_dec b y) as [->|Ne].
        - now rewrite notin_remove.
        - destruct E as [E|E]; [congruence|]. simpl. now rewrite IHl. }
      rewrite <- R in C. cbn [length] in C. rewrite Nat.mul_add_distr_r. lia.
Qed.
Lemma hinv_run : forall os s s' g, part <= full -> 1 <= full -> hinv s g -> hrun pg asz sz s os = Some s' -> hinv s' (backs os + g).
Proof.
  induction os as [|o os IH]; intros s s' g L F I H; cbn [hrun] in H; [now inversion H; subst|].
  destruct (hstep pg asz sz s o) as [s1|] eqn:E; [|discriminate]. apply (hinv_step s o s1 g L F I) in E. apply (IH s1 s' _ L F E) in H.
  rewrite backs_cons. now replace ((if is_back o then 1 else 0) + backs os + g) with (backs os + ((if is_back o then 1 else 0) + g)) by lia.
Qed.
Lemma hinv_init : hinv hinit 0.
Proof. split; [constructor|split; [constructor|split; [intros b []|split; [intros b d x []|reflexivity]]]]. Qed.
Lemma hinv_all : forall os s, part <= full -> 1 <= full -> hrun pg asz sz hinit os = Some s -> hinv s (backs os).
Proof. intros os s L F H. apply (hinv_run os hinit s 0 L F hinv_init) in H. now rewrite Nat.add_0_r in H. Qed.
End Inv.

Lemma pages_le : forall pg a b, (0 < pg)%N -> (a <= b)%N -> pages pg a <= pages pg b.
Proof.
  intros pg a b P H. unfold pages. assert (((a + pg - 1) / pg <= (b + pg - 1) / pg)%N) by (apply N.div_le_mono; lia). lia.
Qed.
Lemma pages_pos : forall pg a, (0 < pg)%N -> (0 < a)%N -> 1 <= pages pg a.
Proof.
  intros pg a P H. unfold pages. assert ((1 <= (a + pg - 1) / pg)%N). { apply N.div_le_lower_bound; lia. } lia.
Qed.

(** The pages of a length are the fewest that hold it. *)
Theorem C77_fewest_pages : forall pg len, (0 < pg)%N -> (len <= N.of_nat (pages pg len) * pg)%N /\
  forall n, (len <= N.of_nat n * pg)%N -> pages pg len <= n.
Proof.
  intros pg len P. unfold pages. assert (D := N.div_mod (len + pg - 1) pg ltac:(lia)). assert (M := N.mod_lt (len + pg - 1) pg ltac:(lia)).
  split.
  - rewrite N2Nat.id. nia.
  - intros n H. assert (((len + pg - 1) / pg < N.of_nat n + 1)%N); [|lia]. apply N.div_lt_upper_bound; lia.
Qed.
(** Whatever chunks are obtained and given back, in whatever order: the memory of a chunk
    in use stays mapped. *)
Theorem C77_memory_in_use_stays : forall pg asz sz os s b x, (0 < pg)%N -> (0 < asz)%N -> (sz <= asz)%N ->
  hrun pg asz sz hinit os = Some s -> In b (live s) -> b <= x < b + pages pg asz -> In x (mapped s).
Proof.
  intros pg asz sz os s b x P A S H B X. destruct (hinv_all pg asz sz os s) as (_ & _ & I & _); [apply pages_le; lia|now apply pages_pos|exact H|]. now apply (I b).
Qed.
(** The number of mapped pages is that of the chunks in use, and for each chunk given back
    those beyond the pages of the control block. *)
Theorem C77_mapped_pages : forall pg asz sz os s, (0 < pg)%N -> (0 < asz)%N -> (sz <= asz)%N -> hrun pg asz sz hinit os = Some s ->
  length (mapped s) = length (live s) * pages pg asz + backs os * (pages pg asz - pages pg sz).
Proof.
  intros pg asz sz os s P A S H. destruct (hinv_all pg asz sz os s) as (_ & _ & _ & _ & C); [apply pages_le; lia|now apply pages_pos|exact H|].
  now rewrite N.mul_1_r in C.
Qed.
(** When no chunk is left, nothing is mapped, exactly if no chunk was ever given back or its
    control block covers as many pages as the whole chunk. *)
Theorem C77_all_returned_iff : forall pg asz sz os s, (0 < pg)%N -> (0 < asz)%N -> (sz <= asz)%N -> hrun pg asz sz hinit os = Some s -> live s = [] ->
  (mapped s = [] <-> backs os = 0 \/ pages pg sz = pages pg asz).
Proof.
  intros pg asz sz os s P A S H E. assert (C := C77_mapped_pages _ _ _ _ _ P A S H). rewrite E in C. cbn [length] in C.
  assert (L := pages_le pg sz asz P S). split.
  - intros M. rewrite M in C. cbn [length] in C. symmetry in C. apply Nat.eq_add_0 in C. destruct C as [_ C]. apply Nat.eq_mul_0 in C. destruct C as [C|C]; [now left|right; lia].
  - intros X. apply length_zero_iff_nil. rewrite C. destruct X as [-> | ->]; [reflexivity|]. rewrite Nat.sub_diag. lia.
Qed.

(** Chunks of 64 KiB with 544 bytes for control data, control blocks of 96 bytes *)
Definition Page : N := 4096.
Definition Asz : N := 66080.
Definition Sz : N := 96.
Example C77_ex : exists s, hrun Page Asz Sz hinit [New 100; New 200; Back 100; New 300; Back 300] = Some s /\ live s = [200] /\ length (mapped s) = 17 + 2 * 16 /\
  pages Page 8192 = 2 /\ pages Page 8193 = 3 /\ In 216 (mapped s) /\ In 101 (mapped s) /\ ~ In 100 (mapped s) /\
  (* the first page of the chunk given back may be part of another mapping, its other pages may not *)
  hrun Page Asz Sz hinit [New 100; Back 100; New 84] <> None /\ hrun Page Asz Sz hinit [New 100; Back 100; New 100] = None.
Proof.
  eexists. split; [vm_compute; reflexivity|]. split; [reflexivity|]. split; [reflexivity|]. split; [reflexivity|]. split; [reflexivity|]. cbn [mapped].
  split; [apply in_eqb; reflexivity|]. split; [apply in_eqb; reflexivity|]. split; [apply not_in_eqb; reflexivity|]. split; [vm_compute; discriminate|reflexivity].
Qed.
(** were the allocated size passed on, everything would be returned *)
Example C77_ex_repaired : exists s, hrun Page Asz Asz hinit [New 100; New 200; Back 100; New 100; Back 200; Back 100] = Some s /\ live s = [] /\ mapped s = [].
Proof. eexists. split; [vm_compute; reflexivity|]. split; reflexivity. Qed.

(** obtain a chunk and give it back, over and over, at addresses that are free *)
Fixpoint cycle (n : nat) : list hop := match n with O => [] | S m => cycle m ++ [New (17 * m); Back (17 * m)] end.
Lemma hrun_app : forall pg asz sz os os' s, hrun pg asz sz s (os ++ os') = match hrun pg asz sz s os with Some s' => hrun pg asz sz s' os' | None => None end.
Proof. induction os as [|o os IH]; intros os' s; simpl; [reflexivity|]. destruct (hstep pg asz sz s o); auto. Qed.
Lemma cycle_backs : forall n, backs (cycle n) = n.
Proof. induction n as [|n IH]; [reflexivity|]. cbn [cycle]. unfold backs in *. rewrite filter_app, app_length, IH. simpl. lia. Qed.
Lemma cycle_runs : forall n, exists s, hrun Page Asz Sz hinit (cycle n) = Some s /\ live s = [] /\ (forall x, In x (mapped s) -> x < 17 * n).
Proof.
  induction n as [|n (s & H & L & B)]; [exists hinit; split; [reflexivity|split; [reflexivity|intros x []]]|].
  cbn [cycle]. rewrite hrun_app, H. cbn [hrun hstep].
  assert (Fz : pages Page Asz = 17) by reflexivity. assert (Pz : pages Page (Sz * 1) = 1) by reflexivity. rewrite Fz, Pz.
  destruct (existsb (fun x => existsb (Nat.eqb x) (mapped s)) (seq (17 * n) 17)) eqn:E.
  { exfalso. apply existsb_exists in E. destruct E as (x & X & Y). apply in_seq in X. apply in_eqb in Y. apply B in Y. lia. }
  rewrite L. cbn [live existsb mapped]. rewrite Nat.eqb_refl. cbn [orb remove].
  destruct (Nat.eq_dec (17 * n) (17 * n)); [|congruence]. eexists. split; [reflexivity|]. split; [reflexivity|]. cbn [mapped].
  intros x X. apply filter_In in X. destruct X as [X _]. apply in_app_iff in X. destruct X as [X|X]; [apply in_seq in X; lia|apply B in X; lia].
Qed.
(** The memory of chunks given back is lost: after obtaining and giving back n chunks, one at
    a time, none is left and 16 n pages are mapped, so there is no bound. *)
Theorem C77_memory_is_bounded_refuted : forall n, exists s, hrun Page Asz Sz hinit (cycle n) = Some s /\ live s = [] /\ length (mapped s) = 16 * n.
Proof.
  intros n. destruct (cycle_runs n) as (s & H & L & _). exists s. split; [exact H|]. split; [exact L|].
  rewrite (C77_mapped_pages Page Asz Sz (cycle n) s) by (first [exact H | reflexivity | discriminate]). rewrite L, cycle_backs.
  change (pages Page Asz - pages Page Sz) with 16. simpl length. lia.
Qed.

Definition all_hw := (@C77_fewest_pages, @C77_memory_in_use_stays, @C77_mapped_pages, @C77_all_returned_iff, @C77_ex, @C77_ex_repaired, @C77_memory_is_bounded_refuted).
Print Assumptions all_hw.
