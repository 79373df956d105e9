(** test/random_graph.cpp (C71): the test passes, whatever the pattern, the number of workers
    and the schedule, and with any hash in place of the one it has; and what its check is
    able to see. *)
From Coq Require Import Bool List Arith NArith ZArith Lia Permutation.
From Verif Require Import AccessModel AccessSpec UserModel SchedModel SchedSpec SchedBase SchedInv8 SchedThm SchedLive SchedTerm SchedSeq SchedMore SchedEx PropertiesSched
  PoolModel PoolProof PropertiesPool AppModel AppSpec AppProof AppMore PropertiesChol RandModel.
Import ListNotations.
Open Scope nat_scope.

(** ** Lists *)
Lemma rand_nth pat : forall i k j, nth_error (rand_from i pat) k = Some j -> exists rs, nth_error pat k = Some rs /\ j = rand_task (i + k) rs.
Proof.
  induction pat as [|rs pat IH]; intros i [|k] j H; simpl in H; try discriminate.
  - injection H as <-. exists rs. now rewrite Nat.add_0_r.
  - destruct (IH _ _ _ H) as (rs' & E & ->). exists rs'. split; auto. now rewrite Nat.add_succ_r.
Qed.
Lemma rand_in pat j : In j (rand_jobs pat) -> exists i rs, In rs pat /\ j = rand_task i rs.
Proof. intros H. apply In_nth_error in H as (k & E). destruct (rand_nth _ _ _ _ E) as (rs & Q & ->). apply nth_error_In in Q. eauto. Qed.
Lemma rand_len pat i : length (rand_from i pat) = length pat.
Proof. revert i. induction pat; intros i; simpl; auto. Qed.
Lemma rand_ids i rs : map (fun a => r_id (a_res a)) (j_acc (rand_task i rs)) = rs.
Proof. simpl. rewrite map_map. apply map_id. Qed.
(** no task names a resource twice (64-78) *)
Definition drawn (pat : list (list nat)) : Prop := forall rs, In rs pat -> NoDup rs.
Lemma rand_sound pat : drawn pat -> sound_app (rand_jobs pat).
Proof.
  intros D. split.
  - intros i j a b Hi Hj Ha Hb _. apply rand_in in Hi as (x & r1 & _ & ->). apply rand_in in Hj as (y & r2 & _ & ->).
    simpl in Ha, Hb. apply in_map_iff in Ha as (u & <- & _). apply in_map_iff in Hb as (v & <- & _). reflexivity.
  - intros j Hj. apply rand_in in Hj as (i & rs & Hr & ->). split; [|split].
    + intros a Ha. simpl in Ha. apply in_map_iff in Ha as (u & <- & _). reflexivity.
    + rewrite rand_ids. now apply D.
    + intros a Ha. simpl in Ha. apply in_map_iff in Ha as (r & <- & Hin). exists (mkRes r 0), MWrite. split; [|simpl; auto].
      simpl. apply in_map_iff. exists r. auto.
Qed.
Lemma cnt_rand x pat : drawn pat -> cnt x (rand_jobs pat) <= length pat.
Proof.
  unfold rand_jobs, cnt. generalize 0. induction pat as [|rs pat IH]; intros i D; simpl; [lia|].
  assert (B : count_occ Nat.eq_dec (ids (rand_task i rs)) x <= 1).
  { unfold ids. rewrite rand_ids. apply (proj1 (NoDup_count_occ Nat.eq_dec rs)). apply D. now left. }
  specialize (IH (S i) (fun r H => D r (or_intror H))). unfold list_sum in *. simpl. lia.
Qed.
Lemma sum_le f (l : list nat) b : (forall x, f x <= b) -> list_sum (map f l) <= length l * b.
Proof. intros H. induction l as [|x l IH]; simpl; [lia|]. specialize (H x). lia. Qed.
(** at most five resources per task (41-42), and not too many tasks *)
Lemma rand_few pat : drawn pat -> (forall rs, In rs pat -> length rs <= 5) -> (Z.of_nat (length pat) <= 13106)%Z -> few (rand_jobs pat).
Proof.
  intros D F N j Hj. apply rand_in in Hj as (i & rs & Hr & ->).
  assert (B := sum_le (fun x => cnt x (rand_jobs pat)) (ids (rand_task i rs)) (length pat) (fun x => cnt_rand x pat D)).
  unfold ids in *. rewrite rand_ids in *. specialize (F rs Hr). nia.
Qed.
Lemma hash_sensible V (h : nat -> V -> V) : sensible (hashing h).
Proof.
  intros [r T x c] [s U y d] l1 l2 m H. destruct T; try (destruct U; simpl; [destruct y|..]; auto; fail).
  destruct U; try (simpl; destruct x; auto; fail).
  apply io_no_conflict in H. simpl.
  destruct x, y; simpl; auto; destruct H as [H|H]; try discriminate H; auto.
  repeat split; auto. symmetry. now apply alter_swap.
Qed.
Section Run.
  Context {V : Type} (h : nat -> V -> V).
  Lemma task_run i rs l : forall m, run_acts (hashing h) (j_acts (rand_task i rs)) l m = (l, fold_left (fun m r => alter r (h i) m) rs m).
  Proof. simpl. induction rs as [|r rs IH]; intros m; simpl; [reflexivity|]. rewrite Nat2Z.id. apply IH. Qed.
  Lemma memory_rand i pat : forall m, memory_after (hashing h) tt (rand_from i pat) m = expect_from h i pat m.
  Proof.
    revert i. induction pat as [|rs pat IH]; intros i m; [reflexivity|]. unfold memory_after in *. cbn [rand_from fold_left expect_from].
    rewrite (task_run i rs tt m). apply IH.
  Qed.

  (** ** What the expected value is: a resource holds the hash over the tasks that name it, in the
      order of submission *)
  Definition named (r : nat) (rs : list nat) : bool := existsb (Nat.eqb r) rs.
  Fixpoint through (r i : nat) (pat : list (list nat)) (v : V) : V :=
    match pat with [] => v | rs :: pat => through r (S i) pat (if named r rs then h i v else v) end.
  Lemma fold_other i r rs d : forall m, ~ In r rs -> nth r (fold_left (fun m r => alter r (h i) m) rs m) d = nth r m d.
  Proof.
    induction rs as [|x rs IH]; intros m H; [reflexivity|]. simpl. rewrite IH by (intros Q; apply H; now right).
    apply nth_alter_ne. intros ->. apply H. now left.
  Qed.
  Lemma fold_len i rs : forall m, length (fold_left (fun m r => alter r (h i) m) rs m) = length m.
  Proof. induction rs as [|x rs IH]; intros m; [reflexivity|]. simpl. now rewrite IH, alter_len. Qed.
  Lemma fold_one i r rs d : forall m, NoDup rs -> r < length m ->
    nth r (fold_left (fun m r => alter r (h i) m) rs m) d = if named r rs then h i (nth r m d) else nth r m d.
  Proof.
    induction rs as [|x rs IH]; intros m D L; [reflexivity|]. inversion D as [|? ? N D']; subst. simpl. destruct (Nat.eqb_spec r x) as [->|E].
    - simpl. rewrite fold_other by exact N. rewrite nth_alter, Nat.eqb_refl. apply Nat.ltb_lt in L. now rewrite L.
    - simpl. rewrite IH by (auto; now rewrite alter_len). now rewrite nth_alter_ne by auto.
  Qed.
  Lemma expected_cell r d pat : forall i m, drawn pat -> r < length m -> nth r (expect_from h i pat m) d = through r i pat (nth r m d).
  Proof.
    induction pat as [|rs pat IH]; intros i m D L; [reflexivity|]. cbn [expect_from through].
    rewrite IH; [|intros x H; apply D; now right|now rewrite fold_len]. now rewrite (fold_one i r rs d m (D rs (or_introl eq_refl)) L).
  Qed.
  Lemma expected_len pat : forall i m, length (expect_from h i pat m) = length m.
  Proof. induction pat as [|rs pat IH]; intros i m; [reflexivity|]. cbn [expect_from]. now rewrite IH, fold_len. Qed.
End Run.

(** ** The test *)
Definition rand (pat : list (list nat)) (w : bool) : prog := app (rand_jobs pat) w.
(** the resources after the history [l], [m] before *)
Definition resources {V} (h : nat -> V -> V) (l : list lev) (m : list V) : list V := snd (exec (hashing h) (performed l) (fun _ => tt) m).
(** 16-bit counters suffice for this many tasks *)
Definition rand_fits (pat : list (list nat)) (w : bool) : Prop :=
  w = true -> (forall rs, In rs pat -> length rs <= 5) /\ (Z.of_nat (length pat) <= 13106)%Z.
Lemma rand_fits_few pat w : drawn pat -> rand_fits pat w -> w = true -> few (rand_jobs pat).
Proof. intros D F E. destruct (F E). now apply rand_few. Qed.

(** When nothing can move any more, main is behind the barrier (182), all tasks are done, and
    every resource is as expected (183-184), with any hash. *)
Theorem C71_the_test_passes :
  forall V (h : nat -> V -> V) pat w n s m, drawn pat -> rand_fits pat w -> 1 <= n -> reach (rand pat w) n s -> stuck (rand pat w) s ->
  all_frames s = [FBody None []] /\ (forall t, t < length pat -> completed s t) /\ resources h (log s) m = expected h pat m.
Proof.
  intros V h pat w n s m D F N R K. assert (OK := rand_sound pat D).
  destruct (app_ideal _ w n s OK (rand_fits_few pat w D F) R K) as [R' K'].
  destruct (app_finished _ n s OK N R' K') as [X Y]. split; [exact X|]. split.
  - intros t Ht. apply Y. unfold rand_jobs. now rewrite rand_len.
  - unfold expected. rewrite <- (memory_rand h 0 pat m). exact (proj1 (app_result _ n s (hashing h) tt m OK N (hash_sensible V h) R' K')).
Qed.
(** What that is for one resource: the hash over the tasks that name it, in the order of submission. *)
Theorem C71_each_resource_is_hashed_in_order :
  forall V (h : nat -> V -> V) pat w n s m r d, drawn pat -> rand_fits pat w -> 1 <= n -> reach (rand pat w) n s -> stuck (rand pat w) s ->
  r < length m ->
  nth r (resources h (log s) m) d = fold_left (fun v i => h i v) (filter (fun i => named r (nth i pat [])) (seq 0 (length pat))) (nth r m d).
Proof.
  intros V h pat w n s m r d D F N R K L. rewrite (proj2 (proj2 (C71_the_test_passes V h pat w n s m D F N R K))).
  unfold expected. rewrite (expected_cell h r d pat 0 m D L). generalize (nth r m d). clear.
  assert (X : forall p pat0 i, (forall k, nth k p [] = nth (i + k) pat0 []) -> forall v, through h r i p v =
    fold_left (fun v i => h i v) (filter (fun i => named r (nth i pat0 [])) (seq i (length p))) v).
  { induction p as [|rs p IH]; intros pat0 i E v; [reflexivity|]. cbn [length seq filter through].
    assert (E0 := E 0). rewrite Nat.add_0_r in E0. cbn [nth] in E0. rewrite <- E0.
    rewrite (IH pat0 (S i)) by (intros k; rewrite Nat.add_succ_comm; exact (E (S k))). now destruct (named r rs). }
  intros v. apply (X pat pat 0). intros k. reflexivity.
Qed.
Theorem C71_the_test_ends :
  forall pat w n, drawn pat -> rand_fits pat w -> exists B, forall l s, run (rand pat w) (init (rand pat w) n) l = Some s -> length l <= B.
Proof.
  intros pat w n D F. assert (OK := rand_sound pat D).
  destruct (C17_executions_are_bounded (rand pat false) n (app_wf _ false OK) eq_refl (app_flat _ false)) as (B & HB).
  exists B. intros l s H. exact (HB l s (app_run _ w n l s OK (rand_fits_few pat w D F) H)).
Qed.
Theorem C71_in_the_pool :
  forall V (h : nat -> V -> V) pat n m k c mem, drawn pat -> 1 <= n -> 1 <= m ->
  psteps (rand pat false) n m false k c -> pstuck (rand pat false) n m c ->
  all_frames (core c) = [FBody None []] /\ resources h (log (core c)) mem = expected h pat mem.
Proof.
  intros V h pat n m k c mem D Hn Hm H ST. destruct (app_pool _ n m k c (rand_sound pat D) Hn Hm H ST) as (s & R & S & EL & EF).
  rewrite <- EL, <- EF. destruct (C71_the_test_passes V h pat false (n + m) s mem D ltac:(intros X; discriminate) ltac:(lia) R S) as (X & _ & Y). auto.
Qed.

(** ** What the check sees *)
(** The hash of the test adds the number of the task: any order of the calls gives the
    expected value, also orders no correct runtime produces. *)
Lemma calls_expected {V} (h : nat -> V -> V) pat : forall i m, hash_calls h (calls_from i pat) m = expect_from h i pat m.
Proof.
  induction pat as [|rs pat IH]; intros i m; [reflexivity|]. cbn [calls_from expect_from]. unfold hash_calls in *. rewrite fold_left_app, IH. f_equal.
  clear. revert m. induction rs as [|r rs IH]; intros m; [reflexivity|]. simpl. apply IH.
Qed.
Lemma test_hash_swap i j v : test_hash i (test_hash j v) = test_hash j (test_hash i v).
Proof.
  destruct v as [|x v]; [reflexivity|]. simpl. f_equal. rewrite !Zplus_mod_idemp_l. f_equal. lia.
Qed.
Lemma hash_perm cs cs' : Permutation cs cs' -> forall m, hash_calls test_hash cs m = hash_calls test_hash cs' m.
Proof.
  induction 1 as [|c l l' H IH|c d l|l1 l2 l3 H1 IH1 H2 IH2]; intros m; auto.
  - simpl. apply IH.
  - simpl. f_equal. destruct c as [i r], d as [j s]; simpl. destruct (Nat.eq_dec r s) as [->|N].
    + rewrite !alter_same. apply alter_ext. intros x. apply test_hash_swap.
    + now apply alter_swap.
  - now rewrite IH1, IH2.
Qed.
Theorem C71_the_check_does_not_see_the_order :
  forall pat cs m, Permutation cs (calls_from 0 pat) -> hash_calls test_hash cs m = expected test_hash pat m.
Proof. intros pat cs m H. rewrite (hash_perm cs _ H m). apply (calls_expected test_hash pat 0 m). Qed.
(** two tasks in the wrong order on a resource both write *)
Definition three : list (list nat) := [[0; 1]; [1]; [1; 2]].
Definition wrong_order : list (nat * nat) := [(2, 1); (2, 2); (1, 1); (0, 0); (0, 1)].
Theorem C71_the_check_sees_the_order_refuted :
  exists pat cs (h : nat -> Z -> Z), drawn pat /\ Permutation cs (calls_from 0 pat) /\
  (exists r a b l1 l2 l3, a < b /\ cs = l1 ++ (b, r) :: l2 ++ (a, r) :: l3) /\
  hash_calls test_hash cs (blank_words 3) = expected test_hash pat (blank_words 3) /\
  hash_calls h cs [0; 0; 0]%Z <> expected h pat [0; 0; 0]%Z.
Proof.
  assert (PM : Permutation wrong_order (calls_from 0 three)).
  { unfold wrong_order, three. simpl. symmetry.
    apply (Permutation_trans (l' := [(1, 1); (0, 0); (0, 1)] ++ [(2, 1); (2, 2)])); [|apply (Permutation_app_comm [(1, 1); (0, 0); (0, 1)] [(2, 1); (2, 2)])].
    apply (Permutation_app_tail [(2, 1); (2, 2)] (l := [(0, 0); (0, 1); (1, 1)])).
    apply (Permutation_app_comm [(0, 0); (0, 1)] [(1, 1)]). }
  exists three, wrong_order, (fun i v => (31 * v + Z.of_nat i)%Z). split; [|split; [exact PM|split; [|split]]].
  - intros rs H. simpl in H. repeat (destruct H as [<-|H]; [repeat (constructor; [simpl; lia|]); constructor|]). destruct H.
  - exists 1, 1, 2, [], [(2, 2)], [(0, 0); (0, 1)]. split; [lia|reflexivity].
  - exact (C71_the_check_does_not_see_the_order three wrong_order (blank_words 3) PM).
  - vm_compute. discriminate.
Qed.
(** Task 0 may be left out altogether; any other call that is left out, or made twice, is seen. *)
Definition proper (m : list (list Z)) : Prop := forall v, In v m -> exists x l, v = x :: l /\ (0 <= x < word)%Z.
Lemma hash_proper i v : (exists x l, v = x :: l /\ (0 <= x < word)%Z) -> exists x l, test_hash i v = x :: l /\ (0 <= x < word)%Z.
Proof. intros (x & l & -> & _). exists ((x + Z.of_nat i) mod word)%Z, l. split; [reflexivity|]. apply Z.mod_pos_bound. reflexivity. Qed.
Lemma alter_in {A} r (f : A -> A) l y : In y (alter r f l) -> In y l \/ exists x, In x l /\ y = f x.
Proof.
  revert r. induction l as [|a l IH]; intros [|r] H; simpl in *; auto.
  - destruct H as [<-|H]; [right; exists a; auto|auto].
  - destruct H as [<-|H]; [auto|]. destruct (IH _ H) as [Q|(x & Q & ->)]; [auto|]. right. exists x. auto.
Qed.
Lemma calls_proper cs : forall m, proper m -> proper (hash_calls test_hash cs m).
Proof.
  induction cs as [|[i r] cs IH]; intros m H; [exact H|]. simpl. apply IH. intros v Hv. apply alter_in in Hv as [Q|(x & Q & ->)]; [auto|].
  apply hash_proper. auto.
Qed.
Lemma calls_len {V} (h : nat -> V -> V) cs : forall m, length (hash_calls h cs m) = length m.
Proof. induction cs as [|c cs IH]; intros m; [reflexivity|]. simpl. now rewrite IH, alter_len. Qed.
Theorem C71_the_check_does_not_need_task_0 :
  forall pat m, proper m -> hash_calls test_hash (calls_from 1 (tl pat)) m = expected test_hash pat m.
Proof.
  intros pat m PR. unfold expected. rewrite <- (calls_expected test_hash pat 0 m). destruct pat as [|rs pat]; [reflexivity|].
  cbn [tl calls_from]. unfold hash_calls. rewrite fold_left_app. f_equal. symmetry. revert m PR.
  assert (Z0 : forall v, (exists x l, v = x :: l /\ (0 <= x < word)%Z) -> test_hash 0 v = v).
  { intros v (x & l & -> & B). simpl. rewrite Z.add_0_r, Z.mod_small by exact B. reflexivity. }
  assert (A0 : forall r m, proper m -> alter r (test_hash 0) m = m).
  { intros r m. revert r. induction m as [|v m IH]; intros [|r] H; simpl; auto.
    - rewrite Z0; [reflexivity|]. apply H. now left.
    - rewrite IH; [reflexivity|]. intros x Hx. apply H. now right. }
  induction rs as [|r rs IH]; intros m PR; [reflexivity|]. simpl. rewrite A0 by exact PR. now apply IH.
Qed.
Theorem C71_the_check_sees_calls_left_out :
  forall pat cs i r m, proper m -> Permutation ((i, r) :: cs) (calls_from 0 pat) -> (0 < Z.of_nat i < word)%Z -> r < length m ->
  hash_calls test_hash cs m <> expected test_hash pat m.
Proof.
  intros pat cs i r m PR PM I L E. rewrite <- (C71_the_check_does_not_see_the_order pat _ m PM) in E.
  assert (PM2 : Permutation ((i, r) :: cs) (cs ++ [(i, r)])) by apply Permutation_cons_append.
  rewrite (hash_perm _ _ PM2 m) in E. unfold hash_calls in E at 2. rewrite fold_left_app in E. simpl in E.
  fold (hash_calls test_hash cs m) in E. assert (Q := calls_proper cs m PR). assert (LL := calls_len test_hash cs m). set (k := hash_calls test_hash cs m) in *.
  assert (N := f_equal (fun z => nth r z []) E). cbv beta in N. rewrite nth_alter, Nat.eqb_refl in N.
  rewrite (proj2 (Nat.ltb_lt r (length k))) in N by lia. simpl in N.
  destruct (Q (nth r k [])) as (x & l & X & B); [apply nth_In; lia|]. rewrite X in N. injection N as N.
  assert (W : (0 < word)%Z) by reflexivity. destruct (Z_lt_le_dec (x + Z.of_nat i) word) as [A|A].
  - rewrite Z.mod_small in N by lia. lia.
  - rewrite <- (Z.mod_unique (x + Z.of_nat i) word 1 (x + Z.of_nat i - word)) in N by lia. lia.
Qed.
Theorem C71_the_check_sees_calls_made_twice :
  forall pat cs i r m, proper m -> Permutation cs (calls_from 0 pat) -> (0 < Z.of_nat i < word)%Z -> r < length m ->
  hash_calls test_hash ((i, r) :: cs) m <> expected test_hash pat m.
Proof.
  intros pat cs i r m PR PM I L E. rewrite <- (C71_the_check_does_not_see_the_order pat _ m PM) in E.
  assert (PM2 : Permutation ((i, r) :: cs) (cs ++ [(i, r)])) by apply Permutation_cons_append.
  rewrite (hash_perm _ _ PM2 m) in E. unfold hash_calls in E at 1. rewrite fold_left_app in E. simpl in E.
  fold (hash_calls test_hash cs m) in E. assert (Q := calls_proper cs m PR). assert (LL := calls_len test_hash cs m). set (k := hash_calls test_hash cs m) in *.
  assert (N := f_equal (fun z => nth r z []) E). cbv beta in N. rewrite nth_alter, Nat.eqb_refl in N.
  rewrite (proj2 (Nat.ltb_lt r (length k))) in N by lia. simpl in N.
  destruct (Q (nth r k [])) as (x & l & X & B); [apply nth_In; lia|]. rewrite X in N. injection N as N.
  assert (W : (0 < word)%Z) by reflexivity. destruct (Z_lt_le_dec (x + Z.of_nat i) word) as [A|A].
  - rewrite Z.mod_small in N by lia. lia.
  - rewrite <- (Z.mod_unique (x + Z.of_nat i) word 1 (x + Z.of_nat i - word)) in N by lia. lia.
Qed.

(** ** Example: three tasks on three resources *)
Definition rand_end (w : bool) : state := auto_run (rand three w) (moves_of 2 ++ moves_of 1 ++ moves_of 0) 2000 (init (rand three w) 2).
Lemma rand_end_reach w : reach (rand three w) 2 (rand_end w).
Proof. exact (auto_reach (rand three w) 2 (moves_of 2 ++ moves_of 1 ++ moves_of 0) 2000 (init (rand three w) 2) (reach_init _ _)). Qed.
Definition mix (i : nat) (v : Z) : Z := (31 * v + Z.of_nat (S i))%Z.
Lemma three_drawn : drawn three.
Proof. intros rs H. simpl in H. repeat (destruct H as [<-|H]; [repeat (constructor; [simpl; lia|]); constructor|]). destruct H. Qed.
Example C71_ex : forall w, drawn three /\ rand_fits three w /\ reach (rand three w) 2 (rand_end w) /\ stuck (rand three w) (rand_end w) /\
  resources test_hash (log (rand_end w)) (blank_words 3) = [[0; 0; 0; 0; 0; 0; 0; 0]; [3; 0; 0; 0; 0; 0; 0; 0]; [2; 0; 0; 0; 0; 0; 0; 0]]%Z /\
  resources mix (log (rand_end w)) [0; 0; 0]%Z = [1; 1026; 3]%Z.
Proof.
  intros w. split; [exact three_drawn|]. split.
  { intros _. split; [|vm_compute; discriminate]. intros rs H. simpl in H. repeat (destruct H as [<-|H]; [simpl; lia|]). destruct H. }
  split; [apply rand_end_reach|]. split; [apply stuckb_ok; destruct w; vm_compute; reflexivity|]. split; destruct w; vm_compute; reflexivity.
Qed.
Definition rand_drive : list move * pool := drive (rand three false) 2 1 chol_moves 3000 (pinit (rand three false) 2 1).
Example C71_ex_pool : (exists k, psteps (rand three false) 2 1 false k (snd rand_drive)) /\ pstuck (rand three false) 2 1 (snd rand_drive) /\
  resources mix (log (core (snd rand_drive))) [0; 0; 0]%Z = [1; 1026; 3]%Z.
Proof.
  assert (H := drive_pool (rand three false) 2 1 chol_moves 3000). split; [exact H|]. split.
  - destruct H as [k H]. apply pstuckb_ok; [exact (proj1 (pool_run _ _ _ _ _ _ H))|]. vm_compute. reflexivity.
  - vm_compute. reflexivity.
Qed.
(** call (1, 1) left out, and call (2, 1) made twice *)
Example C71_check_ex : proper (blank_words 3) /\ Permutation ((1, 1) :: [(0, 0); (0, 1); (2, 1); (2, 2)]) (calls_from 0 three) /\
  (0 < Z.of_nat 1 < word)%Z /\ 1 < length (blank_words 3) /\
  hash_calls test_hash [(0, 0); (0, 1); (2, 1); (2, 2)] (blank_words 3) <> expected test_hash three (blank_words 3).
Proof.
  assert (PR : proper (blank_words 3)).
  { intros v H. simpl in H. exists 0%Z, [0; 0; 0; 0; 0; 0; 0]%Z. repeat (destruct H as [<-|H]; [split; [reflexivity|split; [lia|reflexivity]]|]). destruct H. }
  assert (PM : Permutation ((1, 1) :: [(0, 0); (0, 1); (2, 1); (2, 2)]) (calls_from 0 three)).
  { simpl. apply (Permutation_middle [(0, 0); (0, 1)] [(2, 1); (2, 2)] (1, 1)). }
  assert (B : (0 < Z.of_nat 1 < word)%Z) by (split; reflexivity).
  split; [exact PR|]. split; [exact PM|]. split; [exact B|]. split; [simpl; lia|].
  exact (C71_the_check_sees_calls_left_out three _ 1 1 (blank_words 3) PR PM B ltac:(simpl; lia)).
Qed.

Definition all_rand := (@C71_the_test_passes, @C71_each_resource_is_hashed_in_order, @C71_the_test_ends, @C71_in_the_pool,
  @C71_the_check_does_not_see_the_order, @C71_the_check_sees_the_order_refuted, @C71_the_check_does_not_need_task_0,
  @C71_the_check_sees_calls_left_out, @C71_the_check_sees_calls_made_twice, @C71_ex, @C71_ex_pool, @C71_check_ex).
Print Assumptions all_rand.
