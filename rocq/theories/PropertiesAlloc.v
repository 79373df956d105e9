(** Properties C37, C38 and C39: the allocators. *)
From Coq Require Import Bool List Arith NArith Lia.
From Verif Require Import AllocModel AllocProof AllocThm AllocEx.
Import ListNotations.
Open Scope N_scope.

(** ** C37 *)
(** What requests should be answered, by the number of bytes asked for since the last
    reset: the [n] bytes below the last ones, or nothing if the region is exhausted *)
Definition spec_step (lo up : N) (q : N * list (option (N * N))) (x : access) : N * list (option (N * N)) :=
  let (t, log) := q in
  match x with
  | ATake n => (t + n, (if t + n <=? up - lo then Some (up - (t + n), n) else None) :: log)
  | AReset => (0, [])
  | ACount | AFree => q
  end.
(** never more than [up] bytes asked for between two resets *)
Fixpoint within (up t : N) (xs : list access) : Prop :=
  match xs with
  | [] => True
  | ATake n :: xs => t + n <= up /\ within up (t + n) xs
  | AReset :: xs => within up 0 xs
  | _ :: xs => within up t xs
  end.
Lemma run_spec : forall lo up xs b log t, lo <= up -> up < W64 -> b_lo b = lo -> b_up b = up -> b_next b = up - t -> t <= up -> within up t xs ->
  snd (fold_left access_step xs (b, log)) = snd (fold_left (spec_step lo up) xs (t, log)).
Proof.
  intros lo up. induction xs as [|x xs IH]; intros b log t H1 H2 L U X Y Wn; [reflexivity|]. destruct x as [n| | |]; simpl in Wn.
  - destruct Wn as [W1 W2]. cbn [fold_left access_step spec_step bump_take]. rewrite X, (sub64_nowrap (up - t) n) by lia.
    rewrite L, U. replace (up - t - n) with (up - (t + n)) by lia.
    replace (lo <=? up - (t + n)) with (t + n <=? up - lo).
    + apply IH; cbn [b_lo b_up b_next]; auto.
    + destruct (N.leb_spec (t + n) (up - lo)), (N.leb_spec lo (up - (t + n))); try reflexivity; lia.
  - cbn [fold_left access_step spec_step]. now apply IH.
  - cbn [fold_left access_step spec_step]. now apply IH.
  - cbn [fold_left access_step spec_step]. apply IH; auto; cbn [bump_reset b_lo b_up b_next]; lia.
Qed.
(** For every region and every order of the accesses of any number of threads, each
    request is answered with the next lower bytes, or with null exactly when the region
    is exhausted.  Missing: more bytes asked for between two resets than the upper
    limit has addresses below it, where next_addr wraps around *)
Theorem C37_answers_exact_partial : forall lo up xs, lo <= up -> up < 2 ^ 64 -> within up 0 xs ->
  snd (access_run lo up xs) = snd (fold_left (spec_step lo up) xs (0, [])).
Proof. intros lo up xs H1 H2 W. apply (run_spec lo up); auto; simpl; lia. Qed.
Lemma spec_blocks : forall lo up xs t log, lo <= up -> within up t xs ->
  (forall i a n, nth_error log i = Some (Some (a, n)) -> lo <= a /\ a + n <= up /\ up - t <= a) ->
  (forall i j a n e m, (i < j)%nat -> nth_error log i = Some (Some (a, n)) -> nth_error log j = Some (Some (e, m)) -> a + n <= e) ->
  let log' := snd (fold_left (spec_step lo up) xs (t, log)) in
  (forall i a n, nth_error log' i = Some (Some (a, n)) -> lo <= a /\ a + n <= up) /\
  (forall i j a n e m, (i < j)%nat -> nth_error log' i = Some (Some (a, n)) -> nth_error log' j = Some (Some (e, m)) -> a + n <= e).
Proof.
  intros lo up. induction xs as [|x xs IH]; intros t log H1 W H2 H3; [split; [|exact H3]; intros i a n E; apply H2 in E; tauto|].
  destruct x as [k| | |]; cbn [fold_left spec_step]; simpl in W; try (apply IH; assumption).
  - destruct W as [W1 W2]. apply IH; [assumption|assumption| |].
    + intros [|i] a n E; cbn [nth_error] in E.
      * destruct (N.leb_spec (t + k) (up - lo)); [|discriminate]. injection E as <- <-. lia.
      * apply H2 in E. lia.
    + intros [|i] [|j] a n e m L E1 E2; cbn [nth_error] in E1, E2; try lia.
      * destruct (N.leb_spec (t + k) (up - lo)); [|discriminate]. injection E1 as <- <-. apply H2 in E2. lia.
      * exact (H3 i j _ _ _ _ ltac:(lia) E1 E2).
  - apply IH; [assumption|assumption| |]; intros [|]; simpl; discriminate.
Qed.
Theorem C37_blocks_disjoint_in_range_partial : forall lo up xs, lo <= up -> up < 2 ^ 64 -> within up 0 xs ->
  let log := snd (access_run lo up xs) in
  (forall i a n, nth_error log i = Some (Some (a, n)) -> lo <= a /\ a + n <= up) /\
  (forall i j a n e m, i <> j -> nth_error log i = Some (Some (a, n)) -> nth_error log j = Some (Some (e, m)) -> a + n <= e \/ e + m <= a).
Proof.
  intros lo up xs H1 H2 W log. unfold log. rewrite C37_answers_exact_partial by assumption.
  destruct (spec_blocks lo up xs 0 [] H1 W) as [X Y]; [intros []; discriminate|intros [] []; discriminate|].
  split; [exact X|]. intros i j a n e m N E1 E2. destruct (Nat.lt_total i j) as [L|[L|L]]; [left; eauto|congruence|right; eauto].
Qed.
Definition accesses : list access := [ATake 8; AReset; ATake 1024; ATake 3000; ACount; ACount; ATake 72; ACount; AFree; ATake 100; ATake 0].
Example C37_ex : within 8192 0 accesses /\
  access_run 4096 8192 accesses = (mkB 4096 8192 3996 2, [None; None; Some (4096, 72); Some (4168, 3000); Some (7168, 1024)]).
Proof. split; [simpl; lia|vm_compute; reflexivity]. Qed.
(** A whole call of [allocate] is one access to the address and, when it is
    answered, one to the count: what holds for accesses in any order holds for it. *)
Theorem C37_allocate_is_its_accesses : forall b log n,
  (snd (bump_allocate b n), fst (bump_allocate b n) :: log) =
  fold_left access_step (match fst (bump_allocate b n) with Some _ => [ATake n; ACount] | None => [ATake n] end) (b, log).
Proof.
  intros b log n. unfold bump_allocate. cbn [bump_take]. destruct (b_lo b <=? sub64 (b_next b) n) eqn:L; cbn [fst snd fold_left access_step bump_take]; rewrite L; reflexivity.
Qed.
(** a request larger than the address, or requests that were refused before, make
    next_addr wrap around: the answer is a block outside of the region *)
Theorem C37_in_range_refuted : exists lo up n a, lo < up /\ up < 2 ^ 64 /\ n < 2 ^ 64 /\
  fst (bump_allocate (bump_new lo up) n) = Some (a, n) /\ up <= a.
Proof. exists 4096, 8192, (2 ^ 64 - 16), 8208. vm_compute. repeat split; discriminate. Qed.
Theorem C37_refused_then_out_of_range_refuted : exists lo up n m a, lo < up /\ up < 2 ^ 64 /\ n <= up /\ m <= up /\
  snd (access_run lo up [ATake n; ATake m]) = [Some (a, m); None] /\ up <= a.
Proof. exists 4096, 8192, 8000, 1000, (2 ^ 64 - 808). vm_compute. repeat split; discriminate. Qed.
(** deallocate() does not return "how many active allocations remain" but one more *)
Theorem C37_remaining_refuted : exists b, b_count b = 1 /\ bump_empty (snd (bump_dec b)) = true /\ fst (bump_dec b) <> 0.
Proof. exists (mkB 4096 8192 4096 1). vm_compute. repeat split; discriminate. Qed.

(** ** C38 *)
Definition any (_ : st) (_ : lab) : Prop := True.
(** a chunk is large enough for its management, and cannot hold 2^16 blocks *)
Definition sizes (cap ctrl isz : N) : Prop := ctrl + isz <= cap /\ cap - ctrl - isz < 2 ^ 16.
Definition overlap (b d : blk) : Prop := exists x, addr b <= x < addr b + len b /\ addr d <= x < addr d + len d.
(** For any number of threads and every interleaving in which no allocation overlaps a
    free, blocks that have not been freed do not overlap, though memory of chunks is
    given back and used again.
    Missing: allocations concurrent to frees; requests of 0 or more than 2^63 bytes;
    chunks for 2^16 blocks.  Memory starts at [T * cap] or higher. *)
Theorem C38_blocks_disjoint_partial : forall cap ctrl isz T s b d, sizes cap ctrl isz -> reach cap ctrl isz T (calm cap T) s ->
  In b (held s) -> In d (held s) -> b <> d -> ~ overlap b d.
Proof.
  intros cap ctrl isz T s b d [S1 S2] R B D N (x & X1 & X2). destruct (reach_inv cap ctrl isz T S1 S2 s R) as [fl I].
  assert (Q := ForallOrdPairs_In (i_disj _ _ _ _ _ _ I) b d B D). assert (Bk := i_held _ _ _ _ _ _ I b B). assert (Dk := i_held _ _ _ _ _ _ I d D).
  assert (F : fst b = fst d). 
  { destruct (Nat.eq_dec (fst b) (fst d)) as [E|E]; [assumption|exfalso].
    assert (RF : forall c, block_ok s c -> c_rec (chk s (fst c)) = false).
    { intros c Hc. destruct (c_rec (chk s (fst c))) eqn:Z; [|reflexivity]. apply (ch_rec _ _ _ _ _ _ _ (i_chunk _ _ _ _ _ _ I _ (k_c _ _ Hc))) in Z.
      assert (Y := k_del _ _ Hc). destruct Z. congruence. }
    assert (A := i_apart _ _ _ _ _ _ I _ _ (k_c _ _ Bk) (k_c _ _ Dk) E (RF b Bk) (RF d Dk)).
    destruct (i_chunk _ _ _ _ _ _ I _ (k_c _ _ Bk)) as [E1 E2 _ _ _ _ _ _ _]. destruct (i_chunk _ _ _ _ _ _ I _ (k_c _ _ Dk)) as [E3 E4 _ _ _ _ _ _ _].
    destruct Bk as [_ _ _ _ b1 b2], Dk as [_ _ _ _ d1 d2]. unfold apart in A. lia. }
  unfold disj in Q. destruct Q as [Q|[Q|Q]]; [congruence| |]; lia.
Qed.
(** a block lies in a chunk that is in use and neither erased nor given back; the
    chunks in use do not overlap *)
Theorem C38_chunk_of_block_kept_partial : forall cap ctrl isz T s b, sizes cap ctrl isz -> reach cap ctrl isz T (calm cap T) s -> In b (held s) ->
  let c := fst b in (c < nch s)%nat /\ c_del (chk s c) = false /\ c_rec (chk s c) = false /\
  c_base (chk s c) + ctrl + isz <= addr b /\ addr b + len b <= c_base (chk s c) + cap /\
  forall d, (d < nch s)%nat -> d <> c -> c_rec (chk s d) = false -> apart cap ctrl (c_base (chk s c)) (c_base (chk s d)).
Proof.
  intros cap ctrl isz T s b [S1 S2] R B. destruct (reach_inv cap ctrl isz T S1 S2 s R) as [fl I]. assert (Bk := i_held _ _ _ _ _ _ I b B).
  destruct (i_chunk _ _ _ _ _ _ I _ (k_c _ _ Bk)) as [E1 E2 _ _ _ _ _ _ E9]. destruct Bk as [b1 b2 b3 b4 b5 b6].
  assert (Rc : c_rec (chk s (fst b)) = false) by (destruct (c_rec (chk s (fst b))) eqn:Z; [destruct (E9 eq_refl); congruence|reflexivity]).
  cbn zeta. repeat split; auto; try lia. intros d D N Z. apply (i_apart _ _ _ _ _ _ I); auto.
Qed.
(** the 16-bit count of a chunk is the number of its blocks *)
Theorem C38_count_exact_partial : forall cap ctrl isz T s c, sizes cap ctrl isz -> reach cap ctrl isz T (calm cap T) s -> (c < nch s)%nat ->
  b_count (bump_of s c) = N.of_nat (length (filter (fun b => Nat.eqb (fst b) c) (held s))).
Proof.
  intros cap ctrl isz T s c [S1 S2] R C. destruct (reach_inv cap ctrl isz T S1 S2 s R) as [fl I]. rewrite (ch_cnt _ _ _ _ _ _ _ (i_chunk _ _ _ _ _ _ I _ C)).
  induction (held s) as [|b l IH]; [reflexivity|]. cbn [of_chunk filter]. rewrite IH. destruct (Nat.eqb (fst b) c); cbn [length]; lia.
Qed.

(** the default chunk size with the sizes of the management objects *)
Notation Cap := 65536. Notation Ctrl := 544. Notation Isz := 32.
Example C38_ex_sizes : sizes Cap Ctrl Isz.
Proof. split; [discriminate|reflexivity]. Qed.
(** two threads allocate at once; the first chunk is exhausted, its blocks are freed by
    both threads, it is given back and its memory used again *)
Definition recycle : list (nat * act) :=
  [(0%nat, Alloc 30000); (0%nat, Go); (0%nat, Mem 1000000); (0%nat, Go); (1%nat, Alloc 100); (1%nat, Go)] ++ goes 0 1 ++ goes 1 2 ++ goes 0 1 ++
  [(0%nat, Alloc 32768)] ++ goes 0 2 ++ [(0%nat, Mem 2000000)] ++ goes 0 3 ++
  [(0%nat, Free (0%nat, (1032768, 32768)) 0); (1%nat, Free (0%nat, (1032640, 128)) 0)] ++ goes 0 1 ++ goes 1 2 ++ [(1%nat, Back 0)] ++
  [(0%nat, Alloc 32768)] ++ goes 0 2 ++ [(0%nat, Mem 1000000)] ++ goes 0 3.
Example C38_ex_recycled : exists s, reach Cap Ctrl Isz 2 (calm Cap 2) s /\ held s = [(2%nat, (1032768, 32768)); (1%nat, (2032768, 32768))] /\
  c_rec (chk s 0) = true /\ c_base (chk s 2) = c_base (chk s 0).
Proof.
  destruct (run_some Cap Ctrl Isz 2 (calmb Cap 2) (calm Cap 2) recycle (fun s => (held s, c_rec (chk s 0), c_base (chk s 0), c_base (chk s 2)) =
    ([(2%nat, (1032768, 32768)); (1%nat, (2032768, 32768))], true, 1000000, 1000000))) as (s & R & E); [apply calmb_ok|vm_compute; reflexivity|].
  exists s. split; [exact R|]. clear R. injection E as E1 E2 E3 E4. repeat split; congruence.
Qed.
(** Thread 1 has taken its bytes but not yet counted them when thread 0 frees the last
    counted block of the exhausted chunk: the chunk is erased, given back, and its
    memory handed out again while thread 1 uses its block *)
Definition race : list (nat * act) :=
  [(0%nat, Alloc 32768); (0%nat, Go); (0%nat, Mem 1000000)] ++ goes 0 3 ++ [(1%nat, Alloc 16384)] ++ goes 1 2 ++
  [(2%nat, Alloc 16384)] ++ goes 2 2 ++ [(2%nat, Mem 2000000)] ++ goes 2 3 ++ [(0%nat, Free (0%nat, (1032768, 32768)) 0)] ++ goes 0 2 ++ goes 1 1 ++
  [(0%nat, Back 0); (2%nat, Alloc 32768)] ++ goes 2 3 ++ [(2%nat, Alloc 32768)] ++ goes 2 2 ++ [(2%nat, Mem 1000000)] ++ goes 2 3 ++ [(2%nat, Alloc 16384)] ++ goes 2 3.
Theorem C38_blocks_disjoint_refuted : exists s b d, reach Cap Ctrl Isz 3 any s /\ In b (held s) /\ In d (held s) /\ b <> d /\ overlap b d.
Proof.
  destruct (run_some Cap Ctrl Isz 3 (fun _ _ => true) any race (fun s => held s =
    [(2%nat, (1016384, 16384)); (2%nat, (1032768, 32768)); (1%nat, (2016384, 32768)); (0%nat, (1016384, 16384)); (1%nat, (2049152, 16384))])) as (s & R & E);
    [easy|vm_compute; reflexivity|].
  exists s, (2%nat, (1016384, 16384)), (0%nat, (1016384, 16384)). rewrite E. split; [exact R|]. split; [simpl; auto|]. split; [simpl; auto|].
  split; [discriminate|]. exists 1016384. unfold addr, len. simpl. lia.
Qed.
(** chunks of 128 KiB can hold more blocks than the count can count: with 65537 blocks
    of one byte the chunk is erased when the first of them is freed.  One thread *)
Theorem C38_chunk_of_block_kept_refuted : exists s b, reach 131072 544 32 1 (calm 131072 1) s /\ In b (held s) /\ c_del (chk s (fst b)) = true.
Proof.
  destruct (many_blocks 65536) as (s1 & R1 & I1 & N1 & B1 & X1 & H1 & _); [reflexivity|].
  (* the chunk is exhausted by one large request *)
  destruct (serve_new 131072 544 32 s1 0 65536 3000000 R1 I1 N1) as (s2 & R2 & I2 & N2 & B2 & C2 & b2 & H2);
    [vm_compute; split; discriminate|rewrite B1; vm_compute; discriminate|rewrite B1; reflexivity|rewrite B1; reflexivity|discriminate|reflexivity|reflexivity| |vm_compute; discriminate|reflexivity|].
  { intros c C _. replace c with 0%nat by lia. destruct X1 as (X1 & _). rewrite X1. right. discriminate. }
  destruct X1 as (X1 & X2 & X3).
  (* one block is freed *)
  destruct (serve_free 131072 544 32 s2 0 (0%nat, (1131071, 1)) R2 I2) as (s3 & R3 & D3 & H3).
  - rewrite H2. right. apply H1. split; reflexivity || discriminate.
  - lia.
  - rewrite C2 by lia. simpl. exact X3.
  - rewrite B2, B1. reflexivity.
  - rewrite B2, B1. reflexivity.
  - rewrite B2, B1. reflexivity.
  - exists s3, (0%nat, (1131070, 1)). split; [exact R3|]. split; [|exact D3]. apply H3; [|discriminate]. rewrite H2. right. apply H1. split; reflexivity || discriminate.
Qed.
(** the first block of zero bytes in a chunk belongs to no chunk: its free is ignored and
    the chunk never becomes empty *)
Theorem C38_every_block_freed_refuted : exists s b, reach Cap Ctrl Isz 1 any s /\ In b (held s) /\ pcs s 0 = Idle /\
  (forall c, (c < nch s)%nat -> bump_owns (bump_of s c) (addr b) = false) /\ step Cap Ctrl Isz s 0 (LFree b) s.
Proof.
  destruct (run_some Cap Ctrl Isz 1 (fun _ _ => true) any ([(0%nat, Alloc 0); (0%nat, Go); (0%nat, Mem 1000000)] ++ goes 0 3)
    (fun s => (nch s, held s, bump_of s 0, pcs s 0) = (1%nat, [(0%nat, (1065536, 0))], mkB 1000576 1065536 1065536 1, Idle) /\ forall u, pcs s u = Idle)) as (s & R & E & P);
    [easy|vm_compute; split; [reflexivity|intros [|u]; reflexivity]|].
  injection E as E1 E2 E3 E4. exists s, (0%nat, (1065536, 0)). rewrite E2.
  assert (F : forall c, (c < nch s)%nat -> bump_owns (bump_of s c) 1065536 = false). { intros c C. replace c with 0%nat by lia. rewrite E3. reflexivity. }
  split; [exact R|]. split; [simpl; auto|]. split; [exact E4|]. split; [exact F|]. apply s_free_lost; auto.
  - rewrite E2. simpl. auto.
  - intros u d. rewrite P. discriminate.
Qed.
(** a chunk whose last block is freed before it is exhausted is never erased and stays
    in the list for ever *)
Theorem C38_empty_chunk_given_back_refuted : exists s, reach Cap Ctrl Isz 1 (calm Cap 1) s /\ b_count (bump_of s 0) = 0 /\ bump_full (bump_of s 0) = true /\ nch s = 2%nat /\
  forall s', later Cap Ctrl Isz 1 s s' -> c_del (chk s' 0) = false /\ (forall b, In b (held s') -> fst b <> 0%nat).
Proof.
  destruct (run_some Cap Ctrl Isz 1 (calmb Cap 1) (calm Cap 1) ([(0%nat, Alloc 32768); (0%nat, Go); (0%nat, Mem 1000000)] ++ goes 0 3 ++
     [(0%nat, Free (0%nat, (1032768, 32768)) 0)] ++ goes 0 2 ++ [(0%nat, Alloc 32768)] ++ goes 0 2 ++ [(0%nat, Mem 2000000)] ++ goes 0 3)
    (fun s => (nch s, c_del (chk s 0), bump_full (bump_of s 0), held s, b_count (bump_of s 0)) = (2%nat, false, true, [(1%nat, (2032768, 32768))], 0) /\ forall u, pcs s u = Idle)) as (s & R & E & P);
    [apply calmb_ok|vm_compute; split; [reflexivity|intros [|u]; reflexivity]|].
  injection E as E1 E2 E3 E4 E5. exists s. split; [exact R|]. split; [exact E5|]. split; [exact E3|]. split; [exact E1|]. intros s' L.
  destruct (forgotten_for_ever Cap Ctrl Isz 1 (proj1 C38_ex_sizes) (proj2 C38_ex_sizes) s s' L R 0%nat) as (F1 & F2 & F3 & F4).
  - split; [lia|]. split; [exact E2|]. split; [rewrite E4; reflexivity|]. intros u. rewrite P. simpl. auto.
  - split; [exact F2|]. intros b Hb Z. assert (X := of_chunk_pos 0%nat b _ Hb Z). lia.
Qed.

(** ** C39 *)
(** the size is rounded up to the next power of two *)
Theorem C39_roundup : forall n, 1 <= n -> n <= 2 ^ 63 -> exists k, roundup n = 2 ^ k /\ n <= roundup n /\ (forall j, n <= 2 ^ j -> roundup n <= 2 ^ j).
Proof.
  intros n P L. exists (N.log2_up n). rewrite (roundup_spec n P L). split; [reflexivity|]. split; [apply N.log2_up_le_pow2; lia|].
  intros j H. apply N.pow_le_mono_r; [lia|]. apply N.log2_up_le_pow2; lia.
Qed.
(** In every reachable state, a request that fits into a chunk is answered by a block of
    the rounded size after at most six further steps of its thread, if it runs on its
    own and memory is available for one chunk.
    Missing: requests larger than a chunk without its management objects. *)
Theorem C39_answered_partial : forall cap ctrl isz T s t n p, sizes cap ctrl isz -> reach cap ctrl isz T (calm cap T) s -> (t < T)%nat ->
  1 <= n -> n <= 2 ^ 63 -> roundup n <= cap - ctrl - isz -> pcs s t = AHead (roundup n) ->
  N.of_nat T * cap <= p -> 0 < p -> p + (cap + ctrl) < 2 ^ 64 -> (forall c, (c < nch s)%nat -> c_rec (chk s c) = false -> apart cap ctrl p (c_base (chk s c))) ->
  exists k s' c a m, (k <= 6)%nat /\ alone cap ctrl isz T t k s s' /\ pcs s' t = Idle /\ held s' = (c, (a, m)) :: held s /\ n <= m.
Proof.
  intros cap ctrl isz T s t n p [S1 S2] R L N1 N2 U E P0 P1 P2 P3. destruct (C39_roundup n N1 N2) as (_ & _ & Q & _).
  destruct (answered cap ctrl isz T S1 S2 s t (roundup n) p R L E U P0 P1 P2 P3) as (k & s' & c & a & K & A & I & H).
  exists k, s', c, a, (roundup n). auto.
Qed.
Example C39_ex : roundup 30000 = 32768 /\ roundup 30000 <= Cap - Ctrl - Isz /\
  exists s, reach Cap Ctrl Isz 2 (calm Cap 2) s /\ pcs s 0 = AHead (roundup 30000) /\ nch s = 1%nat /\ c_base (chk s 0) = 1000000.
Proof.
  split; [reflexivity|]. split; [vm_compute; discriminate|].
  destruct (run_some Cap Ctrl Isz 2 (calmb Cap 2) (calm Cap 2) ([(1%nat, Alloc 100); (1%nat, Go); (1%nat, Mem 1000000)] ++ goes 1 1 ++ [(0%nat, Alloc 30000)])
    (fun s => (pcs s 0, nch s, c_base (chk s 0)) = (AHead (roundup 30000), 1%nat, 1000000))) as (s & R & E); [apply calmb_ok|vm_compute; reflexivity|].
  injection E as E1 E2 E3. exists s. auto.
Qed.
(** a request whose rounded size is larger than that is never answered: allocate() asks
    for new chunks for ever, whatever the other threads do *)
Theorem C39_too_large_for_a_chunk_hangs : forall cap ctrl isz T s s' t n, sizes cap ctrl isz -> reach cap ctrl isz T (calm cap T) s ->
  cap - ctrl - isz < roundup n -> pcs s t = AHead (roundup n) -> later cap ctrl isz T s s' -> asking (pcs s' t) (roundup n).
Proof.
  intros cap ctrl isz T s s' t n [S1 S2] R U E L. apply (asks_for_ever cap ctrl isz T S1 S2 s s' L R); [now rewrite E|exact U].
Qed.
(** with the default chunk size these are all requests of 32769 to 65536 bytes *)
Theorem C39_every_request_answered_refuted : forall n, 32768 < n -> n <= Cap ->
  exists s, reach Cap Ctrl Isz 1 (calm Cap 1) s /\ (forall s', later Cap Ctrl Isz 1 s s' -> asking (pcs s' 0) Cap) /\ step Cap Ctrl Isz (init Cap Ctrl Isz) 0 (LAlloc n) s.
Proof.
  intros n L U. assert (Rn : roundup n = Cap).
  { rewrite roundup_spec; [|lia|apply N.le_trans with Cap; [assumption|discriminate]]. replace (N.log2_up n) with 16; [reflexivity|].
    symmetry. apply N.log2_up_unique; [lia|]. split; assumption. }
  assert (ST : step Cap Ctrl Isz (init Cap Ctrl Isz) 0 (LAlloc n) (at_pc (init Cap Ctrl Isz) 0 (AHead (roundup n)))).
  { apply s_alloc; [reflexivity|]. rewrite Rn. discriminate. }
  assert (RS : reach Cap Ctrl Isz 1 (calm Cap 1) (at_pc (init Cap Ctrl Isz) 0 (AHead (roundup n)))).
  { eapply r_step; [apply r_init| |exact ST|]; [lia|]. split; [rewrite Rn; discriminate|]. intros u. simpl. auto. }
  eexists. split; [exact RS|]. split; [|exact ST]. intros s' Lt. assert (A : asking (pcs s' 0) (roundup n)); [|rewrite Rn in A; exact A].
  apply (C39_too_large_for_a_chunk_hangs Cap Ctrl Isz 1 _ s' 0 n C38_ex_sizes RS); [rewrite Rn; reflexivity|reflexivity|exact Lt].
Qed.
(** requests above 2^63 bytes are rounded to 0 and answered by a block of 0 bytes *)
Theorem C39_huge_request_refuted : forall n, 2 ^ 63 < n -> n < 2 ^ 64 ->
  exists s a, reach Cap Ctrl Isz 1 any s /\ pcs s 0 = Idle /\ held s = [(0%nat, (a, 0))] /\ step Cap Ctrl Isz (init Cap Ctrl Isz) 0 (LAlloc n) (at_pc (init Cap Ctrl Isz) 0 (AHead 0)).
Proof.
  intros n P L. destruct (run_some Cap Ctrl Isz 1 (fun _ _ => true) any ([(0%nat, Alloc 0); (0%nat, Go); (0%nat, Mem 1000000)] ++ goes 0 3)
    (fun s => (held s, pcs s 0) = ([(0%nat, (1065536, 0))], Idle))) as (s & R & E); [easy|vm_compute; reflexivity|].
  injection E as E1 E2. exists s, 1065536. split; [exact R|]. split; [exact E2|]. split; [exact E1|].
  assert (X := s_alloc Cap Ctrl Isz (init Cap Ctrl Isz) 0%nat n eq_refl). rewrite roundup_huge in X by assumption. apply X. discriminate.
Qed.
(** a capacity that is no power of two: requests up to it may be refused *)
Theorem C39_up_to_capacity_refuted : exists cap n, 1 <= n /\ n <= cap /\ sizes cap Ctrl Isz /\
  forall s s' T, pcs s 0 = Idle -> reach cap Ctrl Isz T (calm cap T) s -> step cap Ctrl Isz s 0 (LAlloc n) s' -> s' = s.
Proof.
  exists 60000, 40000. split; [discriminate|]. split; [discriminate|]. split; [split; [discriminate|reflexivity]|].
  intros s s' T P _ H. inversion H; subst; [|reflexivity]. exfalso. match goal with X : roundup _ <= _ |- _ => vm_compute in X; congruence end.
Qed.

Definition all_alloc := (C37_allocate_is_its_accesses, C37_answers_exact_partial, C37_blocks_disjoint_in_range_partial, C37_in_range_refuted, C37_refused_then_out_of_range_refuted, C37_remaining_refuted,
  C38_blocks_disjoint_partial, C38_chunk_of_block_kept_partial, C38_count_exact_partial, C38_blocks_disjoint_refuted, C38_chunk_of_block_kept_refuted,
  C38_every_block_freed_refuted, C38_empty_chunk_given_back_refuted, C39_roundup, C39_answered_partial, C39_too_large_for_a_chunk_hangs,
  C39_every_request_answered_refuted, C39_huge_request_refuted, C39_up_to_capacity_refuted).
Print Assumptions all_alloc.
