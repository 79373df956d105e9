(** Property C75: the alignment of the blocks of the allocators. *)
From Coq Require Import Bool List Arith NArith Lia.
From Verif Require Import AllocModel AllocProof AllocThm AllocEx AlignModel.
Import ListNotations.
Open Scope N_scope.

(** ** One bump allocator *)
(** Specification: the sum of the requests since the last reset *)
Fixpoint taken (acc : N) (xs : list access) : N :=
  match xs with
  | [] => acc
  | ATake n :: r => taken (acc + n) r
  | AReset :: r => taken 0 r
  | _ :: r => taken acc r
  end.
Definition word_sized (x : access) : Prop := match x with ATake n => n < 2 ^ 64 | _ => True end.

Lemma sub64_add : forall a n, n < W64 -> (sub64 a n + n) mod W64 = a mod W64.
Proof.
  intros a n L. unfold sub64. rewrite N.add_mod_idemp_l by discriminate. replace (a + W64 - n + n) with (a + 1 * W64) by lia. now apply N.mod_add.
Qed.
Lemma sub64_lt : forall a n, sub64 a n < W64.
Proof. intros. unfold sub64. now apply N.mod_lt. Qed.
Lemma next_taken : forall xs b log acc up, Forall word_sized xs -> b_up b = up -> (b_next b + acc) mod W64 = up mod W64 ->
  let b' := fst (fold_left access_step xs (b, log)) in (b_next b' + taken acc xs) mod W64 = up mod W64 /\ b_up b' = up.
Proof.
  induction xs as [|x xs IH]; intros b log acc up F U E; simpl; [auto|]. inversion F as [|? ? F1 F2]; subst x0 l. destruct x as [n| | |]; simpl.
  - apply (IH (mkB (b_lo b) (b_up b) (sub64 (b_next b) n) (b_count b))); auto. cbn [b_next]. rewrite <- E.
    replace (sub64 (b_next b) n + (acc + n)) with (sub64 (b_next b) n + n + acc) by lia.
    rewrite <- N.add_mod_idemp_l by discriminate. rewrite sub64_add by exact F1. now rewrite N.add_mod_idemp_l.
  - now apply IH.
  - now apply IH.
  - apply IH; auto. cbn [b_next bump_reset]. rewrite U. f_equal. lia.
Qed.

(** The block a request is answered with starts at the end of the region less all the
    requests since the last reset, this one included (modulo 2^64). *)
Theorem C75_address_is_end_less_requests : forall lo up xs n b a m log, up < 2 ^ 64 -> Forall word_sized xs -> n < 2 ^ 64 ->
  access_run lo up (xs ++ [ATake n]) = (b, Some (a, m) :: log) ->
  m = n /\ a < 2 ^ 64 /\ (a + (taken 0 xs + n)) mod 2 ^ 64 = up.
Proof.
  intros lo up xs n b a m log U F L H. unfold access_run in H. rewrite fold_left_app in H. cbn [fold_left] in H.
  assert (X := next_taken xs (bump_new lo up) [] 0 up F eq_refl). cbn [b_next bump_new] in X. rewrite N.add_0_r in X. specialize (X eq_refl). cbv zeta in X.
  destruct (fold_left access_step xs (bump_new lo up, [])) as [b0 log0]. cbn [fst] in X. destruct X as [X _]. cbn in H.
  change (b_lo b0 <=? sub64 (b_next b0) n) with (b_lo b0 <=? sub64 (b_next b0) n) in H.
  destruct (b_lo b0 <=? sub64 (b_next b0) n); inversion H; subst. split; [reflexivity|]. split; [apply sub64_lt|].
  change (2 ^ 64) with W64 in *. replace (sub64 (b_next b0) m + (taken 0 xs + m)) with (sub64 (b_next b0) m + m + taken 0 xs) by lia.
  rewrite <- N.add_mod_idemp_l by discriminate. rewrite sub64_add by assumption. rewrite N.add_mod_idemp_l by discriminate. rewrite X. now apply N.mod_small.
Qed.

Lemma div_mod64 : forall k x, k <= 64 -> ((2 ^ k | x mod W64) <-> (2 ^ k | x)).
Proof.
  intros k x K. assert (D : (2 ^ k | W64)). { exists (2 ^ (64 - k)). unfold W64. rewrite <- N.pow_add_r. f_equal. lia. }
  rewrite (N.div_mod x W64) at 2 by discriminate. split; intros H.
  - apply N.divide_add_r; [|assumption]. now apply N.divide_mul_l.
  - eapply N.divide_add_cancel_r; [|exact H]. now apply N.divide_mul_l.
Qed.

(** If the end of the region is aligned, a block is aligned exactly if the sum of the
    requests up to it is a multiple of the alignment: what else was requested decides,
    not the request itself. *)
Theorem C75_aligned_iff : forall k lo up xs n b a m log, k <= 64 -> up < 2 ^ 64 -> (2 ^ k | up) -> Forall word_sized xs -> n < 2 ^ 64 ->
  access_run lo up (xs ++ [ATake n]) = (b, Some (a, m) :: log) ->
  ((2 ^ k | a) <-> (2 ^ k | taken 0 xs + n)).
Proof.
  intros k lo up xs n b a m log K U D F L H. destruct (C75_address_is_end_less_requests _ _ _ _ _ _ _ _ U F L H) as (_ & _ & E).
  assert (S : (2 ^ k | a + (taken 0 xs + n))). { rewrite <- (div_mod64 k) by assumption. change W64 with (2 ^ 64). now rewrite E. }
  split; intros X; [eapply N.divide_add_cancel_r; [exact X|exact S]|]. rewrite N.add_comm in S. eapply N.divide_add_cancel_r; [exact X|exact S].
Qed.
Example C75_ex : let xs := [ATake 32; ACount; AFree; AReset; ATake 32; ACount; ATake 64; ACount] in
  Forall word_sized xs /\ taken 0 xs = 96 /\ (2 ^ 6 | 8192) /\
  (exists b log, access_run 4096 8192 (xs ++ [ATake 32]) = (b, Some (8064, 32) :: log)) /\ (2 ^ 6 | 8064) /\
  (exists b log, access_run 4096 8192 (xs ++ [ATake 64]) = (b, Some (8032, 64) :: log)) /\ ~ (2 ^ 6 | 8032).
Proof.
  cbv zeta. split; [repeat constructor|]. split; [reflexivity|]. split; [now exists 128|]. split; [eexists; eexists; reflexivity|].
  split; [now exists 126|]. split; [eexists; eexists; reflexivity|]. intros [z E]. change (2 ^ 6) with 64 in E. lia.
Qed.

(** ** The allocator of a worker *)
(** requests of more than half of 2^k bytes, and chunks that end at a multiple of 2^k *)
Definition large_requests (k cap : N) (s : st) (l : lab) : Prop :=
  match l with LAlloc n => 2 ^ k < 2 * n /\ n < 2 ^ 64 | LMem p => (2 ^ k | p + cap) | _ => True end.

Lemma roundup_div : forall k n, 2 ^ k < 2 * n -> n < W64 -> (2 ^ k | roundup n).
Proof.
  intros k n H L. destruct (N.le_gt_cases n (2 ^ 63)) as [M|M]; [|rewrite roundup_huge by assumption; apply N.divide_0_r].
  assert (P : 0 < 2 ^ k) by (apply N.neq_0_lt_0, N.pow_nonzero; lia). rewrite roundup_spec by lia.
  assert (Q : k <= N.log2_up n). { apply N.lt_succ_r. rewrite <- N.log2_up_double by lia. destruct (N.le_gt_cases (N.log2_up (2 * n)) k) as [X|X]; [|assumption].
    exfalso. assert (Y : 2 * n <= 2 ^ N.log2_up (2 * n)). { destruct (N.le_gt_cases (2 * n) 1); [lia|]. now apply N.log2_up_spec. }
    assert (Z : 2 ^ N.log2_up (2 * n) <= 2 ^ k) by (apply N.pow_le_mono_r; lia). lia. }
  exists (2 ^ (N.log2_up n - k)). rewrite <- N.pow_add_r. f_equal. lia.
Qed.
Lemma sub64_div : forall k a n, k <= 64 -> n <= a + W64 -> (2 ^ k | a) -> (2 ^ k | n) -> (2 ^ k | sub64 a n).
Proof.
  intros k a n K L A B. unfold sub64. rewrite div_mod64 by assumption.
  assert (D : (2 ^ k | W64)). { exists (2 ^ (64 - k)). unfold W64. rewrite <- N.pow_add_r. f_equal. lia. }
  apply N.divide_sub_r; auto. now apply N.divide_add_r.
Qed.
Lemma roundup_lt : forall n, roundup n < W64.
Proof. intros. unfold roundup. now apply N.mod_lt. Qed.

Section Inv.
Context (k cap ctrl isz : N).
Definition pc_al (s : st) (p : pc) : Prop :=
  match p with
  | AHead n | AApp n => (2 ^ k | n) /\ n < W64
  | ASub c n => (2 ^ k | n) /\ n < W64 /\ (c < nch s)%nat
  | AInc c a n => (2 ^ k | a) /\ (2 ^ k | n) /\ n < W64
  | _ => True
  end.
Definition al_inv (s : st) : Prop :=
  (forall c, (c < nch s)%nat -> (2 ^ k | b_next (bump_of s c))) /\ (forall t, pc_al s (pcs s t)) /\ (forall c a n, In (c, (a, n)) (held s) -> (2 ^ k | a)).
Lemma in_remove : forall b d l, In d (remove_blk b l) -> In d l.
Proof. intros b d. induction l as [|x l IH]; simpl; [tauto|]. destruct (blk_eqb b x); simpl; tauto. Qed.
Lemma pc_al_le : forall s s' p, (nch s <= nch s')%nat -> pc_al s p -> pc_al s' p.
Proof. intros s s' [] L H; simpl in *; intuition lia. Qed.
Lemma pcs_al : forall s s' t p, (forall u, pc_al s (pcs s u)) -> (nch s <= nch s')%nat -> pcs s' = upd (pcs s) t p -> pc_al s' p -> forall u, pc_al s' (pcs s' u).
Proof. intros s s' t p H L E P u. rewrite E. unfold upd. destruct (Nat.eqb u t); [assumption|]. eapply pc_al_le; eauto. Qed.
Lemma al_step : forall s t l s', k <= 64 -> ctrl + isz <= cap -> step cap ctrl isz s t l s' -> large_requests k cap s l -> al_inv s -> al_inv s'.
Proof.
  intros s t l s' K Z H O (I1 & I2 & I3). assert (It := I2 t).
  destruct H as [s t n E L|s t n E L|s t n E|s t c n E|s t c a n E|s t n p E P0 P1 P2|s t b c E|s t b E|s t c b E|s t c E|s t c C1 C2 C3 C4];
    try (rewrite E in It; simpl in It); simpl in O.
  - split; [exact I1|split; [|exact I3]]. eapply pcs_al; [exact I2|simpl; lia|reflexivity|]. split; [now apply roundup_div|apply roundup_lt].
  - split; [exact I1|split; [exact I2|exact I3]].
  - split; [exact I1|split; [|exact I3]]. eapply pcs_al; [exact I2|simpl; lia|reflexivity|]. destruct (nch s) as [|c] eqn:N; simpl; [tauto|]. rewrite N. intuition lia.
  - destruct It as (It & Lt & Lc). assert (Sd : (2 ^ k | sub64 (b_next (bump_of s c)) n)) by (apply sub64_div; auto; lia).
    split; [|split; [|exact I3]].
    + intros d D. unfold bump_of, with_bump. cbn [chk]. unfold upd. destruct (Nat.eqb d c); [exact Sd|apply I1; exact D].
    + eapply pcs_al; [exact I2|simpl; lia|reflexivity|]. destruct (_ <=? _); simpl; [|tauto]. split; [exact Sd|tauto].
  - split; [|split].
    + intros d D. unfold bump_of, with_bump. cbn [chk]. unfold upd. destruct (Nat.eqb_spec d c) as [->|]; apply I1; exact D.
    + eapply pcs_al; [exact I2|simpl; lia|reflexivity|]. destruct (a =? 0); simpl; tauto.
    + intros d x m [X|X]; [inversion X; subst; exact (proj1 It)|eapply I3; exact X].
  - split; [|split; [|exact I3]].
    + intros d D. unfold bump_of. cbn [chk]. unfold upd. destruct (Nat.eqb_spec d (nch s)) as [->|Ne].
      * cbn. replace (p + ctrl + isz + (cap - ctrl - isz)) with (p + cap) by lia. exact O.
      * apply I1. cbn in D. lia.
    + eapply pcs_al; [exact I2|simpl; lia|reflexivity|]. exact It.
  - split; [exact I1|split; [|exact I3]]. eapply pcs_al; [exact I2|simpl; lia|reflexivity|exact I].
  - split; [exact I1|split; [exact I2|exact I3]].
  - split; [|split].
    + intros d D. unfold bump_of, with_bump. cbn [chk]. unfold upd. destruct (Nat.eqb_spec d c) as [->|]; apply I1; exact D.
    + eapply pcs_al; [exact I2|simpl; lia|reflexivity|]. destruct (_ =? _); exact I.
    + intros d x m X. apply in_remove in X. eapply I3; exact X.
  - split; [|split; [|exact I3]].
    + intros d D. unfold bump_of. cbn [chk]. destruct (bump_full (c_bump (chk s c))); [|now apply I1]. unfold upd. destruct (Nat.eqb_spec d c) as [->|]; apply I1; exact D.
    + eapply pcs_al; [exact I2|simpl; lia|reflexivity|exact I].
  - split; [|split; [|exact I3]].
    + intros d D. unfold bump_of. cbn [chk]. unfold upd. destruct (Nat.eqb_spec d c) as [->|]; apply I1; exact D.
    + exact I2.
Qed.
Lemma al_reach : forall T s, k <= 64 -> ctrl + isz <= cap -> reach cap ctrl isz T (large_requests k cap) s -> al_inv s.
Proof.
  intros T s K Z R. induction R as [|s t l s' R IH L H O]; [|eapply al_step; eauto].
  split; [intros c X; simpl in X; lia|split; [intros t; exact I|intros c a n []]].
Qed.
End Inv.

(** In every execution, whatever the threads do and even if next_addr wraps around: if
    every request is for more than half of 2^k bytes and every chunk ends at a multiple of
    2^k, every block handed out starts at a multiple of 2^k. *)
Theorem C75_blocks_aligned : forall k cap ctrl isz T s c a n, k <= 64 -> ctrl + isz <= cap ->
  reach cap ctrl isz T (large_requests k cap) s -> In (c, (a, n)) (held s) -> (2 ^ k | a).
Proof. intros k cap ctrl isz T s c a n K Z R H. destruct (al_reach k cap ctrl isz T s K Z R) as (_ & _ & I3). eapply I3; exact H. Qed.

(** The requests of StdAllocator for objects whose size is a multiple of 2^k, as the size of
    a type of that alignment is: if all are of this kind, all objects are aligned. *)
Definition std_requests (k cap : N) (s : st) (l : lab) : Prop :=
  match l with
  | LAlloc r => exists sz n, r = std_request sz n /\ (2 ^ k | sz) /\ 1 <= sz * n /\ sz * n < 2 ^ 64
  | LMem p => (2 ^ k | p + cap)
  | _ => True
  end.
Lemma reach_weaker : forall cap ctrl isz T (ok ok' : st -> lab -> Prop) s, (forall s l, ok s l -> ok' s l) -> reach cap ctrl isz T ok s -> reach cap ctrl isz T ok' s.
Proof. intros cap ctrl isz T ok ok' s W R. induction R; [constructor|]. eapply r_step; eauto. Qed.
Theorem C75_objects_of_one_alignment : forall k cap ctrl isz T s c a n, k <= 64 -> ctrl + isz <= cap ->
  reach cap ctrl isz T (std_requests k cap) s -> In (c, (a, n)) (held s) -> (2 ^ k | a).
Proof.
  intros k cap ctrl isz T s c a n K Z R H. eapply C75_blocks_aligned; [exact K|exact Z| |exact H]. eapply reach_weaker; [|exact R].
  intros s0 [|r|b|p] O; cbn [large_requests std_requests] in *; auto. destruct O as (sz & m & -> & [q ->] & L1 & L2). unfold std_request. rewrite N.mod_small by exact L2.
  assert (P : 0 < 2 ^ k) by (apply N.neq_0_lt_0, N.pow_nonzero; lia). split; [|exact L2].
  assert (Q : 1 <= q * m) by (destruct (N.eq_0_gt_0_cases (q * m)) as [E|]; [|lia]; replace (q * 2 ^ k * m) with (q * m * 2 ^ k) in L1 by lia; rewrite E in L1; lia).
  replace (q * 2 ^ k * m) with (q * m * 2 ^ k) by lia. assert (W : 1 * 2 ^ k <= q * m * 2 ^ k) by now apply N.mul_le_mono_r.
  rewrite N.mul_1_l in W. clear - P W. set (x := 2 ^ k) in *. set (y := q * m * x) in *. clearbody x y. lia.
Qed.

(** The chunks of the library: 64 KiB blocks from hwloc at page boundaries *)
Definition page_chunks (cap : N) (s : st) (l : lab) : bool :=
  match l with LAlloc n => (1 <=? n) && (n <? 2 ^ 64) | LMem p => p mod 4096 =? 0 | _ => true end.
Definition large_b (k cap : N) (s : st) (l : lab) : bool :=
  match l with LAlloc n => (2 ^ k <? 2 * n) && (n <? 2 ^ 64) | LMem p => (p + cap) mod 2 ^ k =? 0 | _ => true end.
Lemma large_b_ok : forall k cap s l, large_b k cap s l = true -> large_requests k cap s l.
Proof.
  intros k cap s [|n|b|p] H; simpl in *; auto.
  - apply andb_prop in H. destruct H as [H1 H2]. now apply N.ltb_lt in H1, H2.
  - apply N.eqb_eq in H. apply N.mod_divide in H; [assumption|]. now apply N.pow_nonzero.
Qed.
(** two threads, requests of 24, 20 and 300 bytes, a block freed: all blocks at multiples of 32 *)
Example C75_ex_blocks : exists s, reach 65536 544 40 2 (large_requests 5 65536) s /\
  held s = [(0%nat, (1114112 - 32 - 32 - 512, 512)); (0%nat, (1114112 - 32 - 32, 32))].
Proof.
  apply (run_some 65536 544 40 2 (large_b 5 65536) (large_requests 5 65536)
    [(0%nat, Alloc 24); (1%nat, Alloc 20); (0%nat, Go); (0%nat, Mem 1048576); (0%nat, Go); (0%nat, Go); (1%nat, Go); (0%nat, Go); (1%nat, Go); (1%nat, Go);
     (1%nat, Alloc 300); (1%nat, Go); (0%nat, Free (0%nat, (1114080, 32)) 0%nat); (1%nat, Go); (0%nat, Go); (1%nat, Go)]
    (fun s => held s = [(0%nat, (1114112 - 32 - 32 - 512, 512)); (0%nat, (1114112 - 32 - 32, 32))])).
  - intros s b _. apply large_b_ok.
  - vm_compute. reflexivity.
Qed.

Definition std_b (k cap : N) (s : st) (l : lab) : bool :=
  match l with LAlloc n => (n mod 2 ^ k =? 0) && (1 <=? n) && (n <? 2 ^ 64) | LMem p => (p + cap) mod 2 ^ k =? 0 | _ => true end.
Lemma std_b_ok : forall k cap s l, std_b k cap s l = true -> std_requests k cap s l.
Proof.
  intros k cap s [|n|b|p] H; cbn [std_b std_requests] in *; auto.
  - rewrite !andb_true_iff in H. destruct H as [[H1 H2] H3]. apply N.eqb_eq, N.mod_divide in H1; [|now apply N.pow_nonzero].
    apply N.leb_le in H2. apply N.ltb_lt in H3. exists n, 1. rewrite N.mul_1_r. split; [|auto]. unfold std_request. rewrite N.mul_1_r. symmetry. now apply N.mod_small.
  - apply N.eqb_eq in H. apply N.mod_divide in H; [assumption|]. now apply N.pow_nonzero.
Qed.
(** objects of 64 and of 192 bytes, of alignment 64 *)
Example C75_ex_objects : exists s, reach 65536 544 40 2 (std_requests 6 65536) s /\
  held s = [(0%nat, (1114112 - 64 - 256, 256)); (0%nat, (1114112 - 64, 64))].
Proof.
  apply (run_some 65536 544 40 2 (std_b 6 65536) (std_requests 6 65536)
    [(0%nat, Alloc 64); (1%nat, Alloc 192); (0%nat, Go); (0%nat, Mem 1048576); (0%nat, Go); (0%nat, Go); (1%nat, Go); (0%nat, Go); (1%nat, Go); (1%nat, Go)]
    (fun s => held s = [(0%nat, (1114112 - 64 - 256, 256)); (0%nat, (1114112 - 64, 64))])).
  - intros s b _. apply std_b_ok.
  - vm_compute. reflexivity.
Qed.

(** A block is aligned neither to its size nor to the alignment of the type it is for: with
    chunks at page boundaries, after a request of 24 bytes (a block of 32), an object of
    128 bytes whose type has alignment 64 lies 32 bytes beside a multiple of 64. *)
Definition pages (s : st) (l : lab) : Prop :=
  match l with LAlloc n => 1 <= n /\ n < 2 ^ 64 | LMem p => (4096 | p) | _ => True end.
Theorem C75_aligned_to_the_type_refuted : exists s, reach 65536 544 40 1 pages s /\
  std_request 128 1 = 128 /\ (64 | 128) /\ (exists a, In (0%nat, (a, 128)) (held s) /\ ~ (64 | a) /\ a mod 64 = 32).
Proof.
  destruct (run_some 65536 544 40 1 (page_chunks 65536) pages
    [(0%nat, Alloc 24); (0%nat, Go); (0%nat, Mem 1048576); (0%nat, Go); (0%nat, Go); (0%nat, Go);
     (0%nat, Alloc 128); (0%nat, Go); (0%nat, Go); (0%nat, Go)]
    (fun s => In (0%nat, (1113952, 128)) (held s))) as (s & R & H).
  - intros s [|n|b|p] _ H; simpl in *; auto.
    + apply andb_prop in H. destruct H as [H1 H2]. apply N.leb_le in H1. apply N.ltb_lt in H2. now split.
    + apply N.eqb_eq in H. now apply N.mod_divide in H.
  - vm_compute. now left.
  - exists s. split; [exact R|]. split; [reflexivity|]. split; [now exists 2|]. exists 1113952. split; [exact H|]. split; [|reflexivity].
    intros X. now apply N.mod_divide in X.
Qed.

(** ** The size of the block *)
(** StdAllocator::allocate asks for enough room for [n] objects, if their size is at most 2^63. *)
Theorem C75_room_for_the_objects : forall sz n, 1 <= sz * n -> sz * n <= 2 ^ 63 -> sz * n <= roundup (std_request sz n) < 2 * (sz * n).
Proof.
  intros sz n H L. unfold std_request. assert (B : 2 ^ 63 < W64) by reflexivity. rewrite N.mod_small by lia. rewrite roundup_spec by assumption.
  destruct (N.eq_dec (sz * n) 1) as [->|N1]; [easy|]. destruct (N.log2_up_spec (sz * n)) as [X Y]; [lia|]. split; [exact Y|].
  assert (P : N.log2_up (sz * n) <> 0). { intros E. rewrite E in Y. simpl in Y. lia. }
  replace (N.log2_up (sz * n)) with (N.succ (N.pred (N.log2_up (sz * n)))) by lia. rewrite N.pow_succ_r'. lia.
Qed.
Example C75_ex_room : 1 <= 24 * 100 /\ 24 * 100 <= 2 ^ 63 /\ roundup (std_request 24 100) = 4096.
Proof. repeat split; discriminate. Qed.
(** Beyond 2^64 bytes the product wraps around: a request for 2^60 + 1 objects of 16 bytes is
    answered with a block of 16 bytes, where the allocators of the standard library throw. *)
Theorem C75_room_for_any_number_refuted : exists sz n s, sz = 16 /\ n = 2 ^ 60 + 1 /\ n < 2 ^ 64 /\
  reach 65536 544 40 1 pages s /\ held s = [(0%nat, (1114112 - 16, roundup (std_request sz n)))] /\ roundup (std_request sz n) < sz * n.
Proof.
  destruct (run_some 65536 544 40 1 (page_chunks 65536) pages
    [(0%nat, Alloc (std_request 16 (2 ^ 60 + 1))); (0%nat, Go); (0%nat, Mem 1048576); (0%nat, Go); (0%nat, Go); (0%nat, Go)]
    (fun s => held s = [(0%nat, (1114112 - 16, roundup (std_request 16 (2 ^ 60 + 1))))])) as (s & R & H).
  - intros s [|n|b|p] _ H; simpl in *; auto.
    + apply andb_prop in H. destruct H as [H1 H2]. apply N.leb_le in H1. apply N.ltb_lt in H2. now split.
    + apply N.eqb_eq in H. now apply N.mod_divide in H.
  - vm_compute. reflexivity.
  - exists 16, (2 ^ 60 + 1), s. split; [reflexivity|]. split; [reflexivity|]. split; [reflexivity|]. split; [exact R|]. split; [exact H|reflexivity].
Qed.

Definition all_align := (@C75_address_is_end_less_requests, @C75_aligned_iff, @C75_ex, @C75_blocks_aligned, @C75_objects_of_one_alignment, @C75_ex_blocks, @C75_ex_objects,
  @C75_aligned_to_the_type_refuted, @C75_room_for_the_objects, @C75_ex_room, @C75_room_for_any_number_refuted).
Print Assumptions all_align.
