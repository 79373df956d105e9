(** Property C73: requests for memory of several threads at the same time. *)
From Coq Require Import Bool List Arith NArith Lia.
From Verif Require Import AllocModel AllocProof AllocThm AllocEx AllocLive.
Import ListNotations.
Open Scope N_scope.

(** what the callers and the operating system do: requests between 1 byte and what
    fits into a chunk besides its management objects, memory not at the lowest
    addresses.  Blocks may be freed at any time, also while others allocate *)
Definition fits (cap ctrl isz : N) (T : nat) (l : lab) : Prop :=
  match l with
  | LAlloc n => 1 <= n /\ n <= 2 ^ 63 /\ roundup n <= cap - ctrl - isz
  | LMem p => N.of_nat T * cap <= p
  | _ => True
  end.
(** an execution from the start: the threads and the calls of its steps, last first *)
Definition execution (cap ctrl isz : N) (T : nat) (tr : list (nat * lab)) (s : st) : Prop :=
  runs cap ctrl isz T (fits cap ctrl isz T) (init cap ctrl isz) tr s.
(** memory for one more chunk, apart from all chunks not given back *)
Definition memory_left (cap ctrl : N) (T : nat) (s : st) : Prop :=
  exists p, 0 < p /\ N.of_nat T * cap <= p /\ p + (cap + ctrl) < 2 ^ 64 /\ forall c, (c < nch s)%nat -> c_rec (chk s c) = false -> apart cap ctrl p (c_base (chk s c)).
Definition requests (tr : list (nat * lab)) : nat := nalloc tr.
Definition frees (tr : list (nat * lab)) : nat := nfree tr.
Definition is_call (l : lab) : bool := match l with LAlloc _ | LFree _ => true | _ => false end.

Lemma runs_weaken : forall cap ctrl isz T (P Q : lab -> Prop) s tr s', (forall l, P l -> Q l) -> runs cap ctrl isz T P s tr s' -> runs cap ctrl isz T Q s tr s'.
Proof. intros cap ctrl isz T P Q s tr s' H R. induction R; econstructor; eauto. Qed.
Lemma fits_okl : forall cap ctrl isz T l, fits cap ctrl isz T l -> okl cap ctrl isz T l.
Proof.
  intros cap ctrl isz T [|n| |]; simpl; auto. intros (A & B & C). split; [|exact C]. rewrite (roundup_spec n A B).
  assert (X := N.pow_nonzero 2 (N.log2_up n) ltac:(discriminate)). lia.
Qed.
Lemma execution_okl : forall cap ctrl isz T tr s, execution cap ctrl isz T tr s -> runs cap ctrl isz T (okl cap ctrl isz T) (init cap ctrl isz) tr s.
Proof. intros. eapply runs_weaken; [|eassumption]. apply fits_okl. Qed.

(** Every execution with finitely many calls ends: the steps of all threads together
    are bounded by the number of calls and of threads.  Whenever a thread is refused
    twice, another thread was answered in between *)
Theorem C73_executions_are_bounded : forall cap ctrl isz T tr s, ctrl + isz <= cap -> execution cap ctrl isz T tr s ->
  (length tr <= 4 * requests tr + 3 * frees tr + 4 * (T * (requests tr + 1)))%nat.
Proof.
  intros cap ctrl isz T tr s H E. apply execution_okl in E. destruct (runs_bounded cap ctrl isz T H tr s E) as [_ B]. unfold requests, frees.
  replace (nalloc tr + 1)%nat with (S (nalloc tr)) by lia. exact B.
Qed.
(** nor is memory wasted without bound: chunks are added for requests only *)
Theorem C73_chunks_are_bounded : forall cap ctrl isz T tr s, ctrl + isz <= cap -> execution cap ctrl isz T tr s ->
  (nch s <= T * (requests tr + 1))%nat.
Proof.
  intros cap ctrl isz T tr s H E. apply execution_okl in E. destruct (runs_bounded cap ctrl isz T H tr s E) as [B _]. unfold requests.
  replace (nalloc tr + 1)%nat with (S (nalloc tr)) by lia. exact B.
Qed.
(** no thread is ever held up by the others: in a call it can take a step *)
Theorem C73_no_thread_waits : forall cap ctrl isz T tr s t, execution cap ctrl isz T tr s -> memory_left cap ctrl T s -> (t < T)%nat -> pcs s t <> Idle ->
  exists l s', step cap ctrl isz s t l s' /\ fits cap ctrl isz T l /\ is_call l = false.
Proof.
  intros cap ctrl isz T tr s t E (p & P0 & P1 & P2 & P3) L N. destruct (pcs s t) eqn:X; [congruence| | | | | |];
    [exists LOther; eexists; split; [eapply s_head; eassumption|]|exists LOther; eexists; split; [eapply s_sub; eassumption|]|
     exists LOther; eexists; split; [eapply s_inc; eassumption|]|exists (LMem p); eexists; split; [eapply s_app; eauto|]|
     exists LOther; eexists; split; [eapply s_dec; eassumption|]|exists LOther; eexists; split; [eapply s_full; eassumption|]];
    (split; [first [exact I|exact P1]|reflexivity]).
Qed.
(** When no step is left but new calls, all threads have returned from their calls, and
    every request has been answered by a block of its own size: for each size there
    are as many blocks handed out as requests, but for those freed since *)
Theorem C73_all_requests_are_answered : forall cap ctrl isz T tr s m, ctrl + isz <= cap -> execution cap ctrl isz T tr s -> memory_left cap ctrl T s ->
  (forall t l s', (t < T)%nat -> step cap ctrl isz s t l s' -> fits cap ctrl isz T l -> is_call l = true) ->
  (forall t, pcs s t = Idle) /\
  (count_size m (held s) <= count_req m tr <= count_size m (held s) + frees tr)%nat.
Proof.
  intros cap ctrl isz T tr s m H E M Q. assert (A : forall t, pcs s t = Idle).
  { intros t. destruct (Nat.lt_ge_cases t T) as [L|L]; [|exact (runs_above cap ctrl isz T H _ tr s E t L)].
    assert (D : pcs s t = Idle \/ pcs s t <> Idle) by (destruct (pcs s t); [left; reflexivity|right; discriminate..]).
    destruct D as [D|D]; [exact D|]. destruct (C73_no_thread_waits cap ctrl isz T tr s t E M L D) as (l & s' & S1 & S2 & S3).
    rewrite (Q t l s' L S1 S2) in S3. discriminate. }
  split; [exact A|]. apply execution_okl in E. destruct (runs_sizes cap ctrl isz T H m tr s E) as [B C].
  assert (Z : forall f, f Idle = 0%nat -> tot (fun t => f (pcs s t)) T = 0%nat).
  { intros f F. rewrite (tot_ext _ (fun _ => 0%nat)); [rewrite tot_const; lia|]. intros t _. now rewrite A, F. }
  assert (Z1 := Z (csize m) eq_refl). assert (Z2 := Z decs eq_refl). unfold frees. lia.
Qed.

(** ** One thread alone may be refused for ever *)
Notation Cap := 65536. Notation Ctrl := 544. Notation Isz := 32.
Definition place (k : nat) : N := if Nat.even k then 1000000 else 2000000.
(** chunk [k] is the only one not given back; [b] its allocator *)
Definition view (s : st) (k : nat) (p0 p1 : pc) (b : bump) (d : bool) (h : list blk) : Prop :=
  nch s = S k /\ pcs s 0 = p0 /\ pcs s 1 = p1 /\ (forall u, (2 <= u)%nat -> pcs s u = Idle) /\ chk s k = mkC (place k) b d false /\ held s = h /\
  forall c, (c < k)%nat -> c_rec (chk s c) = true.
Definition fresh (k : nat) : bump := c_bump (new_chunk Cap Ctrl Isz (place k)).
Notation H15 := 32768.
Lemma other_place : forall k, apart Cap Ctrl (place (S k)) (place k).
Proof. intros k. unfold apart, place. rewrite Nat.even_succ, <- Nat.negb_even. destruct (Nat.even k); simpl; lia. Qed.
(** the chunk after the request of the other thread, and after the refused one *)
Definition b_one (k : nat) : bump := snd (bump_take (fresh k) H15).
Definition b_two (k : nat) : bump := bump_inc (b_one k).
Definition b_three (k : nat) : bump := snd (bump_take (b_two k) H15).
Definition b_four (k : nat) : bump := snd (bump_dec (b_three k)).
Definition got (k : nat) : blk := (k, (place k + H15, H15)).
Lemma numbers : forall k, b_lo (fresh k) <=? fst (bump_take (fresh k) H15) = true /\ fst (bump_take (fresh k) H15) = place k + H15 /\ (place k + H15 =? 0) = false /\
  b_lo (b_two k) <=? fst (bump_take (b_two k) H15) = false /\ bump_owns (b_three k) (place k + H15) = true /\
  fst (bump_dec (b_three k)) =? 1 = true /\ bump_full (b_four k) = true /\ 131072 <= place k /\ place k + (Cap + Ctrl) < W64.
Proof. intros k. unfold got, b_four, b_three, b_two, b_one, fresh, new_chunk, place. destruct (Nat.even k); vm_compute; repeat split; congruence. Qed.
Ltac vw := unfold view, with_bump, at_pc; cbn [nch chk held pcs]; rewrite ?upd_eq; repeat rewrite upd_ne by congruence.
Ltac fin V1 V2 V3 V4 V5 V6 V7 := vw; unfold bump_of; rewrite ?V5; cbn [c_bump c_base c_del c_rec]; repeat split; auto;
  try (intros u U; rewrite ?upd_ne by lia; now apply V4); try (intros c C; rewrite ?upd_ne by lia; now apply V7).
Lemma one_round : forall s k, view s k (ASub k H15) Idle (fresh k) false [] ->
  exists tr s', runs Cap Ctrl Isz 2 (fits Cap Ctrl Isz 2) s tr s' /\ view s' (S k) (ASub (S k) H15) Idle (fresh (S k)) false [] /\
    filter (fun x => Nat.eqb (fst x) 0) tr = [(0%nat, LOther); (0%nat, LMem (place (S k))); (0%nat, LOther)].
Proof.
  intros s0 k V0. destruct (numbers k) as (N1 & N2 & N3 & N4 & N5 & N6 & N7 & _ & _). destruct (numbers (S k)) as (_ & _ & _ & _ & _ & _ & _ & N8 & N9).
  assert (S1 : exists s1, step Cap Ctrl Isz s0 1 (LAlloc H15) s1 /\ view s1 k (ASub k H15) (AHead H15) (fresh k) false []).
  { destruct V0 as (V1 & V2 & V3 & V4 & V5 & V6 & V7). eexists. split; [apply s_alloc; [exact V3|vm_compute; discriminate]|]. change (roundup H15) with H15. fin V1 V2 V3 V4 V5 V6 V7. }
  destruct S1 as (s1 & S1 & W1).
  assert (S2 : exists s2, step Cap Ctrl Isz s1 1 LOther s2 /\ view s2 k (ASub k H15) (ASub k H15) (fresh k) false []).
  { destruct W1 as (V1 & V2 & V3 & V4 & V5 & V6 & V7). eexists. split; [eapply s_head; exact V3|]. rewrite V1. fin V1 V2 V3 V4 V5 V6 V7. }
  destruct S2 as (s2 & S2 & W2).
  assert (S3 : exists s3, step Cap Ctrl Isz s2 1 LOther s3 /\ view s3 k (ASub k H15) (AInc k (place k + H15) H15) (b_one k) false []).
  { destruct W2 as (V1 & V2 & V3 & V4 & V5 & V6 & V7). eexists. split; [eapply s_sub; exact V3|].
    assert (B : bump_of s2 k = fresh k) by (unfold bump_of; now rewrite V5). rewrite B, N1, N2. fold (b_one k). fin V1 V2 V3 V4 V5 V6 V7. }
  destruct S3 as (s3 & S3 & W3).
  assert (S4 : exists s4, step Cap Ctrl Isz s3 1 LOther s4 /\ view s4 k (ASub k H15) Idle (b_two k) false [got k]).
  { destruct W3 as (V1 & V2 & V3 & V4 & V5 & V6 & V7). eexists. split; [eapply s_inc; exact V3|].
    assert (B : bump_of s3 k = b_one k) by (unfold bump_of; now rewrite V5). rewrite B, N3, V6. fold (b_two k) (got k). fin V1 V2 V3 V4 V5 V6 V7. }
  destruct S4 as (s4 & S4 & W4).
  assert (S5 : exists s5, step Cap Ctrl Isz s4 0 LOther s5 /\ view s5 k (AApp H15) Idle (b_three k) false [got k]).
  { destruct W4 as (V1 & V2 & V3 & V4 & V5 & V6 & V7). eexists. split; [eapply s_sub; exact V2|].
    assert (B : bump_of s4 k = b_two k) by (unfold bump_of; now rewrite V5). rewrite B, N4, V6. fold (b_three k). fin V1 V2 V3 V4 V5 V6 V7. }
  destruct S5 as (s5 & S5 & W5).
  assert (S6 : exists s6, step Cap Ctrl Isz s5 1 (LFree (got k)) s6 /\ view s6 k (AApp H15) (FDec k (got k)) (b_three k) false [got k]).
  { destruct W5 as (V1 & V2 & V3 & V4 & V5 & V6 & V7). eexists. split.
    - apply (s_free Cap Ctrl Isz s5 1 (got k) k); [exact V3|rewrite V6; now left| |lia|now rewrite V5|unfold bump_of; rewrite V5; exact N5].
      intros [|[|u]] d; [rewrite V2|rewrite V3|rewrite (V4 (S (S u))) by lia]; discriminate.
    - fin V1 V2 V3 V4 V5 V6 V7. }
  destruct S6 as (s6 & S6 & W6).
  assert (S7 : exists s7, step Cap Ctrl Isz s6 1 LOther s7 /\ view s7 k (AApp H15) (FFull k) (b_four k) false []).
  { destruct W6 as (V1 & V2 & V3 & V4 & V5 & V6 & V7). eexists. split; [eapply s_dec; exact V3|].
    assert (B : bump_of s6 k = b_three k) by (unfold bump_of; now rewrite V5). rewrite B, N6, V6. fold (b_four k).
    assert (RB : remove_blk (got k) [got k] = []). { cbn [remove_blk]. destruct (blk_eqb_spec (got k) (got k)); [reflexivity|congruence]. }
    rewrite RB. fin V1 V2 V3 V4 V5 V6 V7. }
  destruct S7 as (s7 & S7 & W7).
  assert (S8 : exists s8, step Cap Ctrl Isz s7 1 LOther s8 /\ view s8 k (AApp H15) Idle (b_four k) true []).
  { destruct W7 as (V1 & V2 & V3 & V4 & V5 & V6 & V7). eexists. split; [eapply s_full; exact V3|].
    assert (B : bump_of s7 k = b_four k) by (unfold bump_of; now rewrite V5). rewrite B, N7. fin V1 V2 V3 V4 V5 V6 V7. }
  destruct S8 as (s8 & S8 & W8). destruct W8 as (V1 & V2 & V3 & V4 & V5 & V6 & V7).
  set (s9 := mkS (S (nch s8)) (upd (chk s8) (nch s8) (new_chunk Cap Ctrl Isz (place (S k)))) (held s8) (upd (pcs s8) 0 (AHead H15))).
  assert (S9 : step Cap Ctrl Isz s8 0 (LMem (place (S k))) s9).
  { apply s_app; [exact V2|lia|exact N9|]. intros c C Z. rewrite V1 in C. destruct (Nat.eq_dec c k) as [->|X].
    - rewrite V5. apply other_place.
    - rewrite V7 in Z by lia. discriminate. }
  assert (K9 : chk s9 k = mkC (place k) (b_four k) true false) by (unfold s9; cbn [chk]; rewrite upd_ne by lia; exact V5).
  set (s10 := mkS (nch s9) (upd (chk s9) k (mkC (c_base (chk s9 k)) (bump_of s9 k) true true)) (held s9) (pcs s9)).
  assert (P9 : pcs s9 0 = AHead H15 /\ forall u, u <> 0%nat -> pcs s9 u = Idle).
  { split; [exact (upd_eq _ (pcs s8) 0 (AHead H15))|]. intros [|[|u]] U; [congruence| |]; unfold s9; cbn [pcs]; rewrite upd_ne by congruence; [exact V3|apply V4; lia]. }
  destruct P9 as [P9 P9'].
  assert (S10 : step Cap Ctrl Isz s9 1 LOther s10).
  { apply s_reclaim; [unfold s9; cbn [nch]; lia|now rewrite K9|now rewrite K9|]. intros [|u]; [rewrite P9; auto|rewrite P9' by congruence; auto]. }
  set (s11 := at_pc s10 0 (ASub (S k) H15)).
  assert (S11 : step Cap Ctrl Isz s10 0 LOther s11).
  { assert (X := s_head Cap Ctrl Isz s10 0 H15 P9). change (nch s10) with (S (nch s8)) in X. rewrite V1 in X. exact X. }
  exists [(0%nat, LOther); (1%nat, LOther); (0%nat, LMem (place (S k))); (1%nat, LOther); (1%nat, LOther); (1%nat, LFree (got k)); (0%nat, LOther);
    (1%nat, LOther); (1%nat, LOther); (1%nat, LOther); (1%nat, LAlloc H15)], s11. split; [|split; [|reflexivity]].
  - eapply u_step; [|auto|exact S11|exact I]. eapply u_step; [|auto|exact S10|exact I]. eapply u_step; [|auto|exact S9|exact N8]. eapply u_step; [|auto|exact S8|exact I]. eapply u_step; [|auto|exact S7|exact I]. eapply u_step; [|auto|exact S6|exact I]. eapply u_step; [|auto|exact S5|exact I]. eapply u_step; [|auto|exact S4|exact I]. eapply u_step; [|auto|exact S3|exact I]. eapply u_step; [|auto|exact S2|exact I]. eapply u_step; [|auto|exact S1|vm_compute; repeat split; discriminate]. apply u_nil.
  - unfold view. split; [change (nch s11) with (S (nch s8)); lia|]. split; [exact (upd_eq _ (pcs s10) 0 (ASub (S k) H15))|]. split; [unfold s11, at_pc; cbn [pcs]; rewrite upd_ne by congruence; now apply P9'|].
    split; [intros u U; unfold s11, at_pc; cbn [pcs]; rewrite upd_ne by lia; apply P9'; lia|].
    split; [unfold s11, s10, at_pc; cbn [chk]; rewrite upd_ne by lia; unfold s9; cbn [chk]; rewrite V1, upd_eq; reflexivity|].
    split; [exact V6|]. intros c C. unfold s11, s10, at_pc. cbn [chk]. destruct (Nat.eq_dec c k) as [->|X]; [rewrite upd_eq; reflexivity|].
    rewrite upd_ne by assumption. unfold s9. cbn [chk]. rewrite upd_ne by lia. apply V7. lia.
Qed.
Lemma runs_app : forall cap ctrl isz T ok a tr b, runs cap ctrl isz T ok a tr b -> forall tr' c, runs cap ctrl isz T ok b tr' c -> runs cap ctrl isz T ok a (tr' ++ tr) c.
Proof. intros cap ctrl isz T ok a tr b H tr' c H'. induction H' as [b|b tr' d t l c H' IH L ST OK]; [exact H|]. simpl. econstructor; eauto. Qed.
(** Two threads: however long one waits, the other may take all chunks it adds.  After
    one request of 32768 bytes thread 0 has added [k + 1] chunks and is still asking *)
Theorem C73_every_thread_is_answered_refuted : forall k, exists tr s, execution Cap Ctrl Isz 2 tr s /\
  filter (fun x => Nat.eqb (fst x) 0 && is_call (snd x)) tr = [(0%nat, LAlloc H15)] /\
  length (filter (fun x => Nat.eqb (fst x) 0 && match snd x with LMem _ => true | _ => false end) tr) = S k /\
  pcs s 0 = ASub k H15.
Proof.
  intros k. assert (X : exists tr s, execution Cap Ctrl Isz 2 tr s /\ filter (fun x => Nat.eqb (fst x) 0 && is_call (snd x)) tr = [(0%nat, LAlloc H15)] /\
    length (filter (fun x => Nat.eqb (fst x) 0 && match snd x with LMem _ => true | _ => false end) tr) = S k /\ view s k (ASub k H15) Idle (fresh k) false []).
  { induction k as [|k (tr & s & E & F1 & F2 & V)].
    - exists [(0%nat, LOther); (0%nat, LMem (place 0)); (0%nat, LOther); (0%nat, LAlloc H15)]. eexists. split; [|split; [reflexivity|split; [reflexivity|]]].
      + eapply u_step; [eapply u_step; [eapply u_step; [eapply u_step; [apply u_nil|..]|..]|..]|..]; try (auto with arith; fail).
        * apply s_alloc; [reflexivity|vm_compute; discriminate].
        * vm_compute. repeat split; discriminate.
        * apply s_head. reflexivity.
        * exact I.
        * apply (s_app Cap Ctrl Isz _ 0 H15 (place 0)); [reflexivity|reflexivity|reflexivity|intros c C; inversion C].
        * vm_compute. discriminate.
        * apply (s_head _ _ _ _ _ H15). reflexivity.
        * exact I.
      + unfold view. cbn [nch at_pc]. repeat split; try reflexivity; [intros [|[|u]] U; [lia|lia|reflexivity]|intros c C; lia].
    - destruct (one_round s k V) as (tr' & s' & R & V' & F).
      assert (G : forall (f : nat * lab -> bool) l, filter (fun x => Nat.eqb (fst x) 0 && f x) l = filter f (filter (fun x => Nat.eqb (fst x) 0) l)).
      { intros f l. induction l as [|x l IH]; [reflexivity|]. simpl. destruct (Nat.eqb (fst x) 0); simpl; rewrite IH; reflexivity. }
      exists (tr' ++ tr), s'. split; [exact (runs_app _ _ _ _ _ _ _ _ E _ _ R)|]. rewrite !filter_app, app_length, F1, F2, !G, F. split; [reflexivity|]. split; [reflexivity|exact V']. }
  destruct X as (tr & s & E & F1 & F2 & V). exists tr, s. split; [exact E|]. split; [exact F1|]. split; [exact F2|]. apply V.
Qed.
(** ** The hypotheses are met *)
Fixpoint trun (s : st) (tr : list (nat * lab)) (l : list (nat * act)) : option (list (nat * lab) * st) :=
  match l with
  | [] => Some (tr, s)
  | (t, a) :: l => match exec Cap Ctrl Isz 3 s t a with
                   | Some (b, s') => if Nat.ltb t 3 && match b with LAlloc n => (1 <=? n) && (n <=? 32768) | LMem p => 196608 <=? p | _ => true end then trun s' ((t, b) :: tr) l else None
                   | None => None end
  end.
Lemma trun_runs : forall l s tr r, execution Cap Ctrl Isz 3 tr s -> trun s tr l = Some r -> execution Cap Ctrl Isz 3 (fst r) (snd r).
Proof.
  induction l as [|[t a] l IH]; intros s tr r E H; cbn [trun] in H; [injection H as <-; exact E|].
  destruct (exec Cap Ctrl Isz 3 s t a) as [[b s']|] eqn:X; [|discriminate]. destruct (_ && _) eqn:B in H; [|discriminate]. apply andb_true_iff in B. destruct B as [B1 B2]. apply Nat.ltb_lt in B1.
  refine (IH _ _ _ _ H). eapply u_step; [exact E|exact B1|eapply exec_step; [|exact X]|].
  - intros u U. exact (runs_above Cap Ctrl Isz 3 ltac:(discriminate) _ _ _ E u U).
  - destruct b as [|n| |p]; cbn [fits]; auto.
    + apply andb_true_iff in B2. destruct B2 as [C1 C2]. apply N.leb_le in C1, C2. split; [exact C1|]. split; [apply N.le_trans with H15; [exact C2|vm_compute; discriminate]|].
      assert (C3 : n <= 2 ^ 63) by (apply N.le_trans with H15; [exact C2|vm_compute; discriminate]). rewrite (roundup_spec n C1 C3). apply N.le_trans with (2 ^ 15); [|vm_compute; discriminate].
      apply N.pow_le_mono_r; [discriminate|]. apply N.log2_up_le_pow2; [lia|exact C2].
    + apply N.leb_le in B2. exact B2.
Qed.
(** three threads ask at the same time; two of them add a chunk each, and one of them
    has to ask again *)
Definition ex_acts : list (nat * act) :=
  [(0, Alloc 30000); (1, Alloc 20000); (0, Go); (1, Go); (0, Mem 1000000); (1, Mem 2000000);
   (0, Go); (1, Go); (0, Go); (1, Go); (0, Go); (2, Alloc 100); (2, Go);
   (1, Mem 3000000); (1, Go); (1, Go); (1, Go);
   (2, Go); (2, Mem 4000000); (2, Go); (2, Go); (2, Go)]%nat.
Lemma at_rest : forall cap ctrl isz s t l s', pcs s t = Idle -> (forall c, (S c < nch s)%nat -> c_del (chk s c) = false) -> step cap ctrl isz s t l s' -> is_call l = true.
Proof.
  intros cap ctrl isz s t l s' A D ST. inversion ST; subst; try reflexivity; try (match goal with H : pcs s t = _ |- _ => rewrite A in H; discriminate end).
  exfalso. match goal with H : (S c < nch s)%nat |- _ => apply D in H end. congruence.
Qed.
Definition look (r : list (nat * lab) * st) :=
  let (tr, s) := r in (requests tr, length tr, nch s, held s, (count_req 32768 tr, count_req 128 tr), (pcs s 0, pcs s 1, pcs s 2)%nat, map (fun c => (c_del (chk s c), c_base (chk s c))) (seq 0 4)).
Example C73_ex : exists tr s, execution Cap Ctrl Isz 3 tr s /\ requests tr = 3%nat /\ length tr = 22%nat /\ nch s = 4%nat /\ memory_left Cap Ctrl 3 s /\
  (forall t l s', (t < 3)%nat -> step Cap Ctrl Isz s t l s' -> fits Cap Ctrl Isz 3 l -> is_call l = true) /\
  held s = [(3%nat, (4065408, 128)); (2%nat, (3032768, 32768)); (1%nat, (2032768, 32768))] /\
  count_req 32768 tr = 2%nat /\ count_req 128 tr = 1%nat.
Proof.
  destruct (trun (init Cap Ctrl Isz) [] ex_acts) as [r|] eqn:E; [|vm_compute in E; discriminate].
  assert (X := trun_runs ex_acts (init Cap Ctrl Isz) [] r (u_nil _ _ _ _ _ _) E).
  assert (Y : option_map look (trun (init Cap Ctrl Isz) [] ex_acts) = Some (3%nat, 22%nat, 4%nat,
    [(3%nat, (4065408, 128)); (2%nat, (3032768, 32768)); (1%nat, (2032768, 32768))], (2%nat, 1%nat), (Idle, Idle, Idle),
    [(false, 1000000); (false, 2000000); (false, 3000000); (false, 4000000)])) by (vm_compute; reflexivity).
  rewrite E in Y. clear E. destruct r as [tr s]. cbn [option_map look fst snd] in *. injection Y as Y1 Y2 Y3 Y4 Y5 Y6 Y7 Y8 Y9 D0 B0 D1 B1 D2 B2 D3 B3.
  exists tr, s. split; [exact X|]. split; [exact Y1|]. split; [exact Y2|]. split; [exact Y3|]. split; [|split; [|auto]].
  - exists 9000000. split; [reflexivity|]. split; [discriminate|]. split; [reflexivity|]. rewrite Y3.
    intros [|[|[|[|c]]]] C _; try lia; right; [rewrite B0|rewrite B1|rewrite B2|rewrite B3]; discriminate.
  - intros t l s' L ST _. apply (at_rest Cap Ctrl Isz s t l s'); [destruct t as [|[|[|t]]]; [exact Y7|exact Y8|exact Y9|lia]| |exact ST].
    rewrite Y3. intros [|[|[|c]]] C; [exact D0|exact D1|exact D2|lia].
Qed.

Definition all_contend := (@C73_executions_are_bounded, @C73_chunks_are_bounded, @C73_no_thread_waits, @C73_all_requests_are_answered, @C73_every_thread_is_answered_refuted, C73_ex).
Print Assumptions all_contend.
