(** Invariant of the chunked bump allocator (C38). *)
From Coq Require Import Bool List Arith NArith Lia.
From Verif Require Import AllocModel.
Import ListNotations.
Open Scope N_scope.

Lemma upd_eq : forall B (f : nat -> B) i x, upd f i x i = x.
Proof. intros. unfold upd. now rewrite Nat.eqb_refl. Qed.
Lemma upd_ne : forall B (f : nat -> B) i x j, j <> i -> upd f i x j = f j.
Proof. intros B f i x j H. unfold upd. now destruct (Nat.eqb_spec j i). Qed.

(** sums over the threads below [k] *)
Fixpoint sum (f : nat -> N) (k : nat) : N := match k with O => 0 | S k => sum f k + f k end.
Lemma sum_ext : forall f g k, (forall t, (t < k)%nat -> f t = g t) -> sum f k = sum g k.
Proof. intros f g k H. induction k as [|k IH]; [reflexivity|]. simpl. rewrite IH, H; auto. Qed.
Lemma sum_upd : forall f g k t, (t < k)%nat -> (forall u, u <> t -> g u = f u) -> sum g k + f t = sum f k + g t.
Proof.
  intros f g k t L E. induction k as [|k IH]; [lia|]. simpl. destruct (Nat.eq_dec t k) as [->|N].
  - rewrite (sum_ext g f k); [lia|]. intros u U. apply E. lia.
  - assert (H := IH ltac:(lia)). rewrite (E k) by lia. lia.
Qed.
Lemma sum_le : forall f k m, (forall t, f t <= m) -> sum f k <= N.of_nat k * m.
Proof. intros f k m H. induction k as [|k IH]; [simpl; lia|]. cbn [sum]. assert (X := H k). nia. Qed.
Lemma sum_le_but : forall f k m t, (t < k)%nat -> f t = 0 -> (forall u, f u <= m) -> sum f k + m <= N.of_nat k * m.
Proof.
  intros f k m t L Z H. induction k as [|k IH]; [lia|]. cbn [sum]. destruct (Nat.eq_dec t k) as [->|N].
  - assert (X := sum_le f k m H). nia.
  - assert (X := IH ltac:(lia)). assert (Y := H k). nia.
Qed.
Lemma sum_get : forall f k t, (t < k)%nat -> f t <= sum f k.
Proof. intros f k t L. induction k as [|k IH]; [lia|]. cbn [sum]. destruct (Nat.eq_dec t k) as [->|N]; [lia|]. assert (X := IH ltac:(lia)). lia. Qed.

Lemma sub64_nowrap : forall a n, n <= a -> a < W64 -> sub64 a n = a - n.
Proof.
  intros a n H L. unfold sub64. replace (a + W64 - n) with (a - n + 1 * W64) by lia. rewrite N.mod_add by (unfold W64; lia).
  apply N.mod_small. lia.
Qed.

Definition addr (b : blk) : N := fst (snd b).
Definition len (b : blk) : N := snd (snd b).
Definition disj (b d : blk) : Prop := fst b <> fst d \/ addr b + len b <= addr d \/ addr d + len d <= addr b.
Lemma disj_sym : forall b d, disj b d -> disj d b.
Proof. unfold disj. intros b d [H|[H|H]]; auto. Qed.
Lemma blk_eqb_spec : forall b d, reflect (b = d) (blk_eqb b d).
Proof.
  intros [c [a n]] [d [e m]]. unfold blk_eqb. simpl. destruct (Nat.eqb_spec c d), (N.eqb_spec a e), (N.eqb_spec n m); simpl; constructor; congruence.
Qed.
(** number of blocks of chunk [c] *)
Fixpoint of_chunk (c : nat) (l : list blk) : N :=
  match l with [] => 0 | b :: l => (if Nat.eqb (fst b) c then 1 else 0) + of_chunk c l end.
Lemma of_chunk_remove : forall c b l, In b l -> of_chunk c (remove_blk b l) + (if Nat.eqb (fst b) c then 1 else 0) = of_chunk c l.
Proof.
  intros c b l H. induction l as [|d l IH]; [destruct H|]. cbn [remove_blk of_chunk]. destruct (blk_eqb_spec b d) as [->|N]; [lia|].
  destruct H as [H|H]; [congruence|]. cbn [of_chunk]. rewrite <- (IH H). lia.
Qed.
Lemma of_chunk_pos : forall c b l, In b l -> fst b = c -> 1 <= of_chunk c l.
Proof. intros c b l H E. rewrite <- (of_chunk_remove c b l H), E, Nat.eqb_refl. lia. Qed.
Lemma remove_incl : forall b d l, In d (remove_blk b l) -> In d l.
Proof. induction l as [|e l IH]; [easy|]. cbn [remove_blk]. destruct (blk_eqb_spec b e); simpl; tauto. Qed.
Lemma remove_other : forall b d l, In d l -> d <> b -> In d (remove_blk b l).
Proof. induction l as [|e l IH]; [easy|]. cbn [remove_blk]. destruct (blk_eqb_spec b e) as [->|N]; simpl; intros [H|H] D; auto. congruence. Qed.
Lemma fop_remove : forall b l, ForallOrdPairs disj l -> ForallOrdPairs disj (remove_blk b l).
Proof.
  intros b l H. induction H as [|d l F H IH]; [constructor|]. cbn [remove_blk]. destruct (blk_eqb_spec b d); [assumption|].
  constructor; [|assumption]. rewrite Forall_forall in *. intros x X. apply F. eapply remove_incl; eauto.
Qed.

Section P.
Variables (cap ctrl isz : N) (T : nat).
Hypothesis Hcap : ctrl + isz <= cap.
Definition usable : N := cap - ctrl - isz.
Hypothesis Husable : usable < W16.

Notation step := (step cap ctrl isz).
Notation reach := (reach cap ctrl isz T).
Notation nxt s c := (b_next (bump_of s c)).
Notation lo s c := (b_lo (bump_of s c)).
Notation up s c := (b_up (bump_of s c)).

Definition allocating (p : pc) : Prop := match p with AHead _ | ASub _ _ | AInc _ _ _ | AApp _ => True | _ => False end.
Definition freeing (p : pc) : Prop := match p with FDec _ _ | FFull _ => True | _ => False end.
(** sizes between 1 and 2^63, memory not at the lowest addresses; allocations and
    frees do not overlap each other *)
Definition calm (s : st) (l : lab) : Prop :=
  match l with
  | LAlloc n => 1 <= roundup n /\ forall u, ~ freeing (pcs s u)
  | LFree _ => forall u, ~ allocating (pcs s u)
  | LMem p => N.of_nat T * cap <= p
  | LOther => True
  end.

Definition pend (s : st) (c t : nat) : N := match pcs s t with AInc d _ _ => if Nat.eqb d c then 1 else 0 | _ => 0 end.
Definition debt (fl : nat -> nat -> bool) (c t : nat) : N := if fl t c then cap else 0.
Record block_ok (s : st) (b : blk) : Prop := {
  k_len : 1 <= len b; k_c : (fst b < nch s)%nat; k_del : c_del (chk s (fst b)) = false;
  k_next : nxt s (fst b) <= addr b; k_lo : lo s (fst b) <= addr b; k_up : addr b + len b <= up s (fst b) }.
Record chunk_ok (s : st) (fl : nat -> nat -> bool) (c : nat) : Prop := {
  ch_lo : lo s c = c_base (chk s c) + ctrl + isz; ch_up : up s c = c_base (chk s c) + cap;
  ch_base : 0 < c_base (chk s c) /\ N.of_nat T * cap <= c_base (chk s c) /\ c_base (chk s c) + (cap + ctrl) < W64;
  ch_next : nxt s c <= up s c; ch_debt : lo s c <= nxt s c + sum (debt fl c) T;
  ch_cnt : b_count (bump_of s c) = of_chunk c (held s);
  ch_room : of_chunk c (held s) + sum (pend s c) T <= up s c - N.max (lo s c) (nxt s c);
  ch_del : c_del (chk s c) = true -> nxt s c <= lo s c;
  ch_rec : c_rec (chk s c) = true -> c_del (chk s c) = true /\ (S c < nch s)%nat }.
Definition size_ok (n : N) : Prop := 1 <= n /\ n <= cap.
Definition pc_ok (s : st) (fl : nat -> nat -> bool) (t : nat) (p : pc) : Prop :=
  match p with
  | Idle => True
  | AHead n | AApp n => size_ok n
  | ASub c n => size_ok n /\ (c < nch s)%nat /\ c_rec (chk s c) = false /\ fl t c = false
  | AInc c a n => n <= cap /\ block_ok s (c, (a, n)) /\ forall b, In b (held s) -> disj (c, (a, n)) b
  | FDec c b => In b (held s) /\ fst b = c
  | FFull c => (c < nch s)%nat /\ c_rec (chk s c) = false /\ of_chunk c (held s) = 0
  end.
Record inv (s : st) (fl : nat -> nat -> bool) : Prop := {
  i_chunk : forall c, (c < nch s)%nat -> chunk_ok s fl c;
  i_apart : forall c d, (c < nch s)%nat -> (d < nch s)%nat -> c <> d -> c_rec (chk s c) = false -> c_rec (chk s d) = false ->
     apart cap ctrl (c_base (chk s c)) (c_base (chk s d));
  i_idle : forall t, (T <= t)%nat -> pcs s t = Idle;
  i_fl : forall t c, fl t c = true -> (c < nch s)%nat /\ ((S c < nch s)%nat \/ exists n, pcs s t = AApp n);
  i_pc : forall t, pc_ok s fl t (pcs s t);
  i_held : forall b, In b (held s) -> block_ok s b;
  i_disj : ForallOrdPairs disj (held s);
  i_pend : forall t u c a n d e m, t <> u -> pcs s t = AInc c a n -> pcs s u = AInc d e m -> disj (c, (a, n)) (d, (e, m));
  i_phase : forall t u, freeing (pcs s t) -> ~ allocating (pcs s u);
  i_fdec : forall t u c d b, pcs s t = FDec c b -> pcs s u = FDec d b -> t = u }.

Lemma inv_init : inv (init cap ctrl isz) (fun _ _ => false).
Proof.
  constructor; simpl; try easy; try (intros; lia). constructor.
Qed.

(** ** steps that move one thread only *)
Lemma pend_move : forall s s' t c, (forall u, u <> t -> pcs s' u = pcs s u) -> (t < T)%nat ->
  sum (pend s' c) T + pend s c t = sum (pend s c) T + pend s' c t.
Proof. intros s s' t c H L. apply sum_upd; [assumption|]. intros u U. unfold pend. now rewrite H. Qed.
Definition quiet (p : pc) : Prop := match p with AInc _ _ _ => False | _ => True end.
Lemma bk_same : forall s t p b, block_ok s b -> block_ok (at_pc s t p) b.
Proof. intros s t p b []. now constructor. Qed.
Lemma inv_move : forall s fl t p, inv s fl -> (t < T)%nat -> quiet (pcs s t) -> quiet p -> pc_ok s fl t p ->
  (forall n, pcs s t = AApp n -> exists m, p = AApp m) ->
  (freeing p -> forall u, u <> t -> ~ allocating (pcs s u)) -> (allocating p -> forall u, u <> t -> ~ freeing (pcs s u)) ->
  (forall c b, p = FDec c b -> forall u d, u <> t -> pcs s u <> FDec d b) ->
  inv (at_pc s t p) fl.
Proof.
  intros s fl t p I L Q0 Q1 K A F1 F2 F3. destruct I. constructor; simpl; try assumption.
  - intros c C. destruct (i_chunk0 c C). constructor; try assumption. simpl.
    assert (X := pend_move s (at_pc s t p) t c). simpl in X. specialize (X (fun u U => upd_ne _ _ _ _ _ U) L).
    assert (P0 : pend s c t = 0) by (unfold pend; now destruct (pcs s t)).
    assert (P1 : pend (at_pc s t p) c t = 0) by (unfold pend; simpl; rewrite upd_eq; now destruct p).
    replace (sum (pend (at_pc s t p) c) T) with (sum (pend s c) T) by lia. assumption.
  - intros u U. rewrite upd_ne by lia. auto.
  - intros u c H. destruct (i_fl0 u c H) as [H1 H2]. split; [assumption|]. destruct H2 as [H2|[n H2]]; [auto|].
    right. destruct (Nat.eq_dec u t) as [->|N]; [rewrite upd_eq; eauto|rewrite upd_ne; eauto].
  - intros u. destruct (Nat.eq_dec u t) as [->|N]; [rewrite upd_eq; now destruct p|rewrite upd_ne by assumption].
    specialize (i_pc0 u). destruct (pcs s u); auto. destruct i_pc0 as (q1 & q2 & q3). split; [assumption|]. split; [now apply bk_same|assumption].
  - intros b Hb. apply bk_same. auto.
  - intros u v c a n d e m N H1 H2. destruct (Nat.eq_dec u t) as [->|Nu]; [rewrite upd_eq in H1; subst; easy|].
    destruct (Nat.eq_dec v t) as [->|Nv]; [rewrite upd_eq in H2; subst; easy|]. rewrite upd_ne in H1, H2 by assumption. eauto.
  - intros u v. destruct (Nat.eq_dec u t) as [->|Nu]; [rewrite upd_eq|rewrite upd_ne by assumption];
    (destruct (Nat.eq_dec v t) as [->|Nv]; [rewrite upd_eq|rewrite upd_ne by assumption]).
    + now destruct p.
    + intros X. now apply F1.
    + intros X Y. now apply (F2 Y u Nu).
    + apply i_phase0.
  - intros u v c d b. destruct (Nat.eq_dec u t) as [->|Nu]; [rewrite upd_eq|rewrite upd_ne by assumption];
    (destruct (Nat.eq_dec v t) as [->|Nv]; [rewrite upd_eq|rewrite upd_ne by assumption]).
    + reflexivity.
    + intros H1 H2. exfalso. eapply F3; eauto.
    + intros H1 H2. exfalso. eapply F3; eauto.
    + eauto.
Qed.

(** the chunk that owns the address of a block is the chunk it comes from *)
Lemma owner : forall s fl b c, inv s fl -> In b (held s) -> (c < nch s)%nat -> c_rec (chk s c) = false ->
  bump_owns (bump_of s c) (addr b) = true -> c = fst b.
Proof.
  intros s fl b c I H C R O. assert (B := i_held _ _ I b H). destruct (Nat.eq_dec c (fst b)) as [E|N]; [assumption|exfalso].
  destruct B as [B1 B2 B3 B4 B5 B6]. assert (R' : c_rec (chk s (fst b)) = false).
  { destruct (c_rec (chk s (fst b))) eqn:X; [|reflexivity]. apply (ch_rec _ _ _ (i_chunk _ _ I _ B2)) in X. destruct X. congruence. }
  assert (A := i_apart _ _ I c (fst b) C B2 N R R'). apply andb_prop in O. destruct O as [O1 O2]. apply N.leb_le in O1. apply N.ltb_lt in O2.
  destruct (i_chunk _ _ I c C) as [E1 E2 _ _ _ _ _ _ _]. destruct (i_chunk _ _ I _ B2) as [E3 E4 _ _ _ _ _ _ _].
  unfold apart in A. lia.
Qed.

Lemma alloc_inv : forall s t n fl, inv s fl -> (t < T)%nat -> pcs s t = Idle -> roundup n <= cap -> calm s (LAlloc n) -> inv (at_pc s t (AHead (roundup n))) fl.
Proof.
  intros s t n fl I L E C [O1 O2]. apply inv_move; simpl; auto; rewrite ?E; simpl; auto; try easy.
Qed.
Lemma head_inv : forall s t n fl, inv s fl -> (t < T)%nat -> pcs s t = AHead n -> inv (at_pc s t (match nch s with O => AApp n | S c => ASub c n end)) fl.
Proof.
  intros s t n fl I L E. assert (K := i_pc _ _ I t). rewrite E in K. simpl in K.
  assert (PH : forall u, ~ freeing (pcs s u)). { intros u F. apply (i_phase _ _ I u t) in F. apply F. now rewrite E. }
  apply inv_move; simpl; auto; rewrite ?E; simpl; auto; try easy.
  - now destruct (nch s).
  - destruct (nch s) as [|c] eqn:Z; simpl; [assumption|]. assert (C : (c < nch s)%nat) by lia. split; [assumption|]. split; [lia|]. split.
    + destruct (c_rec (chk s c)) eqn:R; [|reflexivity]. apply (ch_rec _ _ _ (i_chunk _ _ I c C)) in R. lia.
    + destruct (fl t c) eqn:F; [|reflexivity]. destruct (i_fl _ _ I t c F) as [_ [X|[m X]]]; [lia|congruence].
  - now destruct (nch s).
  - destruct (nch s); discriminate.
Qed.
Lemma free_inv : forall s t b c fl, inv s fl -> (t < T)%nat -> pcs s t = Idle -> In b (held s) -> (forall u d, pcs s u <> FDec d b) ->
  (c < nch s)%nat -> c_rec (chk s c) = false -> bump_owns (bump_of s c) (addr b) = true -> calm s (LFree b) -> inv (at_pc s t (FDec c b)) fl.
Proof.
  intros s t b c fl I L E H N C R O K. simpl in K. assert (Ow := owner s fl b c I H C R O).
  apply inv_move; simpl; auto; rewrite ?E; simpl; auto; try easy.
  intros d b' X u e U. injection X as <- <-. apply N.
Qed.

(** ** steps on a chunk *)
Lemma wb_bump : forall s c b h t p d, bump_of (with_bump s c b h t p) d = if Nat.eqb d c then b else bump_of s d.
Proof. intros. unfold bump_of, with_bump. simpl. unfold upd. now destruct (Nat.eqb d c). Qed.
Lemma wb_base : forall s c b h t p d, c_base (chk (with_bump s c b h t p) d) = c_base (chk s d).
Proof. intros. unfold with_bump. simpl. unfold upd. now destruct (Nat.eqb_spec d c) as [->|]. Qed.
Lemma wb_del : forall s c b h t p d, c_del (chk (with_bump s c b h t p) d) = c_del (chk s d).
Proof. intros. unfold with_bump. simpl. unfold upd. now destruct (Nat.eqb_spec d c) as [->|]. Qed.
Lemma wb_rec : forall s c b h t p d, c_rec (chk (with_bump s c b h t p) d) = c_rec (chk s d).
Proof. intros. unfold with_bump. simpl. unfold upd. now destruct (Nat.eqb_spec d c) as [->|]. Qed.

Lemma debt_le : forall fl c t, debt fl c t <= cap.
Proof. intros fl c t. unfold debt. destruct (fl t c); lia. Qed.
(** next_addr does not wrap around *)
Lemma no_wrap : forall s fl t c n, inv s fl -> (t < T)%nat -> pcs s t = ASub c n ->
  fst (bump_take (bump_of s c) n) = nxt s c - n /\ n <= nxt s c.
Proof.
  intros s fl t c n I L E. assert (K := i_pc _ _ I t). rewrite E in K. destruct K as ([K1 K2] & K3 & K4 & K5).
  destruct (i_chunk _ _ I c K3) as [E1 E2 (E3 & E4 & E5) E6 E7 _ _ _ _].
  assert (D := sum_le_but (debt fl c) T cap t L). unfold debt in D at 1. rewrite K5 in D. specialize (D eq_refl (debt_le fl c)).
  assert (X : n <= nxt s c) by lia. split; [|assumption]. apply sub64_nowrap; [assumption|lia].
Qed.

Lemma pc_frame : forall s s' fl fl' u q, (nch s <= nch s')%nat ->
  (forall d, (d < nch s)%nat -> uses q d -> c_rec (chk s d) = false -> c_rec (chk s' d) = false) ->
  (forall c n, q = ASub c n -> fl u c = false -> fl' u c = false) ->
  (forall c a n, q = AInc c a n -> block_ok s (c, (a, n)) -> block_ok s' (c, (a, n))) ->
  (forall c a n b, q = AInc c a n -> In b (held s') -> In b (held s) \/ disj (c, (a, n)) b) ->
  (forall c b, q = FDec c b -> In b (held s) -> In b (held s')) ->
  (forall c, q = FFull c -> of_chunk c (held s) = 0 -> of_chunk c (held s') = 0) ->
  pc_ok s fl u q -> pc_ok s' fl' u q.
Proof.
  intros s s' fl fl' u q H1 H2 H3 H4 H5 H6 H7. destruct q; simpl; auto.
  - intros (a & b & d & e). split; [assumption|]. split; [lia|]. split; [apply H2; simpl; auto|eauto].
  - intros (x & y & z). split; [assumption|]. split; [eauto|]. intros b B. destruct (H5 _ _ _ b eq_refl B); auto.
  - intros (x & y). split; eauto.
  - intros (x & y & z). split; [lia|]. split; [apply H2; simpl; auto|eauto].
Qed.
Ltac at_c d c := destruct (Nat.eqb_spec d c) as [->|Nd]; [|assumption].
Lemma sub_inv : forall s t c n fl, inv s fl -> (t < T)%nat -> pcs s t = ASub c n ->
  exists fl', inv (with_bump s c (snd (bump_take (bump_of s c) n)) (held s) t
    (if lo s c <=? fst (bump_take (bump_of s c) n) then AInc c (fst (bump_take (bump_of s c) n)) n else AApp n)) fl'.
Proof.
  intros s t c n fl I L E. destruct (no_wrap s fl t c n I L E) as [W WL].
  assert (K := i_pc _ _ I t). rewrite E in K. destruct K as ([K1 K2] & K3 & K4 & K5).
  set (b' := snd (bump_take (bump_of s c) n)).
  assert (B1 : b_lo b' = lo s c) by reflexivity. assert (B2 : b_up b' = up s c) by reflexivity. assert (B3 : b_count b' = b_count (bump_of s c)) by reflexivity.
  assert (B4 : b_next b' = nxt s c - n) by exact W. clearbody b'. rewrite W.
  assert (CH := i_chunk _ _ I c K3). destruct CH as [E1 E2 (E3 & E4 & E5) E6 E7 E8 E9 E10 E11].
  assert (PH : forall u, ~ freeing (pcs s u)). { intros u F. apply (i_phase _ _ I u t) in F. apply F. now rewrite E. }
  assert (P0 : forall d, pend s d t = 0) by (intros d; unfold pend; now rewrite E).
  set (p := if lo s c <=? nxt s c - n then AInc c (nxt s c - n) n else AApp n).
  set (s' := with_bump s c b' (held s) t p).
  assert (PE : forall u, u <> t -> pcs s' u = pcs s u) by (intros u U; now apply upd_ne).
  assert (PT : pcs s' t = p) by apply upd_eq.
  (* blocks stay in order *)
  assert (BK : forall b, block_ok s b -> block_ok s' b).
  { intros b [k1 k2 k3 k4 k5 k6]. constructor; unfold s'; rewrite ?wb_bump, ?wb_del; auto.
    - destruct (Nat.eqb_spec (fst b) c) as [X|X]; [rewrite X in *; lia|assumption].
    - destruct (Nat.eqb_spec (fst b) c) as [X|X]; [rewrite X in *; lia|assumption].
    - destruct (Nat.eqb_spec (fst b) c) as [X|X]; [rewrite X in *; lia|assumption]. }
  destruct (N.leb_spec (lo s c) (nxt s c - n)) as [S|S].
  - exists fl. assert (Ep : p = AInc c (nxt s c - n) n) by reflexivity. rewrite Ep in PT. clearbody p.
    assert (NB : block_ok s' (c, (nxt s c - n, n))).
    { constructor; unfold s'; rewrite ?wb_bump, ?wb_del, ?Nat.eqb_refl; cbn [fst snd addr len]; unfold addr, len; cbn [fst snd]; auto; try lia.
      - destruct (c_del (chk s c)) eqn:D; [|reflexivity]. assert (X := E10 eq_refl). lia. }
    assert (ND : forall b, block_ok s b -> disj (c, (nxt s c - n, n)) b).
    { intros b [k1 k2 k3 k4 k5 k6]. unfold disj. cbn [fst]. destruct (Nat.eq_dec c (fst b)) as [X|X]; [rewrite <- X in *|now left]. right. left. unfold addr at 1, len at 1. cbn [fst snd]. lia. }
    constructor.
    + intros d D. destruct (i_chunk _ _ I d D) as [F1 F2 F3 F4 F5 F6 F7 F8 F9].
      assert (X := pend_move s s' t d PE L). rewrite P0 in X.
      constructor; unfold s'; rewrite ?wb_bump, ?wb_base, ?wb_del, ?wb_rec; fold s'.
      * at_c d c. now rewrite B1.
      * at_c d c. now rewrite B2.
      * assumption.
      * at_c d c. lia.
      * at_c d c. rewrite B1, B4. lia.
      * at_c d c. now rewrite B3.
      * replace (held s') with (held s) by reflexivity. unfold pend in X at 3. rewrite PT in X.
        destruct (Nat.eqb_spec d c) as [->|Nd].
        -- rewrite Nat.eqb_refl in X. rewrite B1, B2, B4. lia.
        -- destruct (Nat.eqb_spec c d) as [->|_]; [congruence|]. lia.
      * intros Y. destruct (Nat.eqb_spec d c) as [->|Nd]; [|auto]. rewrite B1, B4. specialize (F8 Y). lia.
      * assumption.
    + intros d e. unfold s'. rewrite !wb_base, !wb_rec. apply (i_apart _ _ I).
    + intros u U. rewrite PE by lia. now apply (i_idle _ _ I).
    + intros u d F. destruct (i_fl _ _ I u d F) as [F1 F2]. split; [exact F1|]. destruct F2 as [F2|[m F2]]; [left; exact F2|right].
      exists m. rewrite PE; [assumption|]. intros ->. congruence.
    + intros u. destruct (Nat.eq_dec u t) as [->|U].
      * rewrite PT. split; [assumption|]. split; [assumption|]. intros b Hb. apply ND, (i_held _ _ I), Hb.
      * rewrite (PE u U). apply (pc_frame s s' fl fl); auto; [|apply (i_pc _ _ I)]. intros d _ _. unfold s'. now rewrite wb_rec.
    + intros b Hb. apply BK, (i_held _ _ I), Hb.
    + exact (i_disj _ _ I).
    + intros u v c1 a1 n1 c2 a2 n2 U H1 H2.
      destruct (Nat.eq_dec u t) as [->|Nu]; [|destruct (Nat.eq_dec v t) as [->|Nv]].
      * rewrite PT in H1. injection H1 as <- <- <-. rewrite (PE v) in H2 by congruence. apply ND. assert (Q := i_pc _ _ I v). rewrite H2 in Q. apply Q.
      * rewrite PT in H2. injection H2 as <- <- <-. rewrite (PE u) in H1 by congruence. apply disj_sym, ND. assert (Q := i_pc _ _ I u). rewrite H1 in Q. apply Q.
      * rewrite (PE u Nu) in H1. rewrite (PE v Nv) in H2. exact (i_pend _ _ I u v _ _ _ _ _ _ U H1 H2).
    + intros u v F. exfalso. destruct (Nat.eq_dec u t) as [->|Nu]; [rewrite PT in F; exact F|rewrite PE in F by assumption; eapply PH; eauto].
    + intros u v c1 c2 b H1 H2. exfalso. destruct (Nat.eq_dec u t) as [->|Nu]; [rewrite PT in H1; discriminate|rewrite PE in H1 by assumption]. apply (PH u). now rewrite H1.
  - exists (fun u d => fl u d || (Nat.eqb u t && Nat.eqb d c)).
    assert (Ep : p = AApp n) by reflexivity. rewrite Ep in PT. clearbody p.
    set (fl' := fun u d => fl u d || (Nat.eqb u t && Nat.eqb d c)).
    assert (PEND : forall d, sum (pend s' d) T = sum (pend s d) T).
    { intros d. assert (X := pend_move s s' t d PE L). rewrite P0 in X. unfold pend in X at 3. rewrite PT in X. lia. }
    assert (DT : forall d, sum (debt fl' d) T = sum (debt fl d) T + if Nat.eqb d c then cap else 0).
    { intros d. assert (X := sum_upd (debt fl d) (debt fl' d) T t L). 
      assert (Y : forall u, u <> t -> debt fl' d u = debt fl d u). { intros u U. unfold debt, fl'. destruct (Nat.eqb_spec u t); [congruence|]. now rewrite orb_false_r. }
      specialize (X Y). assert (Z : debt fl' d t = debt fl d t + if Nat.eqb d c then cap else 0); [|lia].
      unfold debt, fl'. rewrite Nat.eqb_refl. cbn [andb]. destruct (Nat.eqb_spec d c) as [Ed|N]; [rewrite Ed, K5; reflexivity|rewrite orb_false_r; lia]. }
    constructor.
    + intros d D. destruct (i_chunk _ _ I d D) as [F1 F2 F3 F4 F5 F6 F7 F8 F9].
      constructor; unfold s'; rewrite ?wb_bump, ?wb_base, ?wb_del, ?wb_rec; fold s'; rewrite ?PEND, ?DT.
      * at_c d c. now rewrite B1.
      * at_c d c. now rewrite B2.
      * assumption.
      * at_c d c. lia.
      * destruct (Nat.eqb_spec d c) as [->|Nd]; [|lia]. rewrite B1, B4. lia.
      * at_c d c. now rewrite B3.
      * replace (held s') with (held s) by reflexivity. at_c d c. rewrite B1, B2, B4. lia.
      * intros Y. destruct (Nat.eqb_spec d c) as [->|Nd]; [|auto]. rewrite B1, B4. specialize (F8 Y). lia.
      * assumption.
    + intros d e. unfold s'. rewrite !wb_base, !wb_rec. apply (i_apart _ _ I).
    + intros u U. rewrite PE by lia. now apply (i_idle _ _ I).
    + intros u d F. apply orb_prop in F. destruct F as [F|F].
      * destruct (i_fl _ _ I u d F) as [F1 F2]. split; [exact F1|]. destruct F2 as [F2|[m F2]]; [left; exact F2|right].
        exists m. rewrite PE; [assumption|]. intros ->. congruence.
      * apply andb_prop in F. destruct F as [F1 F2]. apply Nat.eqb_eq in F1, F2. subst. split; [exact K3|]. right. exists n. exact PT.
    + intros u. destruct (Nat.eq_dec u t) as [->|U].
      * rewrite PT. split; assumption.
      * rewrite (PE u U). apply (pc_frame s s' fl fl'); auto; [| |apply (i_pc _ _ I)].
        -- intros d _ _. unfold s'. now rewrite wb_rec.
        -- intros d m _ F. unfold fl'. destruct (Nat.eqb_spec u t); [congruence|]. now rewrite F.
    + intros b Hb. apply BK, (i_held _ _ I), Hb.
    + exact (i_disj _ _ I).
    + intros u v c1 a1 n1 c2 a2 n2 U H1 H2.
      destruct (Nat.eq_dec u t) as [->|Nu]; [rewrite PT in H1; discriminate|destruct (Nat.eq_dec v t) as [->|Nv]; [rewrite PT in H2; discriminate|]].
      rewrite (PE u Nu) in H1. rewrite (PE v Nv) in H2. exact (i_pend _ _ I u v _ _ _ _ _ _ U H1 H2).
    + intros u v F. exfalso. destruct (Nat.eq_dec u t) as [->|Nu]; [rewrite PT in F; exact F|rewrite PE in F by assumption; eapply PH; eauto].
    + intros u v c1 c2 b H1 H2. exfalso. destruct (Nat.eq_dec u t) as [->|Nu]; [rewrite PT in H1; discriminate|rewrite PE in H1 by assumption]. apply (PH u). now rewrite H1.
Qed.

Lemma app_inv : forall s t n p fl, inv s fl -> (t < T)%nat -> pcs s t = AApp n -> 0 < p -> p + (cap + ctrl) < W64 ->
  (forall c, (c < nch s)%nat -> c_rec (chk s c) = false -> apart cap ctrl p (c_base (chk s c))) -> N.of_nat T * cap <= p ->
  inv (mkS (S (nch s)) (upd (chk s) (nch s) (new_chunk cap ctrl isz p)) (held s) (upd (pcs s) t (AHead n))) fl.
Proof.
  intros s t n p fl I L E P0 P1 P2 P3. assert (K := i_pc _ _ I t). rewrite E in K. simpl in K.
  set (s' := mkS _ _ _ _).
  assert (PH : forall u, ~ freeing (pcs s u)). { intros u F. apply (i_phase _ _ I u t) in F. apply F. now rewrite E. }
  assert (PE : forall u, u <> t -> pcs s' u = pcs s u) by (intros u U; now apply upd_ne).
  assert (PT : pcs s' t = AHead n) by apply upd_eq.
  assert (CE : forall d, (d < nch s)%nat -> chk s' d = chk s d) by (intros d D; apply upd_ne; lia).
  assert (CN : chk s' (nch s) = new_chunk cap ctrl isz p) by apply upd_eq.
  assert (BE : forall d, (d < nch s)%nat -> bump_of s' d = bump_of s d) by (intros d D; unfold bump_of; now rewrite CE).
  assert (BK : forall b, block_ok s b -> block_ok s' b).
  { intros b [k1 k2 k3 k4 k5 k6]. constructor; rewrite ?BE, ?CE by assumption; auto. simpl. lia. }
  assert (PD : forall d, sum (pend s' d) T = sum (pend s d) T).
  { intros d. assert (X := pend_move s s' t d PE L). unfold pend in X at 2 4. rewrite PT, E in X. lia. }
  constructor.
  - intros d D. destruct (Nat.eq_dec d (nch s)) as [->|N].
    + assert (Z : of_chunk (nch s) (held s) = 0).
      { destruct (of_chunk (nch s) (held s)) eqn:Z; [reflexivity|exfalso].
        assert (Q : exists b, In b (held s) /\ fst b = nch s).
        { clear - Z. induction (held s) as [|b l IH]; [discriminate|]. cbn [of_chunk] in Z. destruct (Nat.eqb_spec (fst b) (nch s)); [exists b; simpl; auto|].
          destruct IH as (x & X & Y); [exact Z|exists x; simpl; auto]. }
        destruct Q as (b & Q1 & Q2). apply (i_held _ _ I) in Q1. apply k_c in Q1. lia. }
      assert (Z' : sum (pend s (nch s)) T = 0).
      { assert (H : forall u, pend s (nch s) u <= 0).
        { intros u. unfold pend. assert (Q := i_pc _ _ I u). destruct (pcs s u); try lia. destruct Q as (_ & Q & _). apply k_c in Q. simpl in Q.
          destruct (Nat.eqb_spec c (nch s)); lia. }
        assert (X := sum_le _ T 0 H). lia. }
      constructor; unfold bump_of; rewrite ?CN; cbn [new_chunk c_bump c_base c_del c_rec bump_new b_lo b_up b_next b_count];
        change (held s') with (held s); rewrite ?PD; try lia; discriminate.
    + assert (D' : (d < nch s)%nat) by (simpl in D; lia). destruct (i_chunk _ _ I d D') as [F1 F2 F3 F4 F5 F6 F7 F8 F9].
      constructor; rewrite ?(BE d D'), ?(CE d D'), ?PD; auto. intros R. apply F9 in R. simpl. intuition lia.
  - intros c d C D N. simpl in C, D. destruct (Nat.eq_dec c (nch s)) as [->|Nc]; [|destruct (Nat.eq_dec d (nch s)) as [->|Nd]].
    + rewrite CN, CE by lia. intros _ R. apply P2; [lia|assumption].
    + rewrite CN, CE by lia. intros R _. simpl. assert (X := P2 c ltac:(lia) R). unfold apart in *. lia.
    + rewrite !CE by lia. apply (i_apart _ _ I); lia.
  - intros u U. rewrite PE by lia. now apply (i_idle _ _ I).
  - intros u c F. destruct (i_fl _ _ I u c F) as [F1 F2]. simpl. split; [lia|]. left. lia.
  - intros u. destruct (Nat.eq_dec u t) as [->|U]; [rewrite PT; exact K|]. rewrite (PE u U).
    apply (pc_frame s s' fl fl); auto; [simpl; lia| |apply (i_pc _ _ I)]. intros d D _. now rewrite CE.
  - intros b Hb. apply BK, (i_held _ _ I), Hb.
  - exact (i_disj _ _ I).
  - intros u v c1 a1 n1 c2 a2 n2 U H1 H2.
    destruct (Nat.eq_dec u t) as [->|Nu]; [rewrite PT in H1; discriminate|destruct (Nat.eq_dec v t) as [->|Nv]; [rewrite PT in H2; discriminate|]].
    rewrite (PE u Nu) in H1. rewrite (PE v Nv) in H2. exact (i_pend _ _ I u v _ _ _ _ _ _ U H1 H2).
  - intros u v F. exfalso. destruct (Nat.eq_dec u t) as [->|Nu]; [rewrite PT in F; exact F|rewrite PE in F by assumption; eapply PH; eauto].
  - intros u v c1 c2 b H1 H2. exfalso. destruct (Nat.eq_dec u t) as [->|Nu]; [rewrite PT in H1; discriminate|rewrite PE in H1 by assumption]. apply (PH u). now rewrite H1.
Qed.

Lemma inc_inv : forall s t c a n fl, inv s fl -> (t < T)%nat -> pcs s t = AInc c a n ->
  inv (with_bump s c (bump_inc (bump_of s c)) ((c, (a, n)) :: held s) t (if a =? 0 then AApp n else Idle)) fl.
Proof.
  intros s t c a n fl I L E. assert (K := i_pc _ _ I t). rewrite E in K. destruct K as (K1 & K2 & K3).
  assert (C := k_c _ _ K2). cbn [fst] in C.
  assert (A0 : a =? 0 = false).
  { apply N.eqb_neq. intros ->. assert (X := k_lo _ _ K2). cbn in X. destruct (i_chunk _ _ I c C) as [F1 _ F3 _ _ _ _ _ _]. lia. }
  rewrite A0. set (s' := with_bump _ _ _ _ _ _).
  assert (PH : forall u, ~ freeing (pcs s u)). { intros u F. apply (i_phase _ _ I u t) in F. apply F. now rewrite E. }
  assert (PE : forall u, u <> t -> pcs s' u = pcs s u) by (intros u U; now apply upd_ne).
  assert (PT : pcs s' t = Idle) by apply upd_eq.
  assert (HE : held s' = (c, (a, n)) :: held s) by reflexivity.
  assert (BK : forall b, block_ok s b -> block_ok s' b).
  { intros b [k1 k2 k3 k4 k5 k6]. constructor; unfold s'; rewrite ?wb_bump, ?wb_del; auto;
    (destruct (Nat.eqb_spec (fst b) c) as [X|X]; [rewrite X in *|]; assumption). }
  assert (PD : forall d, sum (pend s' d) T + (if Nat.eqb c d then 1 else 0) = sum (pend s d) T).
  { intros d. assert (X := pend_move s s' t d PE L). unfold pend in X at 2 4. rewrite PT, E in X. lia. }
  constructor.
  - intros d D. destruct (i_chunk _ _ I d D) as [F1 F2 F3 F4 F5 F6 F7 F8 F9]. specialize (PD d).
    assert (CB : of_chunk d (held s) < W16 - (if Nat.eqb c d then 1 else 0)). { unfold usable in Husable. lia. }
    constructor; unfold s'; rewrite ?wb_bump, ?wb_base, ?wb_del, ?wb_rec; fold s'; rewrite ?HE; cbn [of_chunk fst]; auto;
      try (destruct (Nat.eqb_spec d c) as [->|Nd]; assumption).
    + destruct (Nat.eqb_spec d c) as [->|Nd].
      * rewrite Nat.eqb_refl in *. cbn [bump_inc b_count]. rewrite F6, N.mod_small; lia.
      * destruct (Nat.eqb_spec c d); [congruence|]. rewrite F6. lia.
    + destruct (Nat.eqb_spec d c) as [->|Nd].
      * rewrite Nat.eqb_refl in *. cbn [bump_inc b_lo b_up b_next]. lia.
      * destruct (Nat.eqb_spec c d); [congruence|]. lia.
  - intros d e. unfold s'. rewrite !wb_base, !wb_rec. apply (i_apart _ _ I).
  - intros u U. rewrite PE by lia. now apply (i_idle _ _ I).
  - intros u d F. destruct (i_fl _ _ I u d F) as [F1 F2]. split; [exact F1|]. destruct F2 as [F2|[m F2]]; [left; exact F2|right].
    exists m. rewrite PE; [assumption|]. intros ->. congruence.
  - intros u. destruct (Nat.eq_dec u t) as [->|U]; [rewrite PT; exact Logic.I|]. rewrite (PE u U).
    apply (pc_frame s s' fl fl); auto; [| | | |apply (i_pc _ _ I)].
    + intros d _ _. unfold s'. now rewrite wb_rec.
    + rewrite HE. intros d e m b Q [<-|Hb]; [right|now left]. eapply (i_pend _ _ I u t); eauto.
    + rewrite HE. simpl. auto.
    + intros d Q. exfalso. apply (PH u). now rewrite Q.
  - rewrite HE. intros b [<-|Hb]; apply BK; [assumption|now apply (i_held _ _ I)].
  - rewrite HE. constructor; [|exact (i_disj _ _ I)]. rewrite Forall_forall. exact K3.
  - intros u v c1 a1 n1 c2 a2 n2 U H1 H2.
    destruct (Nat.eq_dec u t) as [->|Nu]; [rewrite PT in H1; discriminate|destruct (Nat.eq_dec v t) as [->|Nv]; [rewrite PT in H2; discriminate|]].
    rewrite (PE u Nu) in H1. rewrite (PE v Nv) in H2. exact (i_pend _ _ I u v _ _ _ _ _ _ U H1 H2).
  - intros u v F. exfalso. destruct (Nat.eq_dec u t) as [->|Nu]; [rewrite PT in F; exact F|rewrite PE in F by assumption; eapply PH; eauto].
  - intros u v c1 c2 b H1 H2. exfalso. destruct (Nat.eq_dec u t) as [->|Nu]; [rewrite PT in H1; discriminate|rewrite PE in H1 by assumption]. apply (PH u). now rewrite H1.
Qed.

Lemma dec_inv : forall s t c b fl, inv s fl -> (t < T)%nat -> pcs s t = FDec c b ->
  inv (with_bump s c (snd (bump_dec (bump_of s c))) (remove_blk b (held s)) t (if fst (bump_dec (bump_of s c)) =? 1 then FFull c else Idle)) fl.
Proof.
  intros s t c b fl I L E. assert (K := i_pc _ _ I t). rewrite E in K. destruct K as (K1 & K2).
  assert (BB := i_held _ _ I b K1). assert (C := k_c _ _ BB). rewrite K2 in C.
  set (p := if _ =? 1 then _ else _). set (s' := with_bump _ _ _ _ _ _).
  assert (PH : forall u, ~ allocating (pcs s u)). { intros u. apply (i_phase _ _ I t u). now rewrite E. }
  assert (PE : forall u, u <> t -> pcs s' u = pcs s u) by (intros u U; now apply upd_ne).
  assert (PT : pcs s' t = p) by apply upd_eq.
  assert (HE : held s' = remove_blk b (held s)) by reflexivity.
  assert (OC := of_chunk_remove).
  assert (Qp : quiet p /\ ~ allocating p /\ (forall c b, p <> FDec c b) /\ (forall n, p <> AApp n)).
  { unfold p. destruct (_ =? 1); repeat split; try easy. }
  destruct Qp as (Qp1 & Qp2 & Qp3 & Qp4).
  assert (BK : forall d, block_ok s d -> block_ok s' d).
  { intros d [k1 k2 k3 k4 k5 k6]. constructor; unfold s'; rewrite ?wb_bump, ?wb_del; auto;
    (destruct (Nat.eqb_spec (fst d) c) as [X|X]; [rewrite X in *|]; assumption). }
  assert (PD : forall d, sum (pend s' d) T = sum (pend s d) T).
  { intros d. assert (X := pend_move s s' t d PE L). unfold pend in X at 2 4. rewrite PT, E in X. destruct p; try lia. destruct Qp1. }
  constructor.
  - intros d D. destruct (i_chunk _ _ I d D) as [F1 F2 F3 F4 F5 F6 F7 F8 F9]. specialize (PD d). specialize (OC d b (held s) K1). rewrite K2 in OC.
    assert (CB : of_chunk d (held s) < W16). { unfold usable in Husable. lia. }
    constructor; unfold s'; rewrite ?wb_bump, ?wb_base, ?wb_del, ?wb_rec; fold s'; rewrite ?HE; auto;
      try (destruct (Nat.eqb_spec d c) as [->|Nd]; assumption).
    + destruct (Nat.eqb_spec d c) as [->|Nd].
      * rewrite Nat.eqb_refl in *. cbn [bump_dec snd b_count]. rewrite F6.
        replace (of_chunk c (held s) + W16 - 1) with (of_chunk c (remove_blk b (held s)) + 1 * W16) by lia.
        rewrite N.mod_add by (unfold W16; lia). apply N.mod_small. lia.
      * destruct (Nat.eqb_spec c d); [congruence|]. lia.
    + rewrite PD. destruct (Nat.eqb_spec d c) as [->|Nd]; [cbn [bump_dec snd b_lo b_up b_next]|]; lia.
  - intros d e. unfold s'. rewrite !wb_base, !wb_rec. apply (i_apart _ _ I).
  - intros u U. rewrite PE by lia. now apply (i_idle _ _ I).
  - intros u d F. destruct (i_fl _ _ I u d F) as [F1 F2]. split; [exact F1|]. destruct F2 as [F2|[m F2]]; [left; exact F2|right].
    exists m. rewrite PE; [assumption|]. intros ->. congruence.
  - intros u. destruct (Nat.eq_dec u t) as [->|U].
    + rewrite PT. unfold p. destruct (N.eqb_spec (fst (bump_dec (bump_of s c))) 1) as [One|_]; [|exact Logic.I].
      split; [exact C|]. unfold s'. rewrite wb_rec. fold s'. rewrite HE.
      assert (CH := i_chunk _ _ I c C). split.
      * destruct (c_rec (chk s c)) eqn:R; [|reflexivity]. apply (ch_rec _ _ _ CH) in R. destruct R as [R _]. assert (X := k_del _ _ BB). rewrite K2 in X. congruence.
      * specialize (OC c b (held s) K1). rewrite K2, Nat.eqb_refl in OC. cbn [bump_dec fst] in One. rewrite (ch_cnt _ _ _ CH) in One. lia.
    + rewrite (PE u U). apply (pc_frame s s' fl fl); auto; [| | | |apply (i_pc _ _ I)].
      * intros d _ _. unfold s'. now rewrite wb_rec.
      * rewrite HE. intros d e m x Q Hx. left. eapply remove_incl; eauto.
      * rewrite HE. intros d x Q Hx. apply remove_other; [assumption|]. intros ->. apply U. exact (i_fdec _ _ I u t _ _ _ Q E).
      * intros d Q Z. rewrite HE. specialize (OC d b (held s) K1). lia.
  - rewrite HE. intros d Hd. apply BK, (i_held _ _ I). eapply remove_incl; eauto.
  - rewrite HE. apply fop_remove, (i_disj _ _ I).
  - intros u v c1 a1 n1 c2 a2 n2 U H1 H2. exfalso.
    destruct (Nat.eq_dec u t) as [->|Nu]; [rewrite PT in H1; rewrite H1 in Qp1; exact Qp1|]. rewrite (PE u Nu) in H1. apply (PH u). now rewrite H1.
  - intros u v F. destruct (Nat.eq_dec v t) as [->|Nv]; [now rewrite PT|rewrite (PE v Nv)]. apply PH.
  - intros u v c1 c2 d H1 H2. destruct (Nat.eq_dec u t) as [->|Nu]; [rewrite PT in H1; now apply Qp3 in H1|rewrite (PE u Nu) in H1].
    destruct (Nat.eq_dec v t) as [->|Nv]; [rewrite PT in H2; now apply Qp3 in H2|rewrite (PE v Nv) in H2]. exact (i_fdec _ _ I u v _ _ _ H1 H2).
Qed.

(** ** flags *)
Lemma flag_inv : forall s fl c del rec, inv s fl -> (c < nch s)%nat -> (c_del (chk s c) = true -> del = true) -> (c_rec (chk s c) = true -> rec = true) ->
  (del = true -> nxt s c <= lo s c /\ of_chunk c (held s) = 0 /\ forall t a n, pcs s t <> AInc c a n) ->
  (rec = true -> del = true /\ (S c < nch s)%nat /\ ((forall u, ~ uses (pcs s u) c) \/ c_rec (chk s c) = true)) ->
  inv (mkS (nch s) (upd (chk s) c (mkC (c_base (chk s c)) (bump_of s c) del rec)) (held s) (pcs s)) fl.
Proof.
  intros s fl c del rec I C D0 R0 D R. set (s' := mkS _ _ _ _).
  assert (BE : forall d, bump_of s' d = bump_of s d).
  { intros d. unfold bump_of at 1. simpl. destruct (Nat.eq_dec d c) as [->|N]; [now rewrite upd_eq|now rewrite upd_ne]. }
  assert (AE : forall d, c_base (chk s' d) = c_base (chk s d)).
  { intros d. simpl. destruct (Nat.eq_dec d c) as [->|N]; [now rewrite upd_eq|now rewrite upd_ne]. }
  assert (RE : forall d, c_rec (chk s' d) = if Nat.eqb d c then rec else c_rec (chk s d)).
  { intros d. simpl. unfold upd. now destruct (Nat.eqb d c). }
  assert (DE : forall d, c_del (chk s' d) = if Nat.eqb d c then del else c_del (chk s d)).
  { intros d. simpl. unfold upd. now destruct (Nat.eqb d c). }
  assert (BK : forall b, block_ok s b -> (fst b = c -> del = false) -> block_ok s' b).
  { intros b [k1 k2 k3 k4 k5 k6] Q. constructor; rewrite ?BE, ?DE; auto. destruct (Nat.eqb_spec (fst b) c); auto. }
  destruct I. constructor; auto.
  - intros d Hd. destruct (i_chunk0 d Hd) as [F1 F2 F3 F4 F5 F6 F7 F8 F9].
    constructor; rewrite ?BE, ?AE, ?RE, ?DE; auto.
    + destruct (Nat.eqb_spec d c) as [->|N]; [|assumption]. intros X. now apply D in X.
    + destruct (Nat.eqb_spec d c) as [->|N]; [|assumption]. intros X. apply R in X. tauto.
  - intros d e Hd He N. rewrite !AE, !RE. intros X Y. apply i_apart0; auto.
    + destruct (Nat.eqb_spec d c) as [->|_]; [|assumption]. destruct (c_rec (chk s c)); [|reflexivity]. rewrite R0 in X; congruence.
    + destruct (Nat.eqb_spec e c) as [->|_]; [|assumption]. destruct (c_rec (chk s c)); [|reflexivity]. rewrite R0 in Y; congruence.
  - intros u. apply (pc_frame s s' fl fl); auto.
    + intros d Hd U. rewrite RE. destruct (Nat.eqb_spec d c) as [->|_]; [|auto]. intros X. destruct rec; [|reflexivity]. destruct (R eq_refl) as (_ & _ & [Y|Y]); [exfalso; eapply Y; eauto|congruence].
    + intros d a n Q B. apply BK; [assumption|]. cbn [fst]. intros ->. destruct del; [|reflexivity]. destruct (D eq_refl) as (_ & _ & Y). now apply Y in Q.
    + exact (i_pc0 u).
  - intros b Hb. apply BK; [auto|]. intros X. destruct del; [|reflexivity]. destruct (D eq_refl) as (_ & Y & _). assert (Z := of_chunk_pos c b (held s) Hb X). lia.
Qed.
Lemma full_inv : forall s t c fl, inv s fl -> (t < T)%nat -> pcs s t = FFull c ->
  inv (mkS (nch s) (if bump_full (bump_of s c) then upd (chk s) c (mkC (c_base (chk s c)) (bump_of s c) true (c_rec (chk s c))) else chk s)
        (held s) (upd (pcs s) t Idle)) fl.
Proof.
  intros s t c fl I L E. assert (K := i_pc _ _ I t). rewrite E in K. destruct K as (K1 & K2 & K3).
  assert (PH : forall u, ~ allocating (pcs s u)). { intros u. apply (i_phase _ _ I t u). now rewrite E. }
  assert (J : inv (mkS (nch s) (if bump_full (bump_of s c) then upd (chk s) c (mkC (c_base (chk s c)) (bump_of s c) true (c_rec (chk s c))) else chk s)
        (held s) (pcs s)) fl).
  { destruct (bump_full (bump_of s c)) eqn:F; [|now destruct s]. apply N.leb_le in F. apply flag_inv; auto.
    - intros _. split; [assumption|]. split; [assumption|]. intros u a n Q. apply (PH u). now rewrite Q.
    - intros Q. congruence. }
  refine (inv_move _ fl t Idle J L _ _ _ _ _ _ _); simpl; auto; try easy; rewrite E; easy.
Qed.
Lemma reclaim_inv : forall s c fl, inv s fl -> (S c < nch s)%nat -> c_del (chk s c) = true -> (forall u, ~ uses (pcs s u) c) ->
  inv (mkS (nch s) (upd (chk s) c (mkC (c_base (chk s c)) (bump_of s c) true true)) (held s) (pcs s)) fl.
Proof.
  intros s c fl I C D U. apply flag_inv; auto; [lia|]. intros _. split; [apply (ch_del _ _ _ (i_chunk _ _ I c ltac:(lia))), D|]. split.
  - destruct (of_chunk c (held s)) eqn:Z; [reflexivity|exfalso].
    assert (Q : exists b, In b (held s) /\ fst b = c).
    { clear - Z. induction (held s) as [|b l IH]; [discriminate|]. cbn [of_chunk] in Z. destruct (Nat.eqb_spec (fst b) c); [exists b; simpl; auto|].
      destruct IH as (x & X & Y); [exact Z|exists x; simpl; auto]. }
    destruct Q as (b & Q1 & Q2). apply (i_held _ _ I) in Q1. apply k_del in Q1. congruence.
  - intros t a n Q. apply (U t). now rewrite Q.
Qed.

Theorem reach_inv : forall s, reach calm s -> exists fl, inv s fl.
Proof.
  intros s H. induction H as [|s t l s' H [fl I] L ST K]; [exists (fun _ _ => false); apply inv_init|]. destruct ST.
  - exists fl. now apply alloc_inv.
  - eauto.
  - exists fl. now apply head_inv.
  - now apply (sub_inv s t c n fl).
  - exists fl. now apply inc_inv.
  - exists fl. now apply app_inv.
  - exists fl. now apply free_inv.
  - eauto.
  - exists fl. now apply dec_inv.
  - exists fl. now apply full_inv.
  - exists fl. now apply reclaim_inv.
Qed.
End P.
