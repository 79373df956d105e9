(** Progress of the chunked bump allocator when several threads ask at the same time
    (chunked_bump_alloc.hpp:82-122): proofs for C73. *)
From Coq Require Import Bool List Arith NArith Lia.
From Verif Require Import AllocModel AllocProof.
Import ListNotations.
Open Scope N_scope.

Fixpoint tot (f : nat -> nat) (k : nat) : nat := match k with O => O | S k => (tot f k + f k)%nat end.
Lemma tot_ext : forall f g k, (forall t, (t < k)%nat -> f t = g t) -> tot f k = tot g k.
Proof. induction k as [|k IH]; intros H; simpl; [reflexivity|]. rewrite IH by auto. rewrite (H k) by lia. reflexivity. Qed.
Lemma tot_upd : forall f g k t, (t < k)%nat -> (forall u, u <> t -> g u = f u) -> (tot g k + f t = tot f k + g t)%nat.
Proof.
  induction k as [|k IH]; intros t L H; [lia|]. simpl. destruct (Nat.eq_dec t k) as [->|N].
  - rewrite (tot_ext g f k); [lia|]. intros u U. apply H. lia.
  - assert (Q := IH t ltac:(lia) H). rewrite (H k) by lia. lia.
Qed.
Lemma tot_mono : forall f k m, (k <= m)%nat -> (tot f k <= tot f m)%nat.
Proof. induction m as [|m IH]; intros L; [replace k with 0%nat by lia; lia|]. destruct (Nat.eq_dec k (S m)) as [->|]; [lia|]. simpl. assert (Q := IH ltac:(lia)). lia. Qed.
Lemma tot_le : forall f g k, (forall t, (t < k)%nat -> (f t <= g t)%nat) -> (tot f k <= tot g k)%nat.
Proof. induction k as [|k IH]; intros H; simpl; [lia|]. assert (A := IH ltac:(auto)). assert (B := H k ltac:(lia)). lia. Qed.
Lemma tot_const : forall c k, tot (fun _ => c) k = (k * c)%nat.
Proof. induction k as [|k IH]; simpl; lia. Qed.
Lemma tot_get : forall f k t, (t < k)%nat -> (f t <= tot f k)%nat.
Proof. induction k as [|k IH]; intros t L; [lia|]. simpl. destruct (Nat.eq_dec t k) as [->|]; [lia|]. assert (Q := IH t ltac:(lia)). lia. Qed.

Section Live.
Context (cap ctrl isz : N) (T : nat) (Hc : ctrl + isz <= cap).
Notation step := (step cap ctrl isz).
Notation use := (cap - ctrl - isz).

Definition touched (s : st) (c : nat) : nat := if b_next (bump_of s c) =? b_up (bump_of s c) then 0%nat else 1%nat.
Definition tb (s : st) (k : nat) : nat := tot (touched s) k.
Definition recd (s : st) (c : nat) : nat := if c_rec (chk s c) then 1%nat else 0%nat.
(** how many steps are left until the thread is out of the call or has to add a chunk *)
Definition rank (p : pc) : nat :=
  match p with Idle => 0 | AHead _ => 3 | ASub _ _ => 2 | AInc _ _ _ => 1 | AApp _ => 1 | FDec _ _ => 2 | FFull _ => 1 end%nat.
Definition ask (p : pc) : nat := match p with AHead _ | ASub _ _ | AApp _ => 1 | _ => 0 end%nat.
Definition inalloc (p : pc) : nat := match p with AHead _ | ASub _ _ | AApp _ | AInc _ _ _ => 1 | _ => 0 end%nat.
Definition decs (p : pc) : nat := match p with FDec _ _ => 1 | _ => 0 end%nat.

Record lchunk (s : st) (fl : nat -> nat -> bool) (c : nat) : Prop := {
  l_low : N.of_nat T * cap <= b_lo (bump_of s c);
  l_pos : 0 < b_lo (bump_of s c);
  l_up : b_up (bump_of s c) = b_lo (bump_of s c) + use;
  l_max : b_up (bump_of s c) < W64;
  l_next : b_next (bump_of s c) <= b_up (bump_of s c);
  l_debt : b_lo (bump_of s c) <= b_next (bump_of s c) + sum (debt cap fl c) T }.
Definition fits_size (n : N) : Prop := 1 <= n /\ n <= use.
Definition lpc (s : st) (fl : nat -> nat -> bool) (ap : nat) (t : nat) (p : pc) : Prop :=
  match p with
  | ASub c n => fits_size n /\ (c < nch s)%nat /\ (forall d, fl t d = true -> (d < c)%nat) /\ (ap <= 1 + tb s c)%nat
  | AApp n => fits_size n /\ (ap <= tb s (nch s))%nat
  | AHead n => fits_size n /\ (forall d, fl t d = true -> (S d < nch s)%nat) /\ (ap <= 1 + tb s (nch s - 1))%nat
  | AInc c a n => 0 < a /\ (forall d, fl t d = true -> (S d < nch s)%nat) /\ (ap <= 1 + tb s (nch s - 1))%nat
  | _ => (forall d, fl t d = true -> (S d < nch s)%nat) /\ (ap <= 1 + tb s (nch s - 1))%nat
  end.
(** [R], [F]: calls of allocate() and deallocate(), [len]: steps so far *)
Record live (s : st) (fl : nat -> nat -> bool) (ap : nat -> nat) (R F len : nat) : Prop := {
  v_chunk : forall c, (c < nch s)%nat -> lchunk s fl c;
  v_fl : forall t c, fl t c = true -> (c < nch s)%nat;
  v_pc : forall t, (t < T)%nat -> lpc s fl (ap t) t (pcs s t);
  v_sum : tot ap T = nch s;
  v_len : (len + tot (fun t => rank (pcs s t)) T <= 4 * R + 3 * F + 3 * nch s + tot (recd s) (nch s))%nat;
  v_ask : (tb s (nch s) + tot (fun t => ask (pcs s t)) T <= R)%nat;
  v_ans : (R + tot (fun t => decs (pcs s t)) T <= length (held s) + tot (fun t => inalloc (pcs s t)) T + F)%nat }.

Lemma dle : forall fl c t, debt cap fl c t <= cap.
Proof. intros fl c t. unfold debt. destruct (fl t c); lia. Qed.
Lemma touched_le : forall s c, (touched s c <= 1)%nat.
Proof. intros. unfold touched. destruct (_ =? _); lia. Qed.
Lemma recd_le : forall s k, (tot (recd s) k <= k)%nat.
Proof. intros s k. induction k as [|k IH]; simpl; [lia|]. unfold recd at 2. destruct (c_rec _); lia. Qed.

(** steps that move one thread and leave the addresses of the chunks alone *)
Definition alike (s s' : st) : Prop := nch s' = nch s /\
  forall c, b_lo (bump_of s' c) = b_lo (bump_of s c) /\ b_up (bump_of s' c) = b_up (bump_of s c) /\ b_next (bump_of s' c) = b_next (bump_of s c).
Lemma alike_tb : forall s s' k, alike s s' -> tb s' k = tb s k.
Proof. intros s s' k [_ A]. apply tot_ext. intros c _. unfold touched. destruct (A c) as (_ & -> & ->). reflexivity. Qed.
Lemma alike_lpc : forall s s' fl ap t p, alike s s' -> lpc s fl ap t p -> lpc s' fl ap t p.
Proof. intros s s' fl ap t p A H. assert (TB := fun k => alike_tb s s' k A). destruct A as [N A]. destruct p; simpl in *; rewrite ?N, ?TB; exact H. Qed.
Lemma live_move : forall s s' t fl ap R F len R' F', live s fl ap R F len -> (t < T)%nat -> alike s s' ->
  (forall u, u <> t -> pcs s' u = pcs s u) -> lpc s fl (ap t) t (pcs s' t) ->
  (S len + tot (recd s) (nch s) + rank (pcs s' t) + 4 * R + 3 * F <= 4 * R' + 3 * F' + rank (pcs s t) + tot (recd s') (nch s) + len)%nat ->
  (ask (pcs s' t) + R <= ask (pcs s t) + R')%nat ->
  (R' + decs (pcs s' t) + length (held s) + inalloc (pcs s t) + F <= R + decs (pcs s t) + length (held s') + inalloc (pcs s' t) + F')%nat ->
  live s' fl ap R' F' (S len).
Proof.
  intros s s' t fl ap R F len R' F' V L A P LP H1 H2 H3. assert (TB := fun k => alike_tb s s' k A).
  assert (N := proj1 A). destruct V as [v1 v2 v3 v4 v5 v6 v7].
  assert (Q := fun f : pc -> nat => tot_upd (fun u => f (pcs s u)) (fun u => f (pcs s' u)) T t L ltac:(intros u U; cbv beta; now rewrite P)).
  assert (Q1 := Q rank). assert (Q2 := Q ask). assert (Q3 := Q decs). assert (Q4 := Q inalloc). cbv beta in Q1, Q2, Q3, Q4. clear Q.
  constructor; rewrite ?N, ?TB.
  - intros c C. destruct (v1 c C) as [x1 x2 x3 x4 x5 x6]. destruct A as [_ A]. destruct (A c) as (A1 & A2 & A3).
    constructor; rewrite ?A1, ?A2, ?A3; assumption.
  - exact v2.
  - intros u U. apply (alike_lpc s); [exact A|]. destruct (Nat.eq_dec u t) as [->|X]; [exact LP|]. rewrite (P u X). auto.
  - exact v4.
  - lia.
  - lia.
  - lia.
Qed.
Lemma remove_length : forall b l, (length l <= S (length (remove_blk b l)))%nat.
Proof. induction l as [|d l IH]; simpl; [lia|]. destruct (blk_eqb b d); simpl; lia. Qed.
Lemma alike_pc : forall s t p, alike s (at_pc s t p).
Proof. intros. split; [reflexivity|]. intros c. auto. Qed.
Lemma alike_with : forall s c b h t p, b_lo b = b_lo (bump_of s c) -> b_up b = b_up (bump_of s c) -> b_next b = b_next (bump_of s c) -> alike s (with_bump s c b h t p).
Proof. intros s c b h t p H1 H2 H3. split; [reflexivity|]. intros d. rewrite wb_bump. destruct (Nat.eqb_spec d c) as [->|]; auto. Qed.
Lemma lpc_idle : forall s fl ap t p, lpc s fl ap t p -> (match p with ASub _ _ | AApp _ => False | _ => True end) ->
  (forall d, fl t d = true -> (S d < nch s)%nat) /\ (ap <= 1 + tb s (nch s - 1))%nat.
Proof. intros s fl ap t [] H X; simpl in *; tauto. Qed.

(** the take of a thread: the first request of a chunk is answered, and a request that
    is refused leaves a debt of one thread only *)
Lemma sub_live : forall s t c n fl ap R F len, live s fl ap R F len -> (t < T)%nat -> pcs s t = ASub c n ->
  exists fl', live (with_bump s c (snd (bump_take (bump_of s c) n)) (held s) t
    (if b_lo (bump_of s c) <=? fst (bump_take (bump_of s c) n) then AInc c (fst (bump_take (bump_of s c) n)) n else AApp n)) fl' ap R F (S len).
Proof.
  intros s t c n fl ap R F len V L E. assert (K := v_pc _ _ _ _ _ _ V t L). rewrite E in K. destruct K as ([K1 K2] & K3 & K4 & K5).
  destruct (v_chunk _ _ _ _ _ _ V c K3) as [x1 x2 x3 x4 x5 x6].
  assert (NF : fl t c = false). { destruct (fl t c) eqn:Z; [|reflexivity]. apply K4 in Z. lia. }
  assert (D := sum_le_but (debt cap fl c) T cap t L). unfold debt in D at 1. rewrite NF in D. specialize (D eq_refl (dle fl c)).
  assert (WL : n <= b_next (bump_of s c)) by lia.
  assert (W : fst (bump_take (bump_of s c) n) = b_next (bump_of s c) - n) by (apply sub64_nowrap; [exact WL|lia]).
  set (b' := snd (bump_take (bump_of s c) n)).
  assert (B1 : b_lo b' = b_lo (bump_of s c)) by reflexivity. assert (B2 : b_up b' = b_up (bump_of s c)) by reflexivity.
  assert (B4 : b_next b' = b_next (bump_of s c) - n) by exact W. clearbody b'. rewrite W.
  set (a := b_next (bump_of s c) - n) in *.
  set (ok := b_lo (bump_of s c) <=? a).
  set (p := if ok then AInc c a n else AApp n). set (s' := with_bump s c b' (held s) t p).
  set (fl' := fun u d => fl u d || (negb ok && Nat.eqb u t && Nat.eqb d c)).
  assert (BM : forall d, bump_of s' d = if Nat.eqb d c then b' else bump_of s d) by (intros d; apply wb_bump).
  assert (PE : forall u, u <> t -> pcs s' u = pcs s u) by (intros u U; now apply upd_ne).
  assert (PT : pcs s' t = p) by apply upd_eq.
  assert (TD : forall d, d <> c -> touched s' d = touched s d). { intros d Hd. unfold touched. rewrite BM. apply Nat.eqb_neq in Hd. now rewrite Hd. }
  assert (TC : touched s' c = 1%nat). { unfold touched. rewrite BM, Nat.eqb_refl. destruct (N.eqb_spec (b_next b') (b_up b')); [unfold a in *; lia|reflexivity]. }
  assert (TO : ok = false -> touched s c = 1%nat).
  { unfold ok. intros Z. apply N.leb_gt in Z. unfold touched. destruct (N.eqb_spec (b_next (bump_of s c)) (b_up (bump_of s c))) as [e|]; [|reflexivity]. unfold a in *. lia. }
  assert (TM : forall k, (tb s k <= tb s' k)%nat).
  { intros k. apply tot_le. intros d _. destruct (Nat.eq_dec d c) as [->|X]; [rewrite TC; apply touched_le|rewrite TD by assumption; lia]. }
  assert (TU := tot_upd (touched s) (touched s') (nch s) c K3 TD). rewrite TC in TU. fold (tb s (nch s)) (tb s' (nch s)) in TU.
  assert (TS : ok = false -> (S (tb s c) <= tb s (nch s))%nat).
  { intros Z. assert (M := tot_mono (touched s) (S c) (nch s) K3). simpl in M. rewrite (TO Z) in M. unfold tb. lia. }
  assert (SUM : forall d, sum (debt cap fl d) T <= sum (debt cap fl' d) T /\ (d = c -> ok = false -> sum (debt cap fl c) T + cap <= sum (debt cap fl' c) T)).
  { intros d. assert (U := sum_upd (debt cap fl d) (debt cap fl' d) T t L). split.
    - assert (X : forall u, u <> t -> debt cap fl' d u = debt cap fl d u).
      { intros u Hu. unfold debt, fl'. apply Nat.eqb_neq in Hu. rewrite Hu, andb_false_r, orb_false_r. reflexivity. }
      specialize (U X). unfold debt at 2 4 in U. unfold fl' in U at 2. destruct (fl t d); simpl in U; [lia|].
      destruct (negb ok && Nat.eqb t t && Nat.eqb d c); lia.
    - intros -> Z. assert (X : forall u, u <> t -> debt cap fl' c u = debt cap fl c u).
      { intros u Hu. unfold debt, fl'. apply Nat.eqb_neq in Hu. rewrite Hu, andb_false_r, orb_false_r. reflexivity. }
      specialize (U X). unfold debt at 2 4 in U. unfold fl' in U at 2. rewrite NF, Z, !Nat.eqb_refl in U. simpl in U. lia. }
  exists fl'.
  assert (Q := fun f : pc -> nat => tot_upd (fun u => f (pcs s u)) (fun u => f (pcs s' u)) T t L ltac:(intros u U; cbv beta; now rewrite PE)).
  assert (Q1 := Q rank). assert (Q2 := Q ask). assert (Q3 := Q decs). assert (Q4 := Q inalloc). cbv beta in Q1, Q2, Q3, Q4. clear Q.
  rewrite PT, E in Q1, Q2, Q3, Q4.
  assert (FU : forall u d, u <> t -> fl' u d = fl u d). { intros u d Hu. unfold fl'. apply Nat.eqb_neq in Hu. rewrite Hu, andb_false_r, orb_false_r. reflexivity. }
  destruct V as [v1 v2 v3 v4 v5 v6 v7]. constructor; change (nch s') with (nch s).
  - intros d Hd. destruct (Nat.eq_dec d c) as [->|X].
    + assert (B := BM c). rewrite Nat.eqb_refl in B. destruct (SUM c) as [S1 S2]. constructor; rewrite B, ?B1, ?B2; auto.
      * rewrite B4. unfold a. lia.
      * rewrite B4. destruct ok eqn:OK; [apply N.leb_le in OK; lia|]. assert (S3 := S2 eq_refl eq_refl). unfold a. lia.
    + assert (B := BM d). assert (X' := X). apply Nat.eqb_neq in X'. rewrite X' in B. destruct (v1 d Hd) as [y1 y2 y3 y4 y5 y6].
      destruct (SUM d) as [S1 _]. constructor; rewrite B; auto. lia.
  - intros u d Z. unfold fl' in Z. apply orb_true_iff in Z. destruct Z as [Z|Z]; [eauto|]. apply andb_true_iff in Z. destruct Z as [_ Z]. apply Nat.eqb_eq in Z. now subst.
  - intros u U. destruct (Nat.eq_dec u t) as [->|X].
    + rewrite PT. unfold p. destruct ok eqn:OK; cbn [lpc].
      * split; [apply N.leb_le in OK; lia|]. split.
        -- intros d Z. unfold fl' in Z. simpl in Z. rewrite orb_false_r in Z. apply K4 in Z. change (nch s') with (nch s). lia.
        -- change (nch s') with (nch s). assert (M := TM (nch s - 1)%nat). assert (M2 := tot_mono (touched s) c (nch s - 1) ltac:(lia)). unfold tb in *. lia.
      * split; [split; assumption|]. change (nch s') with (nch s). assert (M := TM (nch s)). assert (Y := TS eq_refl). lia.
    + rewrite (PE u X). assert (LP := v3 u U). change (nch s') with (nch s).
      assert (M := fun k => TM k). destruct (pcs s u) eqn:EU; cbn [lpc] in *; change (nch s') with (nch s) in *;
        repeat match goal with H : _ /\ _ |- _ => destruct H end; repeat split; auto; try (match goal with H : fits_size ?n |- _ => destruct H; assumption end); try (intros d; rewrite FU by assumption; auto; fail);
        try (match goal with |- context [tb s' ?k] => assert (M1 := TM k) end; lia).
  - exact v4.
  - assert (TR : tot (recd s') (nch s) = tot (recd s) (nch s)). { apply tot_ext. intros d _. unfold recd. unfold s'. now rewrite wb_rec. }
    rewrite TR. unfold p in Q1. destruct ok; cbn [rank] in Q1; lia.
  - unfold p in Q2. destruct ok eqn:OK; cbn [ask] in Q2; [assert (X := touched_le s c); lia|]. rewrite (TO eq_refl) in TU. lia.
  - change (held s') with (held s). unfold p in Q3, Q4. destruct ok; cbn [decs inalloc] in Q3, Q4; lia.
Qed.
(** a new chunk *)
Lemma app_live : forall s t n p fl ap R F len, live s fl ap R F len -> (t < T)%nat -> pcs s t = AApp n -> 0 < p -> p + (cap + ctrl) < W64 -> N.of_nat T * cap <= p ->
  live (mkS (S (nch s)) (upd (chk s) (nch s) (new_chunk cap ctrl isz p)) (held s) (upd (pcs s) t (AHead n))) fl
    (fun u => if Nat.eqb u t then S (ap u) else ap u) R F (S len).
Proof.
  intros s t n p fl ap R F len V L E P1 P2 P3. set (s' := mkS _ _ _ _).
  assert (K := v_pc _ _ _ _ _ _ V t L). rewrite E in K. destruct K as (K1 & K2).
  assert (PE : forall u, u <> t -> pcs s' u = pcs s u) by (intros u U; now apply upd_ne).
  assert (PT : pcs s' t = AHead n) by apply upd_eq.
  assert (CK : forall d, d <> nch s -> chk s' d = chk s d) by (intros d X; now apply upd_ne).
  assert (CN : chk s' (nch s) = new_chunk cap ctrl isz p) by apply upd_eq.
  assert (TE : forall k, (k <= nch s)%nat -> tb s' k = tb s k).
  { intros k Hk. apply tot_ext. intros d Hd. unfold touched, bump_of. rewrite CK by lia. reflexivity. }
  assert (T1 : tb s' (S (nch s)) = tb s (nch s)).
  { change (tb s' (nch s) + touched s' (nch s) = tb s (nch s))%nat. rewrite TE by lia. assert (Z : touched s' (nch s) = 0%nat); [|lia].
    unfold touched, bump_of. rewrite CN. cbn [new_chunk c_bump bump_new b_next b_up]. now rewrite N.eqb_refl. }
  assert (Q := fun f : pc -> nat => tot_upd (fun u => f (pcs s u)) (fun u => f (pcs s' u)) T t L ltac:(intros u U; cbv beta; now rewrite PE)).
  assert (Q1 := Q rank). assert (Q2 := Q ask). assert (Q3 := Q decs). assert (Q4 := Q inalloc). cbv beta in Q1, Q2, Q3, Q4. clear Q.
  rewrite PT, E in Q1, Q2, Q3, Q4. cbn [rank ask decs inalloc] in Q1, Q2, Q3, Q4.
  destruct V as [v1 v2 v3 v4 v5 v6 v7]. constructor; change (nch s') with (S (nch s)).
  - intros d Hd. destruct (Nat.eq_dec d (nch s)) as [->|X].
    + constructor; unfold bump_of; rewrite CN; cbn [new_chunk c_bump bump_new b_next b_up b_lo]; lia.
    + destruct (v1 d ltac:(lia)) as [y1 y2 y3 y4 y5 y6]. constructor; unfold bump_of in *; rewrite (CK d X); assumption.
  - intros u d Z. apply v2 in Z. lia.
  - intros u U. destruct (Nat.eqb_spec u t) as [->|X].
    + rewrite PT. cbn [lpc]. change (nch s') with (S (nch s)). split; [exact K1|]. split.
      * intros d Z. apply v2 in Z. lia.
      * replace (S (nch s) - 1)%nat with (nch s) by lia. rewrite TE by lia. lia.
    + rewrite (PE u X). assert (LP := v3 u U).
      assert (M := tot_mono (touched s) (nch s - 1) (nch s) ltac:(lia)). fold (tb s (nch s)) (tb s (nch s - 1)) in M.
      assert (T0 := TE (nch s) ltac:(lia)).
      destruct (pcs s u) eqn:EU; cbn [lpc] in *; change (nch s') with (S (nch s)) in *; replace (S (nch s) - 1)%nat with (nch s) by lia; rewrite ?T1, ?T0;
        repeat match goal with H : _ /\ _ |- _ => destruct H end; repeat split; auto; try (match goal with H : fits_size ?n |- _ => destruct H; assumption end); try lia;
        try (intros d Z; match goal with H : forall d, _ -> (S d < _)%nat |- _ => specialize (H d Z) end; lia).
      rewrite TE by lia. assumption.
  - assert (X := tot_upd ap (fun u => if Nat.eqb u t then S (ap u) else ap u) T t L).
    assert (Y : forall u, u <> t -> (if Nat.eqb u t then S (ap u) else ap u) = ap u) by (intros u Hu; apply Nat.eqb_neq in Hu; now rewrite Hu).
    specialize (X Y). cbv beta in X. rewrite Nat.eqb_refl in X. lia.
  - assert (TR : tot (recd s') (nch s) = tot (recd s) (nch s)). { apply tot_ext. intros d Hd. unfold recd. rewrite CK by lia. reflexivity. }
    cbn [tot]. rewrite TR. lia.
  - rewrite T1. lia.
  - change (held s') with (held s). lia.
Qed.

(** ** runs *)
Inductive runs (ok : lab -> Prop) : st -> list (nat * lab) -> st -> Prop :=
| u_nil : forall s, runs ok s [] s
| u_step : forall s tr s1 t l s', runs ok s tr s1 -> (t < T)%nat -> step s1 t l s' -> ok l -> runs ok s ((t, l) :: tr) s'.
Definition nalloc (tr : list (nat * lab)) : nat := length (filter (fun x => match snd x with LAlloc _ => true | _ => false end) tr).
Definition nfree (tr : list (nat * lab)) : nat := length (filter (fun x => match snd x with LFree _ => true | _ => false end) tr).
Definition okl (l : lab) : Prop :=
  match l with
  | LAlloc n => 1 <= roundup n /\ roundup n <= use
  | LMem p => N.of_nat T * cap <= p
  | _ => True
  end.
Lemma live_init : live (init cap ctrl isz) (fun _ _ => false) (fun _ => O) 0 0 0.
Proof.
  assert (Z : forall f : nat -> nat, (forall t, f t = O) -> forall k, tot f k = O) by (intros f H k; induction k as [|k IH]; simpl; [|rewrite IH, H]; reflexivity).
  constructor; simpl; try easy; try (intros; lia); rewrite ?Z by auto; try lia. intros t _. split; [discriminate|lia].
Qed.
Lemma live_runs : forall tr s, runs okl (init cap ctrl isz) tr s -> exists fl ap, live s fl ap (nalloc tr) (nfree tr) (length tr).
Proof.
  intros tr s H. remember (init cap ctrl isz) as s0. induction H as [s|s tr s1 t l s' H IH L ST OK]; subst.
  { do 2 eexists. apply live_init. }
  destruct (IH eq_refl) as (fl & ap & V). clear IH. assert (K := v_pc _ _ _ _ _ _ V t L).
  inversion ST; subst; cbn [nalloc nfree filter snd length] in *;
    change (length (filter (fun x : nat * lab => match snd x with LAlloc _ => true | _ => false end) tr)) with (nalloc tr) in *;
    change (length (filter (fun x : nat * lab => match snd x with LFree _ => true | _ => false end) tr)) with (nfree tr) in *;
    match goal with X : pcs s1 t = _ |- _ => rewrite X in K | _ => idtac end.
  - (* alloc *) destruct OK as [O1 O2]. exists fl, ap. match goal with X : pcs s1 t = _ |- _ => rename X into E end. rename H0 into LE || idtac.
    eapply live_move with (s := s1) (t := t); [exact V|exact L|apply alike_pc|intros u U; now apply upd_ne| | | |];
      replace (pcs (at_pc s1 t (AHead (roundup n))) t) with (AHead (roundup n)) by (symmetry; apply upd_eq); rewrite ?E.
    + simpl in K. simpl. split; [split; assumption|exact K].
    + simpl. change (tot (recd (at_pc s1 t (AHead (roundup n))))) with (tot (recd s1)). lia.
    + simpl. lia.
    + simpl. lia.
  - (* null *) destruct OK as [O1 O2]. exfalso. lia.
  - (* head *) exists fl, ap. match goal with X : pcs s1 t = _ |- _ => rename X into E end. set (q := match nch s1 with O => AApp n | S c => ASub c n end).
    eapply live_move with (s := s1) (t := t); [exact V|exact L|apply alike_pc|intros u U; now apply upd_ne| | | |];
      replace (pcs (at_pc s1 t q) t) with q by (symmetry; apply upd_eq); rewrite ?E.
    + simpl in K. destruct K as (K1 & K2 & K3). unfold q. destruct (nch s1) as [|c] eqn:N; simpl.
      * split; [exact K1|]. assert (X := v_sum _ _ _ _ _ _ V). assert (Y := tot_get ap T t L). lia.
      * split; [exact K1|]. rewrite N. split; [lia|]. split; [intros d Z; apply K2 in Z; lia|]. replace (S c - 1)%nat with c in K3 by lia. exact K3.
    + change (tot (recd (at_pc s1 t q))) with (tot (recd s1)). unfold q. destruct (nch s1); simpl; lia.
    + unfold q. destruct (nch s1); simpl; lia.
    + change (held (at_pc s1 t q)) with (held s1). unfold q. destruct (nch s1); simpl; lia.
  - (* sub *) match goal with X : pcs s1 t = _ |- _ => rename X into E end. destruct (sub_live s1 t c n fl ap _ _ _ V L E) as [fl' V']. exists fl', ap. exact V'.
  - (* inc *) exists fl, ap. match goal with X : pcs s1 t = _ |- _ => rename X into E end. simpl in K. destruct K as (K1 & K2).
    replace (a =? 0) with false by (symmetry; apply N.eqb_neq; lia). set (s' := with_bump _ _ _ _ _ _).
    assert (PT : pcs s' t = Idle) by apply upd_eq.
    eapply live_move with (s := s1) (t := t); [exact V|exact L|apply alike_with; reflexivity|intros u U; now apply upd_ne| | | |]; fold s'; rewrite ?PT, ?E.
    + exact K2.
    + assert (TR : tot (recd s') (nch s1) = tot (recd s1) (nch s1)). { apply tot_ext. intros d _. unfold recd, s'. now rewrite wb_rec. } simpl. lia.
    + simpl. lia.
    + unfold s', with_bump. cbn [held length]. simpl. lia.
  - (* app *) exists fl. eexists. apply app_live; eauto.
  - (* free *) exists fl, ap. match goal with X : pcs s1 t = _ |- _ => rename X into E end.
    eapply live_move with (s := s1) (t := t); [exact V|exact L|apply alike_pc|intros u U; now apply upd_ne| | | |];
      replace (pcs (at_pc s1 t (FDec c b)) t) with (FDec c b) by (symmetry; apply upd_eq); rewrite ?E.
    + exact K.
    + simpl. change (tot (recd (at_pc s1 t (FDec c b)))) with (tot (recd s1)). lia.
    + simpl. lia.
    + simpl. lia.
  - (* lost *) exists fl, ap. match goal with X : pcs _ t = Idle |- _ => rename X into E end.
    eapply live_move with (t := t); [exact V|exact L|split; [reflexivity|auto]|reflexivity| | | |]; rewrite ?E; cbn [rank ask decs inalloc]; [rewrite <- E; exact K|lia|lia|lia].
  - (* dec *) exists fl, ap. match goal with X : pcs s1 t = _ |- _ => rename X into E end. set (q := if _ =? 1 then _ else _). set (s' := with_bump _ _ _ _ _ _).
    assert (PT : pcs s' t = q) by apply upd_eq. assert (RL := remove_length b (held s1)).
    eapply live_move with (s := s1) (t := t); [exact V|exact L|apply alike_with; reflexivity|intros u U; now apply upd_ne| | | |]; fold s'; rewrite ?PT, ?E.
    + unfold q. destruct (_ =? 1); exact K.
    + assert (TR : tot (recd s') (nch s1) = tot (recd s1) (nch s1)). { apply tot_ext. intros d _. unfold recd, s'. now rewrite wb_rec. } unfold q. destruct (_ =? 1); simpl; lia.
    + unfold q. destruct (_ =? 1); simpl; lia.
    + unfold s', with_bump. cbn [held]. unfold q. destruct (_ =? 1); simpl; lia.
  - (* full *) exists fl, ap. match goal with X : pcs s1 t = _ |- _ => rename X into E end. set (s' := mkS _ _ _ _).
    assert (PT : pcs s' t = Idle) by apply upd_eq.
    assert (CK : forall d, bump_of s' d = bump_of s1 d /\ c_rec (chk s' d) = c_rec (chk s1 d)).
    { intros d. unfold s', bump_of. cbn [chk]. destruct (bump_full _); [|auto]. unfold upd. destruct (Nat.eqb_spec d c) as [->|]; auto. }
    eapply live_move with (s := s1) (t := t); [exact V|exact L|split; [reflexivity|intros d; destruct (CK d) as [-> _]; auto]|intros u U; now apply upd_ne| | | |]; rewrite ?PT, ?E.
    + exact K.
    + assert (TR : tot (recd s') (nch s1) = tot (recd s1) (nch s1)). { apply tot_ext. intros d _. unfold recd. destruct (CK d) as [_ ->]. reflexivity. } simpl. lia.
    + simpl. lia.
    + simpl. lia.
  - (* reclaim *) exists fl, ap. set (s' := mkS _ _ _ _).
    assert (BK : forall d, bump_of s' d = bump_of s1 d). { intros d. unfold s', bump_of. cbn [chk]. unfold upd. destruct (Nat.eqb_spec d c) as [->|]; reflexivity. }
    assert (TU := tot_upd (recd s1) (recd s') (nch s1) c ltac:(lia)).
    assert (TX : forall u, u <> c -> recd s' u = recd s1 u). { intros u U. unfold recd, s'. cbn [chk]. now rewrite upd_ne. }
    assert (T1 : recd s' c = 1%nat). { unfold recd, s'. cbn [chk]. now rewrite upd_eq. }
    assert (T0 : recd s1 c = 0%nat). { unfold recd. match goal with X : c_rec _ = false |- _ => now rewrite X end. }
    specialize (TU TX). rewrite T0, T1 in TU.
    eapply live_move with (s := s1) (t := t); [exact V|exact L|split; [reflexivity|intros d; rewrite BK; auto]|reflexivity| | | |]; change (pcs s' t) with (pcs s1 t); change (held s') with (held s1); auto; lia.
Qed.
(** one thread adds at most one chunk more than chunks have been touched *)
Lemma live_chunks : forall s fl ap R F len, live s fl ap R F len -> (nch s <= T * S R)%nat.
Proof.
  intros s fl ap R F len V. rewrite <- (v_sum _ _ _ _ _ _ V). rewrite <- tot_const. apply tot_le. intros t L.
  assert (K := v_pc _ _ _ _ _ _ V t L). assert (A := v_ask _ _ _ _ _ _ V).
  assert (M := tot_mono (touched s) (nch s - 1) (nch s) ltac:(lia)). fold (tb s (nch s)) (tb s (nch s - 1)) in M.
  destruct (pcs s t); simpl in K; try lia.
  destruct K as (_ & K2 & _ & K4). assert (M2 := tot_mono (touched s) c (nch s) ltac:(lia)). fold (tb s (nch s)) (tb s c) in M2. lia.
Qed.
Lemma runs_bounded : forall tr s, runs okl (init cap ctrl isz) tr s ->
  (nch s <= T * S (nalloc tr))%nat /\ (length tr <= 4 * nalloc tr + 3 * nfree tr + 4 * (T * S (nalloc tr)))%nat.
Proof.
  intros tr s H. destruct (live_runs tr s H) as (fl & ap & V). assert (C := live_chunks _ _ _ _ _ _ V). split; [exact C|].
  assert (A := v_len _ _ _ _ _ _ V). assert (B := recd_le s (nch s)). set (m := (T * S (nalloc tr))%nat) in *. lia.
Qed.
Lemma runs_above : forall ok tr s, runs ok (init cap ctrl isz) tr s -> forall u, (T <= u)%nat -> pcs s u = Idle.
Proof.
  intros ok tr s H. remember (init cap ctrl isz) as s0. induction H as [s|s tr s1 t l s' H IH L ST OK]; subst; [reflexivity|].
  intros u U. specialize (IH eq_refl u U). inversion ST; subst; simpl; auto; unfold upd; destruct (Nat.eqb_spec u t); auto; lia.
Qed.
Lemma runs_answered : forall tr s, runs okl (init cap ctrl isz) tr s -> (forall t, (t < T)%nat -> inalloc (pcs s t) = 0%nat) -> (nalloc tr <= length (held s) + nfree tr)%nat.
Proof.
  intros tr s H Q. destruct (live_runs tr s H) as (fl & ap & V). assert (A := v_ans _ _ _ _ _ _ V).
  assert (Z : tot (fun t => inalloc (pcs s t)) T = tot (fun _ => 0%nat) T) by (apply tot_ext; exact Q). rewrite tot_const in Z. lia.
Qed.
(** requests and blocks of one size *)
Definition csize (m : N) (p : pc) : nat := match p with AHead n | ASub _ n | AApp n | AInc _ _ n => if n =? m then 1%nat else 0%nat | _ => 0%nat end.
Definition count_size (m : N) (h : list blk) : nat := length (filter (fun b => snd (snd b) =? m) h).
Definition count_req (m : N) (tr : list (nat * lab)) : nat := length (filter (fun x => match snd x with LAlloc n => roundup n =? m | _ => false end) tr).
Lemma remove_size : forall m b h, (count_size m h <= S (count_size m (remove_blk b h)))%nat.
Proof.
  intros m b h. unfold count_size. induction h as [|d h IH]; simpl; [lia|]. destruct (blk_eqb b d); simpl; destruct (snd (snd d) =? m); simpl; lia.
Qed.
Lemma remove_size_le : forall m b h, (count_size m (remove_blk b h) <= count_size m h)%nat.
Proof.
  intros m b h. unfold count_size. induction h as [|d h IH]; simpl; [lia|]. destruct (blk_eqb b d); simpl; destruct (snd (snd d) =? m); simpl; lia.
Qed.
Lemma runs_sizes : forall m tr s, runs okl (init cap ctrl isz) tr s ->
  (count_req m tr + tot (fun t => decs (pcs s t)) T <= count_size m (held s) + tot (fun t => csize m (pcs s t)) T + nfree tr)%nat /\
  (count_size m (held s) + tot (fun t => csize m (pcs s t)) T <= count_req m tr)%nat.
Proof.
  intros m tr s H. remember (init cap ctrl isz) as s0. induction H as [s|s tr s1 t l s' H IH L ST OK]; subst.
  { simpl. assert (Z : forall k, tot (fun _ => 0%nat) k = 0%nat) by (intros k; rewrite tot_const; lia). rewrite !Z. simpl. lia. }
  specialize (IH eq_refl). assert (R1 := H). destruct (live_runs tr s1 H) as (fl & ap & V). assert (K := v_pc _ _ _ _ _ _ V t L).
  assert (Q : forall f : pc -> nat, (forall u, u <> t -> pcs s' u = pcs s1 u) -> (tot (fun u => f (pcs s' u)) T + f (pcs s1 t) = tot (fun u => f (pcs s1 u)) T + f (pcs s' t))%nat).
  { intros f PE. exact (tot_upd (fun u => f (pcs s1 u)) (fun u => f (pcs s' u)) T t L ltac:(intros u U; cbv beta; now rewrite PE)). }
  assert (PE : forall u, u <> t -> pcs s' u = pcs s1 u) by (intros u U; inversion ST; subst; simpl; auto; now apply upd_ne).
  assert (Q1 := Q decs PE). assert (Q2 := Q (csize m) PE). clear Q.
  assert (FR : nfree ((t, l) :: tr) = (match l with LFree _ => 1 | _ => 0 end + nfree tr)%nat) by (destruct l; reflexivity).
  assert (RQ : count_req m ((t, l) :: tr) = (match l with LAlloc n => if (roundup n =? m)%N then 1 else 0 | _ => 0 end + count_req m tr)%nat)
    by (unfold count_req; simpl; destruct l as [|n| |]; try reflexivity; destruct (roundup n =? m); reflexivity).
  rewrite FR, RQ. clear FR RQ. revert Q1 Q2.
  generalize (tot (fun u => decs (pcs s' u)) T) (tot (fun u => csize m (pcs s' u)) T). intros x y Q1 Q2.
  assert (PP : forall B (f : nat -> B) z, upd f t z t = z) by (intros; apply upd_eq).
  inversion ST; subst.
  - simpl in Q1, Q2. rewrite PP in Q1, Q2. match goal with X : pcs s1 t = _ |- _ => rewrite X in Q1, Q2 end. simpl in Q1, Q2 |- *. lia.
  - destruct OK as [O1 O2]. exfalso. lia.
  - match goal with X : pcs s1 t = _ |- _ => rewrite X in Q1, Q2 end. simpl in Q1, Q2 |- *. rewrite PP in Q1, Q2. destruct (nch s1); simpl in Q1, Q2; lia.
  - match goal with X : pcs s1 t = _ |- _ => rewrite X in Q1, Q2 end. unfold with_bump in Q1, Q2 |- *. cbn [pcs held] in Q1, Q2 |- *. rewrite PP in Q1, Q2. destruct (_ <=? _); cbn [decs csize] in Q1, Q2; lia.
  - match goal with X : pcs s1 t = _ |- _ => rewrite X in Q1, Q2, K end. simpl in K. destruct K as (K1 & _).
    unfold with_bump in Q1, Q2 |- *. cbn [pcs held] in Q1, Q2 |- *. rewrite PP in Q1, Q2. replace (a =? 0) with false in Q1, Q2 by (symmetry; apply N.eqb_neq; lia).
    unfold count_size in *. cbn [decs csize filter snd] in Q1, Q2 |- *. destruct (n =? m); cbn [length] in *; lia.
  - match goal with X : pcs s1 t = _ |- _ => rewrite X in Q1, Q2 end. cbn [pcs held] in Q1, Q2 |- *. rewrite PP in Q1, Q2. cbn [decs csize] in Q1, Q2. lia.
  - match goal with X : pcs s1 t = _ |- _ => rewrite X in Q1, Q2 end. simpl in Q1, Q2 |- *. rewrite PP in Q1, Q2. simpl in Q1, Q2. lia.
  - match goal with X : pcs _ t = Idle |- _ => rewrite X in Q1, Q2 end. simpl in Q1, Q2. lia.
  - match goal with X : pcs s1 t = _ |- _ => rewrite X in Q1, Q2 end. unfold with_bump in Q1, Q2 |- *. cbn [pcs held] in Q1, Q2 |- *. rewrite PP in Q1, Q2.
    assert (A1 := remove_size m b (held s1)). assert (A2 := remove_size_le m b (held s1)). destruct (_ =? 1); cbn [decs csize] in Q1, Q2; lia.
  - match goal with X : pcs s1 t = _ |- _ => rewrite X in Q1, Q2 end. cbn [pcs held] in Q1, Q2 |- *. rewrite PP in Q1, Q2. cbn [decs csize] in Q1, Q2. lia.
  - cbn [pcs held] in Q1, Q2 |- *. lia.
Qed.
End Live.
