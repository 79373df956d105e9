(** Executable runs of the chunked allocator, for examples and counterexamples. *)
From Coq Require Import Bool List Arith NArith Lia.
From Verif Require Import AllocModel AllocProof.
Import ListNotations.
Open Scope N_scope.

Section Ex.
Variables (cap ctrl isz : N) (T : nat).
Notation step := (step cap ctrl isz).
(** go on; go on with an append at the address; allocate; free; give back *)
Inductive act := Go | Mem (p : N) | Alloc (n : N) | Free (b : blk) (c : nat) | Back (c : nat).
Definition apartb (p q : N) : bool := (p + (cap + ctrl) <=? q) || (q + (cap + ctrl) <=? p).
Definition usesb (p : pc) (c : nat) : bool :=
  match p with ASub d _ | AInc d _ _ | FDec d _ | FFull d => Nat.eqb d c | _ => false end.
Definition below (k : nat) (f : nat -> bool) : bool := forallb f (seq 0 k).
Lemma below_spec : forall k f, below k f = true -> forall i, (i < k)%nat -> f i = true.
Proof. intros k f H i L. unfold below in H. rewrite forallb_forall in H. apply H. apply in_seq. lia. Qed.
Definition exec (s : st) (t : nat) (a : act) : option (lab * st) :=
  match a with
  | Go =>
      match pcs s t with
      | AHead n => Some (LOther, at_pc s t (match nch s with O => AApp n | S c => ASub c n end))
      | ASub c n => let (a, b) := bump_take (bump_of s c) n in
          Some (LOther, with_bump s c b (held s) t (if b_lo (bump_of s c) <=? a then AInc c a n else AApp n))
      | AInc c a n => Some (LOther, with_bump s c (bump_inc (bump_of s c)) ((c, (a, n)) :: held s) t (if a =? 0 then AApp n else Idle))
      | FDec c b => let (o, b') := bump_dec (bump_of s c) in
          Some (LOther, with_bump s c b' (remove_blk b (held s)) t (if o =? 1 then FFull c else Idle))
      | FFull c => Some (LOther, mkS (nch s)
          (if bump_full (bump_of s c) then upd (chk s) c (mkC (c_base (chk s c)) (bump_of s c) true (c_rec (chk s c))) else chk s)
          (held s) (upd (pcs s) t Idle))
      | _ => None
      end
  | Mem p =>
      match pcs s t with
      | AApp n => if (0 <? p) && (p + (cap + ctrl) <? W64) && below (nch s) (fun c => c_rec (chk s c) || apartb p (c_base (chk s c)))
                  then Some (LMem p, mkS (S (nch s)) (upd (chk s) (nch s) (new_chunk cap ctrl isz p)) (held s) (upd (pcs s) t (AHead n))) else None
      | _ => None
      end
  | Alloc n => match pcs s t with Idle => if roundup n <=? cap then Some (LAlloc n, at_pc s t (AHead (roundup n))) else None | _ => None end
  | Free b c =>
      match pcs s t with
      | Idle => if existsb (blk_eqb b) (held s) && below T (fun u => match pcs s u with FDec _ d => negb (blk_eqb b d) | _ => true end)
                   && (Nat.ltb c (nch s)) && negb (c_rec (chk s c)) && bump_owns (bump_of s c) (fst (snd b))
                then Some (LFree b, at_pc s t (FDec c b)) else None
      | _ => None
      end
  | Back c => if (Nat.ltb (S c) (nch s)) && c_del (chk s c) && negb (c_rec (chk s c)) && below T (fun u => negb (usesb (pcs s u) c))
              then Some (LOther, mkS (nch s) (upd (chk s) c (mkC (c_base (chk s c)) (bump_of s c) true true)) (held s) (pcs s)) else None
  end.
Definition quiet_above (s : st) : Prop := forall t, (T <= t)%nat -> pcs s t = Idle.
Lemma exec_step : forall s t a l s', quiet_above s -> exec s t a = Some (l, s') -> step s t l s'.
Proof.
  intros s t a l s' Q H. destruct a; simpl in H.
  - destruct (pcs s t) eqn:E; try discriminate.
    + injection H as <- <-. now apply s_head.
    + injection H as <- <-. exact (s_sub cap ctrl isz s t c n E).
    + injection H as <- <-. now apply s_inc.
    + injection H as <- <-. exact (s_dec cap ctrl isz s t c b E).
    + injection H as <- <-. now apply s_full.
  - destruct (pcs s t) eqn:E; try discriminate. destruct (_ && _) eqn:B in H; [|discriminate]. injection H as <- <-.
    rewrite !andb_true_iff in B. destruct B as [[B1 B2] B3]. apply N.ltb_lt in B1, B2. apply s_app; auto.
    intros c C R. assert (X := below_spec _ _ B3 c C). simpl in X. rewrite R in X. simpl in X. unfold apartb in X. unfold apart.
    rewrite orb_true_iff, !N.leb_le in X. exact X.
  - destruct (pcs s t) eqn:E; try discriminate. destruct (N.leb_spec (roundup n) cap); [|discriminate]. injection H as <- <-. now apply s_alloc.
  - destruct (pcs s t) eqn:E; try discriminate. destruct (_ && _) eqn:B in H; [|discriminate]. injection H as <- <-.
    rewrite !andb_true_iff in B. destruct B as [[[[B1 B2] B3] B4] B5]. apply Nat.ltb_lt in B3. apply negb_true_iff in B4.
    apply existsb_exists in B1. destruct B1 as (d & D1 & D2). destruct (blk_eqb_spec b d) as [->|]; [|discriminate]. apply s_free; auto.
    intros u e X. destruct (Nat.le_gt_cases T u) as [U|U]; [rewrite (Q u U) in X; discriminate|]. assert (Y := below_spec _ _ B2 u U). simpl in Y. rewrite X in Y.
    destruct (blk_eqb_spec d d); [discriminate|congruence].
  - destruct (_ && _) eqn:B in H; [|discriminate]. injection H as <- <-. rewrite !andb_true_iff in B. destruct B as [[[B1 B2] B3] B4].
    apply Nat.ltb_lt in B1. apply negb_true_iff in B3. apply s_reclaim; auto.
    intros u X. destruct (Nat.le_gt_cases T u) as [U|U]; [rewrite (Q u U) in X; exact X|]. assert (Y := below_spec _ _ B4 u U). simpl in Y.
    destruct (pcs s u); simpl in X, Y; try contradiction; subst; rewrite Nat.eqb_refl in Y; discriminate.
Qed.
Fixpoint run (okb : st -> lab -> bool) (s : st) (l : list (nat * act)) : option st :=
  match l with
  | [] => Some s
  | (t, a) :: l => if Nat.ltb t T then match exec s t a with Some (b, s') => if okb s b then run okb s' l else None | None => None end else None
  end.
Lemma step_above : forall s t l s', step s t l s' -> (t < T)%nat -> quiet_above s -> quiet_above s'.
Proof.
  intros s t l s' H L Q u U. assert (N : u <> t) by lia. specialize (Q u U). destruct H; simpl; auto; rewrite upd_ne; auto.
Qed.
Lemma run_reach : forall okb (ok : st -> lab -> Prop) l s s', (forall s b, quiet_above s -> okb s b = true -> ok s b) -> quiet_above s -> reach cap ctrl isz T ok s -> run okb s l = Some s' ->
  reach cap ctrl isz T ok s'.
Proof.
  intros okb ok. induction l as [|[t a] l IH]; intros s s' K Q R H; [now injection H as <-|]. simpl in H.
  destruct (Nat.ltb_spec t T) as [L|]; [|discriminate]. destruct (exec s t a) as [[b s1]|] eqn:E; [|discriminate]. destruct (okb s b) eqn:B; [|discriminate].
  apply exec_step in E; [|assumption]. apply (IH s1 s' K); [eapply step_above; eauto|eapply r_step; eauto|assumption].
Qed.
Lemma run_some : forall okb (ok : st -> lab -> Prop) l (Q : st -> Prop), (forall s b, quiet_above s -> okb s b = true -> ok s b) ->
  match run okb (init cap ctrl isz) l with Some s => Q s | None => False end -> exists s, reach cap ctrl isz T ok s /\ Q s.
Proof.
  intros okb ok l Q K H. destruct (run okb (init cap ctrl isz) l) as [s|] eqn:E; [|easy]. exists s.
  split; [eapply (run_reach okb ok l); eauto; [easy|constructor]|exact H].
Qed.
(** [calm] as a boolean *)
Definition allocatingb (p : pc) : bool := match p with AHead _ | ASub _ _ | AInc _ _ _ | AApp _ => true | _ => false end.
Definition freeingb (p : pc) : bool := match p with FDec _ _ | FFull _ => true | _ => false end.
Definition calmb (s : st) (l : lab) : bool :=
  match l with
  | LAlloc n => (1 <=? roundup n) && below T (fun u => negb (freeingb (pcs s u)))
  | LFree _ => below T (fun u => negb (allocatingb (pcs s u)))
  | LMem p => N.of_nat T * cap <=? p
  | LOther => true
  end.
Lemma calmb_ok : forall s l, quiet_above s -> calmb s l = true -> calm cap T s l.
Proof.
  intros s [|n|b|p] Q H; simpl in *; auto.
  - apply andb_prop in H. destruct H as [H1 H2]. split; [now apply N.leb_le|]. intros u X.
    destruct (Nat.le_gt_cases T u) as [U|U]; [rewrite (Q u U) in X; exact X|]. assert (Y := below_spec _ _ H2 u U). simpl in Y. now destruct (pcs s u).
  - intros u X. destruct (Nat.le_gt_cases T u) as [U|U]; [rewrite (Q u U) in X; exact X|]. assert (Y := below_spec _ _ H u U). simpl in Y. now destruct (pcs s u).
  - now apply N.leb_le.
Qed.
End Ex.
(** a thread going on for [n] steps *)
Definition goes (t n : nat) : list (nat * act) := repeat (t, Go) n.

(** ** One thread, requests one after the other *)
Section One.
Variables (cap ctrl isz : N).
Notation reach := (reach cap ctrl isz 1 (calm cap 1)).
Notation step := (step cap ctrl isz).
Definition idle (s : st) : Prop := forall u, pcs s u = Idle.
Lemma go : forall s l s', reach s -> step s 0 l s' -> calm cap 1 s l -> reach s'.
Proof. intros s l s' R H K. eapply r_step; eauto. Qed.
Lemma upd_idle : forall s p, idle s -> forall u, upd (upd (pcs s) 0 p) 0 Idle u = Idle.
Proof. intros s p I [|u]; [reflexivity|]. apply I. Qed.
Lemma serve : forall s c n, reach s -> idle s -> nch s = S c -> 1 <= roundup n <= cap -> roundup n <= b_next (bump_of s c) -> b_next (bump_of s c) < W64 ->
  b_lo (bump_of s c) <= b_next (bump_of s c) - roundup n -> 0 < b_lo (bump_of s c) ->
  exists s', reach s' /\ idle s' /\ nch s' = S c /\
    bump_of s' c = mkB (b_lo (bump_of s c)) (b_up (bump_of s c)) (b_next (bump_of s c) - roundup n) ((b_count (bump_of s c) + 1) mod W16) /\
    (c_base (chk s' c) = c_base (chk s c) /\ c_del (chk s' c) = c_del (chk s c) /\ c_rec (chk s' c) = c_rec (chk s c)) /\
    held s' = (c, (b_next (bump_of s c) - roundup n, roundup n)) :: held s.
Proof.
  intros s c n R I Z [M1 M2] L1 L2 L3 L4. set (m := roundup n) in *.
  set (s1 := at_pc s 0 (AHead m)). assert (R1 : reach s1). { eapply go; [exact R|apply s_alloc; [apply I|exact M2]|]. split; [assumption|]. intros u. rewrite I. simpl. auto. }
  set (s2 := at_pc s1 0 (ASub c m)).
  assert (R2 : reach s2). { eapply go; [exact R1|exact (s_head cap ctrl isz s1 0%nat m eq_refl)|exact Logic.I] || idtac.
    assert (X := s_head cap ctrl isz s1 0%nat m eq_refl). simpl in X. rewrite Z in X. eapply go; [exact R1|exact X|exact Logic.I]. }
  set (a := b_next (bump_of s c) - m) in *.
  assert (TK : fst (bump_take (bump_of s2 c) m) = a) by (apply sub64_nowrap; assumption).
  set (s3 := with_bump s2 c (mkB (b_lo (bump_of s c)) (b_up (bump_of s c)) a (b_count (bump_of s c))) (held s) 0 (AInc c a m)).
  assert (R3 : reach s3).
  { assert (X := s_sub cap ctrl isz s2 0%nat c m eq_refl). cbv zeta in X.
    assert (Y : snd (bump_take (bump_of s2 c) m) = mkB (b_lo (bump_of s c)) (b_up (bump_of s c)) a (b_count (bump_of s c))).
    { rewrite <- TK. reflexivity. }
    rewrite TK, Y in X. change (b_lo (bump_of s2 c)) with (b_lo (bump_of s c)) in X. apply N.leb_le in L3. rewrite L3 in X. eapply go; [exact R2|exact X|exact Logic.I]. }
  assert (B3 : bump_of s3 c = mkB (b_lo (bump_of s c)) (b_up (bump_of s c)) a (b_count (bump_of s c))). { unfold s3. rewrite wb_bump, Nat.eqb_refl. reflexivity. }
  exists (with_bump s3 c (bump_inc (bump_of s3 c)) ((c, (a, m)) :: held s3) 0 Idle). split; [|split; [|split; [exact Z|split; [|split]]]].
  - assert (X := s_inc cap ctrl isz s3 0%nat c a m eq_refl). replace (a =? 0) with false in X by (symmetry; apply N.eqb_neq; lia). eapply go; [exact R3|exact X|exact Logic.I].
  - intros [|u]; [reflexivity|]. apply I.
  - rewrite wb_bump, Nat.eqb_refl, B3. reflexivity.
  - unfold s3. rewrite !wb_base, !wb_del, !wb_rec. simpl. auto.
  - reflexivity.
Qed.
Lemma serve_new : forall s c n p, reach s -> idle s -> nch s = S c -> 1 <= roundup n <= cap -> roundup n <= b_next (bump_of s c) -> b_next (bump_of s c) < W64 ->
  b_next (bump_of s c) - roundup n < b_lo (bump_of s c) -> cap <= p -> 0 < p -> p + (cap + ctrl) < W64 ->
  (forall c, (c < nch s)%nat -> c_rec (chk s c) = false -> apart cap ctrl p (c_base (chk s c))) -> roundup n <= cap - ctrl - isz -> cap - ctrl - isz < W64 ->
  exists s', reach s' /\ idle s' /\ nch s' = S (S c) /\
    bump_of s' c = mkB (b_lo (bump_of s c)) (b_up (bump_of s c)) (b_next (bump_of s c) - roundup n) (b_count (bump_of s c)) /\
    (forall d, (d <= c)%nat -> c_rec (chk s' d) = c_rec (chk s d)) /\
    exists b, held s' = b :: held s.
Proof.
  intros s c n p R I Z [M1 M2] L1 L2 L3 L4 L5 L6 L7 L8 L9. set (m := roundup n) in *.
  set (s1 := at_pc s 0 (AHead m)). assert (R1 : reach s1). { eapply go; [exact R|apply s_alloc; [apply I|exact M2]|]. split; [assumption|]. intros u. rewrite I. simpl. auto. }
  set (s2 := at_pc s1 0 (ASub c m)).
  assert (R2 : reach s2). { assert (X := s_head cap ctrl isz s1 0%nat m eq_refl). simpl in X. rewrite Z in X. eapply go; [exact R1|exact X|exact Logic.I]. }
  set (a := b_next (bump_of s c) - m) in *.
  assert (TK : fst (bump_take (bump_of s2 c) m) = a) by (apply sub64_nowrap; assumption).
  set (s3 := with_bump s2 c (mkB (b_lo (bump_of s c)) (b_up (bump_of s c)) a (b_count (bump_of s c))) (held s) 0 (AApp m)).
  assert (R3 : reach s3).
  { assert (X := s_sub cap ctrl isz s2 0%nat c m eq_refl). cbv zeta in X.
    assert (Y : snd (bump_take (bump_of s2 c) m) = mkB (b_lo (bump_of s c)) (b_up (bump_of s c)) a (b_count (bump_of s c))).
    { rewrite <- TK. reflexivity. }
    rewrite TK, Y in X. change (b_lo (bump_of s2 c)) with (b_lo (bump_of s c)) in X. apply N.leb_gt in L3. rewrite L3 in X. eapply go; [exact R2|exact X|exact Logic.I]. }
  assert (B3 : bump_of s3 c = mkB (b_lo (bump_of s c)) (b_up (bump_of s c)) a (b_count (bump_of s c))). { unfold s3. rewrite wb_bump, Nat.eqb_refl. reflexivity. }
  set (s4 := mkS (S (nch s3)) (upd (chk s3) (nch s3) (new_chunk cap ctrl isz p)) (held s3) (upd (pcs s3) 0 (AHead m))).
  assert (R4 : reach s4).
  { eapply go; [exact R3|apply (s_app cap ctrl isz s3 0%nat m p eq_refl L5 L6)|].
    - intros d D. unfold s3. rewrite wb_rec, wb_base. apply L7. exact D.
    - unfold calm. change (N.of_nat 1) with 1. rewrite N.mul_1_l. exact L4. }
  set (s5 := at_pc s4 0 (ASub (S c) m)).
  assert (R5 : reach s5). { assert (X := s_head cap ctrl isz s4 0%nat m eq_refl). simpl in X. rewrite Z in X. eapply go; [exact R4|exact X|exact Logic.I]. }
  assert (B5 : bump_of s5 (S c) = bump_new (p + ctrl + isz) (p + ctrl + isz + (cap - ctrl - isz))). { unfold bump_of. simpl. rewrite Z. now rewrite upd_eq. }
  set (e := p + ctrl + isz + (cap - ctrl - isz) - m).
  assert (TK5 : fst (bump_take (bump_of s5 (S c)) m) = e). { rewrite B5. apply sub64_nowrap; simpl; lia. }
  assert (E5 : p + ctrl + isz <= e) by lia.
  assert (X := s_sub cap ctrl isz s5 0%nat (S c) m eq_refl). cbv zeta in X. rewrite TK5 in X. rewrite B5 in X at 2. cbn [b_lo bump_new] in X.
  apply N.leb_le in E5. rewrite E5 in X. set (s6 := with_bump s5 (S c) _ _ _ _) in X.
  assert (R6 : reach s6) by (eapply go; [exact R5|exact X|exact Logic.I]).
  assert (X6 := s_inc cap ctrl isz s6 0%nat (S c) e m eq_refl). replace (e =? 0) with false in X6 by (symmetry; apply N.eqb_neq; lia).
  exists (with_bump s6 (S c) (bump_inc (bump_of s6 (S c))) ((S c, (e, m)) :: held s6) 0 Idle). split; [eapply go; [exact R6|exact X6|exact Logic.I]|].
  split; [intros [|u]; [reflexivity|apply I]|]. split; [simpl; now rewrite Z|]. split; [|split].
  - rewrite wb_bump. destruct (Nat.eqb_spec c (S c)); [lia|]. unfold s6. rewrite wb_bump. destruct (Nat.eqb_spec c (S c)); [lia|].
    transitivity (bump_of s3 c); [|exact B3]. unfold s5, s4, bump_of. simpl. rewrite Z. rewrite upd_ne by lia. reflexivity.
  - intros d D. rewrite wb_rec. unfold s6. rewrite wb_rec. unfold s5, s4. cbn [at_pc chk]. rewrite upd_ne by (simpl; lia). unfold s3. rewrite wb_rec. reflexivity.
  - eexists. reflexivity.
Qed.
Lemma serve_free : forall s c b, reach s -> idle s -> In b (held s) -> (c < nch s)%nat -> c_rec (chk s c) = false -> bump_owns (bump_of s c) (fst (snd b)) = true ->
  b_count (bump_of s c) = 1 -> bump_full (bump_of s c) = true ->
  exists s', reach s' /\ c_del (chk s' c) = true /\ forall d, In d (held s) -> d <> b -> In d (held s').
Proof.
  intros s c b R I B C Rc O Cn F.
  set (s1 := at_pc s 0 (FDec c b)).
  assert (R1 : reach s1). { eapply go; [exact R|exact (s_free cap ctrl isz s 0%nat b c (I 0%nat) B (fun u d => ltac:(rewrite I; discriminate)) C Rc O)|]. intros u. rewrite I. simpl. auto. }
  assert (X := s_dec cap ctrl isz s1 0%nat c b eq_refl). assert (Y : fst (bump_dec (bump_of s1 c)) = 1) by exact Cn. rewrite Y in X. cbn [N.eqb Pos.eqb] in X.
  set (s2 := with_bump s1 c _ _ _ _) in X. assert (R2 : reach s2) by (eapply go; [exact R1|exact X|exact Logic.I]).
  assert (X2 := s_full cap ctrl isz s2 0%nat c eq_refl).
  assert (F2 : bump_full (bump_of s2 c) = true). { unfold s2. rewrite wb_bump, Nat.eqb_refl. exact F. }
  rewrite F2 in X2. eexists. split; [eapply go; [exact R2|exact X2|exact Logic.I]|]. split; [cbn [chk]; now rewrite upd_eq|].
  intros d D N. cbn [held]. apply remove_other; assumption.
Qed.
End One.
(** [k + 1] blocks of one byte in a chunk of 128 KiB *)
Lemma many_blocks : forall k, k < 130000 ->
  exists s, reach 131072 544 32 1 (calm 131072 1) s /\ idle s /\ nch s = 1%nat /\
    bump_of s 0 = mkB 1000576 1131072 (1131071 - k) ((k + 1) mod W16) /\
    (c_base (chk s 0) = 1000000 /\ c_del (chk s 0) = false /\ c_rec (chk s 0) = false) /\
    (forall a, 1131071 - k <= a /\ a <= 1131071 -> In (0%nat, (a, 1)) (held s)) /\ True.
Proof.
  assert (R1 : roundup 1 = 1) by reflexivity. induction k as [|k IH] using N.peano_ind; intros K.
  - destruct (run_some 131072 544 32 1 (calmb 131072 1) (calm 131072 1) ([(0%nat, Alloc 1); (0%nat, Go); (0%nat, Mem 1000000)] ++ goes 0 3)
      (fun s => (nch s, chk s 0, held s) = (1%nat, mkC 1000000 (mkB 1000576 1131072 1131071 1) false false, [(0%nat, (1131071, 1))]) /\ forall u, pcs s u = Idle))
      as (s & R & E & P); [apply calmb_ok|vm_compute; split; [reflexivity|intros [|u]; reflexivity]|].
    injection E as E1 E2 E3. exists s. split; [exact R|]. split; [exact P|]. split; [exact E1|]. unfold bump_of. rewrite E2. split; [reflexivity|]. split; [auto|]. split; [|exact Logic.I].
    intros a A. rewrite E3. left. f_equal. f_equal. simpl in A. lia.
  - destruct IH as (s & R & I & Z & B & X & H & _); [lia|].
    destruct (serve 131072 544 32 s 0 1 R I Z) as (s' & R' & I' & Z' & B' & X' & H').
    + rewrite R1. lia.
    + rewrite R1, B. cbn [b_next]. lia.
    + rewrite B. cbn [b_next]. unfold W64. lia.
    + rewrite R1, B. cbn [b_next b_lo]. lia.
    + rewrite B. reflexivity.
    + exists s'. split; [exact R'|]. split; [exact I'|]. split; [exact Z'|]. rewrite R1, B in B', H'. cbn [b_lo b_up b_next b_count] in B', H'.
      split; [rewrite B'; f_equal; [lia|]|].
      * rewrite N.add_mod_idemp_l by discriminate. f_equal. lia.
      * split; [destruct X as (x1 & x2 & x3), X' as (y1 & y2 & y3); repeat split; congruence|]. split; [|exact Logic.I].
        intros a A. rewrite H'. destruct (N.eq_dec a (1131071 - k - 1)) as [->|N]; [now left|right]. apply H. lia.
Qed.
