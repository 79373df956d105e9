(** Task bodies that wait for a future: a task is suspended at most once in every get(), and
    executions are bounded. *)
From Coq Require Import Bool List Arith NArith ZArith Lia Permutation.
From Verif Require Import AccessModel AccessSpec AccessProof UserModel UserProof SchedModel SchedSpec SchedBase SchedInv1 SchedInv2 SchedInv3 SchedInv8 SchedFront SchedThm SchedLive SchedTerm SchedMany SchedValue SchedFree PauseModel PauseSpec PauseProof PauseInv PauseThm.
Import ListNotations.
Open Scope Z_scope.

(** ** The history grows *)
Lemma fstep_log P u f u1 fr : fstep P u f = Some (u1, fr) -> exists l, log u1 = l ++ log u.
Proof.
  intros H. cases_f H; simpl; try (exists []; reflexivity); first [eexists [_]; reflexivity|eexists [_; _]; reflexivity].
Qed.
Lemma istep_log u c u1 fr : istep u c = Some (u1, fr) -> exists l, log u1 = l ++ log u.
Proof. intros H. cases_i H; simpl; try (exists []; reflexivity); eexists [_]; reflexivity. Qed.
Lemma yfstep_log P y g y1 fr : yfstep P y g = Some (y1, fr) -> exists l, log (yst y1) = l ++ log (yst y).
Proof.
  destruct g; intros H.
  - apply yf_cases in H as [(? & ? & ? & _ & _ & -> & _)|[(? & ? & ? & _ & -> & _)|(u1 & fr0 & H & -> & _)]]; try (exists []; reflexivity).
    exact (fstep_log P _ _ _ _ H).
  - injection H as <- <-. now exists [].
  - injection H as <- <-. now exists [].
  - injection H as <- <-. now exists [].
  - injection H as <- <-. now exists [].
  - injection H as <- <-. now exists [].
  - injection H as <- <-. now exists [].
  - injection H as <- <-. exists []. simpl. now destruct (st =? 1).
  - injection H as <- <-. now exists [].
  - cbn [yfstep] in H. destruct (grab t (ycont y)) as [[? ?]|]; injection H as <- <-; now exists [].
  - discriminate.
Qed.
Lemma ystep_log P y i c y' : ystep P y i c = Some y' -> exists l, log (yst y') = l ++ log (yst y).
Proof.
  unfold ystep. destruct (nth_error (ythr y) i) as [[|g gs]|]; [| |discriminate].
  - destruct (yistep y c) as [[y1 fr]|] eqn:F; [|discriminate]. intros H. injection H as <-. cbn [yst].
    destruct c as [m|m|m]; cbn [yistep] in F.
    + destruct (nth_error (rdy (yst y)) m); [|discriminate]. injection F as <- <-. now exists [].
    + destruct (istep (yst y) (PNew m)) as [[u1 fr0]|] eqn:F0; [|discriminate]. injection F as <- <-. exact (istep_log _ _ _ _ F0).
    + destruct (istep (yst y) (PExt m)) as [[u1 fr0]|] eqn:F0; [|discriminate]. injection F as <- <-. exact (istep_log _ _ _ _ F0).
  - destruct (yfstep P y g) as [[y1 fr]|] eqn:F; [|discriminate]. intros H. injection H as <-. cbn [yst]. exact (yfstep_log P _ _ _ _ F).
Qed.

(** ** Costs *)
Definition ycost (u : state) (g : yframe) : Z :=
  match g with
  | YF (FBody (Some _) (IGet c :: _)) => if ctr u (ERSet c) =? 0 then 0 else 17
  | YF (FFollow (ERSet _) l) => 6 * Z.of_nat (length l)
  | YF _ => 0
  | YStore _ _ => 16
  | YCheck _ _ => 15
  | YPush _ _ => 14
  | YInc _ _ => 7
  | YUp _ _ _ => 6
  | YNote _ => 5
  | YNote2 _ st => if st =? 1 then 4 else 1
  | YRes _ => 2
  | YBack _ => 1
  | YTwice _ => 0
  end.
Definition holds1 (u : state) (c : nat) : Z := if taken u (ERSet c) =? 0 then Z.of_nat (length (fol u (ERSet c))) else 0.
Definition held (u : state) (N : nat) : Z := zsum (holds1 u) (seq 0 N).
Definition calls (D : nat -> bool) (l : list nat) : Z := zsum (fun t => zb (D t)) l.
Definition pot (N : nat) (y : ystate) : Z := zsum (ycost (yst y)) (yframes y) + 6 * held (yst y) N + 3 * calls (away y) (rdy (yst y)).

Lemma cost_nonneg u g : 0 <= ycost u g.
Proof.
  destruct g; simpl; try lia; [|destruct (st =? 1); lia]. destruct f; simpl; try lia.
  - destruct o; try lia. destruct s as [|[] s]; try lia. destruct (ctr u (ERSet c) =? 0); lia.
  - destruct e; lia.
Qed.
Lemma held_nonneg u N : 0 <= held u N.
Proof. apply zsum_nonneg. intros c _. unfold holds1. destruct (taken u (ERSet c) =? 0); lia. Qed.
Lemma calls_nonneg D l : 0 <= calls D l.
Proof. apply zsum_nonneg. intros t _. pose proof (zb_bound (D t)). lia. Qed.
Lemma pot_nonneg N y : 0 <= pot N y.
Proof.
  unfold pot. pose proof (zsum_nonneg (ycost (yst y)) (yframes y) (fun g _ => cost_nonneg (yst y) g)).
  pose proof (held_nonneg (yst y) N). pose proof (calls_nonneg (away y) (rdy (yst y))). lia.
Qed.

Lemma zsum_le {A} (v w : A -> Z) l : (forall x, In x l -> v x <= w x) -> zsum v l <= zsum w l.
Proof. induction l as [|x l IH]; simpl; [lia|]. intros H. pose proof (H x (or_introl eq_refl)). specialize (IH (fun z Hz => H z (or_intror Hz))). lia. Qed.
Lemma zsum_same {A} (v w : A -> Z) l : (forall x, In x l -> v x = w x) -> zsum v l = zsum w l.
Proof. induction l as [|x l IH]; simpl; [lia|]. intros H. rewrite (H x) by auto. rewrite IH by auto. reflexivity. Qed.

Lemma cost_mono u u' g : (forall c, ctr u' (ERSet c) <> 0 -> ctr u (ERSet c) <> 0) -> ycost u' g <= ycost u g.
Proof.
  intros H. destruct g; simpl; try lia. destruct f; simpl; try lia. destruct o; try lia. destruct s as [|[] s]; try lia.
  specialize (H c). destruct (Z.eqb_spec (ctr u' (ERSet c)) 0); destruct (Z.eqb_spec (ctr u (ERSet c)) 0); lia.
Qed.

Lemma held_same u u' N : (forall c, taken u' (ERSet c) = taken u (ERSet c)) -> (forall c, fol u' (ERSet c) = fol u (ERSet c)) -> held u' N = held u N.
Proof. intros A B. unfold held. apply zsum_same. intros c _. unfold holds1. now rewrite A, B. Qed.

Lemma held_one u u' N d x : (forall c, c <> d -> holds1 u' c = holds1 u c) -> holds1 u' d = holds1 u d + x -> 
  held u' N = held u N + (if Nat.ltb d N then x else 0).
Proof.
  intros A B. unfold held. induction N as [|N IH]; [simpl; lia|].
  rewrite seq_S, !zsum_app, IH. cbn [zsum plus]. destruct (Nat.eq_dec N d) as [->|n].
  - rewrite B. rewrite (proj2 (Nat.ltb_ge d d)) by lia. rewrite (proj2 (Nat.ltb_lt d (S d))) by lia. lia.
  - rewrite (A N n). destruct (Nat.ltb_spec d N); destruct (Nat.ltb_spec d (S N)); lia.
Qed.

Lemma held_take u N d : (d < N)%nat -> taken u (ERSet d) = 0 -> held (add_log u (LTake (ERSet d))) N = held u N - Z.of_nat (length (fol u (ERSet d))).
Proof.
  intros L T. assert (TN : forall q, taken (add_log u (LTake (ERSet d))) (ERSet q) = ni d q + taken u (ERSet q)).
  { intros q. unfold taken. simpl. unfold ce, ni. simpl. now rewrite Nat.eqb_sym. }
  rewrite (held_one u _ N d (- Z.of_nat (length (fol u (ERSet d))))).
  - rewrite (proj2 (Nat.ltb_lt d N) L). lia.
  - intros c n. unfold holds1. rewrite TN. unfold ni. destruct (Nat.eqb_spec c d); [easy|]. reflexivity.
  - unfold holds1. rewrite TN, T. unfold ni. rewrite Nat.eqb_refl. simpl. lia.
Qed.

Lemma held_push u N d x : held (set_fol u (eupd (fol u) (ERSet d) (x :: fol u (ERSet d)))) N <= held u N + 1.
Proof.
  rewrite (held_one u _ N d (if taken u (ERSet d) =? 0 then 1 else 0)).
  - destruct (Nat.ltb d N); destruct (taken u (ERSet d) =? 0); lia.
  - intros c n. unfold holds1, taken. simpl. rewrite eupd_ne by congruence. reflexivity.
  - unfold holds1. change (taken (set_fol u (eupd (fol u) (ERSet d) (x :: fol u (ERSet d)))) (ERSet d)) with (taken u (ERSet d)).
    destruct (taken u (ERSet d) =? 0); [|lia]. simpl fol. rewrite eupd_eq. simpl length. lia.
Qed.

Lemma calls_same D D' l : (forall t, In t l -> D' t = D t) -> calls D' l = calls D l.
Proof. intros H. apply zsum_same. intros t Ht. now rewrite H. Qed.

Lemma fcalls P D u f u1 fr : quiet D f -> fstep P u f = Some (u1, fr) -> calls D (rdy u1) = calls D (rdy u).
Proof.
  intros Q H. unfold calls. cases_f H; simpl in *; auto.
  all: zcmp; subst; rewrite Q by reflexivity; reflexivity.
Qed.

Lemma fcost P D u f u1 fr : quiet D f -> ~ taking f -> fstep P u f = Some (u1, fr) -> zsum (ycost u1) (map YF fr) <= 17.
Proof.
  intros Q NT H. destruct (fnormal P D u f u1 fr Q NT H) as (_ & NF & _).
  assert (B : forall o m, ycost u1 (YF (FBody o m)) <= 17).
  { intros o m. simpl. destruct o; try lia. destruct m as [|[] m]; try lia. destruct (ctr u1 (ERSet c) =? 0); lia. }
  assert (F : forall e l, In (FFollow e l) fr -> ycost u1 (YF (FFollow e l)) = 0).
  { intros e l Hf. destruct e; try reflexivity. destruct (NF t l Hf). }
  cases_f H; cbn [map zsum]; rewrite ?F by (simpl; auto);
    repeat match goal with |- context [ycost ?s1 (YF (FBody ?o ?m))] => pose proof (B o m); generalize dependent (ycost s1 (YF (FBody o m))); intros end;
    try (simpl ycost); try lia.
Qed.

(** ** A task that waits for a result not yet set is about to be entered, or is entered, in the list of its event *)
Definition wR t g := match g with YStore q _ | YCheck q _ | YPush q _ => ni t q | _ => 0 end.
Definition cnt (u : state) (t c : nat) : Z := zsum (ce (EPre t)) (fol u (ERSet c)).
Definition entered (y : ystate) : Prop :=
  forall t c is, In (t, IGet c :: is) (ycont y) -> ctr (yst y) (ERSet c) <> 0 -> 1 <= sum wR t y + cnt (yst y) t c.

Lemma wr_yf t fr : zsum (wR t) (map YF fr) = 0.
Proof. induction fr as [|f fr IH]; simpl; lia. Qed.
Lemma wr_nonneg t g : 0 <= wR t g.
Proof. destruct g; simpl; unfold ni; repeat match goal with |- context [zb ?b] => pose proof (zb_bound b); generalize dependent (zb b); intros end; lia. Qed.
Lemma wr_wp t l : zsum (wR t) l <= zsum (wP t) l.
Proof.
  apply zsum_le. intros g _. destruct g; simpl; try lia; unfold ni;
    repeat match goal with |- context [zb ?b] => pose proof (zb_bound b); generalize dependent (zb b); intros end; lia.
Qed.

Section Pot.
  Context (N : nat) (y y' : ystate) (old fr rest : list yframe).
  Context (Hp : Permutation (yframes y) (old ++ rest)) (Hp' : Permutation (yframes y') (fr ++ rest)).
  Context (MO : forall c, ctr (yst y') (ERSet c) <> 0 -> ctr (yst y) (ERSet c) <> 0).

  Lemma entered_same : entered y -> ycont y' = ycont y ->
    (forall t c is, In (t, IGet c :: is) (ycont y) -> ctr (yst y') (ERSet c) <> 0 ->
       zsum (wR t) old + cnt (yst y) t c <= zsum (wR t) fr + cnt (yst y') t c) -> entered y'.
  Proof.
    intros U EC H t c is Hi X. rewrite EC in Hi. specialize (H t c is Hi X). specialize (U t c is Hi (MO c X)).
    rewrite (sum_split wR t y old rest Hp) in U. rewrite (sum_split wR t y' fr rest Hp'). lia.
  Qed.

  Lemma pot_step : pot N y' <= pot N y - zsum (ycost (yst y)) old + zsum (ycost (yst y')) fr
      + 6 * (held (yst y') N - held (yst y) N) + 3 * (calls (away y') (rdy (yst y')) - calls (away y) (rdy (yst y))).
  Proof.
    unfold pot. rewrite (zsum_perm (ycost (yst y)) _ _ Hp), (zsum_perm (ycost (yst y')) _ _ Hp'), !zsum_app.
    assert (zsum (ycost (yst y')) rest <= zsum (ycost (yst y)) rest) by (apply zsum_le; intros g _; now apply cost_mono). lia.
  Qed.
End Pot.

Section Bound.
  Context (P : prog) (ms : list (list instr)) (W : wf_any P ms) (NW : p_wrap P = false).
  Context (ND : forall t, NoDup (uniq P t)) (N : nat) (BD : bounded P N).

  Section Step.
    Context (a : bool) (y : ystate) (n k : nat) (s : state) (ord : nat -> list nat).
    Context (R : freach P ms n k s ord) (C : corr y s) (T : tokens a y) (U : entered y).

    Lemma open_untaken c : ctr (yst y) (ERSet c) <> 0 -> taken (yst y) (ERSet c) = 0.
    Proof.
      intros Z. assert (I := mreach_Inv P (wff P ms W ord) NW n s (freach_mreach P ms W NW n ND k s ord R)).
      rewrite <- (sm_ctr _ _ _ (co_sim y s C) (ERSet c) Logic.I) in Z. unfold taken. rewrite <- (sm_log _ _ _ (co_sim y s C)).
      pose proof (f_take P s I (ERSet c)). destruct (i_reach P s I (ERSet c)) as [[Z1 Z2]|[Z1 Z2]]; [easy|lia].
    Qed.

    Lemma same_get t c d is is' : In (t, IGet c :: is) (ycont y) -> In (t, IGet d :: is') (ycont y) -> c = d.
    Proof. intros A B. assert (E := nodup_fst _ _ _ _ (tk_nodup T) A B). congruence. Qed.

    Lemma pot_step_ok i c y' : (forall c, ctr (yst y') (ERSet c) <> 0 -> ctr (yst y) (ERSet c) <> 0) ->
      ystep P y i c = Some y' -> entered y' /\ pot N y' <= pot N y + (if visible y i c then 17 else -1).
    Proof.
      intros MO H. assert (R0 := freach_mreach P ms W NW n ND k s ord R). assert (I := mreach_Inv P (wff P ms W ord) NW n s R0).
      assert (LOG : log s = log (yst y)) by exact (sm_log _ _ _ (co_sim y s C)).
      unfold ystep in H. unfold visible. destruct (nth_error (ythr y) i) as [[|g gs]|] eqn:E; [| |discriminate].
      - destruct (yistep y c) as [[y1 fr]|] eqn:F; [|discriminate]. injection H as <-.
        assert (Hp' : forall u q, Permutation (yframes (mkY u q (set_nth i fr (ythr y)))) (fr ++ yframes y)) by (intros; exact (yid_perm y i fr E)).
        assert (Hp : Permutation (yframes y) ([] ++ yframes y)) by reflexivity.
        destruct c as [m|m|m].
        + cbn [yistep] in F. destruct (nth_error (rdy (yst y)) m) as [t|] eqn:Em; [|discriminate]. injection F as <- <-.
          cbn [yst ycont ycore] in *. set (y' := mkY _ _ _) in *. split.
          * apply (entered_same y y' _ _ _ Hp (Hp' _ _) MO U eq_refl). intros q d is _ _. cbn [zsum]. unfold cnt. simpl. destruct (away y t); simpl; lia.
          * assert (B := pot_step N y y' _ _ _ Hp (Hp' _ _) MO). cbn [zsum] in B.
            assert (H1 : held (yst y') N = held (yst y) N) by (apply held_same; reflexivity).
            assert (H2 : calls (away y) (rdy (yst y)) = zb (away y t) + calls (away y') (rdy (yst y'))).
            { change (away y') with (away y). unfold calls, y'. cbn [yst rdy set_rdy]. rewrite (zsum_remove_nth (fun q => zb (away y q)) _ _ _ Em). lia. }
            destruct (away y t); cbn [zsum ycost negb zb] in *; lia.
        + cbn [yistep] in F. destruct (istep (yst y) (PNew m)) as [[u1 fr0]|] eqn:F0; [|discriminate]. injection F as <- <-.
          cbn [istep] in F0. destruct (nth_error (emp (yst y)) m) as [t|] eqn:Em; [|discriminate]. injection F0 as <- <-.
          cbn [yst ycont ycore] in *. set (y' := mkY _ _ _) in *. split.
          * apply (entered_same y y' _ _ _ Hp (Hp' _ _) MO U eq_refl). intros q d is _ _. rewrite wr_yf. cbn [zsum]. unfold cnt. simpl. lia.
          * assert (B := pot_step N y y' _ _ _ Hp (Hp' _ _) MO). cbn [zsum map ycost] in B.
            assert (H1 : held (yst y') N = held (yst y) N) by (apply held_same; reflexivity).
            change (calls (away y') (rdy (yst y'))) with (calls (away y) (rdy (yst y))) in B. lia.
        + cbn [yistep] in F. destruct (istep (yst y) (PExt m)) as [[u1 fr0]|] eqn:F0; [|discriminate]. injection F as <- <-.
          cbn [istep] in F0. destruct (nth_error (ext (yst y)) m) as [[t e]|] eqn:Em; [|discriminate]. injection F0 as <- <-.
          cbn [yst ycont ycore] in *. set (y' := mkY _ _ _) in *. split.
          * apply (entered_same y y' _ _ _ Hp (Hp' _ _) MO U eq_refl). intros q d is _ _. rewrite wr_yf. cbn [zsum]. unfold cnt. simpl. lia.
          * assert (B := pot_step N y y' _ _ _ Hp (Hp' _ _) MO). cbn [zsum map ycost] in B.
            assert (H1 : held (yst y') N = held (yst y) N) by (apply held_same; reflexivity).
            change (calls (away y') (rdy (yst y'))) with (calls (away y) (rdy (yst y))) in B. lia.
      - destruct (yfstep P y g) as [[y1 fr]|] eqn:F; [|discriminate]. injection H as <-.
        assert (Hg := top_in y i g gs E).
        destruct (yfr_perm y i g gs fr E) as (rest & Hp & Hp0).
        assert (Hp' : forall u q, Permutation (yframes (mkY u q (set_nth i (fr ++ gs) (ythr y)))) (fr ++ rest)) by (intros; exact Hp0).
        destruct g as [f|t d|t d|t d|t d|t d p|t|t st|t|t|t].
        + apply yf_cases in F as [(t & d & is & -> & X & -> & -> & VI)|[(d & t & l & -> & -> & -> & VI)|(u1 & fr0 & F & -> & -> & VI & NV)]]; rewrite VI; clear VI.
          * (* suspended *)
            cbn [yst ycont] in *. set (y' := mkY _ _ _) in *.
            assert (Hs := seen_frame y s _ C Hg). simpl seen in Hs. assert (B := body_pos s t _ Hs).
            destruct (resting P (wff P ms W ord) NW n s t R0 B) as (R1 & R2 & _).
            assert (A : away y t = false).
            { destruct (away y t) eqn:A; auto. exfalso. apply away_in in A as [js Hj]. destruct (body_facts P s I t B) as (B1 & _).
              rewrite (zsum_perm _ _ _ (co_frames y s C)), zsum_app in B1.
              assert (is_body (Some t) (FBody (Some t) (IGet d :: is)) <= zsum (is_body (Some t)) (erase (yframes y))).
              { apply (zsum_ge (is_body (Some t))); [intros x _; exact (w_nn4 (Some t) x)|]. apply in_flat_map. exists (YF (FBody (Some t) (IGet d :: is))). simpl. auto. }
              assert (is_body (Some t) (FBody (Some t) js) <= zsum (is_body (Some t)) (map (fun p => FBody (Some (fst p)) (snd p)) (ycont y))).
              { apply (zsum_ge (is_body (Some t))); [intros x _; exact (w_nn4 (Some t) x)|]. apply in_map_iff. exists (t, js). auto. }
              simpl in *. rewrite Nat.eqb_refl in *. simpl in *. lia. }
            assert (X2 : ~ In t (rdy (yst y))).
            { intros Hq. rewrite (sm_rdy _ _ _ (co_sim y s C)) in R2. eapply not_rdy; [exact R2|]. apply filter_In. rewrite A. auto. }
            split.
            -- intros q c0 js Hi Xc. rewrite (sum_split wR q y' _ _ (Hp' _ _)). cbn [zsum wR]. simpl in Hi. destruct Hi as [Hi|Hi].
               ++ injection Hi as <- <- <-. rewrite ni_same. assert (0 <= zsum (wR t) rest) by (apply zsum_nonneg; intros; apply wr_nonneg).
                  assert (0 <= cnt (yst y) t d) by apply ce_nonneg. change (cnt (yst y') t d) with (cnt (yst y) t d). lia.
               ++ specialize (U q c0 js Hi Xc). rewrite (sum_split wR q y _ _ Hp) in U. cbn [zsum wR] in U.
                  change (cnt (yst y') q c0) with (cnt (yst y) q c0). pose proof (wr_nonneg q (YStore t d)). simpl in *. lia.
            -- assert (BB := pot_step N y y' _ _ _ Hp (Hp' _ _) MO). cbn [zsum ycost] in BB.
               destruct (Z.eqb_spec (ctr (yst y) (ERSet d)) 0); [easy|].
               assert (H1 : held (yst y') N = held (yst y) N) by (apply held_same; reflexivity).
               assert (H2 : calls (away y') (rdy (yst y')) = calls (away y) (rdy (yst y))).
               { change (rdy (yst y')) with (rdy (yst y)). apply calls_same. intros q Hq. unfold y', away. simpl. destruct (Nat.eqb_spec t q) as [->|]; easy. }
               lia.
          * (* a waiting task is notified *)
            cbn [yst ycont] in *. set (y' := mkY _ _ _) in *. split.
            -- apply (entered_same y y' _ _ _ Hp (Hp' _ _) MO U eq_refl). intros q c0 is _ _. cbn [zsum wR]. change (cnt (yst y') q c0) with (cnt (yst y) q c0). lia.
            -- assert (B := pot_step N y y' _ _ _ Hp (Hp' _ _) MO). cbn [zsum ycost length] in B.
               change (held (yst y') N) with (held (yst y) N) in B. change (calls (away y') (rdy (yst y'))) with (calls (away y) (rdy (yst y))) in B. lia.
          * cbn [yst ycont ycore] in *. set (y' := mkY _ _ _) in *.
            assert (NF : forall d x l, f <> FFollow (ERSet d) (x :: l)).
            { intros d x l ->. destruct (tk_follow T d (x :: l) Hg x) as [t ->]; [simpl; auto|]. exact (NV d t l eq_refl). }
            assert (Q := base_quiet P ms W NW ND y n k s ord R C f Hg NF).
            assert (FE := feffect P (away y) (yst y) f u1 fr0 Q F). destruct FE as [_ FE].
            split.
            -- apply (entered_same y y' _ _ _ Hp (Hp' _ _) MO U eq_refl). intros q c0 is _ _. rewrite wr_yf. cbn [zsum wR]. unfold cnt. simpl. rewrite FE. lia.
            -- assert (B := pot_step N y y' _ _ _ Hp (Hp' _ _) MO). cbn [zsum] in B.
               assert (H2 : calls (away y') (rdy (yst y')) = calls (away y) (rdy (yst y))) by exact (fcalls P _ _ _ _ _ Q F).
               pose proof (cost_nonneg (yst y) (YF f)) as CN.
               assert (DT : taking f \/ ~ taking f).
               { destruct f; try (right; intros (? & ? & ?); discriminate). destruct e; try (right; intros (? & ? & ?); discriminate).
                 destruct (Z.eq_dec st 0) as [->|m]; [left; red; eauto|right; intros (? & ? & X); congruence]. }
               destruct DT as [(d & kk & ->)|NT].
               ++ assert (Hs := seen_frame y s _ C Hg). destruct (taking_facts P s I (ERSet d) _ Hs) as [T0 T1].
                  { simpl. rewrite Nat.eqb_refl. reflexivity. }
                  assert (T2 : taken (yst y) (ERSet d) = 0) by (unfold taken in *; now rewrite <- LOG).
                  assert (LD : (d < N)%nat).
                  { assert (Z0 : ctr s (ERSet d) = 0) by (destruct (i_reach P s I (ERSet d)) as [[Z1 Z2]|[Z1 Z2]]; lia).
                    destruct (rset_end P s d I Z0) as [En _]. apply in_end in En. pose proof (f_end P s I d).
                    apply (sp_lt P (wff P ms W ord) N BD s d I). apply (start_sp P s d I). lia. }
                  cbn [fstep] in F. injection F as <- <-. cbn [map zsum ycost] in B.
                  assert (H1 : held (yst y') N = held (yst y) N - Z.of_nat (length (fol (yst y) (ERSet d)))) by exact (held_take (yst y) N d LD T2). lia.
               ++ destruct (fnormal P _ _ _ _ _ Q NT F) as (FT & _ & _).
                  assert (H1 : held (yst y') N = held (yst y) N) by (apply held_same; [exact FT|exact FE]).
                  assert (FC := fcost P _ _ _ _ _ Q NT F). change (yst y') with u1 in *. lia.
        + cbn [yfstep] in F. injection F as <- <-. cbn [yst ycont ycore] in *. set (y' := mkY _ _ _) in *. split.
          * apply (entered_same y y' _ _ _ Hp (Hp' _ _) MO U eq_refl). intros q c0 is _ _. cbn [zsum wR]. change (cnt (yst y') q c0) with (cnt (yst y) q c0). lia.
          * assert (B := pot_step N y y' _ _ _ Hp (Hp' _ _) MO). cbn [zsum ycost] in B.
            change (held (yst y') N) with (held (yst y) N) in B. change (calls (away y') (rdy (yst y'))) with (calls (away y) (rdy (yst y))) in B. lia.
        + cbn [yfstep] in F. injection F as <- <-. cbn [yst ycont ycore] in *. set (y' := mkY _ _ _) in *. split.
          * apply (entered_same y y' _ _ _ Hp (Hp' _ _) MO U eq_refl). intros q c0 is Hi Xc. change (cnt (yst y') q c0) with (cnt (yst y) q c0). cbn [zsum].
            change (ctr (yst y') (ERSet c0)) with (ctr (yst y) (ERSet c0)) in Xc. destruct (Z.eqb_spec (ctr (yst y) (ERSet d)) 0) as [e|e]; cbn [wR]; [|lia].
            destruct (Nat.eq_dec t q) as [->|m]; [|unfold ni; destruct (Nat.eqb_spec t q); [easy|simpl; lia]].
            destruct (tk_on T _ q d Hg eq_refl) as [is' Hi']. rewrite (same_get q c0 d is is' Hi Hi') in Xc. easy.
          * assert (B := pot_step N y y' _ _ _ Hp (Hp' _ _) MO). cbn [zsum ycost] in B.
            change (held (yst y') N) with (held (yst y) N) in B. change (calls (away y') (rdy (yst y'))) with (calls (away y) (rdy (yst y))) in B.
            destruct (ctr (yst y) (ERSet d) =? 0); cbn [ycost] in B; lia.
        + cbn [yfstep] in F. injection F as <- <-. cbn [yst ycont ycore] in *. set (y' := mkY _ _ _) in *. split.
          * apply (entered_same y y' _ _ _ Hp (Hp' _ _) MO U eq_refl). intros q c0 is Hi Xc. cbn [zsum wR]. unfold cnt. cbn [yst y' fol set_fol].
            destruct (Nat.eq_dec c0 d) as [->|m].
            -- rewrite eupd_eq. cbn [zsum ce]. change (ce (EPre q) (EPre t)) with (ni q t). lia.
            -- rewrite eupd_ne by congruence. destruct (Nat.eq_dec t q) as [->|m']; [|unfold ni; destruct (Nat.eqb_spec t q); [easy|simpl; lia]].
               destruct (tk_on T _ q d Hg eq_refl) as [is' Hi']. destruct (m (same_get q c0 d is is' Hi Hi')).
          * assert (B := pot_step N y y' _ _ _ Hp (Hp' _ _) MO). cbn [zsum ycost] in B.
            assert (H1 := held_push (yst y) N d (EPre t)). change (set_fol (yst y) (eupd (fol (yst y)) (ERSet d) (EPre t :: fol (yst y) (ERSet d)))) with (yst y') in H1.
            change (calls (away y') (rdy (yst y'))) with (calls (away y) (rdy (yst y))) in B. lia.
        + cbn [yfstep] in F. injection F as <- <-. cbn [yst ycont ycore] in *. set (y' := mkY _ _ _) in *. split.
          * apply (entered_same y y' _ _ _ Hp (Hp' _ _) MO U eq_refl). intros q c0 is _ _. cbn [zsum wR]. change (cnt (yst y') q c0) with (cnt (yst y) q c0). lia.
          * assert (B := pot_step N y y' _ _ _ Hp (Hp' _ _) MO). cbn [zsum ycost] in B.
            change (held (yst y') N) with (held (yst y) N) in B. change (calls (away y') (rdy (yst y'))) with (calls (away y) (rdy (yst y))) in B. lia.
        + cbn [yfstep] in F. injection F as <- <-. cbn [yst ycont ycore] in *. set (y' := mkY _ _ _) in *. split.
          * apply (entered_same y y' _ _ _ Hp (Hp' _ _) MO U eq_refl). intros q c0 is _ _. cbn [zsum wR]. change (cnt (yst y') q c0) with (cnt (yst y) q c0). lia.
          * assert (B := pot_step N y y' _ _ _ Hp (Hp' _ _) MO). cbn [zsum ycost] in B.
            change (held (yst y') N) with (held (yst y) N) in B. change (calls (away y') (rdy (yst y'))) with (calls (away y) (rdy (yst y))) in B. lia.
        + cbn [yfstep] in F. injection F as <- <-. cbn [yst ycont ycore] in *. set (y' := mkY _ _ _) in *. split.
          * apply (entered_same y y' _ _ _ Hp (Hp' _ _) MO U eq_refl). intros q c0 is _ _. cbn [zsum wR]. change (cnt (yst y') q c0) with (cnt (yst y) q c0). lia.
          * assert (B := pot_step N y y' _ _ _ Hp (Hp' _ _) MO). cbn [zsum ycost] in B.
            change (held (yst y') N) with (held (yst y) N) in B. change (calls (away y') (rdy (yst y'))) with (calls (away y) (rdy (yst y))) in B.
            destruct (wrap P (ctr (yst y) (EPre t) - 1) =? 1); lia.
        + cbn [yfstep] in F. injection F as <- <-. cbn [yst ycont ycore] in *. set (y' := mkY _ _ _) in *.
          assert (FL : forall c0, fol (yst y') (ERSet c0) = fol (yst y) (ERSet c0)) by (intros; unfold y'; simpl; now destruct (st =? 1)).
          assert (TL : forall c0, taken (yst y') (ERSet c0) = taken (yst y) (ERSet c0)) by (intros; unfold y', taken; simpl; now destruct (st =? 1)).
          split.
          * apply (entered_same y y' _ _ _ Hp (Hp' _ _) MO U eq_refl). intros q c0 is _ _. cbn [zsum wR]. unfold cnt. rewrite FL. lia.
          * assert (B := pot_step N y y' _ _ _ Hp (Hp' _ _) MO). cbn [zsum ycost] in B. rewrite (held_same _ _ N TL FL) in B.
            change (away y') with (away y) in B.
            assert (RD : rdy (yst y') = if st =? 1 then t :: rdy (yst y) else rdy (yst y)) by (unfold y'; cbn [yst]; now destruct (st =? 1)).
            rewrite RD in B. destruct (st =? 1); unfold calls in B; cbn [zsum] in B; [pose proof (zb_bound (away y t))|]; lia.
        + cbn [yfstep] in F. injection F as <- <-. cbn [yst ycont ycore] in *. set (y' := mkY _ _ _) in *. split.
          * apply (entered_same y y' _ _ _ Hp (Hp' _ _) MO U eq_refl). intros q c0 is _ _. cbn [zsum wR]. change (cnt (yst y') q c0) with (cnt (yst y) q c0). lia.
          * assert (B := pot_step N y y' _ _ _ Hp (Hp' _ _) MO). cbn [zsum ycost] in B.
            change (held (yst y') N) with (held (yst y) N) in B. change (calls (away y') (rdy (yst y'))) with (calls (away y) (rdy (yst y))) in B. lia.
        + (* goes on *)
          assert (gs = []) as -> by exact (top_alone a y T i _ gs E eq_refl).
          destruct (who_away a y T (YBack t) t wK Hg) as (c0 & is0 & Hi); [auto|simpl; rewrite ni_same; lia|].
          cbn [yfstep] in F. destruct (grab_in t (ycont y) _ Hi) as (is & l & G). rewrite G in F. injection F as <- <-. cbn [yst ycont app] in *.
          assert (GP := grab_spec _ _ _ _ G).
          assert (Hi2 : In (t, is) (ycont y)) by (apply (Permutation_in _ (Permutation_sym GP)); simpl; auto).
          assert (is = IGet c0 :: is0) as -> by exact (nodup_fst _ _ _ _ (tk_nodup T) Hi2 Hi).
          destruct (tok_back a y T i t _ l E G) as (X1 & X2 & T'). set (y' := mkY _ _ _) in *.
          assert (Hq : Permutation (yframes y) ([YBack t] ++ rest)) by exact Hp.
          assert (Hq' : Permutation (yframes y') ([YF (FBody (Some t) (IGet c0 :: is0))] ++ rest)) by exact (Hp' _ _).
          assert (AW : forall q, q <> t -> away y' q = away y q).
          { intros q m. apply eq_true_iff_eq. rewrite !away_in. split; intros [js Hj]; exists js.
            - apply (Permutation_in _ (Permutation_sym GP)). simpl. auto.
            - apply (Permutation_in _ GP) in Hj as [Hj|Hj]; auto. congruence. }
          assert (K1 : 1 <= sum wK t y).
          { pose proof (sum_in wK t y (YBack t) (fun g => ltac:(pose proof (wts t g); tauto)) Hg) as K1. simpl in K1. rewrite ni_same in K1. exact K1. }
          assert (Z0 : ctr (yst y) (ERSet c0) = 0).
          { destruct (Z.eq_dec (ctr (yst y) (ERSet c0)) 0) as [|m]; auto. exfalso.
            assert (U1 := U t c0 is0 Hi m). assert (TU := open_untaken c0 m). destruct (tk_susp T t c0 is0 Hi) as (kk & K0 & _ & _ & K2 & K3 & K4).
            unfold pd in K4. rewrite TU in K4. simpl in K4. change (zsum (ce (EPre t)) (fol (yst y) (ERSet c0))) with (cnt (yst y) t c0) in K4.
            pose proof (sums t y). pose proof (rdy_nonneg t (rdy (yst y))). assert (sum wR t y <= sum wP t y) by apply wr_wp. assert (0 <= cnt (yst y) t c0) by apply ce_nonneg.
            assert (sum wP t y = 0) by lia. lia. }
          split.
          * intros q c1 js Hj Xc. assert (Hj' : In (q, IGet c1 :: js) (ycont y)) by (apply (Permutation_in _ (Permutation_sym GP)); simpl; auto).
            specialize (U q c1 js Hj' Xc). rewrite (sum_split wR q y' _ _ Hq'). rewrite (sum_split wR q y _ _ Hq) in U. cbn [zsum wR] in *. exact U.
          * assert (B := pot_step N y y' _ _ _ Hq Hq' MO). cbn [zsum] in B.
            assert (H0 : ycost (yst y') (YF (FBody (Some t) (IGet c0 :: is0))) = 0) by (simpl; now rewrite Z0).
            change (held (yst y') N) with (held (yst y) N) in B. cbn [ycost] in H0, B.
            assert (H2 : calls (away y') (rdy (yst y')) = calls (away y) (rdy (yst y))).
            { change (rdy (yst y')) with (rdy (yst y)). apply calls_same. intros q Hin. apply AW. intros ->. destruct (not_rdy _ _ X2 Hin). }
            lia.
        + discriminate F.
    Qed.
  End Step.

  Lemma bound_step n a k y ord : yreach P ms n a k y ord ->
    exists k', refines P ms a k' y ord /\ entered y /\ Z.of_nat k + pot N y <= 18 * Z.of_nat k'.
  Proof.
    induction 1 as [|k y ord i c y' R IH EO VO TO H].
    - exists 0%nat. split; [apply ref_init|]. split; [intros t c is Hi; destruct Hi|].
      assert (pot N (yinit P ms n) = 0); [|lia]. unfold pot. 
      assert (zsum (ycost (yst (yinit P ms n))) (yframes (yinit P ms n)) = 0) as ->.
      { apply zsum_zero. intros g Hg. unfold yframes, yinit in Hg. simpl in Hg. apply in_concat in Hg as (st & Hs & Hg). apply in_app_or in Hs as [Hs|Hs].
        - apply in_map_iff in Hs as (m & <- & _). destruct Hg as [<-|[]]. reflexivity.
        - apply repeat_spec in Hs. now subst. }
      assert (held (yst (yinit P ms n)) N = 0) as ->; [|reflexivity]. apply zsum_zero. intros c _. reflexivity.
    - destruct IH as (k' & (n' & s & ord' & R' & EQ & C & T) & U & B).
      destruct (ref_step P ms W NW ND a y n' k' s ord' R' C T i c y' EO VO TO H) as (n2 & s2 & ord2 & R2 & EQ2 & C2 & T2).
      assert (MO : forall c, ctr (yst y') (ERSet c) <> 0 -> ctr (yst y) (ERSet c) <> 0).
      { intros d X Z. apply X. clear X. assert (I := mreach_Inv P (wff P ms W ord') NW n' s (freach_mreach P ms W NW n' ND k' s ord' R')).
        assert (I2 := mreach_Inv P (wff P ms W ord2) NW n2 s2 (freach_mreach P ms W NW n2 ND _ s2 ord2 R2)).
        destruct (ystep_log P y i c y' H) as [l L].
        rewrite <- (sm_ctr _ _ _ (co_sim y s C) (ERSet d) Logic.I) in Z. rewrite <- (sm_ctr _ _ _ (co_sim y' s2 C2) (ERSet d) Logic.I).
        assert (1 <= zsum (v_reach (ERSet d)) (log s2)).
        { rewrite (sm_log _ _ _ (co_sim y' s2 C2)), L, <- (sm_log _ _ _ (co_sim y s C)), zsum_app.
          assert (0 <= zsum (v_reach (ERSet d)) l) by (apply zsum_nonneg; intros [] _; simpl; try lia; unfold ce; destruct (ev_eqb _ _); simpl; lia).
          destruct (i_reach P s I (ERSet d)) as [[Z1 Z2]|[Z1 Z2]]; lia. }
        destruct (i_reach P s2 I2 (ERSet d)) as [[Z1 Z2]|[Z1 Z2]]; lia. }
      destruct (pot_step_ok a y n' k' s ord' R' C T U i c y' MO H) as [U' B'].
      exists (if visible y i c then S k' else k'). split.
      + exists n2, s2, ord2. split; [exact R2|]. split; [intros r; now rewrite EQ2, EQ|]. auto.
      + split; [exact U'|]. destruct (visible y i c); lia.
  Qed.

  Lemma measure_idle n : measure P N (init_many P ms n) = measure P N (init_many P ms 0).
  Proof.
    unfold measure. assert (frames (init_many P ms n) = frames (init_many P ms 0)) as ->; [|reflexivity].
    unfold frames, init_many. cbn [thr set_thr]. rewrite !concat_app. f_equal. simpl. clear. induction n; simpl; auto.
  Qed.

  Theorem pause_bounded n a k y ord : yreach P ms n a k y ord -> Z.of_nat k <= 18 * measure P N (init_many P ms 0).
  Proof.
    intros R. destruct (bound_step n a k y ord R) as (k' & (n' & s & ord' & R' & _) & _ & B).
    pose proof (free_bounded P ms W NW n' ND N k' s ord' BD R'). rewrite measure_idle in *. pose proof (pot_nonneg N y). lia.
  Qed.
End Bound.
