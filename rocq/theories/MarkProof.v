(** The marks of the workers: proofs. *)
From Coq Require Import Bool List Arith NArith ZArith Lia Permutation.
From Verif Require Import AccessModel AccessSpec UserModel SchedModel SchedSpec SchedBase SchedInv1 PoolModel PoolProof MarkModel.
Import ListNotations.
Open Scope nat_scope.

(** ** The groups contain every worker once *)
Lemma word_all n : forall k, concat (map (word n) (seq 0 k)) = seq 0 (Nat.min n (64 * k)).
Proof.
  induction k as [|k IH]; [now rewrite Nat.mul_0_r, Nat.min_0_r|].
  rewrite seq_S, map_app, concat_app, IH. simpl concat. rewrite app_nil_r. unfold word. simpl plus.
  replace (Nat.min n (64 * S k)) with (Nat.min n (64 * k) + Nat.min 64 (n - 64 * k)) by lia.
  rewrite seq_app. f_equal. destruct (Nat.le_gt_cases n (64 * k)).
  - replace (Nat.min 64 (n - 64 * k)) with 0 by lia. reflexivity.
  - simpl plus. f_equal. lia.
Qed.

Lemma rotated k c : c < k -> Permutation (c :: map (fun b => (c + b) mod k) (seq 1 (k - 1))) (seq 0 k).
Proof.
  intros H. transitivity (map (fun b => (c + b) mod k) (seq 0 k)).
  - assert (Q : seq 0 k = 0 :: seq 1 (k - 1)) by (destruct k; [lia|]; simpl; do 2 f_equal; lia).
    rewrite Q, map_cons, Nat.add_0_r, Nat.mod_small by lia. reflexivity.
  - replace (seq 0 k) with (seq 0 (k - c) ++ seq (k - c) c) at 1 by (rewrite <- seq_app; f_equal; lia).
    rewrite map_app.
    assert (A : map (fun b => (c + b) mod k) (seq 0 (k - c)) = seq c (k - c)).
    {
      apply nth_ext with 0 0; rewrite ?map_length, ?seq_length; auto.
      intros i Hi. rewrite (nth_indep _ 0 ((c + 0) mod k)) by (rewrite map_length, seq_length; auto).
      rewrite (map_nth (fun b => (c + b) mod k)), !seq_nth by lia. rewrite Nat.mod_small by lia. lia. }
    assert (B : map (fun b => (c + b) mod k) (seq (k - c) c) = seq 0 c).
    { apply nth_ext with 0 0; rewrite ?map_length, ?seq_length; auto.
      intros i Hi. rewrite (nth_indep _ 0 ((c + 0) mod k)) by (rewrite map_length, seq_length; auto).
      rewrite (map_nth (fun b => (c + b) mod k)), !seq_nth by lia.
      replace (c + (k - c + i)) with (i + 1 * k) by lia. rewrite Nat.mod_add, Nat.mod_small by lia. lia. }
    rewrite A, B. rewrite Permutation_app_comm, <- seq_app. replace (c + (k - c)) with k by lia. reflexivity.
Qed.

Lemma groups_all n s : s < n -> Permutation (concat (groups n s)) (seq 1 n).
Proof.
  intros H. unfold groups.
  assert (C : forall l : list (list nat), concat (map (map S) l) = map S (concat l)) by (intros l; symmetry; apply concat_map).
  rewrite C. rewrite <- (seq_shift n 0). apply Permutation_map.
  set (c := s / 64). assert (E := Nat.div_mod s 64 ltac:(lia)). fold c in E. assert (M := Nat.mod_upper_bound s 64 ltac:(lia)).
  assert (K := Nat.div_mod (n + 63) 64 ltac:(lia)). fold (words n) in K. assert (M' := Nat.mod_upper_bound (n + 63) 64 ltac:(lia)).
  cbn [concat]. rewrite app_assoc.
  assert (W : seq (64 * c) (s - 64 * c) ++ seq s (Nat.min (64 * c + 64) n - s) = word n c).
  { unfold word. replace (Nat.min 64 (n - 64 * c)) with ((s - 64 * c) + (Nat.min (64 * c + 64) n - s)) by lia.
    rewrite seq_app. do 2 f_equal. lia. }
  rewrite W. rewrite <- (map_map (fun b => (c + b) mod words n) (word n)).
  change (word n c ++ concat (map (word n) ?l)) with (concat (map (word n) (c :: l))).
  transitivity (concat (map (word n) (seq 0 (words n)))).
  - rewrite <- !flat_map_concat_map. apply Permutation_flat_map, rotated. lia.
  - rewrite word_all. rewrite Nat.min_l by lia. reflexivity.
Qed.

Lemma start_lt n i : 1 <= n -> start_of n i < n.
Proof. intros H. unfold start_of. destruct (is_worker n i) eqn:W; [|lia]. apply is_worker_In, in_seq in W. lia. Qed.

(** ** What a step of the pool changes *)
Section View.
  Context (P : prog) (n m : nat).
  Record view := mkView { vst : list frame; vwp : wpc; vdue : list nat }.
  Definition sees (c : pool) (i : nat) (v : view) : Prop :=
    nth_error (thr (core c)) i = Some (vst v) /\ wp c i = vwp v /\ due c i = vdue v.

  Inductive pcase (c : pool) : move -> view -> view -> Prop :=
  | pc_step i w f fs p s' fr : is_worker n w = true -> fstep P (core c) f = Some (s', fr) ->
      pcase c (MStep i w) (mkView (f :: fs) p []) (mkView (fr ++ fs) (goes_on fr p) (wakes n (core c) f s' w))
  | pc_wake i st p w l : pcase c (MWake i) (mkView st p (w :: l)) (mkView st p l)
  | pc_awake w k : is_worker n w = true -> pcase c (MTake w k) (mkView [] WWait []) (mkView [] WReady [])
  | pc_ready w k t : is_worker n w = true -> pcase c (MTake w k) (mkView [] WReady []) (mkView [FExec t] WReady [])
  | pc_new w k t : is_worker n w = true -> pcase c (MTake w k) (mkView [] WNew []) (mkView [FInitUp t] WNew [])
  | pc_miss1 w : is_worker n w = true -> pcase c (MMiss w) (mkView [] WReady []) (mkView [] WNew [])
  | pc_miss2 w : is_worker n w = true -> pcase c (MMiss w) (mkView [] WNew []) (mkView [] (WStealReady n) [])
  | pc_miss3 w k : is_worker n w = true -> pcase c (MMiss w) (mkView [] (WStealReady (S k)) []) (mkView [] (WStealReady k) [])
  | pc_miss4 w : is_worker n w = true -> pcase c (MMiss w) (mkView [] (WStealReady 0) []) (mkView [] (WStealNew n) [])
  | pc_miss5 w k : is_worker n w = true -> pcase c (MMiss w) (mkView [] (WStealNew (S k)) []) (mkView [] (WStealNew k) [])
  | pc_miss6 w : is_worker n w = true -> pcase c (MMiss w) (mkView [] (WStealNew 0) []) (mkView [] WWait [])
  | pc_steal1 w v k j t : is_worker n w = true -> is_worker n v = true ->
      pcase c (MSteal w v k) (mkView [] (WStealReady (S j)) []) (mkView [FExec t] WReady [])
  | pc_steal2 w v k j t : is_worker n w = true -> is_worker n v = true ->
      pcase c (MSteal w v k) (mkView [] (WStealNew (S j)) []) (mkView [FInitUp t] WWait [])
  | pc_fire i k p st : is_worker n i = false -> (exists e, st = [FNotify e NCall]) -> pcase c (MFire i k) (mkView [] p []) (mkView st p []).

  Lemma nth_thr i (st : list (list frame)) : forall x y, nth_error st i = Some x -> nth_error (set_nth i y st) i = Some y.
  Proof. intros x y H. revert i H. induction st as [|a st IH]; intros [|i] H; simpl in *; try discriminate; auto. Qed.
  Lemma nth_thr_ne i j (st : list (list frame)) y : i <> j -> nth_error (set_nth i y st) j = nth_error st j.
  Proof. revert i j. induction st as [|a st IH]; intros [|i] [|j] H; simpl; auto; congruence. Qed.

  Lemma pstep_view c mv c' : pinv n m c -> pstep P n m c mv = Some c' ->
    exists v v', sees c (actor mv) v /\ sees c' (actor mv) v' /\ pcase c mv v v' /\
    (forall j, j <> actor mv -> nth_error (thr (core c')) j = nth_error (thr (core c)) j /\ wp c' j = wp c j /\ due c' j = due c j) /\
    (forall j, flag c' j = match mv with MWake i => if j =? hd 0 (due c i) then true else flag c j
                                       | MTake w _ => match wp c w with WWait => if j =? w then false else flag c j | _ => flag c j end
                                       | _ => flag c j end).
  Proof.
    intros I H. destruct mv as [i w|i|w k|w|w v k|i k]; unfold pstep in H; simpl actor.
    - destruct (due c i) eqn:Di; [|discriminate]. destruct (nth_error (thr (core c)) i) as [[|f fs]|] eqn:Ei; try discriminate.
      destruct (fstep P (core c) f) as [[s' fr]|] eqn:Ef; [|discriminate]. destruct (is_worker n w) eqn:W; [|discriminate]. injection H as <-.
      exists (mkView (f :: fs) (wp c i) []), (mkView (fr ++ fs) (goes_on fr (wp c i)) (wakes n (core c) f s' w)).
      split; [repeat split; auto|]. split; [unfold sees; simpl; rewrite !upd_eq; repeat split; eapply nth_thr; eauto|].
      split; [now constructor|]. split; [|reflexivity]. intros j Hj. simpl. rewrite !upd_ne by auto. rewrite nth_thr_ne by auto. auto.
    - destruct (due c i) as [|w l] eqn:Di; [discriminate|]. injection H as <-.
      assert (Hi : i < length (thr (core c))) by (rewrite (pi_thr n m c I); apply (pi_due n m c I); congruence).
      destruct (nth_error (thr (core c)) i) as [st|] eqn:Ei; [|apply nth_error_None in Ei; lia].
      exists (mkView st (wp c i) (w :: l)), (mkView st (wp c i) l). split; [repeat split; auto|]. split; [unfold sees; simpl; rewrite upd_eq; auto|].
      split; [constructor|]. split; [intros j Hj; simpl; rewrite upd_ne by auto; auto|]. intros j. simpl. unfold upd. reflexivity.
    - destruct (is_worker n w) eqn:W; [|discriminate]. destruct (due c w) eqn:Dw; [|discriminate].
      destruct (nth_error (thr (core c)) w) as [[|]|] eqn:Ew; try discriminate.
      destruct (wp c w) eqn:Pw; try discriminate.
      + destruct (flag c w) eqn:Fw; [|discriminate]. injection H as <-.
        exists (mkView [] WWait []), (mkView [] WReady []). split; [repeat split; auto|]. split; [unfold sees; simpl; rewrite upd_eq; auto|].
        split; [now constructor|]. split; [intros j Hj; simpl; rewrite upd_ne by auto; auto|]. intros j. simpl. unfold upd. reflexivity.
      + destruct (nth_error (rq c w) k) as [t|] eqn:Q; [|discriminate]. injection H as <-.
        exists (mkView [] WReady []), (mkView [FExec t] WReady []). split; [repeat split; auto|].
        split; [unfold sees; simpl; repeat split; auto; eapply nth_thr; eauto|]. split; [now constructor|].
        split; [intros j Hj; simpl; rewrite nth_thr_ne by auto; auto|reflexivity].
      + destruct (nth_error (nq c w) k) as [t|] eqn:Q; [|discriminate]. injection H as <-.
        exists (mkView [] WNew []), (mkView [FInitUp t] WNew []). split; [repeat split; auto|].
        split; [unfold sees; simpl; repeat split; auto; eapply nth_thr; eauto|]. split; [now constructor|].
        split; [intros j Hj; simpl; rewrite nth_thr_ne by auto; auto|reflexivity].
    - destruct (is_worker n w) eqn:W; [|discriminate]. destruct (due c w) eqn:Dw; [|discriminate].
      destruct (nth_error (thr (core c)) w) as [[|]|] eqn:Ew; try discriminate.
      assert (K : exists p p', wp c w = p /\ pcase c (MMiss w) (mkView [] p []) (mkView [] p' []) /\
        c' = mkPool (core c) (rq c) (nq c) (flag c) (upd (wp c) w p') (due c)).
      { destruct (wp c w) as [| | |[|j]|[|j]] eqn:Pw; try discriminate.
        - exists WReady, WNew. split; auto. split; [now constructor|]. destruct (rq c w); [|destruct (announced n m c w); [|discriminate]]; now injection H.
        - exists WNew, (WStealReady n). split; auto. split; [now constructor|]. destruct (nq c w); [|destruct (announced n m c w); [|discriminate]]; now injection H.
        - exists (WStealReady 0), (WStealNew n). split; auto. split; [now constructor|]. now injection H.
        - exists (WStealReady (S j)), (WStealReady j). split; auto. split; [now constructor|]. now injection H.
        - exists (WStealNew 0), WWait. split; auto. split; [now constructor|]. now injection H.
        - exists (WStealNew (S j)), (WStealNew j). split; auto. split; [now constructor|]. now injection H. }
      destruct K as (p & p' & Ep & C & ->). exists (mkView [] p []), (mkView [] p' []). split; [repeat split; auto|].
      split; [unfold sees; simpl; rewrite upd_eq; auto|]. split; [auto|]. split; [intros j Hj; simpl; rewrite upd_ne by auto; auto|reflexivity].
    - destruct (is_worker n w) eqn:W; [|discriminate]. destruct (is_worker n v) eqn:V; [|discriminate]. destruct (due c w) eqn:Dw; [|discriminate].
      destruct (nth_error (thr (core c)) w) as [[|]|] eqn:Ew; try discriminate.
      destruct (wp c w) as [| | |[|j]|[|j]] eqn:Pw; try discriminate.
      + destruct (nth_error (rq c v) k) as [t|] eqn:Q; [|discriminate]. injection H as <-.
        exists (mkView [] (WStealReady (S j)) []), (mkView [FExec t] WReady []). split; [repeat split; auto|].
        split; [unfold sees; simpl; rewrite upd_eq; repeat split; auto; eapply nth_thr; eauto|]. split; [now constructor|].
        split; [intros j' Hj; simpl; rewrite nth_thr_ne, upd_ne by auto; auto|reflexivity].
      + destruct (nth_error (nq c v) k) as [t|] eqn:Q; [|discriminate]. injection H as <-.
        exists (mkView [] (WStealNew (S j)) []), (mkView [FInitUp t] WWait []). split; [repeat split; auto|].
        split; [unfold sees; simpl; rewrite upd_eq; repeat split; auto; eapply nth_thr; eauto|]. split; [now constructor|].
        split; [intros j' Hj; simpl; rewrite nth_thr_ne, upd_ne by auto; auto|reflexivity].
    - destruct (n <? i) eqn:L; [|discriminate]. destruct (due c i) eqn:Di; [|discriminate].
      destruct (nth_error (thr (core c)) i) as [[|]|] eqn:Ei; try discriminate.
      destruct (istep (core c) (PExt k)) as [[s' fr]|] eqn:Es; [|discriminate]. injection H as <-.
      exists (mkView [] (wp c i) []), (mkView fr (wp c i) []). split; [repeat split; auto|].
      split; [unfold sees; simpl; repeat split; auto; eapply nth_thr; eauto|].
      split; [|split; [intros j Hj; simpl; rewrite nth_thr_ne by auto; auto|reflexivity]].
      constructor.
      + unfold is_worker. apply Nat.ltb_lt in L. destruct (i <=? n) eqn:Q; [apply Nat.leb_le in Q; lia|apply andb_false_r].
      + simpl in Es. destruct (nth_error (ext (core c)) k) as [[t e]|]; [|discriminate]. injection Es as <- <-. eauto.
  Qed.
End View.

(** ** Invariant, thread by thread *)
Definition remaining (l : look) : list nat :=
  match l with LLook ps => concat ps | LTry v ps => v :: concat ps | LGot v => [v] | _ => [] end.
Definition actv (st : list frame) : bool :=
  match st with
  | FNotify2 (EPre _) z NInit :: _ => false
  | FNotify2 (EPre _) z _ :: _ => (z =? 1)%Z
  | _ => false
  end.
Definition stlv (n i : nat) (st : list frame) (p : wpc) : option nat :=
  match is_worker n i, st, p with true, [], WStealReady k => Some k | true, [], WStealNew k => Some k | _, _, _ => None end.
(** frames of a worker that initialises a task *)
Definition calm (f : frame) : bool := match f with FExec _ | FRun _ | FBody _ _ | FSub _ _ _ _ => false | _ => true end.

Record good (n i : nat) (v : view) (a : bool) (td : list bool) (sr : look) (bz : option nat) : Prop := {
  gd_todo : td <> [] -> is_worker n i = true;
  gd_busy : forall w, bz = Some w -> vdue v = [w] /\ is_worker n w = true;
  gd_rem : forall u, In u (remaining sr) -> is_worker n u = true;
  gd_none : actv (vst v) = false -> stlv n i (vst v) (vwp v) = None -> sr = LNone;
  gd_tries : forall k, stlv n i (vst v) (vwp v) = Some k ->
    match sr with LNone => n <= k | LGot _ => False | l => length (remaining l) <= k end;
  gd_exec : is_worker n i = true -> vst v <> [] -> vwp v = WReady -> td = [] -> a = false;
  gd_calm : is_worker n i = true -> vwp v <> WReady -> forall f, In f (vst v) -> calm f = true;
  gd_false : vst v <> [] -> ~ In true td;
  gd_wait : vst v = [] -> td = [] \/ td = [true];
  gd_steal : is_worker n i = true -> vst v <> [] -> vwp v = WReady \/ vwp v = WNew \/ vwp v = WWait
}.

Lemma acts_view c i v : sees c i v -> activates c i = actv (vst v).
Proof. intros (E & _ & _). unfold activates, actv. rewrite E. reflexivity. Qed.
Lemma steals_view n c i v : sees c i v -> steals n c i = stlv n i (vst v) (vwp v).
Proof.
  intros (E & Pw & _). unfold steals, stlv. rewrite E, Pw. destruct (is_worker n i); [|reflexivity]. destruct (vst v); [reflexivity|]. reflexivity.
Qed.
Lemma fstep_calm P s f s' fr : fstep P s f = Some (s', fr) -> calm f = true -> (exists t, fr = [FExec t]) \/ forall g, In g fr -> calm g = true.
Proof.
  intros H C. destruct f; try discriminate C; simpl in H; unfold after_dep in H;
    repeat match type of H with
           | context [match ?x with _ => _ end] => destruct x eqn:?; try discriminate H
           end; injection H as <- <-; try (left; eauto; fail); right; simpl; intros g Hg; repeat (destruct Hg as [<-|Hg]; [reflexivity|]); destruct Hg.
Qed.
(** after [activate_task] *)
Lemma fstep_acts P s f fs s' fr : actv (f :: fs) = true -> emp s = [] -> rdy s = [] -> fstep P s f = Some (s', fr) ->
  actv (fr ++ fs) = false /\ fr <> [] /\ (forall t, fr <> [FExec t]) /\ exists t, rdy s' = [t] /\ emp s' = [].
Proof.
  intros A E R H. destruct f; try discriminate A. destruct e; try discriminate A.
  simpl in H. destruct k; try discriminate A; simpl in A; rewrite A in H; injection H as <- <-; simpl;
    (split; [reflexivity|]; split; [discriminate|]; split; [discriminate|]; rewrite E, R; eauto).
Qed.
Lemma goes_exec fr p : (exists t, fr = [FExec t]) /\ goes_on fr p = WReady \/ (forall t, fr <> [FExec t]) /\ goes_on fr p = p.
Proof.
  destruct fr as [|f [|g fr]]; [right|destruct f; try (right; split; [discriminate|reflexivity]); left; split; eauto|right; destruct f]; split; try discriminate; reflexivity.
Qed.

Arguments actv : simpl never.
Arguments stlv : simpl never.
Arguments goes_on : simpl never.

Definition marksv (st : list frame) (mv : move) : option nat := match mv with MStep _ w => if actv st then Some w else None | _ => None end.
Definition choresv (n i : nat) (v : view) (mv : move) (v' : view) : list bool :=
  match mv with
  | MTake w _ => match vwp v with WReady => [false] | _ => [] end
  | MMiss w => match vwp v with WNew | WStealNew 0 => [true] | _ => [] end
  | MSteal w _ _ => match vwp v with WStealReady _ => [false; false] | _ => [] end
  | MStep _ _ =>
      match is_worker n i, vst v', vwp v' with
      | true, [], WWait => [true]
      | true, FExec _ :: _, _ => match vwp v with WWait => [false; false] | _ => [false] end
      | _, _, _ => []
      end
  | _ => []
  end.
Lemma chores_view n c mv c' v v' : sees c (actor mv) v -> sees c' (actor mv) v' -> chores n c mv c' = choresv n (actor mv) v mv v'.
Proof.
  intros (A1 & A2 & A3) (B1 & B2 & B3). destruct mv; simpl in *; rewrite ?A2, ?B1, ?B2; auto;
    destruct (is_worker n _); auto; destruct (vst v') as [|[]]; auto.
Qed.

Lemma good_pool P n m x mv c' v v' l : pinv n m (pl x) -> sees (pl x) (actor mv) v -> sees c' (actor mv) v' ->
  pcase P n (pl x) mv v v' -> allows n m x mv = Some l -> idle_of x (actor mv) = true ->
  good n (actor mv) v (av x (actor mv)) (todo x (actor mv)) (srch x (actor mv)) (busy x (actor mv)) ->
  good n (actor mv) v' (av x (actor mv)) (chores n (pl x) mv c') l (marks (pl x) mv).
Proof.
  intros I A B C L Q G. rewrite (chores_view n (pl x) mv c' v v' A B).
  assert (T : todo x (actor mv) = []) by (unfold idle_of in Q; destruct (todo x (actor mv)); auto; discriminate).
  assert (AV := acts_view _ _ _ A). assert (SV := steals_view n _ _ _ A).
  assert (MK : marks (pl x) mv = marksv (vst v) mv).
  { destruct mv; auto. unfold marks, marksv. simpl in AV. now rewrite AV. }
  rewrite MK. clear MK. unfold allows in L. destruct G as [G1 G2 G3 G4 G5 G6 G7 G8 G9 G10].
  destruct C as [i w f fs p s' fr W F|i st p w l0|w k W|w k t W|w k t W|w W|w W|w k W|w W|w k W|w W|w u k j t W V|w u k j t W V|i k p st NI (e & Es)];
    simpl in *.
  - (* MStep *)
    rewrite AV in L.
    assert (EX := goes_exec fr p).
    destruct (actv (f :: fs)) eqn:AC.
    + destruct (fstep_acts P (core (pl x)) f fs s' fr AC (pi_emp n m _ I) (pi_rdy n m _ I) F) as (A1 & A2 & A3 & t & A4 & A5).
      destruct EX as [[(t' & ->) _]|[_ EG]]; [exfalso; exact (A3 t' eq_refl)|]. rewrite EG.
      assert (SL : l = LNone /\ True).
      { destruct (srch x i); try discriminate; [destruct (_ =? w); [|discriminate]|]; injection L as <-; auto. }
      destruct SL as [-> _]. destruct fr as [|f' fr]; [easy|].
      assert (CH : match f' :: fr ++ fs with [] => True | FExec _ :: _ => False | _ => True end).
      { destruct f; try discriminate AC. destruct e; try discriminate AC. simpl in F. unfold actv in AC. destruct k; try discriminate AC; rewrite AC in F; injection F as <- <- <-; exact Logic.I. }
      match goal with |- good _ _ _ _ ?t _ _ => assert (CE : t = []) end.
      { destruct (is_worker n i); auto. simpl. destruct f'; auto. destruct CH. }
      rewrite CE. simpl app. split; simpl.
      * easy.
      * intros w' E. injection E as <-. unfold wakes. rewrite A4, A5. auto.
      * easy.
      * reflexivity.
      * intros k E. unfold stlv in E. destruct (is_worker n i); discriminate.
      * intros Wi _ Ep _. apply G6; auto. discriminate.
      * intros Wi Ep g Hg. assert (CF : calm f = true) by (apply (G7 Wi Ep); now left).
        destruct (fstep_calm P _ f s' (f' :: fr) F CF) as [(t' & X)|X]; [destruct (A3 t' X)|].
        destruct Hg as [<-|Hg]; [apply X; now left|]. apply in_app_or in Hg as [Hg|Hg]; [apply X; now right|]. apply (G7 Wi Ep). now right.
      * easy.
      * auto.
      * intros Wi _. apply G10; auto. discriminate.
    + injection L as <-. assert (SN : srch x i = LNone).
      { apply G4; auto. unfold stlv. destruct (is_worker n i); auto. }
      rewrite SN. split; simpl.
      * destruct (is_worker n i); auto.
      * discriminate.
      * easy.
      * reflexivity.
      * intros k E. exfalso. unfold stlv in E. destruct (is_worker n i) eqn:Wi; [|discriminate]. destruct (fr ++ fs) eqn:EF; [|discriminate].
        destruct (G10 eq_refl ltac:(discriminate)) as [->|[->| ->]]; destruct EX as [[_ Y]|[_ Y]]; rewrite Y in E; discriminate.
      * intros Wi Ne Ep. rewrite Wi. destruct (fr ++ fs) as [|g gs] eqn:EF; [easy|]. intros Tn.
        destruct EX as [[(t & ->) _]|[_ Y]].
        -- simpl in EF. injection EF as <- <-. destruct p; discriminate Tn.
        -- rewrite Y in Ep. apply G6; auto. discriminate.
      * intros Wi Ep g Hg. destruct EX as [[_ Y]|[N Y]]; rewrite Y in Ep; [easy|].
        assert (CF : calm f = true) by (apply (G7 Wi Ep); now left).
        destruct (fstep_calm P _ f s' fr F CF) as [(t' & X)|X]; [destruct (N t' X)|].
        apply in_app_or in Hg as [Hg|Hg]; [now apply X|]. apply (G7 Wi Ep). now right.
      * intros Ne. destruct (is_worker n i); [|easy]. destruct (fr ++ fs) as [|g gs]; [easy|]. destruct g; try easy. destruct p; simpl; intuition discriminate.
      * intros ->. destruct (is_worker n i); auto. destruct (goes_on fr p); auto.
      * intros Wi _. destruct EX as [[_ Y]|[N Y]]; rewrite Y; auto. apply G10; auto. discriminate.
  - (* MWake *)
    injection L as <-. assert (BN : busy x i = None) by (unfold idle_of in Q; destruct (todo x i), (busy x i); auto; discriminate).
    rewrite T in *. split; simpl; auto; try easy; discriminate.
  - injection L as <-. split; simpl; auto; try easy; try discriminate.
  - injection L as <-. assert (SN : srch x w = LNone) by (apply G4; auto; unfold stlv; now rewrite W). rewrite SN. split; simpl; auto; try easy; try discriminate; try tauto.
    + intros k' E. unfold stlv in E. rewrite W in E. discriminate.
    + intros _ [X|[]]. discriminate.
  - injection L as <-. assert (SN : srch x w = LNone) by (apply G4; auto; unfold stlv; now rewrite W). rewrite SN. split; simpl; auto; try easy; try discriminate; try tauto.
    + intros k' E. unfold stlv in E. rewrite W in E. discriminate.
    + intros _ _ f [<-|[]]. reflexivity.
  - rewrite SV in L. unfold stlv in L. rewrite W in L. injection L as <-.
    assert (SN : srch x w = LNone) by (apply G4; auto; unfold stlv; now rewrite W). rewrite SN. split; simpl; auto; try easy; try discriminate.
    intros k' E. unfold stlv in E. rewrite W in E. discriminate.
  - rewrite SV in L. unfold stlv in L. rewrite W in L. injection L as <-.
    assert (SN : srch x w = LNone) by (apply G4; auto; unfold stlv; now rewrite W). rewrite SN. split; simpl; auto; try easy; try discriminate.
    intros k' E. unfold stlv in E. rewrite W in E. injection E as <-. lia.
  - rewrite SV in L. unfold stlv in L, G5, G4. rewrite W in L, G5, G4. specialize (G5 _ eq_refl).
    assert (X : forall u, In u (remaining l) -> is_worker n u = true) by
      (destruct (srch x w); try discriminate L; [destruct (_ && _); [|discriminate L]|]; injection L as <-; intros u Hu; apply G3; simpl; auto).
    split; simpl; auto; try easy; try discriminate.
    + unfold stlv. rewrite W. discriminate.
    + unfold stlv. rewrite W. intros k' E. injection E as <-. destruct (srch x w); try discriminate L; [destruct (_ && _); [|discriminate L]|]; injection L as <-; simpl in *; lia.
  - rewrite SV in L. unfold stlv in L. rewrite W in L. destruct (srch x w); try discriminate. injection L as <-.
    split; simpl; auto; try easy; try discriminate. unfold stlv. rewrite W. intros k' E. injection E as <-. lia.
  - rewrite SV in L. unfold stlv in L, G5, G4. rewrite W in L, G5, G4. specialize (G5 _ eq_refl).
    assert (X : forall u, In u (remaining l) -> is_worker n u = true) by
      (destruct (srch x w); try discriminate L; [destruct (_ && _); [|discriminate L]|]; injection L as <-; intros u Hu; apply G3; simpl; auto).
    split; simpl; auto; try easy; try discriminate.
    + unfold stlv. rewrite W. discriminate.
    + unfold stlv. rewrite W. intros k' E. injection E as <-. destruct (srch x w); try discriminate L; [destruct (_ && _); [|discriminate L]|]; injection L as <-; simpl in *; lia.
  - rewrite SV in L. unfold stlv in L. rewrite W in L. destruct (srch x w); try discriminate. injection L as <-.
    split; simpl; auto; try easy; try discriminate. unfold stlv. rewrite W. discriminate.
  - destruct (srch x w); try discriminate. destruct (_ || _); [|discriminate]. injection L as <-.
    split; simpl; auto; try easy; try discriminate.
    + unfold stlv. rewrite W. discriminate.
    + intros _ [X|[X|[]]]; discriminate.
  - destruct (srch x w); try discriminate. destruct (_ || _); [|discriminate]. injection L as <-.
    split; simpl; auto; try easy; try discriminate.
    + unfold stlv. rewrite W. discriminate.
    + intros _ _ f [<-|[]]. reflexivity.
  - injection L as <-. subst st.
    assert (SN : srch x i = LNone) by (apply G4; auto; unfold stlv; now rewrite NI).
    rewrite SN. split; simpl; try easy; try congruence.
    unfold stlv. rewrite NI. discriminate.
Qed.
