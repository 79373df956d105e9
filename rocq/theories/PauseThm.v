(** Task bodies that wait for a future: every execution is one of the machine in which a waiting
    body blocks its thread, with the same history. *)
From Coq Require Import Bool List Arith NArith ZArith Lia Permutation.
From Verif Require Import AccessModel AccessSpec AccessProof UserModel UserProof SchedModel SchedSpec SchedBase SchedInv1 SchedInv2 SchedInv3 SchedInv8 SchedFront SchedThm SchedLive SchedTerm SchedMany SchedFree PauseModel PauseSpec PauseProof PauseInv.
Import ListNotations.
Open Scope Z_scope.

(** ** Threads of the two machines *)
Lemma set_nth_same {A} (l : list A) : forall i x, nth_error l i = Some x -> set_nth i x l = l.
Proof. induction l as [|a l IH]; intros [|i] x; simpl; try discriminate; intros H; [now injection H as ->|]. now rewrite IH. Qed.

Lemma thr_step A B M i j st st' : Permutation (busy A) (busy B ++ M) -> nth_error A j = Some st -> nth_error B i = Some st ->
  Permutation (busy (set_nth j st' A)) (busy (set_nth i st' B) ++ M).
Proof.
  intros H EA EB. destruct (busy_set A j st st' EA) as (ra & A1 & A2). destruct (busy_set B i st st' EB) as (rb & B1 & B2).
  rewrite A2, B2, <- app_assoc. apply Permutation_app_head. apply (Permutation_app_inv_l (busy [st])).
  rewrite <- A1, H, B1. now rewrite app_assoc.
Qed.

Lemma thr_fresh A B M i st' : Permutation (busy A) (busy B ++ M) -> nth_error B i = Some [] ->
  Permutation (busy (set_nth (length A) st' (A ++ [[]]))) (busy (set_nth i st' B) ++ M).
Proof.
  intros H EB. apply (thr_step (A ++ [[]]) B M i (length A) [] st').
  - rewrite busy_app. simpl. now rewrite app_nil_r.
  - rewrite nth_error_app2, Nat.sub_diag by lia. reflexivity.
  - exact EB.
Qed.

Lemma erase_nth y i gs : nth_error (ythr y) i = Some gs -> nth_error (map erase (ythr y)) i = Some (erase gs).
Proof. intros H. now rewrite nth_error_map, H. Qed.

Lemma same_thr y i gs gs' : nth_error (ythr y) i = Some gs -> erase gs' = erase gs -> map erase (set_nth i gs' (ythr y)) = map erase (ythr y).
Proof. intros E H. rewrite map_set_nth, H. apply set_nth_same. now apply erase_nth. Qed.

(** ** Shared state: what only concerns suspended tasks *)
Lemma sim_pre D s u t v : D t = true -> sim D s u -> sim D s (set_ctr u (eupd (ctr u) (EPre t) v)).
Proof.
  intros H [A B C F E R X K T L]. split; simpl; auto. intros e He. rewrite C by exact He. symmetry. apply eupd_ne. intros ->. simpl in He. congruence.
Qed.
Lemma sim_wait D s u c v : sim D s u -> sim D s (set_fol u (eupd (fol u) (ERSet c) v)).
Proof.
  intros [A B C F E R X K T L]. split; simpl; auto. intros e. specialize (F e). destruct e; auto; rewrite eupd_ne; auto; discriminate.
Qed.
Lemma sim_wake D s u t : D t = true -> sim D s u -> sim D s (set_rdy u (t :: rdy u)).
Proof. intros H [A B C F E R X K T L]. split; simpl; auto. now rewrite H. Qed.
Lemma sim_resume D s u k t : nth_error (rdy u) k = Some t -> D t = true -> sim D s u -> sim D s (set_rdy u (remove_nth k (rdy u))).
Proof. intros N H [A B C F E R X K T L]. split; simpl; auto. rewrite (filter_drop _ _ k t N); [exact R|now rewrite H]. Qed.
Lemma sim_ext D D' s u : (forall t, D t = D' t) -> sim D s u -> sim D' s u.
Proof.
  intros H [A B C F E R X K T L]. split; auto.
  - intros e He. apply C. destruct e; auto. now rewrite H.
  - rewrite R. apply filter_same. intros t _. now rewrite H.
Qed.
Lemma sim_roomier D s u : sim D s u -> sim D (roomier s) u.
Proof. intros [A B C F E R X K T L]. split; auto. Qed.

Lemma not_rdy t l : zsum (ni t) l = 0 -> ~ In t l.
Proof.
  intros Z H. assert (ni t t <= zsum (ni t) l) by (apply (zsum_ge (ni t)); auto; intros q; unfold ni; pose proof (zb_bound (Nat.eqb q t)); lia).
  rewrite ni_same in *. lia.
Qed.

(** ** Cases of a step *)
(** whether the other machine makes a step, too *)
Definition vis (y : ystate) (f : frame) : bool :=
  match f with
  | FBody (Some _) (IGet c :: _) => ctr (yst y) (ERSet c) =? 0
  | FFollow (ERSet _) (EPre _ :: _) => false
  | _ => true
  end.
Definition visible (y : ystate) (i : nat) (c : pick) : bool :=
  match nth_error (ythr y) i, c with
  | Some (YF f :: _), _ => vis y f
  | Some [], PReady k => match nth_error (rdy (yst y)) k with Some t => negb (away y t) | None => false end
  | Some [], _ => true
  | _, _ => false
  end.

Lemma yf_cases P y f y1 fr1 : yfstep P y (YF f) = Some (y1, fr1) ->
  (exists t c is, f = FBody (Some t) (IGet c :: is) /\ ctr (yst y) (ERSet c) <> 0 /\ y1 = mkY (yst y) ((t, IGet c :: is) :: ycont y) (ythr y) /\ fr1 = [YStore t c] /\ vis y f = false)
  \/ (exists c t l, f = FFollow (ERSet c) (EPre t :: l) /\ y1 = y /\ fr1 = [YNote t; YF (FFollow (ERSet c) l)] /\ vis y f = false)
  \/ (exists u1 fr, fstep P (yst y) f = Some (u1, fr) /\ y1 = ycore y u1 /\ fr1 = map YF fr /\ vis y f = true /\ forall c t l, f <> FFollow (ERSet c) (EPre t :: l)).
Proof.
  intros H.
  assert (BASE : vis y f = true -> (forall c t l, f <> FFollow (ERSet c) (EPre t :: l)) ->
            match fstep P (yst y) f with Some (s', fr) => Some (ycore y s', map YF fr) | None => None end = Some (y1, fr1) ->
            exists u1 fr, fstep P (yst y) f = Some (u1, fr) /\ y1 = ycore y u1 /\ fr1 = map YF fr /\ vis y f = true /\ forall c t l, f <> FFollow (ERSet c) (EPre t :: l)).
  { intros V N Q. destruct (fstep P (yst y) f) as [[u1 fr]|]; [|discriminate]. injection Q as <- <-. eauto 8. }
  destruct f; try (right; right; apply BASE; [reflexivity|discriminate|exact H]).
  - destruct o as [t|]; [|right; right; apply BASE; [reflexivity|discriminate|exact H]].
    destruct s as [|[] is]; try (right; right; apply BASE; [reflexivity|discriminate|exact H]).
    cbn [yfstep] in H. destruct (Z.eqb_spec (ctr (yst y) (ERSet c)) 0) as [e|n].
    + injection H as <- <-. right. right. do 2 eexists. split; [|split; [reflexivity|split; [|split; [|discriminate]]]].
      * cbn [fstep]. rewrite e. reflexivity.
      * reflexivity.
      * cbn [vis]. rewrite e. reflexivity.
    + injection H as <- <-. left. do 3 eexists. repeat split; eauto. cbn [vis]. now apply Z.eqb_neq.
  - destruct e; try (right; right; apply BASE; [reflexivity|discriminate|exact H]).
    destruct l as [|x l]; [right; right; apply BASE; [reflexivity|discriminate|exact H]|].
    destruct x; try (right; right; apply BASE; [reflexivity|discriminate|exact H]).
    injection H as <- <-. right. left. eauto 8.
Qed.

Lemma map_repeat_nil n : map erase (repeat [] n) = repeat [] n.
Proof. induction n as [|n IH]; simpl; auto. now rewrite IH. Qed.

Section Ref.
  Context (P : prog) (ms : list (list instr)) (W : wf_any P ms) (NW : p_wrap P = false).
  Context (ND : forall t, NoDup (uniq P t)).

  Definition refines (a : bool) (k : nat) (y : ystate) (ord : nat -> list nat) : Prop :=
    exists n s ord', freach P ms n k s ord' /\ (forall r, ord' r = ord r) /\ corr y s /\ tokens a y.

  Section Step.
    Context (a : bool) (y : ystate) (n k : nat) (s : state) (ord : nat -> list nat).
    Context (R : freach P ms n k s ord) (C : corr y s) (T : tokens a y).

    Lemma susp_rest t is : In (t, is) (ycont y) -> ctr s (EPre t) = 0 /\ zsum (ni t) (rdy s) = 0 /\ forall f, In f (frames s) -> apart t f.
    Proof.
      intros H. eapply (resting P (wff P ms W ord) NW n s t); [eapply freach_mreach; eauto|]. eapply body_pos. eapply asleep_frame; eauto.
    Qed.

    Lemma base_quiet f : In (YF f) (yframes y) -> (forall c x l, f <> FFollow (ERSet c) (x :: l)) -> quiet (away y) f.
    Proof.
      intros Hf NF. assert (Hs := seen_frame y s f C Hf).
      assert (AP : forall t, away y t = true -> apart t f).
      { intros t At. apply away_in in At as [is Hi]. destruct (susp_rest t is Hi) as (_ & _ & H). specialize (H _ Hs).
        destruct f; auto. destruct e; auto. }
      destruct f; simpl; auto.
      - destruct (away y t) eqn:A; auto. apply AP in A. simpl in A. congruence.
      - destruct (away y t) eqn:A; auto. apply AP in A. simpl in A. congruence.
      - destruct e; auto. destruct (away y t) eqn:A; auto. apply AP in A. simpl in A. congruence.
      - destruct e; auto. intros ->. destruct (away y t) eqn:A; auto. apply AP in A. simpl in A. destruct (A eq_refl eq_refl).
      - destruct e; auto. destruct l; auto. now apply (NF t e l).
    Qed.

    Lemma find i f gs : nth_error (ythr y) i = Some (YF f :: gs) -> exists j, nth_error (thr s) j = Some (seen f :: erase gs).
    Proof.
      intros E. assert (H : In (seen f :: erase gs) (busy (thr s))).
      { apply (Permutation_in _ (Permutation_sym (co_thr y s C))). apply in_or_app. left. apply filter_In. split; [|reflexivity].
        apply (nth_error_In (map erase (ythr y)) i). now rewrite nth_error_map, E. }
      apply busy_in in H as [H _]. apply In_nth_error in H. exact H.
    Qed.

    (** a step of the other machine *)
    Lemma ref_base i f gs u1 fr (cc : pick) : nth_error (ythr y) i = Some (YF f :: gs) -> fstep P (yst y) f = Some (u1, fr) ->
      quiet (away y) f -> yend_ok P y i ->
      tokens a (mkY u1 (ycont y) (set_nth i (map YF fr ++ gs) (ythr y))) ->
      refines a (S k) (mkY u1 (ycont y) (set_nth i (map YF fr ++ gs) (ythr y))) (fun r => ord r ++ yenters y i r).
    Proof.
      intros E F Q EO T'. destruct (find i f gs E) as [j Ej].
      destruct (fsim P (away y) s (yst y) f u1 fr (co_sim y s C) Q F) as (s1 & F1 & S1).
      exists n, (set_thr s1 (set_nth j (map seen fr ++ erase gs) (thr s))), (fun r => ord r ++ enters s j r).
      split; [|split; [|split; [|exact T']]].
      - apply (freach_step P ms n k s ord j cc); auto.
        + intros q fs Eq c Hp Hs. rewrite Ej in Eq. injection Eq as Eq _. assert (f = FBody (Some q) []) as ->.
          { destruct f; simpl in Eq; try discriminate; auto. destruct e; discriminate. }
          rewrite (sm_log _ _ _ (co_sim y s C)) in *. exact (EO q gs E c Hp Hs).
        + unfold step. now rewrite Ej, F1.
      - intros r. f_equal. unfold enters, yenters. rewrite Ej, E. destruct f; simpl; auto. now destruct e.
      - split.
        + apply (sim_thr (away y) s1 u1 (set_nth j (map seen fr ++ erase gs) (thr s)) (thr u1)) in S1.
          destruct S1 as [A1 A2 A3 A4 A5 A6 A7 A8 A9 A10]. split; auto.
        + cbn [thr set_thr ythr ycont]. rewrite map_set_nth, erase_app, erase_yf.
          apply (thr_step _ _ _ i j (seen f :: erase gs)); auto; [exact (co_thr y s C)|]. now rewrite (erase_nth y i _ E).
    Qed.

    (** a step the other machine does not see *)
    Lemma ref_same i gs gs' u1 : nth_error (ythr y) i = Some gs -> erase gs' = erase gs -> sim (away y) s u1 ->
      (forall r, yenters y i r = []) ->
      tokens a (mkY u1 (ycont y) (set_nth i gs' (ythr y))) -> refines a k (mkY u1 (ycont y) (set_nth i gs' (ythr y))) (fun r => ord r ++ yenters y i r).
    Proof.
      intros E Q S YE T'. exists n, s, ord. split; [exact R|]. split; [intros r; now rewrite YE, app_nil_r|]. split; [|exact T'].
      split; [exact S|]. cbn [ythr ycont]. rewrite (same_thr y i gs gs' E Q). exact (co_thr y s C).
    Qed.

    Lemma ref_idle i cc cs u1 s1 fr : nth_error (ythr y) i = Some [] -> istep s cs = Some (s1, fr) -> map seen fr = fr -> sim (away y) s1 u1 ->
      yistep y cc = Some (ycore y u1, map YF fr) ->
      tokens a (mkY u1 (ycont y) (set_nth i (map YF fr) (ythr y))) -> refines a (S k) (mkY u1 (ycont y) (set_nth i (map YF fr) (ythr y))) (fun r => ord r ++ yenters y i r).
    Proof.
      intros E H SF SM _ T'.
      exists (S n), (set_thr s1 (set_nth (length (thr s)) fr (thr s ++ [[]]))), (fun r => ord r ++ enters (roomier s) (length (thr s)) r).
      assert (EN : nth_error (thr (roomier s)) (length (thr s)) = Some []).
      { simpl. rewrite nth_error_app2, Nat.sub_diag by lia. reflexivity. }
      split; [|split; [|split; [|exact T']]].
      - apply (freach_step P ms (S n) k (roomier s) ord (length (thr s)) cs); [now apply freach_idle| |].
        + intros q fs Eq. rewrite EN in Eq. discriminate.
        + unfold step. rewrite EN. unfold roomier at 1. rewrite istep_thr, H. reflexivity.
      - intros r. f_equal. unfold enters, yenters. now rewrite EN, E.
      - split.
        + destruct SM as [A1 A2 A3 A4 A5 A6 A7 A8 A9 A10]. split; auto.
        + cbn [thr set_thr ythr ycont]. rewrite map_set_nth, erase_yf, SF. apply thr_fresh; [exact (co_thr y s C)|]. exact (erase_nth y i _ E).
    Qed.

    Lemma ref_step i c y' : yend_ok P y i -> visit_ok y i -> (a = true -> take_ok y i) -> ystep P y i c = Some y' ->
      refines a (if visible y i c then S k else k) y' (fun r => ord r ++ yenters y i r).
    Proof.
      intros EO VO TO H. assert (I := mreach_Inv P (wff P ms W ord) NW n s (freach_mreach P ms W NW n ND k s ord R)).
      assert (LOG : log s = log (yst y)) by exact (sm_log _ _ _ (co_sim y s C)).
      unfold ystep in H. unfold visible. destruct (nth_error (ythr y) i) as [[|g gs]|] eqn:E; [| |discriminate].
      - destruct (yistep y c) as [[y1 fr]|] eqn:F; [|discriminate]. injection H as <-.
        destruct c as [m|m|m].
        + cbn [yistep] in F. destruct (nth_error (rdy (yst y)) m) as [t|] eqn:Em; [|discriminate]. injection F as <- <-.
          assert (T' := tok_ready a y T i m t E Em). destruct (away y t) eqn:A; cbn [negb].
          * cbn [yst ycont ycore]. apply (ref_same i [] [YRes t]); auto.
            -- exact (sim_resume _ _ _ m t Em A (co_sim y s C)).
            -- intros r. unfold yenters. now rewrite E.
          * destruct (filter_pick (fun t => negb (away y t)) (rdy (yst y)) m t Em) as (m' & M1 & M2); [now rewrite A|].
            assert (RD := sm_rdy _ _ _ (co_sim y s C)). rewrite <- RD in M1, M2.
            cbn [yst ycont ycore]. apply (ref_idle i (PReady m) (PReady m') _ (set_rdy s (remove_nth m' (rdy s))) [FExec t]); auto.
            -- simpl. now rewrite M1.
            -- destruct (co_sim y s C) as [A1 A2 A3 A4 A5 A6 A7 A8 A9 A10]. split; simpl; auto.
            -- simpl. now rewrite Em, A.
        + cbn [yistep] in F. destruct (istep (yst y) (PNew m)) as [[u1 fr0]|] eqn:F0; [|discriminate]. injection F as <- <-.
          assert (T' := tok_idle a y T i (PNew m) u1 fr0 E F0 ltac:(discriminate)). cbn [yst ycont ycore].
          assert (F1 := F0). cbn [istep] in F1. destruct (nth_error (emp (yst y)) m) as [t|] eqn:Em; [|discriminate]. injection F1 as <- <-.
          apply (ref_idle i (PNew m) (PNew m) _ (set_emp s (remove_nth m (emp s))) [FInitUp t]); auto.
          * simpl. now rewrite (sm_emp _ _ _ (co_sim y s C)), Em.
          * rewrite (sm_emp _ _ _ (co_sim y s C)). apply sim_emp. exact (co_sim y s C).
          * cbn [yistep]. now rewrite F0.
        + cbn [yistep] in F. destruct (istep (yst y) (PExt m)) as [[u1 fr0]|] eqn:F0; [|discriminate]. injection F as <- <-.
          assert (T' := tok_idle a y T i (PExt m) u1 fr0 E F0 ltac:(discriminate)). cbn [yst ycont ycore].
          assert (F1 := F0). cbn [istep] in F1. destruct (nth_error (ext (yst y)) m) as [[t e]|] eqn:Em; [|discriminate]. injection F1 as <- <-.
          apply (ref_idle i (PExt m) (PExt m) _ (add_log (set_ext s (remove_nth m (ext s))) (LFire t e)) [FNotify (EExt t e) NCall]); auto.
          * simpl. now rewrite (sm_ext _ _ _ (co_sim y s C)), Em.
          * rewrite (sm_ext _ _ _ (co_sim y s C)). apply sim_log. apply PauseProof.sim_ext. exact (co_sim y s C).
          * cbn [yistep]. now rewrite F0.
      - destruct (yfstep P y g) as [[y1 fr]|] eqn:F; [|discriminate]. injection H as <-.
        assert (Hg := top_in y i g gs E).
        assert (YE : match g with YF (FSub _ _ _ _) => False | _ => True end -> forall r, yenters y i r = []).
        { intros Hn r. unfold yenters. rewrite E. destruct g; auto. destruct f; auto. easy. }
        destruct g as [f|t d|t d|t d|t d|t d p|t|t st|t|t|t].
        + apply yf_cases in F as [(t & d & is & -> & X & -> & -> & VI)|[(d & t & l & -> & -> & -> & VI)|(u1 & fr0 & F & -> & -> & VI & NV)]]; rewrite VI; clear VI.
          * (* suspended *)
            assert (gs = []) as ->.
            { destruct (find i _ gs E) as [j Ej]. assert (SO := proj1 (mreach_stack _ _ _ _ (freach_mreach P ms W NW n ND k s ord R)) j _ Ej).
              destruct SO as [SO _]. assert (Z := SO eq_refl). assert (Sh := tk_shape T _ (nth_error_In _ _ E)). destruct Sh as [Sh _].
              destruct gs as [|h gs]; auto. destruct (Sh h) as [f ->]; [simpl; auto|]. discriminate. }
            assert (Hs := seen_frame y s _ C Hg). simpl seen in Hs. assert (B := body_pos s t _ Hs).
            destruct (body_facts P s I t B) as (B1 & _).
            destruct (resting P (wff P ms W ord) NW n s t (freach_mreach P ms W NW n ND k s ord R) B) as (R1 & R2 & _).
            assert (A : away y t = false).
            { destruct (away y t) eqn:A; auto. exfalso. apply away_in in A as [js Hj].
              rewrite (zsum_perm _ _ _ (co_frames y s C)), zsum_app in B1.
              assert (is_body (Some t) (FBody (Some t) (IGet d :: is)) <= zsum (is_body (Some t)) (erase (yframes y))).
              { apply (zsum_ge (is_body (Some t))); [intros x _; exact (w_nn4 (Some t) x)|]. apply in_flat_map. exists (YF (FBody (Some t) (IGet d :: is))). simpl. auto. }
              assert (is_body (Some t) (FBody (Some t) js) <= zsum (is_body (Some t)) (map (fun p => FBody (Some (fst p)) (snd p)) (ycont y))).
              { apply (zsum_ge (is_body (Some t))); [intros x _; exact (w_nn4 (Some t) x)|]. apply in_map_iff. exists (t, js). auto. }
              simpl in *. rewrite Nat.eqb_refl in *. simpl in *. lia. }
            assert (X1 : ctr (yst y) (EPre t) = 0) by (rewrite <- (sm_ctr _ _ _ (co_sim y s C) (EPre t)); auto).
            assert (X2 : zsum (ni t) (rdy (yst y)) = 0).
            { rewrite (sm_rdy _ _ _ (co_sim y s C)) in R2. apply zsum_zero. intros q Hq. unfold ni. destruct (Nat.eqb_spec q t) as [->|]; auto.
              exfalso. eapply not_rdy; [exact R2|]. apply filter_In. rewrite A. auto. }
            cbn [yst ycont app]. exists n, s, ord. split; [exact R|]. split; [intros r; rewrite YE by exact Logic.I; now rewrite app_nil_r|].
            split; [|exact (tok_pause a y T i t d is E A X1 X2)]. split.
            -- assert (AW : forall q, away (mkY (yst y) ((t, IGet d :: is) :: ycont y) (set_nth i [YStore t d] (ythr y))) q = Nat.eqb t q || away y q) by reflexivity.
               destruct (co_sim y s C) as [A1 A2 A3 A4 A5 A6 A7 A8 A9 A10]. split; auto.
               ++ intros e He. apply A3. destruct e; auto. rewrite AW in He. now apply orb_false_iff in He.
               ++ rewrite A6. apply filter_same. intros q Hq. rewrite AW. destruct (Nat.eqb_spec t q) as [<-|]; auto. destruct (not_rdy _ _ X2 Hq).
            -- cbn [ythr ycont map]. rewrite map_set_nth. destruct (busy_set (map erase (ythr y)) i _ (erase [YStore t d]) (erase_nth y i _ E)) as (r & P1 & P2).
               assert (P0 := co_thr y s C). rewrite P0, P1, P2. simpl. apply Permutation_middle.
          * (* a waiting task is notified *)
            cbn [yst ycont]. apply (ref_same i (YF (FFollow (ERSet d) (EPre t :: l)) :: gs) (YNote t :: YF (FFollow (ERSet d) l) :: gs)); auto; [exact (co_sim y s C)|].
            exact (tok_visit a y T i d t l gs E).
          * cbn [yst ycont ycore].
            assert (NF : forall d x l, f <> FFollow (ERSet d) (x :: l)).
            { intros d x l ->. destruct (tk_follow T d (x :: l) Hg x) as [t ->]; [simpl; auto|]. exact (NV d t l eq_refl). }
            assert (Q := base_quiet f Hg NF).
            apply (ref_base i f gs u1 fr0 (PNew 0)); auto.
            assert (DT : taking f \/ ~ taking f).
            { destruct f; try (right; intros (? & ? & ?); discriminate). destruct e; try (right; intros (? & ? & ?); discriminate).
              destruct (Z.eq_dec st 0) as [->|m]; [left; red; eauto|right; intros (? & ? & X); congruence]. }
            destruct DT as [(d & kk & ->)|NT].
            -- cbn [fstep] in F. injection F as <- <-. apply (tok_take a y T i d kk gs E); auto.
               assert (Hs := seen_frame y s _ C Hg). destruct (taking_facts P s I (ERSet d) _ Hs) as [T0 _].
               { simpl. rewrite Nat.eqb_refl. reflexivity. }
               unfold taken in *. now rewrite <- LOG.
            -- apply (tok_base a y T P i f gs u1 fr0); auto.
        + cbn [yfstep] in F. injection F as <- <-. cbn [yst ycont ycore]. apply (ref_same i (YStore t d :: gs) (YCheck t d :: gs)); auto.
          * apply sim_pre; [|exact (co_sim y s C)]. destruct (tk_on T _ t d Hg eq_refl) as [is Hi]. apply away_in. eauto.
          * exact (tok_store a y T i t d gs E).
        + cbn [yfstep] in F. injection F as <- <-. cbn [yst ycont ycore].
          apply (ref_same i (YCheck t d :: gs) ((if ctr (yst y) (ERSet d) =? 0 then YUp t d false else YPush t d) :: gs)); auto.
          * simpl. now destruct (ctr (yst y) (ERSet d) =? 0).
          * exact (co_sim y s C).
          * apply (tok_check a y T i t d gs E). intros Z. rewrite <- (sm_ctr _ _ _ (co_sim y s C) (ERSet d) Logic.I) in Z. unfold taken. rewrite <- LOG.
            pose proof (f_take P s I (ERSet d)). destruct (i_reach P s I (ERSet d)) as [[Z1 Z2]|[Z1 Z2]]; [easy|lia].
        + cbn [yfstep] in F. injection F as <- <-. cbn [yst ycont ycore]. apply (ref_same i (YPush t d :: gs) (YInc t d :: gs)); auto.
          * apply sim_wait. exact (co_sim y s C).
          * exact (tok_push a y T i t d gs E).
        + cbn [yfstep] in F. injection F as <- <-. cbn [yst ycont ycore]. apply (ref_same i (YInc t d :: gs) (YUp t d true :: gs)); auto.
          * unfold inc. apply sim_pre; [|exact (co_sim y s C)]. destruct (tk_on T _ t d Hg eq_refl) as [is Hi]. apply away_in. eauto.
          * exact (tok_inc a y T P NW i t d gs E).
        + cbn [yfstep] in F. injection F as <- <-. cbn [yst ycont ycore]. apply (ref_same i (YUp t d p :: gs) (YNote t :: gs)); auto.
          * unfold inc. apply sim_pre; [|exact (co_sim y s C)]. destruct (tk_on T _ t d Hg eq_refl) as [is Hi]. apply away_in. eauto.
          * exact (tok_up a y T P NW i t d p gs E).
        + cbn [yfstep] in F. injection F as <- <-. cbn [yst ycont ycore]. eapply (ref_same i (YNote t :: gs) (YNote2 t _ :: gs)); auto.
          * apply sim_pre; [|exact (co_sim y s C)]. destruct (who_away a y T (YNote t) t wN Hg) as (c0 & is & Hi); [auto|simpl; rewrite ni_same; lia|]. apply away_in. eauto.
          * exact (tok_note a y T P NW i t gs E VO).
        + cbn [yfstep] in F. injection F as <- <-. cbn [yst ycont ycore app]. apply (ref_same i (YNote2 t st :: gs) gs); auto.
          * destruct (Z.eqb_spec st 1) as [->|]; [|exact (co_sim y s C)]. apply sim_wake; [|exact (co_sim y s C)].
            destruct (who_away a y T (YNote2 t 1) t wK Hg) as (c0 & is & Hi); [auto|simpl; rewrite Nat.eqb_refl; simpl; lia|]. apply away_in. eauto.
          * exact (tok_note2 a y T i t st gs E).
        + cbn [yfstep] in F. injection F as <- <-. cbn [yst ycont ycore]. apply (ref_same i (YRes t :: gs) (YBack t :: gs)); auto.
          * apply sim_pre; [|exact (co_sim y s C)]. destruct (who_away a y T (YRes t) t wK Hg) as (c0 & is & Hi); [auto|simpl; rewrite ni_same; lia|]. apply away_in. eauto.
          * exact (tok_res a y T P NW i t gs E).
        + (* goes on *)
          assert (gs = []) as -> by exact (top_alone a y T i _ gs E eq_refl).
          destruct (who_away a y T (YBack t) t wK Hg) as (c0 & is0 & Hi); [auto|simpl; rewrite ni_same; lia|].
          cbn [yfstep] in F. destruct (grab_in t (ycont y) _ Hi) as (is & l & G). rewrite G in F. injection F as <- <-. cbn [yst ycont app].
          destruct (tok_back a y T i t is l E G) as (X1 & X2 & T'). destruct (susp_rest t _ Hi) as (R1 & R2 & _).
          assert (GP := grab_spec _ _ _ _ G).
          exists n, s, ord. split; [exact R|]. split; [intros r; rewrite YE by exact Logic.I; now rewrite app_nil_r|]. split; [|exact T'].
          set (y' := mkY (yst y) l (set_nth i [YF (FBody (Some t) is)] (ythr y))) in *.
          assert (AW : forall q, q <> t -> away y' q = away y q).
          { intros q m. apply eq_true_iff_eq. rewrite !away_in. split; intros [js Hj]; exists js.
            - apply (Permutation_in _ (Permutation_sym GP)). simpl. auto.
            - apply (Permutation_in _ GP) in Hj as [Hj|Hj]; auto. congruence. }
          split.
          * destruct (co_sim y s C) as [A1 A2 A3 A4 A5 A6 A7 A8 A9 A10]. split; auto.
            -- intros e He. destruct e; try (apply A3; exact Logic.I). destruct (Nat.eq_dec t0 t) as [->|m].
               ++ simpl yst. congruence.
               ++ apply A3. now rewrite <- (AW t0 m).
            -- rewrite A6. apply filter_same. intros q Hq. destruct (Nat.eq_dec q t) as [->|m]; [destruct (not_rdy _ _ X2 Hq)|]. now rewrite AW.
          * cbn [ythr ycont y']. rewrite map_set_nth. destruct (busy_set (map erase (ythr y)) i _ (erase [YF (FBody (Some t) is)]) (erase_nth y i _ E)) as (r & P1 & P2).
            rewrite (co_thr y s C), P1, P2. rewrite (Permutation_map asleep GP). simpl. symmetry. apply Permutation_middle.
        + destruct (tk_twice T t Hg).
    Qed.
  End Step.

  Lemma ref_init a n : refines a 0 (yinit P ms n) (fun _ => []).
  Proof.
    exists n, (init_many P ms n), (fun _ => []). split; [constructor|]. split; [reflexivity|].
    assert (YF0 : forall g, In g (yframes (yinit P ms n)) -> exists m, g = YF (FBody None m)).
    { intros g Hg. unfold yframes, yinit in Hg. simpl in Hg. apply in_concat in Hg as (st & Hs & Hg). apply in_app_or in Hs as [Hs|Hs].
      - apply in_map_iff in Hs as (m & <- & _). destruct Hg as [<-|[]]. eauto.
      - apply repeat_spec in Hs. now subst. }
    split.
    - split.
      + unfold init_many, yinit. split; simpl; auto; try now intros []. 
      + cbn [ycont yinit]. rewrite app_nil_r. unfold yinit, init_many. simpl. rewrite map_app, map_map, (map_repeat_nil n). reflexivity.
    - split.
      + constructor.
      + easy.
      + easy.
      + intros t _. unfold sum. repeat split; apply zsum_zero; intros g Hg; apply YF0 in Hg as [m ->]; reflexivity.
      + intros t c H. destruct H. unfold pd. simpl. reflexivity.
      + intros g t c Hg. apply YF0 in Hg as [m ->]. discriminate.
      + intros _ t c Hg. apply YF0 in Hg as [m Hm]. discriminate.
      + intros c x Hx. easy.
      + intros c l Hg. apply YF0 in Hg as [m Hm]. discriminate.
      + intros t Hg. apply YF0 in Hg as [m Hm]. discriminate.
      + intros st Hs. unfold yinit in Hs. simpl in Hs. apply in_app_or in Hs as [Hs|Hs].
        * apply in_map_iff in Hs as (m & <- & _). simpl. split; [easy|discriminate].
        * apply repeat_spec in Hs. now subst.
  Qed.

  Theorem pause_refines n a k y ord : yreach P ms n a k y ord -> exists k', refines a k' y ord.
  Proof.
    induction 1 as [|k y ord i c y' R IH EO VO TO H]; [exists 0%nat; apply ref_init|].
    destruct IH as (k' & n' & s & ord' & R' & EQ & C & T).
    destruct (ref_step a y n' k' s ord' R' C T i c y' EO VO TO H) as (n2 & s2 & ord2 & R2 & EQ2 & C2 & T2).
    eexists. exists n2, s2, ord2. split; [exact R2|]. split; [intros r; now rewrite EQ2, EQ|]. auto.
  Qed.
End Ref.
