(** Happens-before across suspensions: every execution has the order of one in which a waiting
    body blocks its thread. *)
From Coq Require Import Bool List Arith NArith ZArith Lia Permutation.
From Verif Require Import AccessModel AccessSpec AccessProof UserModel UserProof SchedModel SchedSpec SchedBase SchedInv1 SchedInv2 SchedInv3 SchedInv6 SchedInv8 SchedFront SchedThm SchedLive SchedTerm SchedMany SchedFree PauseModel PauseSpec PauseProof PauseInv PauseThm NestSpec HbModel HbSpec HbBase HbInv HbThm HbRace HbFree HbJoin PauseHb PauseHbProof.
Import ListNotations.
Open Scope Z_scope.

Lemma in_rdy t l : In t l <-> 1 <= zsum (ni t) l.
Proof.
  split.
  - intros H. pose proof (zsum_ge (ni t) l t ltac:(intros x _; unfold ni; pose proof (zb_bound (Nat.eqb x t)); lia) H). rewrite ni_same in *. lia.
  - intros H. destruct (zsum_pos_ex (ni t) l ltac:(lia)) as (x & Hx & L). unfold ni in L. destruct (Nat.eqb_spec x t); [now subst|simpl in L; lia].
Qed.
Lemma all_yf (fr : list frame) gs : (forall h, In h gs -> exists f, h = YF f) -> forall h, In h (map YF fr ++ gs) -> exists f, h = YF f.
Proof. intros H h Hh. apply in_app_or in Hh as [Hh|Hh]; auto. apply in_map_iff in Hh as (f & <- & _). eauto. Qed.
Lemma nth_last {A} (l : list A) x : nth_error (l ++ [x]) (length l) = Some x.
Proof. rewrite nth_error_app2, Nat.sub_diag by lia. reflexivity. Qed.

Lemma ni_oth t x : x <> t -> ni x t = 0.
Proof. intros N. unfold ni. destruct (Nat.eqb_spec t x); [congruence|reflexivity]. Qed.

Section Ref.
  Context (P : prog) (ms : list (list instr)) (W : wf_any P ms) (NW : p_wrap P = false).
  Context (ND : forall t, NoDup (uniq P t)).

  Definition trefines (a : bool) (y : ystate) (tr : list yrec) : Prop :=
    exists n k s ord st phi vth pl, freach P ms n k s ord /\ fhist P ms n s st /\ corr y s /\ tokens a y /\
      placed y s pl /\ traced P y s st tr phi vth pl.

  Section Step.
    Context (a : bool) (y : ystate) (tr : list yrec) (n k : nat) (s : state) (ord : nat -> list nat).
    Context (st : list rec) (phi : nat -> nat) (vth : nat -> option nat) (pl : nat -> place).
    Context (R : freach P ms n k s ord) (FH : fhist P ms n s st) (C : corr y s) (T : tokens a y) (V : placed y s pl) (H : traced P y s st tr phi vth pl).

    Lemma gs_yf i g gs : nth_error (ythr y) i = Some (g :: gs) -> forall h, In h gs -> exists f, h = YF f.
    Proof. intros E. exact (proj1 (tk_shape T _ (nth_error_In _ _ E))). Qed.

    Lemma one_body t j stk g k' stk' g' : nth_error (thr s) j = Some stk -> In g stk -> is_body (Some t) g = 1 ->
      nth_error (thr s) k' = Some stk' -> In g' stk' -> is_body (Some t) g' = 1 -> k' = j.
    Proof.
      intros Ej Hg Hb Ek Hg' Hb'. destruct (Nat.eq_dec k' j) as [|NE]; auto. exfalso.
      assert (I := mreach_Inv P (wff P ms W ord) NW n s (freach_mreach P ms W NW n ND k s ord R)).
      destruct (concat_set_nth (thr s) j stk [] Ej) as (r & P1 & P2).
      assert (A1 : In g' r).
      { apply (Permutation_in _ P2). apply in_concat. exists stk'. split; auto. apply (nth_error_In _ k'). rewrite nth_set_nth.
        destruct (Nat.eqb_spec j k'); congruence. }
      assert (A2 := zsum_ge (is_body (Some t)) r g' ltac:(intros x _; exact (w_nn4 (Some t) x)) A1).
      assert (A3 := zsum_ge (is_body (Some t)) stk g ltac:(intros x _; exact (w_nn4 (Some t) x)) Hg).
      assert (Z : zsum (is_body (Some t)) (frames s) = zsum (is_body (Some t)) stk + zsum (is_body (Some t)) r).
      { unfold frames. now rewrite (zsum_perm _ _ _ P1), zsum_app. }
      destruct (body_facts P s I t) as (B1 & _); lia.
    Qed.

    (** a step of the other machine *)
    Lemma t_base i f gs u1 fr cc : nth_error (ythr y) i = Some (YF f :: gs) -> fstep P (yst y) f = Some (u1, fr) ->
      quiet (away y) f -> yend_ok P y i -> vis y f = true ->
      let y' := mkY u1 (ycont y) (set_nth i (map YF fr ++ gs) (ythr y)) in tokens a y' -> trefines a y' (tr ++ [ymkrec P y i cc y']).
    Proof.
      intros E F Q EO VI y' T'. assert (MR := freach_mreach P ms W NW n ND k s ord R). assert (I := mreach_Inv P (wff P ms W ord) NW n s MR).
      assert (S0 := co_sim y s C).
      destruct (v_real _ _ _ V i _ E) as (j & Pj & Ej); [simpl; discriminate|].
      assert (EG : erase (YF f :: gs) = seen f :: erase gs) by reflexivity.
      destruct (fsim P (away y) s (yst y) f u1 fr S0 Q F) as (s1 & F1 & S1).
      assert (EG1 : erase (map YF fr ++ gs) = map seen fr ++ erase gs) by now rewrite erase_app, erase_yf.
      set (s' := set_thr s1 (set_nth j (erase (map YF fr ++ gs)) (thr s))).
      assert (ST : step P s j cc = Some s') by (unfold step, s'; now rewrite Ej, EG, F1, EG1).
      assert (LG0 : log s = log (yst y)) by exact (sm_log _ _ _ S0). assert (LG1 : log s' = log u1) by exact (sm_log _ _ _ S1).
      assert (END : end_ok P s j).
      { intros q fs Eq c Hp Hs. rewrite Ej, EG in Eq. injection Eq as Eq _. assert (f = FBody (Some q) []) as ->.
        { destruct f; simpl in Eq; try discriminate; auto. destruct e; discriminate. }
        rewrite LG0 in *. exact (EO q gs E c Hp Hs). }
      assert (Hs := seen_frame y s f C (top_in y i _ gs E)).
      exists n, (S k), s', (fun r => ord r ++ enters s j r), (st ++ [mkrec P s j cc s']), (into phi (length st) (length tr)), (into vth (length tr) (Some j)), pl.
      split; [econstructor; eauto|]. split; [econstructor; eauto|]. split; [|split; [exact T'|split]].
      - split.
        + apply (sim_thr (away y) s1 u1 (set_nth j (map seen fr ++ erase gs) (thr s)) (thr u1)) in S1.
          destruct S1 as [A1 A2 A3 A4 A5 A6 A7 A8 A9 A10]. split; auto.
        + unfold s', y'. rewrite EG1. cbn [thr set_thr ythr ycont]. rewrite map_set_nth, EG1.
          apply (thr_step _ _ _ i j (seen f :: erase gs)); auto; [exact (co_thr y s C)|]. now rewrite (erase_nth y i _ E).
      - exact (placed_vis y s pl V i j _ _ u1 s1 E Ej Pj).
      - assert (MK : mkrec P s j cc s' = mkRec j (acq P s (seen f)) (rel P s (seen f)) (firstn (length (log s') - length (log s)) (log s'))) by (unfold mkrec; now rewrite Ej, EG).
        assert (MY : ymkrec P y i cc y' = mkYRec (mkRec i (acq P (yst y) f) (rel P (yst y) f) (firstn (length (log u1) - length (log (yst y))) (log u1))) [] None).
        { unfold ymkrec. rewrite E. cbn [yacq yrel yset]. f_equal. destruct f; simpl in *; auto. destruct o; auto. destruct s0 as [|[] s0]; auto. now rewrite VI. }
        rewrite MK, MY. apply (traced_vis P y s st tr phi vth pl V H i j _ (map YF fr ++ gs) u1 s1 _ _ E Ej Pj); cbn [r_who r_log r_acq r_rel y_rec y_set y_turn]; auto.
        + rewrite EG. discriminate.
        + now rewrite LG0, LG1.
        + rewrite (acq_sim P _ s (yst y) f S0). apply incl_refl.
        + rewrite (rel_sim P _ s (yst y) f S0). apply incl_refl.
        + intros t Ht Hl. rewrite <- LG0 in Hl. apply in_start in Hl. exact (started_rest P ms W NW ND n s k ord t R Hl _ Hs Ht).
        + destruct (log_mono P s s' (step_moves P s j cc s' ST)) as [new L]. rewrite <- LG0, <- LG1, L. apply incl_appr, incl_refl.
        + intros t is m Hc Hh. destruct (plain_top (map YF fr ++ gs) t (all_yf fr gs (gs_yf i _ gs E))) as [X1 X2].
          apply (held_plain _ _ y i _ _ _ _ t m E Hh); cbn [y_set]; auto.
          * rewrite (sum_step wP t y u1 (ycont y) i _ gs (map YF fr) E). destruct (yf_zero t fr) as (_ & _ & Z & _). rewrite Z. simpl. lia.
          * intros Hr. apply in_rdy in Hr. apply in_rdy. destruct (feffect P (away y) (yst y) f u1 fr Q F) as [FE _].
            destruct (FE t) as [_ <-]; auto. apply away_in. eauto.
        + intros t g Hg Hb. rewrite EG1 in Hg. rewrite EG. apply in_app_or in Hg as [Hg|Hg]; [|left; exists g; simpl; auto].
          destruct (body_new P (yst y) f u1 fr t g F Hg Hb) as [X|X]; [left; exists (seen f); simpl; auto|right]. subst f. simpl in Hs.
          intros Hl. rewrite <- LG0 in Hl. apply in_start in Hl. rewrite (HbGlob2.run_unstarted P (wff P ms W ord) NW n s MR t Hs) in Hl. lia.
        + intros l t Hl Hm. destruct (HbStep.causes P (yst y) f u1 fr F) as (l0 & E0 & CA). rewrite LG0, LG1, E0, app_length, Nat.add_sub, firstn_app, Nat.sub_diag, firstn_all in Hl.
          simpl in Hl. rewrite app_nil_r in Hl. assert (CL := CA l Hl).
          assert (BODY : is_body (Some t) (seen f) = 1 -> In (LStart t) (log u1) /\
            ((exists g0, In g0 (erase (YF f :: gs)) /\ is_body (Some t) g0 = 1) \/ ~ In (LStart t) (log (yst y))) /\
            forall k' stk g, nth_error (thr s) k' = Some stk -> In g stk -> is_body (Some t) g = 1 -> k' = j).
          { intros B1. split; [|split].
            - rewrite E0. apply in_or_app. right. rewrite <- LG0. apply in_start. destruct (body_facts P s I t) as (_ & _ & Z & _); [|lia].
              assert (Q1 := in_w s (is_body (Some t)) _ (w_nn4 (Some t)) Hs). lia.
            - left. exists (seen f). simpl. auto.
            - intros k' stk g Hk Hg Hb. refine (one_body t j _ (seen f) k' stk g Ej _ B1 Hk Hg Hb). simpl. auto. }
          assert (BO : forall o is, f = FBody o is -> o = Some t -> is_body (Some t) (seen f) = 1) by (intros o is -> ->; simpl; now rewrite Nat.eqb_refl).
          destruct l; simpl in Hm, CL; try discriminate.
          * destruct CL as (o & is & ->). apply BODY. eapply BO; [reflexivity|].
            destruct (law_suffix P s (i_laws P s I) _ Hs) as (b' & C' & pre' & E'). rewrite <- Hm. symmetry. apply (m_parent P W).
            apply (code_In P (wff P ms W ord) o b'); auto. rewrite E'. apply in_or_app. right. simpl. auto.
          * injection Hm as ->. subst f. simpl in Hs. assert (RU := HbGlob2.run_unstarted P (wff P ms W ord) NW n s MR t Hs). split; [|split].
            -- rewrite E0. apply in_or_app. auto.
            -- right. intros Q1. rewrite <- LG0 in Q1. apply in_start in Q1. lia.
            -- intros k' stk g Hk Hg Hb. exfalso. assert (LB := law_body P s (i_laws P s I) t).
               assert (Hf : In g (frames s)) by (apply in_frames; eauto). assert (Q1 := in_w s (is_body (Some t)) _ (w_nn4 (Some t)) Hf).
               pose proof (f_end P s I t). assert (0 <= zsum (v_end t) (log s)) by (apply zsum_nonneg; intros []; simpl; try lia; unfold ni, zb; destruct (_ =? _)%nat; lia). lia.
          * destruct CL as (is & ->). apply BODY. eapply BO; eauto.
          * injection Hm as ->. apply BODY. eapply BO; eauto.
    Qed.

    (** a step the other machine does not see *)
    Lemma t_same i gs gs' u1 cc : nth_error (ythr y) i = Some gs -> erase gs' = erase gs -> sim (away y) s u1 ->
      let y' := mkY u1 (ycont y) (set_nth i gs' (ythr y)) in let b := ymkrec P y i cc y' in
      tokens a y' -> y_turn b = None ->
      (forall o, In o (y_set b) -> exists t, o = OCtr (EPre t) /\ In (LStart t) (log (yst y))) ->
      (forall t is m, In (t, is) (ycont y) -> held tr y (PSusp t) m -> held (tr ++ [b]) y' (PSusp t) m) ->
      trefines a y' (tr ++ [b]).
    Proof.
      intros E Q SM y' b T' YT YS HP. assert (S0 := co_sim y s C).
      assert (LG : log u1 = log (yst y)) by (rewrite <- (sm_log _ _ _ S0); symmetry; exact (sm_log _ _ _ SM)).
      exists n, k, s, ord, st, phi, (into vth (length tr) None), pl. split; [exact R|]. split; [exact FH|]. split; [|split; [exact T'|split]].
      - split; [exact SM|]. unfold y'. cbn [ythr ycont]. rewrite (same_thr y i gs gs' E Q). exact (co_thr y s C).
      - exact (placed_same y s pl V i gs gs' u1 E Q).
      - apply (traced_inv P y s st tr phi vth pl H y' pl None b); auto.
        + intros j stk p Hj N Hh _. assert (Z := v_stack _ _ _ V j stk Hj N). destruct (pl j) as [i'|t]; [now apply thr_old|].
          destruct Z as (is & Z & _). exact (HP t is p Z Hh).
        + unfold b, ymkrec. rewrite E. unfold y'. cbn [yst]. rewrite LG, Nat.sub_diag. destruct gs; reflexivity.
    Qed.

    (** an idle worker takes something *)
    Lemma t_idle i cc cs u1 s1 fr : nth_error (ythr y) i = Some [] -> istep s cs = Some (s1, fr) -> map seen fr = fr -> sim (away y) s1 u1 ->
      (forall t g, In g fr -> is_body (Some t) g = 1 -> False) -> (forall t, In t (rdy u1) -> In t (rdy (yst y))) ->
      acq_idle s cs = acq_idle (yst y) cc ->
      let y' := mkY u1 (ycont y) (set_nth i (map YF fr) (ythr y)) in tokens a y' -> trefines a y' (tr ++ [ymkrec P y i cc y']).
    Proof.
      intros E F SF SM NB RD AQ y' T'. assert (S0 := co_sim y s C). set (j := length (thr s)).
      assert (EN : nth_error (thr (roomier s)) j = Some []) by (simpl; apply nth_last).
      set (s' := set_thr s1 (set_nth j (erase (map YF fr)) (thr (roomier s)))).
      assert (EF : erase (map YF fr) = fr) by (rewrite erase_yf; exact SF).
      assert (ST : step P (roomier s) j cs = Some s').
      { unfold step. rewrite EN. unfold roomier at 1. rewrite istep_thr, F. unfold s'. now rewrite EF. }
      assert (END : end_ok P (roomier s) j) by (intros q fs Eq; rewrite EN in Eq; discriminate).
      assert (LG0 : log s = log (yst y)) by exact (sm_log _ _ _ S0). assert (LG1 : log s1 = log u1) by exact (sm_log _ _ _ SM).
      assert (H2 := traced_room P y s st tr phi vth pl (PReal i) H). assert (V2 := placed_room y s pl (PReal i) V). fold j in H2, V2.
      exists (S n), (S k), s', (fun r => ord r ++ enters (roomier s) j r), (st ++ [mkrec P (roomier s) j cs s']), (into phi (length st) (length tr)), (into vth (length tr) (Some j)), (into pl j (PReal i)).
      split; [econstructor; eauto using freach_idle|]. split; [econstructor; eauto using fhist_idle|]. split; [|split; [exact T'|split]].
      - split.
        + destruct SM as [A1 A2 A3 A4 A5 A6 A7 A8 A9 A10]. split; auto.
        + unfold s', y'. rewrite EF. cbn [thr set_thr ythr ycont roomier]. rewrite map_set_nth, EF. apply thr_fresh; [exact (co_thr y s C)|]. exact (erase_nth y i _ E).
      - exact (placed_vis y (roomier s) _ V2 i j [] (map YF fr) u1 s1 E EN (into_same _ _ _)).
      - assert (MK : mkrec P (roomier s) j cs s' = mkRec j (acq_idle s cs) [] (firstn (length (log s1) - length (log s)) (log s1))) by (unfold mkrec; now rewrite EN).
        assert (MY : ymkrec P y i cc y' = mkYRec (mkRec i (acq_idle (yst y) cc) [] (firstn (length (log u1) - length (log (yst y))) (log u1))) [] None) by (unfold ymkrec; now rewrite E).
        rewrite MK, MY. apply (traced_vis P y (roomier s) st tr phi vth _ V2 H2 i j [] (map YF fr) u1 s1 _ _ E EN (into_same _ _ _)); cbn [r_who r_log r_acq r_rel y_rec y_set y_turn]; auto.
        + intros _ p Hp. apply (p_dom _ _ _ _ _ _ _ _ H) in Hp. unfold j in Hp. lia.
        + now rewrite LG0, LG1.
        + rewrite AQ. apply incl_refl.
        + apply incl_refl.
        + intros t Ht. exfalso. clear -Ht. destruct cs; simpl in Ht; try destruct (nth_error _ _); simpl in Ht; repeat (destruct Ht as [Ht|Ht]; [discriminate|]); easy.
        + destruct (log_mono P _ s' (step_moves P _ j cs s' ST)) as [new L]. rewrite <- LG0, <- LG1. change (log s1) with (log s'). rewrite L. apply incl_appr, incl_refl.
        + intros t is m Hc Hh. assert (PF : forall h, In h (map YF fr) -> exists f, h = YF f) by (intros h Hh'; apply in_map_iff in Hh' as (f & <- & _); eauto).
          destruct (plain_top (map YF fr) t PF) as [X1 X2].
          apply (held_plain _ _ y i _ _ _ _ t m E Hh); cbn [y_set]; auto.
          rewrite (sum_idle wP t y u1 (ycont y) i (map YF fr) E). destruct (yf_zero t fr) as (_ & _ & Z & _). rewrite Z. lia.
        + intros t g Hg Hb. rewrite EF in Hg. destruct (NB t g Hg Hb).
        + intros l t Hl Hm. exfalso. clear -F Hl Hm. assert (Q : exists x, log s1 = x ++ log s /\ (x = [] \/ exists q e, x = [LFire q e])).
          { cases_i F; simpl; first [exists []; split; [reflexivity|auto]|eexists [_]; split; [reflexivity|eauto]]. }
          destruct Q as (x & Q0 & Q). rewrite Q0, app_length, Nat.add_sub, firstn_app, Nat.sub_diag, firstn_all in Hl. simpl in Hl. rewrite app_nil_r in Hl.
          destruct Q as [->|(q & e & ->)]; [easy|]. destruct Hl as [<-|[]]. discriminate.
    Qed.

    (** what a step about [t] does not change for another task *)
    Lemma held_other b i g gs fr u1 cn t q m : nth_error (ythr y) i = Some (g :: gs) -> q <> t ->
      (forall h, In h (g :: fr) -> (forall x d, pausing h = Some (x, d) -> x = t) /\ forall x, x <> t -> wK x h = 0 /\ wP x h = 0) ->
      incl (y_set b) [OCtr (EPre t)] -> (In q (rdy u1) -> In q (rdy (yst y))) ->
      held tr y (PSusp q) m -> held (tr ++ [b]) (mkY u1 cn (set_nth i (fr ++ gs) (ythr y))) (PSusp q) m.
    Proof.
      intros E Nq Hh YS RD Hq. assert (GS := gs_yf i g gs E).
      assert (TOP : forall h hs, fr ++ gs = h :: hs -> In h fr \/ exists f, h = YF f).
      { intros h hs Q. assert (X : In h (fr ++ gs)) by (rewrite Q; simpl; auto). apply in_app_or in X as [X|X]; auto. }
      apply (held_plain tr b y i _ u1 cn _ q m E Hq); auto.
      - intros X. apply YS in X as [X|[]]. congruence.
      - intros X. apply YS in X as [X|[]]. discriminate.
      - intros h hs d Q Hp. destruct (TOP h hs Q) as [X|[f ->]]; [|discriminate]. apply Nq. apply (proj1 (Hh h (or_intror X)) q d Hp).
      - intros h hs Q Hp. destruct (TOP h hs Q) as [X|[f ->]]; [|discriminate]. destruct (proj2 (Hh h (or_intror X)) q Nq). lia.
      - rewrite (sum_step wP q y u1 cn i g gs fr E). destruct (proj2 (Hh g (or_introl eq_refl)) q Nq) as [_ ->].
        rewrite (zsum_zero (wP q) fr); [lia|]. intros h Hf. apply (Hh h (or_intror Hf)). exact Nq.
    Qed.

    (** a pausing frame moves on *)
    Lemma held_stay b i g gs g' u1 t d m : nth_error (ythr y) i = Some (g :: gs) -> pausing g = Some (t, d) -> pausing g' = Some (t, d) ->
      ~ In (ORdy t) (y_set b) -> rdy u1 = rdy (yst y) ->
      held tr y (PSusp t) m -> held (tr ++ [b]) (mkY u1 (ycont y) (set_nth i ([g'] ++ gs) (ythr y))) (PSusp t) m.
    Proof.
      intros E P1 P2 NS RD Hh. assert (X := proj1 Hh i g gs d E P1).
      assert (W1 : wP t g = 1 /\ wP t g' = 1).
      { clear -P1 P2. destruct g; simpl in P1; try discriminate; destruct g'; simpl in P2; try discriminate; injection P1 as -> ->; injection P2 as -> ->; simpl; rewrite ni_same; auto. }
      assert (SP := sum_in wP t y g ltac:(intros; apply (wts t)) (top_in y i g gs E)).
      apply (held_susp tr b y i _ u1 (ycont y) _ t m E Hh).
      - intros h hs c Q Hp. now apply thr_old.
      - rewrite (sum_step wP t y u1 (ycont y) i g gs [g'] E). simpl. intros. lia.
      - intros h hs Q Hp. simpl in Q. injection Q as <- _. exfalso. clear -P2 Hp. destruct g'; simpl in *; discriminate.
      - intros Hr. rewrite RD in Hr. apply obj_old; auto. apply Hh. exact Hr.
    Qed.

    Lemma own_pause t d g i gs : nth_error (ythr y) i = Some (g :: gs) -> pausing g = Some (t, d) -> In (LStart t) (log (yst y)).
    Proof.
      intros E Hp. destruct (tk_on T g t d (top_in y i g gs E) Hp) as [is Hi].
      assert (I := mreach_Inv P (wff P ms W ord) NW n s (freach_mreach P ms W NW n ND k s ord R)).
      rewrite <- (sm_log _ _ _ (co_sim y s C)). apply in_start. destruct (body_facts P s I t) as (_ & _ & X & _); [|lia].
      eapply body_pos. eapply asleep_frame; eauto.
    Qed.

    (** a body is left *)
    Lemma t_pause i t d is cc : nth_error (ythr y) i = Some [YF (FBody (Some t) (IGet d :: is))] -> ctr (yst y) (ERSet d) <> 0 ->
      away y t = false -> zsum (ni t) (rdy (yst y)) = 0 ->
      let y' := mkY (yst y) ((t, IGet d :: is) :: ycont y) (set_nth i [YStore t d] (ythr y)) in
      corr y' s -> tokens a y' -> trefines a y' (tr ++ [ymkrec P y i cc y']).
    Proof.
      intros E NZ A X2 y' C' T'. set (b := ymkrec P y i cc y').
      destruct (v_real _ _ _ V i _ E) as (j & Pj & Ej); [simpl; discriminate|].
      assert (NC : forall js, ~ In (t, js) (ycont y)) by exact (away_not y t A).
      destruct (tk_free T t A) as (_ & _ & F3 & F4).
      assert (B : b = mkYRec (mkRec i (yacq P y (YF (FBody (Some t) (IGet d :: is)))) (yrel P y (YF (FBody (Some t) (IGet d :: is)))) []) [] (Some (TPause t))).
      { unfold b, ymkrec. rewrite E. unfold y'. cbn [yst]. rewrite Nat.sub_diag. simpl. f_equal. destruct (Z.eqb_spec (ctr (yst y) (ERSet d)) 0); easy. }
      assert (Bw : r_who (y_rec b) = i) by now rewrite B.
      assert (U : forall k0 st0, nth_error (thr s) k0 = Some st0 -> st0 <> [] -> pl k0 = PReal i -> k0 = j) by (intros; eapply (alone_at y s pl V i j); eauto).
      assert (NPJ : forall k' st', nth_error (thr s) k' = Some st' -> st' <> [] -> pl k' = PSusp t -> False).
      { intros k' st' Ek N Hk. assert (X := v_stack _ _ _ V k' st' Ek N). rewrite Hk in X. destruct X as (js & X & _). exact (NC js X). }
      exists n, k, s, ord, st, phi, (into vth (length tr) (Some j)), (into pl j (PSusp t)). split; [exact R|]. split; [exact FH|]. split; [exact C'|split; [exact T'|split]].
      - split; unfold y'; cbn [ycont ythr].
        + intros k' st' Ek N. destruct (Nat.eq_dec k' j) as [->|NE].
          * rewrite into_same. exists (IGet d :: is). split; [left; auto|]. rewrite Ej in Ek. injection Ek as <-. reflexivity.
          * rewrite into_other by auto. assert (X := v_stack _ _ _ V k' st' Ek N). destruct (pl k') as [i'|q] eqn:Q.
            -- destruct X as (hs & X1 & X2'). exists hs. split; auto. rewrite nth_set_nth. destruct (Nat.eqb_spec i i') as [<-|]; auto.
               destruct NE. exact (U k' st' Ek N Q).
            -- destruct X as (js & X1 & X3). exists js. split; auto. right. auto.
        + intros k1 k2 st1 st2 E1 N1 E2 N2 Q. destruct (Nat.eq_dec k1 j) as [->|NE1], (Nat.eq_dec k2 j) as [->|NE2]; auto.
          * rewrite into_same, into_other in Q by auto. symmetry in Q. destruct (NPJ k2 st2 E2 N2 Q).
          * rewrite into_same, into_other in Q by auto. destruct (NPJ k1 st1 E1 N1 Q).
          * rewrite !into_other in Q by auto. eapply (v_inj _ _ _ V); eauto.
        + intros i' hs Ei N. rewrite nth_set_nth, E in Ei. destruct (Nat.eqb_spec i i') as [<-|NI].
          * injection Ei as <-. simpl in N. congruence.
          * destruct (v_real _ _ _ V i' hs Ei N) as (k' & Q1 & Q2). exists k'. split; auto. rewrite into_other; auto. intros ->. congruence.
        + intros q js [Hq|Hq].
          * injection Hq as <- <-. exists j. rewrite into_same. split; auto.
          * destruct (v_susp _ _ _ V q js Hq) as (k' & Q1 & Q2). exists k'. split; auto. rewrite into_other; auto. intros ->. congruence.
      - apply (traced_inv P y s st tr phi vth pl H y' (into pl j (PSusp t)) (Some j) b).
        + intros k' st' Ek N. destruct (Nat.eq_dec k' j) as [->|NE]; [right|left; now rewrite into_other].
          split; auto. intros p Hp. rewrite into_same. split; [|split; [|split]]; unfold y'; cbn [ythr yst].
          * intros i' g gs c Ei Hg. rewrite nth_set_nth, E in Ei. destruct (Nat.eqb_spec i i') as [<-|NI].
            -- rewrite <- Bw. now apply here_thr.
            -- exfalso. assert (Z := sum_in wP t y g ltac:(intros; apply (wts t)) (top_in y i' g gs Ei)).
               enough (wP t g = 1) by lia. clear -Hg. destruct g; simpl in Hg; try discriminate; injection Hg as -> ->; simpl; apply ni_same.
          * assert (SS := sum_step wP t y (yst y) ((t, IGet d :: is) :: ycont y) i _ [] [YStore t d] E). simpl app in SS. rewrite SS. simpl. rewrite ni_same. intros. lia.
          * intros i' g gs Ei Hg. rewrite nth_set_nth, E in Ei. destruct (Nat.eqb_spec i i') as [<-|NI].
            -- injection Ei as <- <-. discriminate.
            -- exfalso. assert (Z := sum_in wK t y g ltac:(intros; apply (wts t)) (top_in y i' g gs Ei)). lia.
          * intros Hr. apply in_rdy in Hr. lia.
        + intros k' st' p Ek N Hh Q. assert (Z := v_stack _ _ _ V k' st' Ek N). rewrite Q. destruct (pl k') as [i'|q]; [now apply thr_old|].
          destruct Z as (js & Z & _). apply (held_other b i _ [] [YStore t d] (yst y) _ t q p E); auto.
          * intros ->. exact (NC js Z).
          * intros h [<-|[<-|[]]]; simpl; (split; [intros x c Hx; try discriminate; congruence|intros x Hx; split; auto; try (now apply ni_oth)]).
          * rewrite B. easy.
        + now rewrite B.
        + reflexivity.
        + rewrite B. easy.
        + split; [|split].
          * eexists. split; [exact Ej|]. split; [simpl; discriminate|]. intros t' Ht. rewrite B in Ht. simpl in Ht. injection Ht as <-.
            split; [|split].
            -- assert (I := mreach_Inv P (wff P ms W ord) NW n s (freach_mreach P ms W NW n ND k s ord R)).
               rewrite <- (sm_log _ _ _ (co_sim y s C)). apply in_start. destruct (body_facts P s I t) as (_ & _ & X & _); [|lia].
               eapply body_pos. apply in_frames. exists j. eexists. split; [exact Ej|]. simpl. auto.
            -- exists (FBody (Some t) (IGet d :: is)). simpl. rewrite Nat.eqb_refl. auto.
            -- intros k' st' g Ek Hg Hb. apply (one_body t j _ (FBody (Some t) (IGet d :: is)) k' st' g Ej); simpl; auto. now rewrite Nat.eqb_refl.
          * intros p Hp. rewrite Pj in Hp. simpl in Hp. apply thr_new. now rewrite Bw.
          * rewrite into_same, Pj. discriminate.
    Qed.

    (** a body is taken up again *)
    Lemma t_back i t is l cc : nth_error (ythr y) i = Some [YBack t] -> grab t (ycont y) = Some (is, l) ->
      let y' := mkY (yst y) l (set_nth i [YF (FBody (Some t) is)] (ythr y)) in
      corr y' s -> tokens a y' -> trefines a y' (tr ++ [ymkrec P y i cc y']).
    Proof.
      intros E G y' C' T'. set (b := ymkrec P y i cc y'). assert (GP := grab_spec _ _ _ _ G).
      assert (ND0 := tk_nodup T). apply (Permutation_NoDup (Permutation_map fst GP)) in ND0. simpl in ND0. apply NoDup_cons_iff in ND0 as [NT _].
      assert (Hi : In (t, is) (ycont y)) by (apply (Permutation_in _ (Permutation_sym GP)); simpl; auto).
      assert (HL : forall q js, In (q, js) l -> In (q, js) (ycont y) /\ q <> t).
      { intros q js Hq. split; [apply (Permutation_in _ (Permutation_sym GP)); simpl; auto|]. intros ->. apply NT. apply in_map_iff. exists (t, js). auto. }
      destruct (v_susp _ _ _ V t is Hi) as (j & Pj & Ej).
      assert (B : b = mkYRec (mkRec i [] [] []) [] (Some (TResume t))).
      { unfold b, ymkrec. rewrite E. unfold y'. cbn [yst]. rewrite Nat.sub_diag. reflexivity. }
      assert (Bw : r_who (y_rec b) = i) by now rewrite B.
      assert (NPI : forall k' st', nth_error (thr s) k' = Some st' -> st' <> [] -> pl k' = PReal i -> False).
      { intros k' st' Ek N Hk. assert (X := v_stack _ _ _ V k' st' Ek N). rewrite Hk in X. destruct X as (hs & X & Y). rewrite E in X. injection X as <-. simpl in Y. congruence. }
      assert (NJ : asleep (t, is) <> []) by discriminate.
      exists n, k, s, ord, st, phi, (into vth (length tr) (Some j)), (into pl j (PReal i)). split; [exact R|]. split; [exact FH|]. split; [exact C'|split; [exact T'|split]].
      - split; unfold y'; cbn [ycont ythr].
        + intros k' st' Ek N. destruct (Nat.eq_dec k' j) as [->|NE].
          * rewrite into_same. exists [YF (FBody (Some t) is)]. split; [now rewrite nth_set_nth, Nat.eqb_refl, E|]. rewrite Ej in Ek. injection Ek as <-. reflexivity.
          * rewrite into_other by auto. assert (X := v_stack _ _ _ V k' st' Ek N). destruct (pl k') as [i'|q] eqn:Q.
            -- destruct X as (hs & X1 & X2'). exists hs. split; auto. rewrite nth_set_nth. destruct (Nat.eqb_spec i i') as [<-|]; auto.
               destruct (NPI k' st' Ek N Q).
            -- destruct X as (js & X1 & X3). exists js. split; auto. apply (Permutation_in _ GP) in X1 as [X1|X1]; auto.
               injection X1 as <- <-. destruct NE. eapply (v_inj _ _ _ V); eauto. congruence.
        + intros k1 k2 st1 st2 E1 N1 E2 N2 Q. destruct (Nat.eq_dec k1 j) as [->|NE1], (Nat.eq_dec k2 j) as [->|NE2]; auto.
          * rewrite into_same, into_other in Q by auto. symmetry in Q. destruct (NPI k2 st2 E2 N2 Q).
          * rewrite into_same, into_other in Q by auto. destruct (NPI k1 st1 E1 N1 Q).
          * rewrite !into_other in Q by auto. eapply (v_inj _ _ _ V); eauto.
        + intros i' hs Ei N. rewrite nth_set_nth, E in Ei. destruct (Nat.eqb_spec i i') as [<-|NI].
          * injection Ei as <-. exists j. rewrite into_same. split; auto.
          * destruct (v_real _ _ _ V i' hs Ei N) as (k' & Q1 & Q2). exists k'. split; auto. rewrite into_other; auto. intros ->. congruence.
        + intros q js Hq. apply HL in Hq as [Hq Nq]. destruct (v_susp _ _ _ V q js Hq) as (k' & Q1 & Q2). exists k'. split; auto. rewrite into_other; auto. intros ->. congruence.
      - apply (traced_inv P y s st tr phi vth pl H y' (into pl j (PReal i)) (Some j) b).
        + intros k' st' Ek N. destruct (Nat.eq_dec k' j) as [->|NE]; [right|left; now rewrite into_other].
          split; auto. intros p Hp. rewrite into_same. simpl. rewrite <- Bw. now apply here_thr.
        + intros k' st' p Ek N Hh Q. assert (Z := v_stack _ _ _ V k' st' Ek N). rewrite Q. destruct (pl k') as [i'|q] eqn:Qk; [now apply thr_old|].
          assert (NE : k' <> j) by (intros ->; rewrite into_same in Q; discriminate).
          destruct Z as (js & Z & _). apply (held_other b i _ [] [YF (FBody (Some t) is)] (yst y) _ t q p E); auto.
          * intros ->. apply NE. eapply (v_inj _ _ _ V); eauto. congruence.
          * intros h [<-|[<-|[]]]; simpl; (split; [intros x c Hx; discriminate|intros x Hx; split; auto; try (now apply ni_oth)]).
          * rewrite B. easy.
        + now rewrite B.
        + reflexivity.
        + rewrite B. easy.
        + split; [|split].
          * eexists. split; [exact Ej|]. split; [discriminate|]. intros t' Ht. rewrite B in Ht. simpl in Ht. injection Ht as <-.
            split; [|split].
            -- assert (I := mreach_Inv P (wff P ms W ord) NW n s (freach_mreach P ms W NW n ND k s ord R)).
               rewrite <- (sm_log _ _ _ (co_sim y s C)). apply in_start. destruct (body_facts P s I t) as (_ & _ & X & _); [|lia].
               eapply body_pos. apply in_frames. exists j. eexists. split; [exact Ej|]. simpl. eauto.
            -- exists (FBody (Some t) is). simpl. rewrite Nat.eqb_refl. auto.
            -- intros k' st' g Ek Hg Hb. apply (one_body t j _ (FBody (Some t) is) k' st' g Ej); simpl; auto. now rewrite Nat.eqb_refl.
          * intros p Hp. rewrite Pj in Hp. destruct Hp as (_ & _ & Hp & _). apply thr_new. rewrite Bw. apply (Hp i (YBack t) [] E). simpl. apply ni_same.
          * rewrite into_same, Pj. discriminate.
    Qed.
    Lemma t_step i c y' : yend_ok P y i -> visit_ok y i -> (a = true -> take_ok y i) -> ystep P y i c = Some y' -> trefines a y' (tr ++ [ymkrec P y i c y']).
    Proof.
      intros EO VO TO HS. assert (I := mreach_Inv P (wff P ms W ord) NW n s (freach_mreach P ms W NW n ND k s ord R)).
      assert (LOG : log s = log (yst y)) by exact (sm_log _ _ _ (co_sim y s C)).
      assert (SR := susp_rest P ms W NW ND y n k s ord R C).
      unfold ystep in HS. destruct (nth_error (ythr y) i) as [[|g gs]|] eqn:E; [| |discriminate].
      - destruct (yistep y c) as [[y1 fr]|] eqn:F; [|discriminate]. injection HS as <-.
        destruct c as [m|m|m].
        + cbn [yistep] in F. destruct (nth_error (rdy (yst y)) m) as [t|] eqn:Em; [|discriminate]. injection F as <- <-.
          assert (T' := tok_ready a y T i m t E Em). destruct (away y t) eqn:A; cbn [yst ycont ycore] in *.
          * set (y' := mkY _ _ _). assert (B : ymkrec P y i (PReady m) y' = mkYRec (mkRec i [ORdy t] [] []) [] None).
            { unfold ymkrec. rewrite E. simpl. now rewrite Em, Nat.sub_diag. }
            apply (t_same i [] [YRes t] _ (PReady m) E eq_refl); auto.
            -- exact (sim_resume _ _ _ m t Em A (co_sim y s C)).
            -- fold y'. now rewrite B.
            -- fold y'. rewrite B. easy.
            -- intros q is p Hc Hh. fold y'. destruct (Nat.eq_dec q t) as [->|Nq].
               ++ apply (held_susp tr _ y i [] _ _ [YRes t] t p E Hh).
                  ** intros g gs d Q. injection Q as <- <-. discriminate.
                  ** assert (SS := sum_idle wP t y (set_rdy (yst y) (remove_nth m (rdy (yst y)))) (ycont y) i [YRes t] E). rewrite SS. simpl. intros Z.
                     apply obj_old; [now rewrite B|]. apply Hh. lia.
                  ** intros g gs Q _. rewrite B. apply (here_thr tr (mkYRec (mkRec i [ORdy t] [] []) [] None) p). right. apply (obj_new tr _ p (ORdy t)); [simpl; auto|].
                     apply Hh. eapply nth_error_In; eauto.
                  ** intros Hr. apply obj_old; [now rewrite B|]. apply Hh. simpl in Hr. clear -Hr. revert m Hr. induction (rdy (yst y)) as [|x l IH]; intros [|m]; simpl; auto. intros [->|Hr]; eauto.
               ++ apply (held_plain tr _ y i [] _ _ [YRes t] q p E Hh); rewrite ?B; auto.
                  ** intros g gs d Q. injection Q as <- <-. discriminate.
                  ** intros g gs Q. injection Q as <- <-. simpl. rewrite ni_oth by auto. discriminate.
                  ** assert (SS := sum_idle wP q y (set_rdy (yst y) (remove_nth m (rdy (yst y)))) (ycont y) i [YRes t] E). rewrite SS. simpl. lia.
                  ** intros Hr. simpl in Hr. clear -Hr. revert m Hr. induction (rdy (yst y)) as [|x l IH]; intros [|m]; simpl; auto. intros [->|Hr]; eauto.
          * destruct (filter_pick (fun t => negb (away y t)) (rdy (yst y)) m t Em) as (m' & M1 & M2); [now rewrite A|].
            assert (RD := sm_rdy _ _ _ (co_sim y s C)). rewrite <- RD in M1, M2.
            apply (t_idle i (PReady m) (PReady m') _ (set_rdy s (remove_nth m' (rdy s))) [FExec t]); auto.
            -- simpl. now rewrite M1.
            -- destruct (co_sim y s C) as [A1 A2 A3 A4 A5 A6 A7 A8 A9 A10]. split; simpl; auto.
            -- intros q g [<-|[]] Hb. discriminate.
            -- intros q Hr. simpl in Hr. clear -Hr. revert m Hr. induction (rdy (yst y)) as [|x l IH]; intros [|m]; simpl; auto. intros [->|Hr]; eauto.
            -- simpl. now rewrite M1, Em.
        + cbn [yistep] in F. destruct (istep (yst y) (PNew m)) as [[u1 fr0]|] eqn:F0; [|discriminate]. injection F as <- <-.
          assert (T' := tok_idle a y T i (PNew m) u1 fr0 E F0 ltac:(discriminate)). cbn [yst ycont ycore].
          assert (F1 := F0). cbn [istep] in F1. destruct (nth_error (emp (yst y)) m) as [t|] eqn:Em; [|discriminate]. injection F1 as <- <-.
          apply (t_idle i (PNew m) (PNew m) _ (set_emp s (remove_nth m (emp s))) [FInitUp t]); auto.
          * simpl. now rewrite (sm_emp _ _ _ (co_sim y s C)), Em.
          * rewrite (sm_emp _ _ _ (co_sim y s C)). apply sim_emp. exact (co_sim y s C).
          * intros q g [<-|[]] Hb. discriminate.
          * simpl. now rewrite (sm_emp _ _ _ (co_sim y s C)).
        + cbn [yistep] in F. destruct (istep (yst y) (PExt m)) as [[u1 fr0]|] eqn:F0; [|discriminate]. injection F as <- <-.
          assert (T' := tok_idle a y T i (PExt m) u1 fr0 E F0 ltac:(discriminate)). cbn [yst ycont ycore].
          assert (F1 := F0). cbn [istep] in F1. destruct (nth_error (ext (yst y)) m) as [[t e]|] eqn:Em; [|discriminate]. injection F1 as <- <-.
          apply (t_idle i (PExt m) (PExt m) _ (add_log (set_ext s (remove_nth m (ext s))) (LFire t e)) [FNotify (EExt t e) NCall]); auto.
          * simpl. now rewrite (sm_ext _ _ _ (co_sim y s C)), Em.
          * rewrite (sm_ext _ _ _ (co_sim y s C)). apply sim_log. apply PauseProof.sim_ext. exact (co_sim y s C).
          * intros q g [<-|[]] Hb. discriminate.
      - destruct (yfstep P y g) as [[y1 fr]|] eqn:F; [|discriminate]. injection HS as <-.
        assert (Hg := top_in y i g gs E).
        destruct g as [f|t d|t d|t d|t d|t d p|t|t v|t|t|t].
        + apply yf_cases in F as [(t & d & is & -> & X & -> & -> & VI)|[(d & t & l & -> & -> & -> & VI)|(u1 & fr0 & F & -> & -> & VI & NV)]].
          * (* suspended *)
            assert (gs = []) as ->.
            { destruct (find y s C i _ gs E) as [j Ej]. assert (SO := proj1 (mreach_stack _ _ _ _ (freach_mreach P ms W NW n ND k s ord R)) j _ Ej).
              destruct SO as [SO _]. assert (Z := SO eq_refl). assert (Sh := tk_shape T _ (nth_error_In _ _ E)). destruct Sh as [Sh _].
              destruct gs as [|h gs]; auto. destruct (Sh h) as [f ->]; [simpl; auto|]. discriminate. }
            assert (Hs := seen_frame y s _ C Hg). simpl seen in Hs. assert (B := body_pos s t _ Hs).
            destruct (body_facts P s I t B) as (B1 & _).
            destruct (resting P (wff P ms W ord) NW n s t (freach_mreach P ms W NW n ND k s ord R) B) as (R1 & R2 & _).
            assert (A : away y t = false).
            { destruct (away y t) eqn:A; auto. exfalso. apply away_in in A as [js Hj].
              rewrite (zsum_perm _ _ _ (co_frames y s C)), zsum_app in B1.
              assert (is_body (Some t) (FBody (Some t) (IGet d :: is)) <= zsum (is_body (Some t)) (erase (yframes y))).
              { apply (zsum_ge (is_body (Some t))); [intros x _; exact (w_nn4 (Some t) x)|]. apply in_flat_map. exists (YF (FBody (Some t) (IGet d :: is))). simpl. auto. }
              assert (is_body (Some t) (FBody (Some t) js) <= zsum (is_body (Some t)) (map (fun p => FBody (Some (fst p)) (snd p)) (ycont y))).
              { apply (zsum_ge (is_body (Some t))); [intros x _; exact (w_nn4 (Some t) x)|]. apply in_map_iff. exists (t, js). auto. }
              simpl in *. rewrite Nat.eqb_refl in *. simpl in *. lia. }
            assert (X1 : ctr (yst y) (EPre t) = 0) by (rewrite <- (sm_ctr _ _ _ (co_sim y s C) (EPre t)); auto).
            assert (X2 : zsum (ni t) (rdy (yst y)) = 0).
            { rewrite (sm_rdy _ _ _ (co_sim y s C)) in R2. apply zsum_zero. intros q Hq. unfold ni. destruct (Nat.eqb_spec q t) as [->|]; auto.
              exfalso. eapply not_rdy; [exact R2|]. apply filter_In. rewrite A. auto. }
            cbn [yst ycont app]. apply (t_pause i t d is c E X A X2); [|exact (tok_pause a y T i t d is E A X1 X2)]. split.
            -- assert (AW : forall q, away (mkY (yst y) ((t, IGet d :: is) :: ycont y) (set_nth i [YStore t d] (ythr y))) q = Nat.eqb t q || away y q) by reflexivity.
               destruct (co_sim y s C) as [A1 A2 A3 A4 A5 A6 A7 A8 A9 A10]. split; auto.
               ++ intros e He. apply A3. destruct e; auto. rewrite AW in He. now apply orb_false_iff in He.
               ++ rewrite A6. apply filter_same. intros q Hq. rewrite AW. destruct (Nat.eqb_spec t q) as [<-|]; auto. destruct (not_rdy _ _ X2 Hq).
            -- cbn [ythr ycont map]. rewrite map_set_nth. destruct (busy_set (map erase (ythr y)) i _ (erase [YStore t d]) (erase_nth y i _ E)) as (r & P1 & P2).
               assert (P0 := co_thr y s C). rewrite P0, P1, P2. simpl. apply Permutation_middle.
          * (* a waiting task is notified *)
            cbn [yst ycont].
            apply (t_same i (YF (FFollow (ERSet d) (EPre t :: l)) :: gs) (YNote t :: YF (FFollow (ERSet d) l) :: gs)); auto; [exact (co_sim y s C)| | | |].
            -- exact (tok_visit a y T i d t l gs E).
            -- unfold ymkrec. now rewrite E.
            -- unfold ymkrec. rewrite E. easy.
            -- intros q is m _ Hh. apply (held_plain tr _ y i _ _ _ _ q m E Hh); auto; try (unfold ymkrec; rewrite E; easy).
               ++ intros g hs e Q. injection Q as <- <-. discriminate.
               ++ intros g hs Q. injection Q as <- <-. discriminate.
               ++ assert (SS := sum_step wP q y (yst y) (ycont y) i _ gs [YNote t; YF (FFollow (ERSet d) l)] E). simpl app in SS. rewrite SS. simpl. lia.
          * cbn [yst ycont ycore].
            assert (NF : forall d x l, f <> FFollow (ERSet d) (x :: l)).
            { intros d x l ->. destruct (tk_follow T d (x :: l) Hg x) as [t ->]; [simpl; auto|]. exact (NV d t l eq_refl). }
            assert (Q := base_quiet P ms W NW ND y n k s ord R C f Hg NF).
            apply (t_base i f gs u1 fr0 c); auto.
            assert (DT : taking f \/ ~ taking f).
            { destruct f; try (right; intros (? & ? & ?); discriminate). destruct e; try (right; intros (? & ? & ?); discriminate).
              destruct (Z.eq_dec st0 0) as [->|m]; [left; red; eauto|right; intros (? & ? & X); congruence]. }
            destruct DT as [(d & kk & ->)|NT].
            -- cbn [fstep] in F. injection F as <- <-. apply (tok_take a y T i d kk gs E); auto.
               assert (Hs := seen_frame y s _ C Hg). destruct (taking_facts P s I (ERSet d) _ Hs) as [T0 _].
               { simpl. rewrite Nat.eqb_refl. reflexivity. }
               unfold taken in *. now rewrite <- LOG.
            -- apply (tok_base a y T P i f gs u1 fr0); auto.
        + assert (OP := own_pause t d _ i gs E eq_refl). cbn [yfstep] in F. injection F as <- <-. cbn [yst ycont ycore]. apply (t_same i (YStore t d :: gs) (YCheck t d :: gs)); auto.
          * apply sim_pre; [|exact (co_sim y s C)]. destruct (tk_on T _ t d Hg eq_refl) as [is Hi]. apply away_in. eauto.
          * exact (tok_store a y T i t d gs E).
          * unfold ymkrec. now rewrite E.
          * unfold ymkrec. rewrite E. simpl. intros o [<-|[]]. eauto.
          * intros q is m _ Hh. destruct (Nat.eq_dec q t) as [->|Nq].
            -- apply (held_stay _ i (YStore t d) gs (YCheck t d) _ t d m E); auto. unfold ymkrec. rewrite E. simpl. intros [Q|[]]. discriminate.
            -- apply (held_other _ i (YStore t d) gs [YCheck t d] _ _ t q m E Nq); auto; [|unfold ymkrec; rewrite E; simpl; apply incl_refl].
               intros h [<-|[<-|[]]]; simpl; (split; [intros x e Hx; congruence|intros x Hx; split; auto; now apply ni_oth]).
        + cbn [yfstep] in F. injection F as <- <-. cbn [yst ycont ycore].
          apply (t_same i (YCheck t d :: gs) ((if ctr (yst y) (ERSet d) =? 0 then YUp t d false else YPush t d) :: gs)); auto.
          * simpl. now destruct (ctr (yst y) (ERSet d) =? 0).
          * exact (co_sim y s C).
          * apply (tok_check a y T i t d gs E). intros Z. rewrite <- (sm_ctr _ _ _ (co_sim y s C) (ERSet d) Logic.I) in Z. unfold taken. rewrite <- LOG.
            pose proof (f_take P s I (ERSet d)). destruct (i_reach P s I (ERSet d)) as [[Z1 Z2]|[Z1 Z2]]; [easy|lia].
          * unfold ymkrec. now rewrite E.
          * unfold ymkrec. rewrite E. easy.
          * intros q is m _ Hh. destruct (Nat.eq_dec q t) as [->|Nq].
            -- apply (held_stay _ i (YCheck t d) gs _ _ t d m E); auto; [now destruct (_ =? 0)|]. unfold ymkrec. rewrite E. easy.
            -- apply (held_other _ i (YCheck t d) gs [_] _ _ t q m E Nq); auto; [|unfold ymkrec; rewrite E; easy].
               intros h [<-|[<-|[]]]; [|destruct (_ =? 0)]; simpl; (split; [intros x e Hx; congruence|intros x Hx; split; auto; now apply ni_oth]).
        + cbn [yfstep] in F. injection F as <- <-. cbn [yst ycont ycore]. apply (t_same i (YPush t d :: gs) (YInc t d :: gs)); auto.
          * apply sim_wait. exact (co_sim y s C).
          * exact (tok_push a y T i t d gs E).
          * unfold ymkrec. now rewrite E.
          * unfold ymkrec. rewrite E. easy.
          * intros q is m _ Hh. destruct (Nat.eq_dec q t) as [->|Nq].
            -- apply (held_stay _ i (YPush t d) gs _ _ t d m E); auto. unfold ymkrec. rewrite E. easy.
            -- apply (held_other _ i (YPush t d) gs [_] _ _ t q m E Nq); auto; [|unfold ymkrec; rewrite E; easy].
               intros h [<-|[<-|[]]]; simpl; (split; [intros x e Hx; congruence|intros x Hx; split; auto; now apply ni_oth]).
        + cbn [yfstep] in F. injection F as <- <-. cbn [yst ycont ycore]. apply (t_same i (YInc t d :: gs) (YUp t d true :: gs)); auto.
          * unfold inc. apply sim_pre; [|exact (co_sim y s C)]. destruct (tk_on T _ t d Hg eq_refl) as [is Hi]. apply away_in. eauto.
          * exact (tok_inc a y T P NW i t d gs E).
          * unfold ymkrec. now rewrite E.
          * unfold ymkrec. rewrite E. easy.
          * intros q is m _ Hh. destruct (Nat.eq_dec q t) as [->|Nq].
            -- apply (held_stay _ i (YInc t d) gs _ _ t d m E); auto. unfold ymkrec. rewrite E. easy.
            -- apply (held_other _ i (YInc t d) gs [_] _ _ t q m E Nq); auto; [|unfold ymkrec; rewrite E; easy].
               intros h [<-|[<-|[]]]; simpl; (split; [intros x e Hx; congruence|intros x Hx; split; auto; now apply ni_oth]).
        + cbn [yfstep] in F. injection F as <- <-. cbn [yst ycont ycore]. apply (t_same i (YUp t d p :: gs) (YNote t :: gs)); auto.
          * unfold inc. apply sim_pre; [|exact (co_sim y s C)]. destruct (tk_on T _ t d Hg eq_refl) as [is Hi]. apply away_in. eauto.
          * exact (tok_up a y T P NW i t d p gs E).
          * unfold ymkrec. now rewrite E.
          * unfold ymkrec. rewrite E. easy.
          * set (b := ymkrec P y i c _). assert (B : r_who (y_rec b) = i /\ r_rel (y_rec b) = [OCtr (EPre t)] /\ y_set b = []) by (unfold b, ymkrec; now rewrite E).
            destruct B as (B1 & B2 & B3).
            intros q is m _ Hh. destruct (Nat.eq_dec q t) as [->|Nq].
            -- assert (X := proj1 Hh i _ gs d E eq_refl). apply (held_susp tr b y i _ _ (ycont y) _ t m E Hh).
               ++ intros h hs e Q. injection Q as <- <-. discriminate.
               ++ intros _. apply here_obj; [|rewrite B2; simpl; auto]. right. apply thr_new. now rewrite B1.
               ++ intros h hs Q. injection Q as <- <-. discriminate.
               ++ intros Hr. apply obj_old; [now rewrite B3|]. apply Hh. exact Hr.
            -- apply (held_other b i _ gs [YNote t] _ _ t q m E Nq); auto; [|rewrite B3; easy].
               intros h [<-|[<-|[]]]; simpl; (split; [intros x e Hx; try discriminate; congruence|intros x Hx; split; auto; try now apply ni_oth]).
        + assert (T' := tok_note a y T P NW i t gs E VO).
          destruct (who_away a y T (YNote t) t wN Hg) as (c0 & is0 & Hi); [auto|simpl; rewrite ni_same; lia|].
          cbn [yfstep] in F. injection F as <- <-. cbn [yst ycont ycore]. cbv zeta in T'. set (v := wrap P (ctr (yst y) (EPre t) - 1)) in *.
          apply (t_same i (YNote t :: gs) (YNote2 t v :: gs)); auto.
          * apply sim_pre; [|exact (co_sim y s C)]. apply away_in. eauto.
          * unfold ymkrec. now rewrite E.
          * unfold ymkrec. rewrite E. easy.
          * set (b := ymkrec P y i c _). assert (B : r_who (y_rec b) = i /\ r_acq (y_rec b) = [OCtr (EPre t)] /\ y_set b = []) by (unfold b, ymkrec; now rewrite E).
            destruct B as (B1 & B2 & B3). assert (PH := tk_susp T' t c0 is0 Hi). cbn [yst] in PH.
            assert (SP : forall x, sum wP x (mkY (set_ctr (yst y) (eupd (ctr (yst y)) (EPre t) v)) (ycont y) (set_nth i (YNote2 t v :: gs) (ythr y))) = sum wP x y).
            { intros x. assert (SS := sum_step wP x y (set_ctr (yst y) (eupd (ctr (yst y)) (EPre t) v)) (ycont y) i _ gs [YNote2 t v] E). simpl app in SS. rewrite SS. simpl. lia. }
            intros q is m _ Hh. destruct (Nat.eq_dec q t) as [->|Nq].
            -- apply (held_susp tr b y i _ _ (ycont y) _ t m E Hh).
               ++ intros h hs e Q. injection Q as <- <-. discriminate.
               ++ rewrite SP. intros Z. apply obj_old; [now rewrite B3|]. apply Hh. exact Z.
               ++ intros h hs Q Hv. injection Q as <- <-. rewrite <- B1. apply here_thr. right. apply (obj_new tr b m (OCtr (EPre t))); [rewrite B2; simpl; auto|].
                  apply Hh. destruct PH as (kk & _ & _ & _ & PW & PH1 & _). simpl app in PW, PH1. rewrite SP in PW, PH1.
                  assert (PK := sum_in wK t (mkY (set_ctr (yst y) (eupd (ctr (yst y)) (EPre t) v)) (ycont y) (set_nth i (YNote2 t v :: gs) (ythr y))) (YNote2 t v) ltac:(intros; apply (wts t))).
                  rewrite Hv in PK. assert (1 <= sum wK t (mkY (set_ctr (yst y) (eupd (ctr (yst y)) (EPre t) v)) (ycont y) (set_nth i (YNote2 t v :: gs) (ythr y)))).
                  { apply PK. apply (top_in _ i _ gs). cbn [ythr]. now rewrite nth_set_nth, Nat.eqb_refl, E. }
                  pose proof (ni_nonneg t (rdy (set_ctr (yst y) (eupd (ctr (yst y)) (EPre t) v)))).
                  destruct (Z.eq_dec (sum wP t y) 1) as [W1|]; [destruct (PH1 W1)|]; lia.
               ++ intros Hr. apply obj_old; [now rewrite B3|]. apply Hh. exact Hr.
            -- apply (held_other b i _ gs [YNote2 t v] _ _ t q m E Nq); auto; [|rewrite B3; easy].
               intros h [<-|[<-|[]]]; simpl; (split; [intros x e Hx; discriminate|intros x Hx; split; auto]).
               destruct (Nat.eqb_spec t x); [congruence|reflexivity].
        + assert (GS := gs_yf i _ gs E). cbn [yfstep] in F. injection F as <- <-. cbn [yst ycont ycore app]. apply (t_same i (YNote2 t v :: gs) gs); auto.
          * destruct (Z.eqb_spec v 1) as [->|]; [|exact (co_sim y s C)]. apply sim_wake; [|exact (co_sim y s C)].
            destruct (who_away a y T (YNote2 t 1) t wK Hg) as (c0 & is & Hi); [auto|simpl; rewrite Nat.eqb_refl; simpl; lia|]. apply away_in. eauto.
          * exact (tok_note2 a y T i t v gs E).
          * unfold ymkrec. now rewrite E.
          * unfold ymkrec. rewrite E. easy.
          * set (b := ymkrec P y i c _). assert (B : r_who (y_rec b) = i /\ r_rel (y_rec b) = (if v =? 1 then [ORdy t] else []) /\ y_set b = []) by (unfold b, ymkrec; now rewrite E).
            destruct B as (B1 & B2 & B3).
            intros q is m _ Hh. destruct (Nat.eq_dec q t) as [->|Nq].
            -- destruct (plain_top gs t GS) as [PT1 PT2]. apply (held_susp tr b y i _ _ (ycont y) gs t m E Hh).
               ++ intros h hs e Q Hp. destruct (PT1 h hs e Q Hp).
               ++ intros Z. apply obj_old; [now rewrite B3|]. apply Hh.
                  assert (SS := sum_step wP t y (if v =? 1 then set_rdy (yst y) (t :: rdy (yst y)) else yst y) (ycont y) i _ gs [] E). simpl app in SS. rewrite Z in SS. simpl in SS. lia.
               ++ intros h hs Q Hp. destruct (PT2 h hs Q Hp).
               ++ destruct (Z.eqb_spec v 1) as [->|Nv].
                  ** intros _. apply here_obj; [|rewrite B2; simpl; auto]. right. apply thr_new. rewrite B1. destruct Hh as (_ & _ & H3 & _). apply (H3 i (YNote2 t 1) gs E). simpl. now rewrite Nat.eqb_refl.
                  ** intros Hr. apply obj_old; [now rewrite B3|]. apply Hh. exact Hr.
            -- apply (held_other b i _ gs [] _ _ t q m E Nq); auto; [|rewrite B3; easy|].
               ++ intros h [<-|[]]; simpl; (split; [intros x e Hx; discriminate|intros x Hx; split; auto]). destruct (Nat.eqb_spec t x); [congruence|reflexivity].
               ++ destruct (v =? 1); auto. intros [->|Hr]; [congruence|exact Hr].
        + cbn [yfstep] in F. injection F as <- <-. cbn [yst ycont ycore]. apply (t_same i (YRes t :: gs) (YBack t :: gs)); auto.
          * apply sim_pre; [|exact (co_sim y s C)]. destruct (who_away a y T (YRes t) t wK Hg) as (c0 & is & Hi); [auto|simpl; rewrite ni_same; lia|]. apply away_in. eauto.
          * exact (tok_res a y T P NW i t gs E).
          * unfold ymkrec. now rewrite E.
          * unfold ymkrec. rewrite E. easy.
          * set (b := ymkrec P y i c _). assert (B3 : y_set b = []) by (unfold b, ymkrec; now rewrite E).
            intros q is m _ Hh. destruct (Nat.eq_dec q t) as [->|Nq].
            -- apply (held_susp tr b y i _ _ (ycont y) _ t m E Hh).
               ++ intros h hs e Q. injection Q as <- <-. discriminate.
               ++ intros Z. apply obj_old; [now rewrite B3|]. apply Hh.
                  assert (SS := sum_step wP t y (set_ctr (yst y) (eupd (ctr (yst y)) (EPre t) (wrap P (ctr (yst y) (EPre t) - 1)))) (ycont y) i _ gs [YBack t] E). simpl app in SS. rewrite Z in SS. simpl in SS. lia.
               ++ intros h hs Q _. apply thr_old. destruct Hh as (_ & _ & H3 & _). apply (H3 i (YRes t) gs E). simpl. apply ni_same.
               ++ intros Hr. apply obj_old; [now rewrite B3|]. apply Hh. exact Hr.
            -- apply (held_other b i _ gs [YBack t] _ _ t q m E Nq); auto; [|rewrite B3; easy].
               intros h [<-|[<-|[]]]; simpl; (split; [intros x e Hx; discriminate|intros x Hx; split; auto; now apply ni_oth]).
        + (* goes on *)
          assert (gs = []) as -> by exact (top_alone a y T i _ gs E eq_refl).
          destruct (who_away a y T (YBack t) t wK Hg) as (c0 & is0 & Hi); [auto|simpl; rewrite ni_same; lia|].
          cbn [yfstep] in F. destruct (grab_in t (ycont y) _ Hi) as (is & l & G). rewrite G in F. injection F as <- <-. cbn [yst ycont app].
          destruct (tok_back a y T i t is l E G) as (X1 & X2 & T'). destruct (SR t _ Hi) as (R1 & R2 & _).
          assert (GP := grab_spec _ _ _ _ G). apply (t_back i t is l c E G); [|exact T'].
          set (y' := mkY (yst y) l (set_nth i [YF (FBody (Some t) is)] (ythr y))) in *.
          assert (AW : forall q, q <> t -> away y' q = away y q).
          { intros q m. apply eq_true_iff_eq. rewrite !away_in. split; intros [js Hj]; exists js.
            - apply (Permutation_in _ (Permutation_sym GP)). simpl. auto.
            - apply (Permutation_in _ GP) in Hj as [Hj|Hj]; auto. congruence. }
          split.
          * destruct (co_sim y s C) as [A1 A2 A3 A4 A5 A6 A7 A8 A9 A10]. split; auto.
            -- intros e He. destruct e; try (apply A3; exact Logic.I). destruct (Nat.eq_dec t0 t) as [->|m].
               ++ simpl yst. congruence.
               ++ apply A3. now rewrite <- (AW t0 m).
            -- rewrite A6. apply filter_same. intros q Hq. destruct (Nat.eq_dec q t) as [->|m]; [destruct (not_rdy _ _ X2 Hq)|]. now rewrite AW.
          * cbn [ythr ycont y']. rewrite map_set_nth. destruct (busy_set (map erase (ythr y)) i _ (erase [YF (FBody (Some t) is)]) (erase_nth y i _ E)) as (r & P1 & P2).
            rewrite (co_thr y s C), P1, P2. rewrite (Permutation_map asleep GP). simpl. symmetry. apply Permutation_middle.
        + destruct (tk_twice T t Hg).
    Qed.
  End Step.
  Lemma t_init a n : trefines a (yinit P ms n) [].
  Proof.
    destruct (ref_init P ms a n) as (n' & s' & ord' & FR & _ & _ & T).
    assert (TH : map erase (ythr (yinit P ms n)) = thr (init_many P ms n)).
    { unfold yinit, init_many. simpl. rewrite map_app, map_map, (map_repeat_nil n). reflexivity. }
    exists n, 0%nat, (init_many P ms n), (fun _ => []), [], (fun m => m), (fun _ => None), PReal.
    split; [constructor|]. split; [constructor|]. split; [|split; [exact T|split]].
    - split.
      + unfold init_many, yinit. split; simpl; auto; try now intros [].
      + cbn [ycont yinit map]. now rewrite TH, app_nil_r.
    - split.
      + intros j stk Hj _. rewrite <- TH, nth_error_map in Hj. destruct (nth_error _ j) as [gs|]; [|discriminate]. injection Hj as <-. eauto.
      + intros j k st st' _ _ _ _ Q. congruence.
      + intros i gs Hi _. exists i. split; auto. now rewrite <- TH, nth_error_map, Hi.
      + easy.
    - split; try easy.
      + intros [|m] b0; discriminate.
      + intros [|m] b0; discriminate.
      + intros [|m] ? ? ? ?; discriminate.
      + intros [|m] ? ?; discriminate.
      + intros [|m] t j stk g [(b0 & x & Q & _)|(l & (b0 & Q & _) & _)]; discriminate.
      + intros [|m] t [(b0 & x & Q & _)|(l & (b0 & Q & _) & _)]; discriminate.
  Qed.

  Theorem pause_traced n a y tr : yhist P ms n a y tr -> trefines a y tr.
  Proof.
    induction 1 as [|y tr i c y' R IH EO VO TO H]; [apply t_init|].
    destruct IH as (n' & k & s & ord & st & phi & vth & pl & FR & FH & C & T & V & TR).
    exact (t_step a y tr n' k s ord st phi vth pl FR FH C T V TR i c y' EO VO TO H).
  Qed.

  (** ** What follows for the history *)
  Section Use.
    Context (n : nat) (a : bool) (y : ystate) (tr : list yrec) (YH : yhist P ms n a y tr).
    Notation FF := (fun ord : nat -> list nat => mkFront ms (fun r => rk_of (ord r))).

    Lemma pause_hb : exists n' k s ord st phi, freach P ms n' k s ord /\ fhist P ms n' s st /\
      (forall p l, ydoes tr p l -> exists m, does st m l /\ phi m = p) /\
      (forall m l, does st m l -> ydoes tr (phi m) l) /\
      (forall m k, hb st m k -> yhb tr (phi m) (phi k)) /\
      (forall m k l l', does st m l -> does st k l' -> (m < k)%nat -> (phi m < phi k)%nat).
    Proof.
      destruct (pause_traced n a y tr YH) as (n' & k & s & ord & st & phi & vth & pl & FR & FH & C & T & V & TR).
      exists n', k, s, ord, st, phi. split; [exact FR|]. split; [exact FH|]. split; [|split; [|split]].
      - intros p l (b & Eb & Hl). destruct (p_onto _ _ _ _ _ _ _ _ TR p b Eb) as (m & Lm & <-); [intros X; rewrite X in Hl; easy|].
        exists m. split; auto. destruct (nth_error st m) as [r|] eqn:Em; [|apply nth_error_None in Em; lia].
        destruct (p_in _ _ _ _ _ _ _ _ TR m r Em) as (b' & Eb' & LG & _). rewrite Eb in Eb'. injection Eb' as <-. exists r. split; auto. now rewrite <- LG.
      - intros m l (r & Em & Hl). destruct (p_in _ _ _ _ _ _ _ _ TR m r Em) as (b & Eb & LG & _). exists b. split; auto. now rewrite LG.
      - exact (traced_hb P y s st tr phi vth pl TR).
      - intros m q l l' _ (r & Eq & _) L. apply (p_mono _ _ _ _ _ _ _ _ TR); auto. apply nth_error_Some. congruence.
    Qed.

    Lemma body_yhb p q t : of_body P tr p t -> of_body P tr q t -> (p < q)%nat -> yhb tr p q.
    Proof.
      intros Hp Hq L. destruct (pause_traced n a y tr YH) as (n' & k & s & ord & st & phi & vth & pl & FR & FH & C & T & V & TR).
      destruct (p_turned _ _ _ _ _ _ _ _ TR p t Hp) as (_ & j & Hj). apply (p_po _ _ _ _ _ _ _ _ TR p q j); auto.
      rewrite <- Hj. symmetry. eapply (p_turns _ _ _ _ _ _ _ _ TR); eauto.
    Qed.

    Lemma order_yhb p t d e m k l1 l2 : comes_before P ms p t -> tasks_conflict P p t -> within P p d -> within P t e ->
      ydoes tr m l1 -> made_by P l1 = Some d -> ydoes tr k l2 -> made_by P l2 = Some e -> yhb tr m k.
    Proof.
      intros B C Wd We D1 A1 D2 A2. destruct pause_hb as (n' & k' & s & ord & st & phi & FR & FH & BK & FT & HB & MO).
      destruct (BK m l1 D1) as (m' & E1 & <-). destruct (BK k l2 D2) as (k2 & E2 & <-). apply HB.
      exact (free_threads_hb P ms W NW n' ND s st p t d e m' k2 l1 l2 FH B C Wd We E1 A1 E2 A2).
    Qed.

    Lemma race_yhb u t m k x b : behaved P -> children_covered P -> inner_private P -> keeps_clear P ->
      ydoes tr m (LAct (Some u) b) -> ydoes tr k (LAct (Some t) x) -> acts_conflict b x -> m = k \/ yhb tr m k \/ yhb tr k m.
    Proof.
      intros BH CC IP KC D1 D2 C. destruct pause_hb as (n' & k' & s & ord & st & phi & FR & FH & BK & FT & HB & MO).
      destruct (BK m _ D1) as (m' & E1 & <-). destruct (BK k _ D2) as (k2 & E2 & <-).
      destruct (fhist_front P ms W NW n' ND s st FH) as (j & ord' & FR' & HR).
      destruct (no_race_clear P (wff P ms W ord') NW n' s st HR BH CC IP KC u t m' k2 x b E1 E2 C) as [->|[Q|Q]]; auto.
    Qed.

    Lemma get_yhb c m k l : ydoes tr k (LGet c) -> ydoes tr m l -> made_by P l = Some c -> yhb tr m k.
    Proof.
      intros D1 D2 A. destruct pause_hb as (n' & k' & s & ord & st & phi & FR & FH & BK & FT & HB & MO).
      destruct (BK k _ D1) as (k2 & E1 & <-). destruct (BK m _ D2) as (m' & E2 & <-).
      destruct (fhist_front P ms W NW n' ND s st FH) as (j & ord' & FR' & HR). apply HB.
      exact (get_hb P (wff P ms W ord') NW n' s st HR c m' k2 l E1 E2 A).
    Qed.

    Lemma barrier_yhb p d i m k l : ydoes tr k LBarrier -> ydoes tr i (LSpawn p) -> (i < k)%nat -> parent P p = None ->
      within P p d -> ydoes tr m l -> made_by P l = Some d -> yhb tr m k.
    Proof.
      intros D1 D2 L Pp Wd D3 A. destruct pause_hb as (n' & k' & s & ord & st & phi & FR & FH & BK & FT & HB & MO).
      destruct (BK k _ D1) as (k2 & E1 & <-). destruct (BK i _ D2) as (i2 & E2 & <-). destruct (BK m _ D3) as (m2 & E3 & <-).
      destruct (fhist_front P ms W NW n' ND s st FH) as (j & ord' & FR' & HR). apply HB.
      apply (barrier_hb P (wff P ms W ord') NW n' s st HR p d i2 m2 k2 l); auto.
      destruct (lt_eq_lt_dec i2 k2) as [[Q|Q]|Q]; auto; [subst; lia|]. assert (X := MO k2 i2 _ _ E1 E2 Q). lia.
    Qed.

    Lemma submit_yhb c t i k l : ydoes tr i (LSpawn c) -> within P c t -> ydoes tr k l -> made_by P l = Some t -> yhb tr i k.
    Proof.
      intros D1 Wd D2 A. destruct pause_hb as (n' & k' & s & ord & st & phi & FR & FH & BK & FT & HB & MO).
      destruct (BK i _ D1) as (i2 & E1 & <-). destruct (BK k _ D2) as (k2 & E2 & <-).
      destruct (fhist_front P ms W NW n' ND s st FH) as (j & ord' & FR' & HR). apply HB. destruct E1 as (r & Er & Hr).
      exact (submit_hb P (wff P ms W ord') NW n' s st HR c t i2 i2 k2 r r l Er Er eq_refl (le_n _) Hr Wd E2 A).
    Qed.

    Lemma free_yhb t k : ydoes tr k (LFree t) ->
      (forall d m l, within P t d -> ydoes tr m l -> made_by P l = Some d -> yhb tr m k) /\
      (forall m, ydoes tr m (LGet t) \/ ydoes tr m (LDrop t) -> yhb tr m k).
    Proof.
      intros D1. destruct pause_hb as (n' & k' & s & ord & st & phi & FR & FH & BK & FT & HB & MO).
      destruct (BK k _ D1) as (k2 & E1 & <-). destruct (fhist_front P ms W NW n' ND s st FH) as (j & ord' & FR' & HR). split.
      - intros d m l Wd D2 A. destruct (BK m _ D2) as (m2 & E2 & <-). apply HB.
        exact (free_hb P (wff P ms W ord') NW n' s st HR t d m2 k2 l E1 Wd E2 A).
      - intros m [D2|D2]; destruct (BK m _ D2) as (m2 & E2 & <-); apply HB; [eapply (free_use_hb P (wff P ms W ord') NW n' s st HR t m2 k2 (LGet t) E1)|eapply (free_use_hb P (wff P ms W ord') NW n' s st HR t m2 k2 (LDrop t) E1)]; auto.
    Qed.
  End Use.
End Ref.
