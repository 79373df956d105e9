(** Task bodies that wait for a future: nothing blocks for ever. *)
From Coq Require Import Bool List Arith NArith ZArith Lia Permutation Sorting.Sorted.
From Verif Require Import AccessModel AccessSpec AccessProof UserModel UserProof SchedModel SchedSpec SchedBase SchedInv1 SchedInv2 SchedInv3 SchedInv8 SchedFront SchedThm SchedLive SchedTerm SchedMany SchedFree PauseModel PauseSpec PauseProof PauseInv PauseThm.
Import ListNotations.
Open Scope Z_scope.

Lemma ystep_length P y i c y' : ystep P y i c = Some y' -> length (ythr y') = length (ythr y).
Proof.
  unfold ystep. destruct (nth_error (ythr y) i) as [[|g gs]|]; [| |discriminate].
  - destruct (yistep y c) as [[y1 fr]|]; [|discriminate]. intros H. injection H as <-. apply set_nth_length.
  - destruct (yfstep P y g) as [[y1 fr]|]; [|discriminate]. intros H. injection H as <-. apply set_nth_length.
Qed.
Lemma yreach_length P ms n a k y ord : yreach P ms n a k y ord -> length (ythr y) = (length ms + n)%nat.
Proof.
  induction 1 as [|k y ord i c y' R IH _ _ _ H].
  - unfold yinit. simpl. now rewrite app_length, map_length, repeat_length.
  - rewrite (ystep_length P y i c y' H). exact IH.
Qed.

Section Live.
  Context (P : prog) (ms : list (list instr)) (W : wf_many P ms) (NW : p_wrap P = false).
  Context (ND : forall t, NoDup (uniq P t)).

  Section Stuck.
    Context (y : ystate) (n k : nat) (s : state) (ord : nat -> list nat) (m : nat).
    Context (R : freach P ms n k s ord) (C : corr y s) (T : tokens true y) (K : ystuck P y).
    Context (LEN : length (ythr y) = (length ms + m)%nat) (Hm : (1 <= m)%nat).

    (** what is on top *)
    Lemma top_yf i g gs : nth_error (ythr y) i = Some (g :: gs) -> exists f, g = YF f.
    Proof.
      intros E. assert (Sh := tk_shape T).
      assert (ONLY : forall h, (exists t c, h = YUp t c true) -> In h (yframes y) -> exists j, nth_error (ythr y) j = Some [h]).
      { intros h (t & c & ->) Hh. unfold yframes in Hh. apply in_concat in Hh as (st & Hs & Hh). assert (S0 := Sh st Hs).
        destruct st as [|h0 st]; [easy|]. destruct S0 as [S1 S2]. destruct Hh as [->|Hh].
        - rewrite (S2 eq_refl) in Hs. now apply In_nth_error.
        - destruct (S1 _ Hh) as [f X]. discriminate. }
      assert (NOUP : forall t c, ~ In (YUp t c true) (yframes y)).
      { intros t c Hu. destruct (ONLY (YUp t c true)) as [j Ej]; eauto.
        assert (V : visit_ok y j) by (intros q hs Eq; rewrite Ej in Eq; discriminate).
        assert (A : take_ok y j) by (intros q kk hs Eq; rewrite Ej in Eq; discriminate).
        specialize (K j (PNew 0) V A). unfold ystep in K. rewrite Ej in K. discriminate. }
      assert (V : visit_ok y i) by (intros q hs Eq c; apply NOUP).
      destruct g as [f|t d|t d|t d|t d|t d p|t|t st|t|t|t]; [eauto| | | | | | | | | |]; exfalso.
      10: { exact (tk_twice T t (top_in y i _ gs E)). }
      all: assert (A : take_ok y i) by (intros q kk hs Eq; rewrite E in Eq; discriminate).
      all: specialize (K i (PNew 0) V A); unfold ystep in K; rewrite E in K; cbn [yfstep] in K.
      all: try discriminate. destruct (grab t (ycont y)) as [[? ?]|]; discriminate.
    Qed.

    Lemma all_yf g : In g (yframes y) -> exists f, g = YF f.
    Proof.
      intros H. unfold yframes in H. apply in_concat in H as (st & Hs & H). assert (S0 := tk_shape T st Hs).
      destruct st as [|h st]; [easy|]. destruct H as [->|H]; [|exact (proj1 S0 g H)].
      apply In_nth_error in Hs as [i E]. exact (top_yf i g st E).
    Qed.

    Lemma top_stuck i f gs : nth_error (ythr y) i = Some (YF f :: gs) -> fstep P (yst y) f = None /\ (forall t c is, f <> FBody (Some t) (IGet c :: is)).
    Proof.
      intros E.
      assert (V : visit_ok y i) by (intros q hs Eq c Hu; apply all_yf in Hu as [f' X]; discriminate).
      assert (A : take_ok y i) by (intros q kk hs Eq t Hu; apply all_yf in Hu as [f' X]; discriminate).
      assert (KK := K i (PNew 0) V A). unfold ystep in KK. rewrite E in KK.
      assert (NG : forall t c is, f <> FBody (Some t) (IGet c :: is)).
      { intros t c is ->. cbn [yfstep] in KK. destruct (ctr (yst y) (ERSet c) =? 0); discriminate. }
      split; auto. destruct (fstep P (yst y) f) as [[u1 fr]|] eqn:F; auto. exfalso.
      destruct f; try (cbn [yfstep] in KK; rewrite F in KK; discriminate).
      - destruct o as [t|]; [|cbn [yfstep] in KK; rewrite F in KK; discriminate].
        destruct s0 as [|[] is]; try (cbn [yfstep] in KK; rewrite F in KK; discriminate). exact (NG t c is eq_refl).
      - destruct e; try (cbn [yfstep] in KK; rewrite F in KK; discriminate).
        destruct l as [|x l]; [cbn [yfstep] in KK; rewrite F in KK; discriminate|].
        destruct x; cbn [yfstep] in KK; try rewrite F in KK; discriminate.
    Qed.

    Let I := mreach_Inv P (wff P ms W ord) NW n s (freach_mreach P ms W NW n ND k s ord R).
    Let SIM := co_sim y s C.

    Lemma y_unlocked r : lck (yst y) r = false.
    Proof.
      destruct (lck (yst y) r) eqn:L; auto. exfalso. rewrite <- (sm_lck _ _ _ SIM) in L.
      assert (H := i_lock P s I r). rewrite L in H. simpl in H.
      assert (H' : 0 < zsum (w_holds r) (frames s)) by lia.
      apply zsum_pos_ex in H' as (f & Hf & H').
      assert (H1 : w_holds r f = 1).
      { destruct f; simpl in *; try lia; unfold ni in *; destruct (Nat.eqb _ _); simpl in *; lia. }
      apply (Permutation_in _ (co_frames y s C)) in Hf. apply in_app_or in Hf as [Hf|Hf].
      2:{ apply in_map_iff in Hf as (p & <- & _). simpl in H1. lia. }
      apply in_flat_map in Hf as (g & Hg & Hf). destruct (all_yf g Hg) as [f0 ->]. simpl in Hf. destruct Hf as [Hf|[]].
      assert (f0 = f) as -> by (destruct f0; simpl in Hf; try congruence; destruct e; subst f; simpl in H1; try lia).
      unfold yframes in Hg. apply in_concat in Hg as (st & Hs & Hg). apply In_nth_error in Hs as [i E].
      destruct st as [|h gs]; [easy|]. destruct (top_yf i h gs E) as [f1 ->].
      destruct Hg as [Hg|Hg].
      - injection Hg as ->. apply (holder_moves P (yst y) f r H1). exact (proj1 (top_stuck i f gs E)).
      - destruct (find y s C i f1 gs E) as [j Ej].
        assert (SO := proj1 (mreach_stack _ _ _ _ (freach_mreach P ms W NW n ND k s ord R)) j _ Ej). destruct SO as (_ & UN & _).
        assert (X : In f (erase gs)). { apply in_flat_map. exists (YF f). split; auto. simpl. rewrite Hf. auto. }
        apply UN in X. destruct f; simpl in *; try lia; discriminate.
    Qed.

    Lemma y_frames g : In g (yframes y) -> exists is, g = YF (FBody None is) /\ waits (yst y) is.
    Proof.
      intros H. unfold yframes in H. apply in_concat in H as (st & Hs & H). apply In_nth_error in Hs as [i E].
      destruct st as [|h gs]; [easy|]. destruct (top_yf i h gs E) as [f ->].
      destruct (top_stuck i f gs E) as [B NG].
      assert (Hf := seen_frame y s f C (top_in y i _ gs E)).
      destruct (find y s C i f gs E) as [j Ej].
      assert (SO := proj1 (mreach_stack _ _ _ _ (freach_mreach P ms W NW n ND k s ord R)) j _ Ej). destruct SO as (S1 & _).
      assert (SF := law_suffix P s (i_laws P s I) _ Hf).
      assert (ONE : solo (seen f) = true -> gs = []).
      { intros So. assert (X := S1 So). destruct gs as [|h gs]; auto. destruct (all_yf h) as [f' ->].
        - unfold yframes. apply in_concat. exists (YF f :: h :: gs). split; [eapply nth_error_In; eauto|simpl; auto].
        - discriminate. }
      unfold waits.
      destruct (unblocked P (yst y) f B) as [[r Hr]|[->|[(o & is & -> & Ht)|(o & c & is & -> & Hc)]]].
      - rewrite y_unlocked in Hr. discriminate.
      - rewrite (ONE eq_refl) in H. destruct H as [<-|[]]. eauto.
      - rewrite (ONE eq_refl) in H. destruct H as [<-|[]]. destruct o as [q|].
        + exfalso. apply (piece_In P (wff P ms W ord)) in SF. now apply (m_no_barrier P W) in SF.
        + eauto 10.
      - rewrite (ONE eq_refl) in H. destruct H as [<-|[]]. destruct o as [q|]; [destruct (NG q c is eq_refl)|]. eauto 10.
    Qed.

    Lemma y_idle c : yistep y c = None.
    Proof.
      assert (ONE : forall st, In st (ythr y) -> (length st <= 1)%nat).
      { intros st Hs. destruct st as [|g [|h st]]; simpl; try lia. exfalso.
        apply In_nth_error in Hs as [i E]. destruct (top_yf i g _ E) as [f ->].
        destruct (find y s C i f (h :: st) E) as [j Ej].
        assert (SO := proj1 (mreach_stack _ _ _ _ (freach_mreach P ms W NW n ND k s ord R)) j _ Ej). destruct SO as (S1 & _).
        destruct (y_frames (YF f)) as (is & X & _); [eapply top_in; eauto|]. injection X as ->.
        assert (Z := S1 eq_refl). destruct (y_frames h) as (is' & -> & _); [|discriminate].
        unfold yframes. apply in_concat. exists (YF (FBody None is) :: h :: st). split; [eapply nth_error_In; eauto|simpl; auto]. }
      assert (CNT : length (yframes y) = length ms).
      { assert (MAIN := law_main P s (i_laws P s I)). simpl in MAIN.
        rewrite (zsum_perm _ _ _ (co_frames y s C)), zsum_app in MAIN.
        rewrite (zsum_zero (is_body None) (map _ _)) in MAIN by (intros f Hf; apply in_map_iff in Hf as (p & <- & _); reflexivity).
        assert (Q : Z.of_nat (length (yframes y)) = zsum (is_body None) (erase (yframes y))).
        { assert (ALL := y_frames). clear -ALL. induction (yframes y) as [|g l IH]; [reflexivity|].
          destruct (ALL g) as (is & -> & _); [now left|]. cbn [length erase flat_map erase1 seen app zsum is_body]. 
          specialize (IH (fun g H => ALL g (or_intror H))). unfold erase in IH. simpl onat_eqb. simpl zb. lia. }
        lia. }
      assert (IDLE : exists j, nth_error (ythr y) j = Some []).
      { assert (DEC : In [] (ythr y) \/ ~ In [] (ythr y)).
        { clear. induction (ythr y) as [|[|f st] l [IH|IH]]; simpl; auto. right. intros [H|H]; [discriminate|auto]. }
        destruct DEC as [i|N].
        - apply In_nth_error in i. exact i.
        - exfalso. assert (Q : forall l : list (list yframe), ~ In [] l -> (length l <= length (concat l))%nat).
          { clear. induction l as [|st l IH]; intros N; simpl; [lia|]. rewrite app_length.
            assert (length l <= length (concat l))%nat by (apply IH; intros H; apply N; now right).
            destruct st; [destruct N; now left|]. simpl. lia. }
          specialize (Q _ N). fold (yframes y) in Q. lia. }
      destruct IDLE as [j Ej].
      assert (V : visit_ok y j) by (intros q hs Eq; rewrite Ej in Eq; discriminate).
      assert (A : take_ok y j) by (intros q kk hs Eq; rewrite Ej in Eq; discriminate).
      specialize (K j c V A). unfold ystep in K. rewrite Ej in K. destruct (yistep y c) as [[? ?]|]; easy.
    Qed.

    Lemma y_calm : calm s.
    Proof.
      assert (RD : rdy (yst y) = []).
      { assert (KI := y_idle (PReady 0)). cbn [yistep] in KI. destruct (rdy (yst y)); simpl in KI; easy. }
      assert (Z0 : forall w t, (forall is, w t (YF (FBody None is)) = 0) -> sum w t y = 0).
      { intros w t H. apply zsum_zero. intros g Hg. apply y_frames in Hg as (is & -> & _). auto. }
      assert (TS : forall e, w_taking e = w_taking e -> zsum (w_taking e) (frames s) = 0).
      { intros e _. apply zsum_zero. intros f Hf. apply (Permutation_in _ (co_frames y s C)) in Hf. apply in_app_or in Hf as [Hf|Hf].
        - apply in_flat_map in Hf as (g & Hg & Hf). apply y_frames in Hg as (is & -> & _). destruct Hf as [<-|[]]. reflexivity.
        - apply in_map_iff in Hf as (p & <- & _). reflexivity. }
      split.
      - intros f Hf. apply (Permutation_in _ (co_frames y s C)) in Hf. apply in_app_or in Hf as [Hf|Hf].
        + left. apply in_flat_map in Hf as (g & Hg & Hf). apply y_frames in Hg as (is & -> & _). destruct Hf as [<-|[]]. exists is. reflexivity.
        + right. apply in_map_iff in Hf as ([t is0] & <- & Hp). destruct (tk_get T t is0 Hp) as (c & is & ->).
          exists t, c, is. split; [reflexivity|]. intros Z.
          destruct (tk_susp T t c is Hp) as (kk & K1 & K2 & K3 & K4 & K5 & K6).
          rewrite (Z0 wE), (Z0 wN), (Z0 wK), RD in K6 by reflexivity. rewrite (Z0 wP) in K6 by reflexivity. specialize (K2 eq_refl).
          destruct (K6 eq_refl) as [[_ X]|[X _]]; [simpl in X; lia|]. unfold pd in X.
          destruct (Z.eqb_spec (taken (yst y) (ERSet c)) 0) as [e|ne]; [|lia].
          assert (LT := law_take P s (i_laws P s I) (ERSet c)). rewrite (TS (ERSet c) eq_refl) in LT.
          unfold taken in e. rewrite <- (sm_log _ _ _ SIM) in e.
          destruct (i_reach P s I (ERSet c)) as [[Z1 Z2]|[Z1 Z2]]; lia.
      - rewrite (sm_emp _ _ _ SIM). assert (KI := y_idle (PNew 0)). cbn [yistep istep] in KI. destruct (emp (yst y)); simpl in KI; easy.
      - rewrite (sm_rdy _ _ _ SIM), RD. reflexivity.
      - rewrite (sm_ext _ _ _ SIM). assert (KI := y_idle (PExt 0)). cbn [yistep istep] in KI. destruct (ext (yst y)) as [|[? ?] ?]; simpl in KI; easy.
    Qed.
  End Stuck.

  (** no deadlock if the orders of entry in the lists agree *)
  Theorem pause_progress n k y ord f : (1 <= n)%nat -> yreach P ms n true k y ord ->
    agree P f ord -> ystuck P y ->
    (forall t, submitted (yst y) t -> completed (yst y) t /\ (In (LGet t) (log (yst y)) \/ In (LDrop t) (log (yst y)) -> In (LFree t) (log (yst y))))
    /\ (forall t e, In (LEvent t e) (log (yst y)) -> In (LFire t e) (log (yst y)))
    /\ ycont y = []
    /\ forall g, In g (yframes y) -> exists is, g = YF (FBody None is) /\
       (is = [] \/ exists is' t, is = IBarrier :: is' /\ submitted (yst y) t /\ parent P t = None /\
                              ~ (In (LGet t) (log (yst y)) \/ In (LDrop t) (log (yst y)))).
  Proof.
    intros N YR SS K. destruct (pause_refines P ms W NW ND n true k y ord YR) as (k' & n' & s & ord' & R & EQ & C & T).
    assert (LEN := yreach_length P ms n true k y ord YR).
    assert (CALM := y_calm y n' k' s ord' n R C T K LEN N).
    assert (YFR := y_frames y n' k' s ord' n R C T K LEN N).
    assert (O := freach_entry P ms W NW n' ND k' s ord' R). assert (MR := freach_mreach P ms W NW n' ND k' s ord' R).
    assert (LOG := sm_log _ _ _ (co_sim y s C)).
    assert (LN : lined P (mkFront ms (fun r => rk_of (ord' r))) s).
    { destruct (agree_lined P ms W NW n' ND k' s ord' f R) as (g & SG); [intros r ? p ? t ? E; rewrite EQ in E; eapply SS; exact E|].
      exists g. intros r p t Sm Hp Ht Rp Rt Lt. simpl in Lt.
      assert (X : forall a, In (LSpawn a) (log s) -> In r (uniq P a) -> In a (ord' r)).
      { intros a Ha Hr. apply (e_in P ms n' s ord' O). split; auto. split; [now apply in_spawn|]. intros o rs is Hf. exfalso.
        assert (Z0 := calm_zero s (w_sub a) CALM).
        assert (B := in_w s (w_sub a) _ (fun g => proj1 (w_nn a g)) Hf). simpl in B. rewrite ni_same in B. rewrite Z0 in B by easy. lia. }
      destruct (rk_of_split (ord' r) p t (e_nodup P ms n' s ord' O r) (X t Ht Rt) Lt) as (a & b & d & E). exact (SG r a p b t d E Sm). }
    destruct (calm_progress P (wf_rank P ms _ W (fun r => rk_of_inj (ord' r))) NW n' s LN (fun t => or_introl (ND t)) MR CALM) as (A1 & A2 & A3).
    unfold submitted, completed in *. rewrite LOG in *. split; [exact A1|]. split; [exact A2|]. split.
    - destruct (ycont y) as [|[t is] l] eqn:EC; auto. exfalso.
      destruct (A3 (FBody (Some t) is)) as (is' & X & _); [|discriminate]. eapply asleep_frame; [exact C|]. rewrite EC. simpl. auto.
    - intros g Hg. destruct (YFR g Hg) as (is & -> & B). exists is. split; auto.
      destruct B as [->|[(is' & -> & Ht)|(c & is' & -> & Hc)]]; auto.
      + right. exists is'. rewrite <- (sm_tcn _ _ _ (co_sim y s C)) in Ht.
        destruct (mr_count_nonzero P (wff P ms W ord') NW n' s None MR Ht) as (t & Hs & Hpar & Hfr). unfold submitted in Hs. rewrite LOG in Hs, Hfr.
        exists t. repeat split; auto. intros X. apply Hfr. now apply (A1 t Hs).
      + exfalso. assert (Hs := seen_frame y s _ C Hg). simpl in Hs. destruct (A3 _ Hs) as (is2 & E2 & A4). injection E2 as <-.
        apply Hc. rewrite <- (sm_ctr _ _ _ (co_sim y s C) (ERSet c) Logic.I). exact (A4 c is' eq_refl).
  Qed.

  (** with one thread they do *)
  Lemma pause_one n a k y ord m : ms = [m] -> yreach P ms n a k y ord -> agree P (rk_of (spawns m)) ord.
  Proof.
    intros E YR r l1 p l2 t l3 EO. destruct (pause_refines P ms W NW ND n a k y ord YR) as (k' & n' & s & ord' & R & EQ & C & T).
    rewrite <- EQ in EO. exact (one_agrees P ms W NW n' ND k' s ord' m E R r l1 p l2 t l3 EO).
  Qed.
End Live.
