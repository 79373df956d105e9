(** The walk of [update_graph] without interference, for every follower list. *)
From Coq Require Import List Arith Bool Lia.
From Verif Require Import DemoteModel DemoteProof.
Import ListNotations.

Section Alone.
Variable ares : list nat.
Inductive alone : st -> st -> Prop :=
| al_refl : forall s, alone s s
| al_step : forall s s1 s2, astep ares s s1 -> alone s1 s2 -> alone s s2.
Lemma al_trans : forall a b c, alone a b -> alone b c -> alone a c.
Proof. intros a b c H. revert c. induction H; eauto using al_step. Qed.
(** the components a walk does not touch *)
Definition same (s s' : st) : Prop :=
  bp s' = bp s /\ ser s' = ser s /\ serp s' = serp s /\ post s' = post s /\ present s' = present s /\ lock s' = lock s.
Lemma same_refl : forall s, same s s. Proof. unfold same. auto 10. Qed.
Lemma same_trans : forall a b c, same a b -> same b c -> same a c.
Proof. unfold same. intros a b c (? & ? & ? & ? & ? & ?) (? & ? & ? & ? & ? & ?). repeat split; congruence. Qed.
Lemma same_serial : forall a b f, same a b -> serial b f = serial a f.
Proof. unfold same. intros a b f (? & H & K & _). destruct f; simpl; now rewrite ?H, ?K. Qed.

(** the inner walk removes every entry of the follower below [j] *)
Lemma erase_alone : forall j s f i, ap s = AErase f j i -> exists s', alone s s' /\ same s s' /\ ap s' = ANot f i /\ cnt s' = cnt s /\ ready s' = ready s /\ pnot s' = pnot s /\
  length (items s') = length (items s) /\ forall k, nth_error (items s') k = match nth_error (items s) k with Some (g, x) => Some (g, x && negb (fol_eqb g f && (k <? j))) | None => None end.
Proof.
  induction j as [|j IH]; intros s f i A.
  - exists (set_a s (ANot f i)). split; [eapply al_step; [exact (a_erase_end ares s f i A)|constructor]|]. split; [unfold same; simpl; auto 10|]. simpl. repeat (split; [reflexivity|]). intros k.
    destruct (nth_error (items s) k) as [[g x]|]; [|reflexivity]. now rewrite andb_false_r, andb_true_r.
  - assert (S1 := a_erase ares s f j i A). set (s1 := set_a _ _) in S1. destruct (IH s1 f i eq_refl) as (s' & R & Sm & A' & C' & D' & P' & L' & N').
    assert (Q : same s s1 /\ cnt s1 = cnt s /\ ready s1 = ready s /\ pnot s1 = pnot s /\ length (items s1) = length (items s)).
    { unfold s1. destruct (live s j) as [g|]; [destruct (fol_eqb g f)|]; simpl; rewrite ?kill_length; unfold same; simpl; auto 20. }
    destruct Q as (Q1 & Q2 & Q3 & Q4 & Q5).
    assert (Q6 : forall k, nth_error (items s1) k = match nth_error (items s) k with Some (g, x) => Some (g, x && negb (fol_eqb g f && (k =? j))) | None => None end).
    { intros k. unfold s1. destruct (live s j) as [g|] eqn:Lv; [destruct (fol_eqb_spec g f) as [->|N]|]; simpl.
      - rewrite kill_nth. apply live_nth in Lv. destruct (nth_error (items s) k) as [[h x]|] eqn:Nk; [|reflexivity]. destruct (Nat.eqb_spec k j) as [->|]; [|now rewrite andb_false_r, andb_true_r].
        assert (h = f /\ x = true) as (-> & ->) by (rewrite Lv in Nk; injection Nk; auto). destruct (fol_eqb_spec f f); [reflexivity|congruence].
      - apply live_nth in Lv. destruct (nth_error (items s) k) as [[h x]|] eqn:Nk; [|reflexivity]. destruct (Nat.eqb_spec k j) as [->|]; [|now rewrite andb_false_r, andb_true_r].
        rewrite Lv in Nk. injection Nk as <- <-. destruct (fol_eqb_spec g f); [congruence|reflexivity].
      - unfold live in Lv. destruct (nth_error (items s) k) as [[h x]|] eqn:Nk; [|reflexivity]. destruct (Nat.eqb_spec k j) as [->|]; [|now rewrite andb_false_r, andb_true_r].
        rewrite Nk in Lv. destruct x; [discriminate|]. reflexivity. }
    exists s'. split; [eapply al_step; eauto|]. split; [eapply same_trans; eauto|]. split; [exact A'|]. split; [congruence|]. split; [congruence|]. split; [congruence|]. split; [congruence|].
    intros k. rewrite N', Q6. destruct (nth_error (items s) k) as [[g x]|]; [|reflexivity]. f_equal. f_equal. rewrite <- andb_assoc. f_equal. rewrite <- negb_orb. f_equal. rewrite <- andb_orb_distrib_r. f_equal.
    destruct (Nat.eqb_spec k j), (Nat.ltb_spec k j), (Nat.ltb_spec k (S j)); simpl; auto; lia.
Qed.

Definition hit (s : st) (i : nat) (f : fol) : bool := negb (serial s f) && (0 <? lives (firstn i (items s)) f).
Definition b2n (b : bool) : nat := if b then 1 else 0.
Lemma lives_firstn_ext : forall a b f i, (forall k, nth_error a k = Some (f, true) <-> nth_error b k = Some (f, true)) -> lives (firstn i a) f = lives (firstn i b) f.
Proof.
  intros a b f i H. induction i as [|i IH]; [reflexivity|]. rewrite !lives_firstn_S, IH. f_equal. specialize (H i).
  destruct (nth_error a i) as [[g [|]]|], (nth_error b i) as [[h [|]]|]; try reflexivity; repeat match goal with |- context [fol_eqb ?x ?y] => destruct (fol_eqb_spec x y) end; subst; try reflexivity; exfalso; try (destruct H as [H1 H2]; solve [specialize (H1 eq_refl); congruence|specialize (H2 eq_refl); congruence]).
Qed.
Lemma walk_alone : forall i s, ap s = AWalk i -> i <= length (items s) -> exists s', alone s s' /\ same s s' /\ ap s' = ARun /\ length (items s') = length (items s) /\
  (forall k, nth_error (items s') k = match nth_error (items s) k with Some (g, x) => Some (g, x && negb (hit s i g)) | None => None end) /\
  (forall b, cnt s' b = cnt s b - b2n (hit s i (Pre b))) /\ pnot s' = pnot s + b2n (hit s i Par).
Proof.
  induction i as [|i IH]; intros s A L.
  - exists (set_a s ARun). split; [eapply al_step; [exact (a_walk_end ares s A)|constructor]|]. split; [unfold same; simpl; auto 10|].
    assert (Z : forall f, hit s 0 f = false). { intros f. unfold hit. simpl. apply andb_false_r. }
    repeat (split; [reflexivity|]). split; [|split].
    + intros k. cbn [set_a items]. destruct (nth_error (items s) k) as [[g x]|]; [|reflexivity]. rewrite Z. now rewrite andb_true_r.
    + intros b. rewrite Z. simpl. lia.
    + rewrite Z. simpl. lia.
  - assert (S1 := a_walk ares s i A).
    assert (HS : forall g, live s i <> Some g -> hit s (S i) g = hit s i g).
    { intros g N. unfold hit. rewrite lives_firstn_S. unfold live in N. destruct (nth_error (items s) i) as [[h [|]]|]; rewrite ?Nat.add_0_r; auto. destruct (fol_eqb_spec h g); [congruence|]. now rewrite Nat.add_0_r. }
    destruct (live s i) as [f|] eqn:Lv; [destruct (serial s f) eqn:Sr|].
    + (* still serial *)
      assert (HT : forall g, hit s (S i) g = hit s i g). { intros g. destruct (fol_dec g f) as [->|N]; [unfold hit; now rewrite Sr|]. apply HS. congruence. }
      destruct (IH (set_a s (AWalk i)) eq_refl) as (s' & R & Sm & A' & L' & N' & C' & P'); [simpl; lia|]. exists s'. split; [eapply al_step; eauto|]. split; [exact Sm|]. split; [exact A'|]. split; [exact L'|].
      split; [intros k; rewrite N'; cbn [set_a items]; destruct (nth_error (items s) k) as [[g x]|]; [|reflexivity]; now rewrite HT|].
      split; [intros b; rewrite HT; exact (C' b)|rewrite HT; exact P'].
    + set (s1 := set_a s (AErase f (length (items s)) i)) in S1. destruct (erase_alone _ s1 f i eq_refl) as (s2 & R2 & Sm2 & A2 & C2 & D2 & P2 & L2 & N2).
      assert (S3 := a_not ares s2 f i A2). set (s3 := set_a _ _) in S3.
      assert (I3 : items s3 = items s2) by (unfold s3; destruct f; reflexivity).
      assert (Sm3 : same s s3). { eapply same_trans; [|eapply same_trans; [exact Sm2|]]; unfold same, s1, s3; destruct f; simpl; auto 10. }
      destruct (IH s3 eq_refl) as (s' & R & Sm & A' & L' & N' & C' & P'); [rewrite I3, L2; simpl; lia|].
      assert (HF : hit s (S i) f = true). { unfold hit. rewrite Sr. apply live_nth in Lv. rewrite lives_firstn_S, Lv. destruct (fol_eqb_spec f f); [|congruence]. simpl. apply Nat.ltb_lt. lia. }
      assert (N3 : forall k, nth_error (items s3) k = match nth_error (items s) k with Some (g, x) => Some (g, x && negb (fol_eqb g f)) | None => None end).
      { intros k. rewrite I3, N2. simpl. destruct (nth_error (items s) k) as [[g x]|] eqn:Nk; [|reflexivity]. assert (k < length (items s)) by (apply nth_error_Some; congruence). apply Nat.ltb_lt in H. now rewrite H, andb_true_r. }
      assert (HG : forall g, g <> f -> hit s3 i g = hit s (S i) g).
      { intros g N. rewrite HS by congruence. unfold hit. rewrite (same_serial s s3 g Sm3). f_equal. f_equal. apply lives_firstn_ext. intros k. rewrite N3. destruct (nth_error (items s) k) as [[h x]|]; [|tauto].
        destruct (fol_eqb_spec h f) as [->|]; rewrite ?andb_true_r, ?andb_false_r; [|tauto]. split; intros X; injection X; congruence. }
      assert (HZ : hit s3 i f = false). { unfold hit. rewrite andb_comm. replace (lives (firstn i (items s3)) f) with 0; [reflexivity|]. symmetry. rewrite (lives_firstn_ext _ [] f i); [now destruct i|].
        intros k. rewrite N3. destruct (nth_error (items s) k) as [[h x]|]; [|destruct k; tauto]. destruct (fol_eqb_spec h f) as [->|]; rewrite ?andb_false_r; split; intros X; try (destruct k; discriminate); injection X; congruence. }
      exists s'. split; [eapply al_step; [exact S1|]; eapply al_trans; [exact R2|]; eapply al_step; eauto|]. split; [eapply same_trans; eauto|]. split; [exact A'|]. split; [rewrite L', I3, L2; reflexivity|].
      split; [|split].
      * intros k. rewrite N', N3. destruct (nth_error (items s) k) as [[g x]|]; [|reflexivity]. f_equal. f_equal. destruct (fol_eqb_spec g f) as [->|N]; [rewrite HF; simpl; now rewrite !andb_false_r|]. rewrite HG by auto. now rewrite andb_true_r.
      * intros b. rewrite C'. destruct (fol_dec (Pre b) f) as [<-|N].
        -- rewrite HZ, HF. unfold s3. cbn [set_a notify notify_pre cnt]. rewrite upd_eq, C2. simpl. lia.
        -- rewrite HG by auto. f_equal. unfold s3. destruct f as [c|]; cbn [set_a notify notify_pre cnt]; rewrite ?upd_ne by congruence; now rewrite C2.
      * rewrite P'. destruct (fol_dec Par f) as [<-|N].
        -- rewrite HZ, HF. unfold s3. cbn [set_a notify pnot]. rewrite P2. simpl. lia.
        -- rewrite HG by auto. f_equal. unfold s3. destruct f as [c|]; [|congruence]. cbn [set_a notify notify_pre pnot]. now rewrite P2.
    + assert (HT : forall g, hit s (S i) g = hit s i g). { intros g. apply HS. congruence. }
      destruct (IH (set_a s (AWalk i)) eq_refl) as (s' & R & Sm & A' & L' & N' & C' & P'); [simpl; lia|]. exists s'. split; [eapply al_step; eauto|]. split; [exact Sm|]. split; [exact A'|]. split; [exact L'|].
      split; [intros k; rewrite N'; cbn [set_a items]; destruct (nth_error (items s) k) as [[g x]|]; [|reflexivity]; now rewrite HT|].
      split; [intros b; rewrite HT; exact (C' b)|rewrite HT; exact P'].
Qed.
End Alone.
