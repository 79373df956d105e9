(** Invariants of the demotion machine. *)
From Coq Require Import List Arith Bool Lia.
From Verif Require Import DemoteModel.
Import ListNotations.

Lemma upd_eq : forall B (f : nat -> B) i x, upd f i x i = x.
Proof. intros. unfold upd. now rewrite Nat.eqb_refl. Qed.
Lemma upd_ne : forall B (f : nat -> B) i x j, j <> i -> upd f i x j = f j.
Proof. intros. unfold upd. apply Nat.eqb_neq in H. now rewrite H. Qed.
Lemma fol_eqb_spec : forall f g, reflect (f = g) (fol_eqb f g).
Proof. intros [b|] [c|]; simpl; try (constructor; congruence). destruct (Nat.eqb_spec b c); constructor; congruence. Qed.
Lemma fol_dec : forall f g : fol, {f = g} + {f <> g}.
Proof. decide equality. apply Nat.eq_dec. Qed.

(** number of entries of a follower, and of those not removed *)
Definition is_ent (f : fol) (x : fol * bool) : bool := fol_eqb (fst x) f.
Definition is_live (f : fol) (x : fol * bool) : bool := fol_eqb (fst x) f && snd x.
Definition ents (l : list (fol * bool)) (f : fol) : nat := length (filter (is_ent f) l).
Definition lives (l : list (fol * bool)) (f : fol) : nat := length (filter (is_live f) l).
Lemma lives_le : forall l f, lives l f <= ents l f.
Proof. unfold lives, ents, is_live, is_ent. induction l as [|[g x] l IH]; intros f; simpl; auto. specialize (IH f). destruct (fol_eqb g f), x; simpl; lia. Qed.
Lemma lives_app : forall a b f, lives (a ++ b) f = lives a f + lives b f.
Proof. intros. unfold lives. rewrite filter_app. apply app_length. Qed.
Lemma ents_app : forall a b f, ents (a ++ b) f = ents a f + ents b f.
Proof. intros. unfold ents. rewrite filter_app. apply app_length. Qed.
Lemma ents_kill : forall l i f, ents (kill l i) f = ents l f.
Proof. unfold ents, is_ent. induction l as [|[g x] l IH]; intros i f; [reflexivity|]. destruct i as [|i]; [simpl; now destruct (fol_eqb g f)|]. simpl. specialize (IH i f). destruct (fol_eqb g f); simpl; auto. Qed.
Lemma kill_length : forall l i, length (kill l i) = length l.
Proof. induction l as [|[g x] l IH]; intros [|i]; simpl; auto. Qed.
Lemma kill_nth : forall l i k, nth_error (kill l i) k = match nth_error l k with Some (f, x) => Some (f, if Nat.eqb k i then false else x) | None => None end.
Proof. induction l as [|[g x] l IH]; intros [|i] [|k]; simpl; auto. now destruct (nth_error l k) as [[? ?]|]. Qed.
Lemma lives_kill_other : forall l i f g, nth_error l i = Some (g, true) -> g <> f -> lives (kill l i) f = lives l f.
Proof.
  unfold lives, is_live. induction l as [|[h x] l IH]; intros [|i] f g H N; simpl in *; try discriminate.
  - injection H as -> ->. destruct (fol_eqb_spec g f); [congruence|reflexivity].
  - specialize (IH i f g H N). destruct (fol_eqb h f && x); simpl; auto.
Qed.
Lemma lives_nth : forall l i f, nth_error l i = Some (f, true) -> 1 <= lives l f.
Proof.
  unfold lives, is_live. induction l as [|[h x] l IH]; intros [|i] f H; simpl in *; try discriminate.
  - injection H as -> ->. destruct (fol_eqb_spec f f); [simpl; lia|congruence].
  - specialize (IH i f H). destruct (fol_eqb h f && x); simpl; lia.
Qed.
Lemma lives_zero : forall l f, (forall i, nth_error l i <> Some (f, true)) -> lives l f = 0.
Proof.
  unfold lives, is_live. induction l as [|[h x] l IH]; intros f H; simpl; [reflexivity|]. destruct (fol_eqb_spec h f) as [->|N]; simpl.
  - destruct x; [destruct (H 0); reflexivity|]. apply IH. intros i. apply (H (S i)).
  - apply IH. intros i. apply (H (S i)).
Qed.
Lemma lives_pos : forall l f, 1 <= lives l f -> exists i, nth_error l i = Some (f, true).
Proof.
  unfold lives, is_live. induction l as [|[h x] l IH]; intros f H; simpl in *; [lia|]. destruct (fol_eqb_spec h f) as [->|N]; simpl in *.
  - destruct x; [exists 0; reflexivity|]. destruct (IH f H) as (i & E). exists (S i). exact E.
  - destruct (IH f H) as (i & E). exists (S i). exact E.
Qed.
Lemma lives_firstn_S : forall l i f, lives (firstn (S i) l) f = lives (firstn i l) f + match nth_error l i with Some (g, true) => if fol_eqb g f then 1 else 0 | _ => 0 end.
Proof.
  unfold lives, is_live. induction l as [|[h x] l IH]; intros [|i] f; simpl; auto.
  - destruct (fol_eqb h f), x; reflexivity.
  - specialize (IH i f). simpl in IH. destruct (fol_eqb h f && x); simpl; rewrite IH; lia.
Qed.
Lemma live_nth : forall s i f, live s i = Some f <-> nth_error (items s) i = Some (f, true).
Proof. intros s i f. unfold live. destruct (nth_error (items s) i) as [[g [|]]|]; split; congruence. Qed.

Section Inv.
Variables (ares : list nat) (res : nat -> list nat) (par : bool).
Hypothesis one_shared : forall b, length (filter (fun r => mem r ares) (res b)) <= 1.
Notation astep := (astep ares).
Notation bstep := (bstep res).
Notation reach := (reach ares res par).
Definition shared (l : list nat) : nat := length (filter (fun r => mem r ares) l).
Lemma shared_cons : forall r l, shared (r :: l) = (if mem r ares then 1 else 0) + shared l.
Proof. intros. unfold shared. simpl. now destruct (mem r ares). Qed.
Definition left (b : nat) (p : bpc) : list nat :=
  match p with BIdle => res b | BNext rs | BInc _ rs => rs | BCheck r rs | BReach r rs | BPush r rs => r :: rs | BEnd => [] end.
Definition busy (p : bpc) : nat := match p with BIdle | BEnd => 0 | _ => 1 end.
Definition incb (p : bpc) : nat := match p with BInc _ _ => 1 | _ => 0 end.
Definition inside (p : bpc) : option nat := match p with BCheck r _ | BReach r _ | BPush r _ | BInc r _ => Some r | _ => None end.
Definition sure (p : bpc) : option nat := match p with BReach r _ | BPush r _ | BInc r _ => Some r | _ => None end.
Definition doing (a : apc) (f : fol) : bool := match a with AErase g _ _ | ANot g _ => fol_eqb g f | _ => false end.
Definition pend (s : st) (f : fol) : nat :=
  match ap s with
  | ANfy i => lives (firstn i (items s)) f
  | AOver => 0
  | a => if doing a f then 1 else lives (items s) f
  end.
Definition ended (a : apc) : bool := match a with ADel _ | ANfy _ | AOver => true | _ => false end.

(** no entry of a task is removed while the task is between its push and its increment *)
Definition calm (s : st) : Prop := forall b, doing (ap s) (Pre b) = true -> incb (bp s b) = 0.

Record inv (s : st) : Prop := {
  i_budget : forall b, ents (items s) (Pre b) + shared (left b (bp s b)) <= 1;
  i_idle : forall b, bp s b = BIdle -> ents (items s) (Pre b) = 0;
  i_ares : forall r, present s r = true -> mem r ares = true;
  i_lock : forall b r, inside (bp s b) = Some r -> lock s r = Some b;
  i_sure : forall b r, sure (bp s b) = Some r -> present s r = true;
  i_del : forall r, present s r = true -> match ap s with ADel rs => In r rs | ANfy _ | AOver => False | _ => True end;
  i_post : post s = ended (ap s);
  i_gone : forall r, mem r ares = true -> present s r = false -> post s = true;
  i_cnt : forall b, cnt s b + incb (bp s b) = 1 + busy (bp s b) + pend s (Pre b);
  i_inc : forall b, incb (bp s b) = 1 -> lives (items s) (Pre b) = 1;
  i_ready : forall b, ready s b = match bp s b with BEnd => if Nat.eqb (pend s (Pre b)) 0 then 1 else 0 | _ => 0 end;
  i_doing : forall f, doing (ap s) f = true -> serial s f = false /\ 1 <= ents (items s) f;
  i_erase : forall f j i, ap s = AErase f j i -> forall k, j <= k -> live s k <> Some f;
  i_not : forall f i, ap s = ANot f i -> forall k, live s k <> Some f;
  i_nfy : match ap s with AErase _ _ i | ANot _ i | AWalk i | ANfy i => i <= length (items s) | _ => True end;
  i_cover : forall b, bp s b <> BIdle -> shared (res b) = 1 -> shared (left b (bp s b)) = 0 -> ser s b = true -> post s = false -> exists k, live s k = Some (Pre b);
  (* the edge to the parent *)
  i_par_ents : ents (items s) Par = (if par then 1 else 0);
  i_par : pnot s + pend s Par = (if par then 1 else 0);
  i_par_kept : serp s = true -> par = true -> lives (items s) Par = 1 }.

Lemma inv_init : inv (init ares par).
Proof.
  unfold init. split; simpl; auto; try discriminate; try (intros; congruence).
  - intros b. assert (X := one_shared b). unfold shared, ents. destruct par; simpl; exact X.
  - intros b _. now destruct par.
  - intros b. unfold pend. simpl. now destruct par.
  - now destruct par.
  - unfold pend. simpl. now destruct par.
  - now destruct par.
Qed.
Lemma pend_le : forall s f, inv s -> ents (items s) f <= 1 -> pend s f <= 1.
Proof.
  intros s f I E. unfold pend. assert (L := lives_le (items s) f). destruct (ap s) as [| |g j i|g i| |i|]; simpl; try lia.
  - destruct (fol_eqb g f); lia.
  - destruct (fol_eqb g f); lia.
  - assert (lives (firstn i (items s)) f <= lives (items s) f); [|lia]. rewrite <- (firstn_skipn i (items s)) at 2. rewrite lives_app. lia.
Qed.

(** tactic: fields that only look at unchanged components *)
Lemma inv_a : forall s s', inv s -> astep s s' -> calm s' -> inv s'.
Proof.
  intros s s' I H C. destruct I as [I1 I2 I3 I4 I5 I6 I7 I8 I9 I10 I11 I12 I13 I14 I15 I16 I17 I18 I19].
  destruct H as [s se sp A M MP|s A|s i A|s f j i A|s f i A|s f i A|s A|s r rs A L|s A|s i A|s A].
  - (* patch *)
    assert (PN : forall f, pend (mkS (AWalk (length (items s))) (bp s) (items s) se sp (post s) (present s) (lock s) (cnt s) (ready s) (pnot s)) f = pend s f). { intros f. unfold pend. simpl. now rewrite A. }
    split; cbn [set_a set_b set_lock set_items set_cnt ap bp items ser serp post present lock cnt ready pnot ended doing]; auto; try discriminate; try (intros; rewrite PN; auto; fail).
    + now rewrite A in I7.
  - (* end of the walk *)
    assert (PN : forall f, pend (set_a s ARun) f = pend s f). { intros f. unfold pend. simpl. now rewrite A. }
    split; cbn [set_a set_b set_lock set_items set_cnt ap bp items ser serp post present lock cnt ready pnot ended doing]; auto; try discriminate; try (intros; rewrite PN; auto; fail).
    + now rewrite A in I7.
  - (* walk *)
    destruct (live s i) as [f|] eqn:Lv; [destruct (serial s f) eqn:Sr|].
    + assert (PN : forall f, pend (set_a s (AWalk i)) f = pend s f). { intros g. unfold pend. simpl. now rewrite A. }
      split; cbn [set_a set_b set_lock set_items set_cnt ap bp items ser serp post present lock cnt ready pnot ended doing]; auto; try discriminate; try (intros; rewrite PN; auto; fail).
      * now rewrite A in I7.
      * rewrite A in I15. lia.
    + assert (E1 : 1 <= lives (items s) f) by (apply live_nth in Lv; eapply lives_nth; eauto).
      assert (E2 := lives_le (items s) f).
      assert (E3 : ents (items s) f <= 1). { destruct f as [b|]; [specialize (I1 b); lia|rewrite I17; destruct par; lia]. }
      assert (PN : forall g, pend (set_a s (AErase f (length (items s)) i)) g = pend s g).
      { intros g. unfold pend. simpl. rewrite A. destruct (fol_eqb_spec f g) as [->|N]; simpl; [lia|reflexivity]. }
      split; cbn [set_a set_b set_lock set_items set_cnt ap bp items ser serp post present lock cnt ready pnot ended doing]; auto; try discriminate; try (intros; rewrite PN; auto; fail).
      * now rewrite A in I7.
      * intros g G. destruct (fol_eqb_spec f g) as [->|N]; [|discriminate]. split; [exact Sr|lia].
      * intros g j0 i0 X k K. injection X as <- <- <-. unfold live. simpl. replace (nth_error (items s) k) with (@None (fol * bool)); [discriminate|]. symmetry. apply nth_error_None. exact K.
      * rewrite A in I15. lia.
    + assert (PN : forall f, pend (set_a s (AWalk i)) f = pend s f). { intros g. unfold pend. simpl. now rewrite A. }
      split; cbn [set_a set_b set_lock set_items set_cnt ap bp items ser serp post present lock cnt ready pnot ended doing]; auto; try discriminate; try (intros; rewrite PN; auto; fail).
      * now rewrite A in I7.
      * rewrite A in I15. lia.
  - (* erase *)
    destruct (I12 f) as (D1 & D2). { rewrite A. simpl. destruct (fol_eqb_spec f f); congruence. }
    set (s1 := match live s j with Some g => if fol_eqb g f then set_items s (kill (items s) j) else s | None => s end).
    assert (E0 : bp s1 = bp s /\ ser s1 = ser s /\ serp s1 = serp s /\ post s1 = post s /\ present s1 = present s /\ lock s1 = lock s /\ cnt s1 = cnt s /\ ready s1 = ready s /\ pnot s1 = pnot s /\ length (items s1) = length (items s)).
    { unfold s1. destruct (live s j) as [g|]; [destruct (fol_eqb g f)|]; simpl; rewrite ?kill_length; auto 20. }
    destruct E0 as (Z1 & Z2 & Z3 & Z4 & Z5 & Z6 & Z7 & Z8 & Z9 & Z10).
    assert (EN : forall g, ents (items s1) g = ents (items s) g). { intros g. unfold s1. destruct (live s j) as [h|]; [destruct (fol_eqb h f)|]; simpl; auto. apply ents_kill. }
    assert (LO : forall g, g <> f -> lives (items s1) g = lives (items s) g).
    { intros g N. unfold s1. destruct (live s j) as [h|] eqn:Lv; [destruct (fol_eqb_spec h f) as [->|]|]; simpl; auto. apply live_nth in Lv. eapply lives_kill_other; eauto. }
    assert (LV : forall k g, g <> f -> live s k = Some g -> live s1 k = Some g).
    { intros k g N X. unfold s1. destruct (live s j) as [h|] eqn:Lv; [destruct (fol_eqb_spec h f) as [->|]|]; simpl; auto. apply live_nth in X. apply live_nth. simpl. rewrite kill_nth, X.
      destruct (Nat.eqb_spec k j) as [->|]; [|reflexivity]. apply live_nth in X. congruence. }
    assert (LB : forall k, live s1 k = Some f -> live s k = Some f /\ k <> j).
    { intros k X. unfold s1 in X. destruct (live s j) as [h|] eqn:Lv; [destruct (fol_eqb_spec h f) as [->|N]|].
      - apply live_nth in X. simpl in X. rewrite kill_nth in X. destruct (nth_error (items s) k) as [[h x]|] eqn:Nk; [|discriminate]. destruct (Nat.eqb_spec k j); [discriminate|]. split; [|exact n]. apply live_nth. congruence.
      - split; [exact X|]. intros ->. congruence.
      - split; [exact X|]. intros ->. congruence. }
    assert (PN : forall g, pend (set_a s1 (AErase f j i)) g = pend s g).
    { intros g. unfold pend. simpl. rewrite A. simpl. destruct (fol_eqb_spec f g) as [->|N]; [reflexivity|]. apply LO. congruence. }
    assert (NB : forall b, f = Pre b -> incb (bp s b) = 0). { intros b ->. rewrite <- Z1. apply (C b). unfold set_a. simpl. apply Nat.eqb_refl. }
    split; cbn [set_a ap bp items ser serp post present lock cnt ready pnot]; rewrite ?Z1, ?Z2, ?Z3, ?Z4, ?Z5, ?Z6, ?Z7, ?Z8, ?Z9, ?Z10; auto.
    + intros b. now rewrite EN.
    + intros b X. rewrite EN. auto.
    + now rewrite A in I7.
    + intros b. rewrite PN. auto.
    + intros b X. rewrite LO; [auto|]. intros <-. rewrite (NB b eq_refl) in X. discriminate.
    + intros b. rewrite PN. auto.
    + intros g G. assert (G' : doing (ap s) g = true) by (rewrite A; exact G). destruct (I12 g G'). rewrite EN. split; [|auto]. destruct g; simpl in *; congruence.
    + intros g j0 i0 X k K. injection X as <- <- <-. unfold live. simpl. fold (live s1 k). intros Y. destruct (LB k Y) as (Y1 & Y2). apply (I13 f (S j) i A k); [lia|exact Y1].
    + discriminate.
    + rewrite A in I15. lia.
    + intros b X1 X2 X3 X4 X5. destruct (I16 b X1 X2 X3 X4 X5) as (k & K). exists k. apply LV; [|exact K]. intros <-. simpl in D1. congruence.
    + now rewrite EN.
    + now rewrite PN.
    + intros X Y. rewrite LO; [auto|]. intros <-. simpl in D1. congruence.
  - (* end of erase *)
    assert (PN : forall g, pend (set_a s (ANot f i)) g = pend s g). { intros g. unfold pend. simpl. now rewrite A. }
    split; cbn [set_a set_b set_lock set_items set_cnt ap bp items ser serp post present lock cnt ready pnot ended doing]; auto; try discriminate; try (intros; rewrite PN; auto; fail).
    + now rewrite A in I7.
    + intros g G. apply I12. now rewrite A.
    + intros g i0 X k. injection X as <- <-. apply (I13 f 0 i A k). lia.
    + now rewrite A in I15.
  - (* notify an erased follower *)
    destruct (I12 f) as (D1 & D2). { rewrite A. simpl. destruct (fol_eqb_spec f f); congruence. }
    assert (L0 : lives (items s) f = 0). { apply lives_zero. intros k X. apply (I14 f i A k). now apply live_nth. }
    assert (PF : pend s f = 1). { unfold pend. rewrite A. simpl. destruct (fol_eqb_spec f f); congruence. }
    assert (PO : forall g, g <> f -> pend s g = lives (items s) g). { intros g N. unfold pend. rewrite A. simpl. destruct (fol_eqb_spec f g); congruence. }
    assert (NB : forall b, f = Pre b -> incb (bp s b) = 0).
    { intros b ->. destruct (incb (bp s b)) as [|n] eqn:X; [reflexivity|]. assert (incb (bp s b) = 1) by (destruct (bp s b); simpl in *; congruence). rewrite (I10 b) in L0 by auto. discriminate. }
    destruct f as [b|].
    + assert (Q1 := I9 b). rewrite PF, (NB b eq_refl) in Q1. assert (Q2 := I11 b). rewrite PF in Q2. simpl in Q2.
      assert (PN : forall g, pend (set_a (notify s (Pre b)) (AWalk i)) g = lives (items s) g) by reflexivity.
      assert (B0 : bp s b <> BIdle). { intros X. rewrite (I2 b X) in D2. lia. }
      split; cbn [set_a notify notify_pre ap bp items ser serp post present lock cnt ready pnot]; auto; try discriminate.
      * now rewrite A in I7.
      * intros c. rewrite PN. destruct (Nat.eq_dec c b) as [->|N].
        -- rewrite upd_eq, L0, (NB b eq_refl). lia.
        -- rewrite upd_ne by auto. rewrite <- PO by congruence. auto.
      * intros c. rewrite PN. destruct (Nat.eq_dec c b) as [->|N].
        -- rewrite L0. simpl. destruct (bp s b) eqn:E; simpl in Q1; try (replace (cnt s b - 1 =? 1) with false by (symmetry; apply Nat.eqb_neq; lia); exact Q2); [congruence|].
           replace (cnt s b - 1 =? 1) with true by (symmetry; apply Nat.eqb_eq; lia). rewrite upd_eq. lia.
        -- rewrite <- PO by congruence. destruct (cnt s b - 1 =? 1); rewrite ?upd_ne by auto; auto.
      * rewrite A in I15. exact I15.
      * rewrite PN. rewrite <- PO by congruence. exact I18.
    + assert (PN : forall g, pend (set_a (notify s Par) (AWalk i)) g = lives (items s) g) by reflexivity.
      split; cbn [set_a notify notify_pre ap bp items ser serp post present lock cnt ready pnot]; auto; try discriminate.
      * now rewrite A in I7.
      * intros c. rewrite PN, <- PO by congruence. auto.
      * intros c. rewrite PN, <- PO by congruence. auto.
      * rewrite A in I15. exact I15.
      * rewrite PN, L0. rewrite PF in I18. lia.
  - (* the body ends *)
    assert (PN : forall f, pend (mkS (ADel ares) (bp s) (items s) (ser s) (serp s) true (present s) (lock s) (cnt s) (ready s) (pnot s)) f = pend s f). { intros f. unfold pend. simpl. now rewrite A. }
    split; cbn [set_a set_b set_lock set_items set_cnt ap bp items ser serp post present lock cnt ready pnot ended doing]; auto; try discriminate; try (intros; rewrite PN; auto; fail).
    + intros r R. apply I3 in R. unfold mem in R. apply existsb_exists in R as (x & X & Y). apply Nat.eqb_eq in Y. congruence.
  - (* delete from a list *)
    assert (PN : forall f, pend (mkS (ADel rs) (bp s) (items s) (ser s) (serp s) (post s) (upd (present s) r false) (lock s) (cnt s) (ready s) (pnot s)) f = pend s f). { intros f. unfold pend. simpl. now rewrite A. }
    rewrite A in I7. simpl in I7.
    split; cbn [set_a set_b set_lock set_items set_cnt ap bp items ser serp post present lock cnt ready pnot ended doing]; auto; try discriminate; try (intros; rewrite PN; auto; fail).
    + intros q. unfold upd. destruct (q =? r); [discriminate|auto].
    + intros b q X. unfold upd. destruct (Nat.eqb_spec q r) as [->|N]; [|eauto]. assert (lock s r = Some b); [|congruence]. apply I4. destruct (bp s b); simpl in *; congruence.
    + intros q X. destruct (Nat.eq_dec q r) as [E|N]; [rewrite E, upd_eq in X; discriminate|]. rewrite upd_ne in X by auto. assert (Y := I6 q X). rewrite A in Y. destruct Y as [Y|Y]; [congruence|exact Y].
  - (* begin to notify *)
    assert (NP : forall r, present s r = false). { intros r. destruct (present s r) eqn:X; [|reflexivity]. apply I6 in X. rewrite A in X. destruct X. }
    assert (PN : forall f, pend (set_a s (ANfy (length (items s)))) f = pend s f). { intros f. unfold pend. simpl. rewrite A. simpl. now rewrite firstn_all. }
    split; cbn [set_a set_b set_lock set_items set_cnt ap bp items ser serp post present lock cnt ready pnot ended doing]; auto; try discriminate; try (intros; rewrite PN; auto; fail).
    + intros r. now rewrite NP.
    + now rewrite A in I7.
  - (* notify a follower *)
    assert (NP : forall r, present s r = false). { intros r. destruct (present s r) eqn:X; [|reflexivity]. apply I6 in X. rewrite A in X. destruct X. }
    assert (NI : forall b, incb (bp s b) = 0). { intros b. destruct (incb (bp s b)) eqn:X; [reflexivity|]. assert (Y : exists r, sure (bp s b) = Some r) by (destruct (bp s b); simpl in *; eauto; discriminate). destruct Y as (r & Y). apply I5 in Y. now rewrite NP in Y. }
    assert (PS : forall f, pend s f = lives (firstn i (items s)) f + match nth_error (items s) i with Some (g, true) => if fol_eqb g f then 1 else 0 | _ => 0 end).
    { intros f. unfold pend. rewrite A. apply lives_firstn_S. }
    rewrite A in I7, I15. simpl in I7.
    destruct (live s i) as [f|] eqn:Lv.
    + apply live_nth in Lv. rewrite Lv in PS. assert (PF := PS f). destruct (fol_eqb_spec f f) as [_|]; [|congruence].
      assert (PO : forall g, g <> f -> pend s g = lives (firstn i (items s)) g). { intros g N. rewrite PS. destruct (fol_eqb_spec f g); [congruence|lia]. }
      assert (E1 : ents (items s) f <= 1). { destruct f as [b|]; [specialize (I1 b); lia|rewrite I17; destruct par; lia]. }
      assert (L0 : lives (firstn i (items s)) f = 0).
      { assert (Z := lives_le (items s) f). assert (lives (firstn (S i) (items s)) f <= lives (items s) f). { rewrite <- (firstn_skipn (S i) (items s)) at 2. rewrite lives_app. lia. } rewrite lives_firstn_S, Lv in H. destruct (fol_eqb_spec f f); [lia|congruence]. }
      destruct f as [b|].
      * assert (PN : forall g, pend (set_a (notify s (Pre b)) (ANfy i)) g = lives (firstn i (items s)) g) by reflexivity.
        assert (Q1 := I9 b). rewrite PF, L0, NI in Q1. assert (Q2 := I11 b). rewrite PF, L0 in Q2. simpl in Q2.
        assert (B0 : bp s b <> BIdle). { intros X. assert (Z := lives_nth _ _ _ Lv). assert (Z' := lives_le (items s) (Pre b)). rewrite (I2 b X) in Z'. lia. }
        split; cbn [set_a notify notify_pre ap bp items ser serp post present lock cnt ready pnot]; auto; try discriminate.
        -- intros r. now rewrite NP.
        -- intros c. rewrite PN. destruct (Nat.eq_dec c b) as [->|N].
           ++ rewrite upd_eq, L0, NI. lia.
           ++ rewrite upd_ne by auto. rewrite <- PO by congruence. auto.
        -- intros c. rewrite PN. destruct (Nat.eq_dec c b) as [->|N].
           ++ rewrite L0. simpl. destruct (bp s b) eqn:E; simpl in Q1; try (replace (cnt s b - 1 =? 1) with false by (symmetry; apply Nat.eqb_neq; lia); exact Q2); [congruence|].
              replace (cnt s b - 1 =? 1) with true by (symmetry; apply Nat.eqb_eq; lia). rewrite upd_eq. lia.
           ++ rewrite <- PO by congruence. destruct (cnt s b - 1 =? 1); rewrite ?upd_ne by auto; auto.
        -- lia.
        -- rewrite PN. rewrite <- PO by congruence. exact I18.
      * assert (PN : forall g, pend (set_a (notify s Par) (ANfy i)) g = lives (firstn i (items s)) g) by reflexivity.
        split; cbn [set_a notify notify_pre ap bp items ser serp post present lock cnt ready pnot]; auto; try discriminate.
        -- intros r. now rewrite NP.
        -- intros c. rewrite PN, <- PO by congruence. auto.
        -- intros c. rewrite PN, <- PO by congruence. auto.
        -- lia.
        -- rewrite PN, L0. rewrite PF, L0 in I18. lia.
    + assert (PN : forall g, pend (set_a s (ANfy i)) g = pend s g).
      { intros g. rewrite PS. unfold pend. simpl. unfold live in Lv. destruct (nth_error (items s) i) as [[h [|]]|]; [discriminate|lia..]. }
      split; cbn [set_a set_b set_lock set_items set_cnt ap bp items ser serp post present lock cnt ready pnot ended doing]; auto; try discriminate; try (intros; rewrite PN; auto; fail).
      * intros r. now rewrite NP.
      * lia.
  - (* over *)
    assert (NP : forall r, present s r = false). { intros r. destruct (present s r) eqn:X; [|reflexivity]. apply I6 in X. rewrite A in X. destruct X. }
    assert (PN : forall g, pend (set_a s AOver) g = pend s g). { intros g. unfold pend. simpl. now rewrite A. }
    split; cbn [set_a set_b set_lock set_items set_cnt ap bp items ser serp post present lock cnt ready pnot ended doing]; auto; try discriminate; try (intros; rewrite PN; auto; fail).
    + intros r. now rewrite NP.
    + now rewrite A in I7.
Qed.

(** a step of an initialising task: what it leaves alone *)
Lemma inv_b_frame : forall s s' b, inv s -> ap s' = ap s -> ser s' = ser s -> serp s' = serp s -> post s' = post s -> present s' = present s -> pnot s' = pnot s ->
  (forall c, c <> b -> bp s' c = bp s c /\ cnt s' c = cnt s c /\ ready s' c = ready s c) ->
  (items s' = items s \/ (items s' = items s ++ [(Pre b, true)] /\ (exists r rs, bp s b = BPush r rs) )) ->
  (forall c r, c <> b -> inside (bp s c) = Some r -> lock s' r = Some c) ->
  (ents (items s') (Pre b) + shared (left b (bp s' b)) <= 1) -> bp s' b <> BIdle ->
  (forall r, inside (bp s' b) = Some r -> lock s' r = Some b) -> (forall r, sure (bp s' b) = Some r -> present s r = true) ->
  (cnt s' b + incb (bp s' b) = 1 + busy (bp s' b) + pend s' (Pre b)) -> (incb (bp s' b) = 1 -> lives (items s') (Pre b) = 1) ->
  (ready s' b = match bp s' b with BEnd => if Nat.eqb (pend s' (Pre b)) 0 then 1 else 0 | _ => 0 end) ->
  (shared (res b) = 1 -> shared (left b (bp s' b)) = 0 -> ser s b = true -> post s = false -> exists k, live s' k = Some (Pre b)) -> inv s'.
Proof.
  intros s s' b I Ea Es Esp Ep Epr Epn Eo Ei Hl H1 H2 H4 H5 H9 H10 H11 H16. destruct I as [I1 I2 I3 I4 I5 I6 I7 I8 I9 I10 I11 I12 I13 I14 I15 I16 I17 I18 I19].
  (* no walk at the end is under way when an entry is added *)
  assert (PU : items s' = items s \/ (items s' = items s ++ [(Pre b, true)] /\ post s = false \/ items s' = items s ++ [(Pre b, true)] /\ match ap s with ANfy _ | AOver => False | _ => True end)).
  { destruct Ei as [Ei|(Ei & r & rs & B)]; [now left|right; right]. split; [exact Ei|]. assert (P : present s r = true) by (apply (I5 b); now rewrite B). apply I6 in P. destruct (ap s); auto. }
  assert (EN : forall g, g <> Pre b -> ents (items s') g = ents (items s) g /\ lives (items s') g = lives (items s) g).
  { intros g N. destruct Ei as [->|(-> & _)]; [auto|]. rewrite ents_app, lives_app. assert (X : ents [(Pre b, true)] g = 0 /\ lives [(Pre b, true)] g = 0); [|destruct X; lia].
    unfold ents, lives, is_ent, is_live. cbn [filter fst snd]. destruct (fol_eqb_spec (Pre b) g); [congruence|]. auto. }
  assert (NE : match ap s with ANfy _ | AOver => items s' = items s | _ => True end).
  { destruct Ei as [Ei|(Ei & r & rs & B)]; [destruct (ap s); auto|]. assert (P : present s r = true) by (apply (I5 b); now rewrite B). apply I6 in P. destruct (ap s); auto; destruct P. }
  assert (PO : forall g, g <> Pre b -> pend s' g = pend s g).
  { intros g N. unfold pend. rewrite Ea. destruct (EN g N) as (_ & E). destruct (ap s); rewrite ?E; auto; now rewrite NE. }
  assert (LE : length (items s) <= length (items s')). { destruct Ei as [->|(-> & _)]; [lia|rewrite app_length; lia]. }
  assert (LV : forall k g, live s k = Some g -> live s' k = Some g).
  { intros k g X. apply live_nth in X. apply live_nth. destruct Ei as [->|(-> & _)]; [exact X|]. rewrite nth_error_app1; [exact X|]. apply nth_error_Some. congruence. }
  assert (LW : forall k g, g <> Pre b -> live s' k = Some g -> live s k = Some g).
  { intros k g N X. apply live_nth in X. apply live_nth. destruct Ei as [E|(E & _)]; rewrite E in X; [exact X|]. destruct (lt_dec k (length (items s))) as [G|G]; [now rewrite nth_error_app1 in X by auto|].
    rewrite nth_error_app2 in X by lia. destruct (k - length (items s)) as [|[|m]]; simpl in X; congruence. }
  (* a task whose entry is being removed does not push *)
  assert (NP : doing (ap s) (Pre b) = true -> items s' = items s).
  { intros D. destruct Ei as [Ei|(Ei & r & rs & B)]; [exact Ei|]. destruct (I12 _ D) as (_ & E). assert (X := I1 b). rewrite B in X. simpl in X. rewrite shared_cons in X. rewrite (I3 r) in X by (apply (I5 b); now rewrite B). lia. }
  split; rewrite ?Ea, ?Es, ?Esp, ?Ep, ?Epr, ?Epn; auto.
  - intros c. destruct (Nat.eq_dec c b) as [->|N]; [exact H1|]. destruct (Eo c N) as (-> & _). destruct (EN (Pre c)) as (-> & _); [congruence|]. auto.
  - intros c X. destruct (Nat.eq_dec c b) as [->|N]; [congruence|]. destruct (Eo c N) as (E & _). rewrite E in X. destruct (EN (Pre c)) as (-> & _); [congruence|]. auto.
  - intros c r X. destruct (Nat.eq_dec c b) as [->|N]; [auto|]. destruct (Eo c N) as (E & _). rewrite E in X. auto.
  - intros c r X. destruct (Nat.eq_dec c b) as [->|N]; [auto|]. destruct (Eo c N) as (E & _). rewrite E in X. eauto.
  - intros c. destruct (Nat.eq_dec c b) as [->|N]; [exact H9|]. destruct (Eo c N) as (-> & -> & _). rewrite PO by congruence. auto.
  - intros c X. destruct (Nat.eq_dec c b) as [->|N]; [auto|]. destruct (Eo c N) as (E & _). rewrite E in X. destruct (EN (Pre c)) as (_ & ->); [congruence|]. auto.
  - intros c. destruct (Nat.eq_dec c b) as [->|N]; [exact H11|]. destruct (Eo c N) as (-> & _ & ->). rewrite PO by congruence. auto.
  - intros f F. destruct (I12 f F) as (X & Y). split; [destruct f; simpl in *; congruence|]. destruct (fol_dec f (Pre b)) as [->|N]; [now rewrite NP|]. destruct (EN f N) as (-> & _). exact Y.
  - intros f j i X k K Y. destruct (fol_dec f (Pre b)) as [->|N].
    + apply (I13 _ _ _ X k K). unfold live in *. rewrite <- NP; [exact Y|]. rewrite X. simpl. apply Nat.eqb_refl.
    + apply (I13 _ _ _ X k K). eapply LW; eauto.
  - intros f i X k Y. destruct (fol_dec f (Pre b)) as [->|N].
    + apply (I14 _ _ X k). unfold live in *. rewrite <- NP; [exact Y|]. rewrite X. simpl. apply Nat.eqb_refl.
    + apply (I14 _ _ X k). eapply LW; eauto.
  - destruct (ap s); auto; lia.
  - intros c X1 X2 X3 X4 X5. destruct (Nat.eq_dec c b) as [->|N]; [auto|]. destruct (Eo c N) as (E & _). rewrite E in *. destruct (I16 c X1 X2 X3 X4 X5) as (k & K). eauto.
  - destruct (EN Par) as (-> & _); [discriminate|]. auto.
  - rewrite PO by discriminate. auto.
  - intros X Y. destruct (EN Par) as (_ & ->); [discriminate|]. auto.
Qed.
Lemma pend_same : forall s s' f, ap s' = ap s -> items s' = items s -> pend s' f = pend s f.
Proof. intros s s' f A B. unfold pend. now rewrite A, B. Qed.

Lemma inv_b : forall s b s', inv s -> bstep s b s' -> calm s' -> inv s'.
Proof.
  intros s b s' I H C. assert (I' := I). destruct I' as [I1 I2 I3 I4 I5 I6 I7 I8 I9 I10 I11 I12 I13 I14 I15 I16 I17 I18 I19].
  assert (Q1 := I1 b). assert (Q9 := I9 b). assert (Q11 := I11 b). assert (Q16 := I16 b).
  assert (LK : forall c r x, c <> b -> inside (bp s c) = Some r -> (lock s x = None \/ lock s x = Some b) -> forall o, upd (lock s) x o r = Some c).
  { intros c r x N X L o. assert (Y := I4 c r X). rewrite upd_ne; [exact Y|]. intros ->. destruct L; congruence. }
  destruct H as [s b B|s b r rs B L|s b r rs B|s b r rs B|s b r rs B|s b r rs B|s b B]; rewrite B in Q1, Q9, Q11, Q16; cbn [left busy incb] in Q1, Q9, Q11, Q16.
  - (* begin *)
    apply (inv_b_frame s _ b I); [reflexivity|reflexivity|reflexivity|reflexivity|reflexivity|reflexivity|..]; cbn [set_a set_b set_lock set_items set_cnt notify_pre ap bp items ser serp post present lock cnt ready pnot]; rewrite ?upd_eq; cbn [left busy incb inside sure].
    + intros c N. now rewrite !upd_ne by auto.
    + now left.
    + intros c q N X. auto.
    + lia.
    + discriminate.
    + discriminate.
    + discriminate.
    + first [rewrite (pend_same s) by reflexivity; lia|lia].
    + discriminate.
    + auto.
    + intros X1 X2. lia.
  - (* lock *)
    apply (inv_b_frame s _ b I); [reflexivity|reflexivity|reflexivity|reflexivity|reflexivity|reflexivity|..]; cbn [set_a set_b set_lock set_items set_cnt notify_pre ap bp items ser serp post present lock cnt ready pnot]; rewrite ?upd_eq; cbn [left busy incb inside sure].
    + intros c N. now rewrite !upd_ne by auto.
    + now left.
    + intros c q N X. apply LK; auto.
    + lia.
    + discriminate.
    + intros q X. injection X as <-. now rewrite upd_eq.
    + discriminate.
    + first [rewrite (pend_same s) by reflexivity; lia|lia].
    + discriminate.
    + auto.
    + intros X1 X2 X3 X4. apply Q16; auto; discriminate.
  - (* check *)
    assert (Lk : lock s r = Some b) by (apply I4; now rewrite B). rewrite shared_cons in Q1. destruct (present s r && ser s b) eqn:P.
    + apply andb_true_iff in P as (P1 & P2).
      apply (inv_b_frame s _ b I); [reflexivity|reflexivity|reflexivity|reflexivity|reflexivity|reflexivity|..]; cbn [set_a set_b set_lock set_items set_cnt notify_pre ap bp items ser serp post present lock cnt ready pnot]; rewrite ?upd_eq; cbn [left busy incb inside sure].
      * intros c N. now rewrite !upd_ne by auto.
      * now left.
      * intros c q N X. auto.
      * rewrite shared_cons. lia.
      * discriminate.
      * intros q X. congruence.
      * intros q X. congruence.
      * first [rewrite (pend_same s) by reflexivity; lia|lia].
      * discriminate.
      * auto.
      * intros X1 X2 X3 X4. apply Q16; auto; discriminate.
    + apply (inv_b_frame s _ b I); [reflexivity|reflexivity|reflexivity|reflexivity|reflexivity|reflexivity|..]; cbn [set_a set_b set_lock set_items set_cnt notify_pre ap bp items ser serp post present lock cnt ready pnot]; rewrite ?upd_eq; cbn [left busy incb inside sure].
      * intros c N. now rewrite !upd_ne by auto.
      * now left.
      * intros c q N X. apply LK; auto.
      * lia.
      * discriminate.
      * discriminate.
      * discriminate.
      * first [rewrite (pend_same s) by reflexivity; lia|lia].
      * discriminate.
      * auto.
      * intros X1 X2 X3 X4. destruct (mem r ares) eqn:Mr; [rewrite X3, andb_true_r in P; rewrite (I8 r Mr P) in X4; discriminate|]. apply Q16; auto; [discriminate|]. now rewrite shared_cons, Mr.
  - (* reached? *)
    assert (Lk : lock s r = Some b) by (apply I4; now rewrite B). rewrite shared_cons in Q1. destruct (post s) eqn:P.
    + apply (inv_b_frame s _ b I); [reflexivity|reflexivity|reflexivity|reflexivity|reflexivity|reflexivity|..]; cbn [set_a set_b set_lock set_items set_cnt notify_pre ap bp items ser serp post present lock cnt ready pnot]; rewrite ?upd_eq; cbn [left busy incb inside sure].
      * intros c N. now rewrite !upd_ne by auto.
      * now left.
      * intros c q N X. apply LK; auto.
      * lia.
      * discriminate.
      * discriminate.
      * discriminate.
      * first [rewrite (pend_same s) by reflexivity; lia|lia].
      * discriminate.
      * auto.
      * congruence.
    + apply (inv_b_frame s _ b I); [reflexivity|reflexivity|reflexivity|reflexivity|reflexivity|reflexivity|..]; cbn [set_a set_b set_lock set_items set_cnt notify_pre ap bp items ser serp post present lock cnt ready pnot]; rewrite ?upd_eq; cbn [left busy incb inside sure].
      * intros c N. now rewrite !upd_ne by auto.
      * now left.
      * intros c q N X. auto.
      * rewrite shared_cons. lia.
      * discriminate.
      * intros q X. congruence.
      * intros q X. apply (I5 b). rewrite B. exact X.
      * first [rewrite (pend_same s) by reflexivity; lia|lia].
      * discriminate.
      * auto.
      * intros X1 X2 X3 X4. apply Q16; auto; discriminate.
  - (* push *)
    assert (Lk : lock s r = Some b) by (apply I4; now rewrite B). assert (Pr : present s r = true) by (apply (I5 b); now rewrite B). rewrite shared_cons, (I3 r Pr) in Q1.
    assert (E0 : ents (items s) (Pre b) = 0) by lia. assert (L0 : lives (items s) (Pre b) = 0) by (assert (X := lives_le (items s) (Pre b)); lia).
    assert (E1 : ents (items s ++ [(Pre b, true)]) (Pre b) = 1). { rewrite ents_app, E0. unfold ents, is_ent. simpl. now rewrite Nat.eqb_refl. }
    assert (L1 : lives (items s ++ [(Pre b, true)]) (Pre b) = 1). { rewrite lives_app, L0. unfold lives, is_live. simpl. now rewrite Nat.eqb_refl. }
    assert (ND : doing (ap s) (Pre b) = false). { destruct (doing (ap s) (Pre b)) eqn:D; [|reflexivity]. apply I12 in D. lia. }
    assert (P0 : pend s (Pre b) = 0 /\ match ap s with ANfy _ | AOver => False | _ => True end).
    { split; [|apply I6 in Pr; destruct (ap s); auto]. unfold pend. assert (X := I6 r Pr). destruct (ap s); try destruct X; rewrite ?ND; auto; simpl in *; rewrite ?ND; auto. }
    assert (P1 : pend (set_b (set_items s (items s ++ [(Pre b, true)])) b (BInc r rs)) (Pre b) = 1).
    { destruct P0 as (_ & P0). unfold pend. simpl. destruct (ap s); try destruct P0; simpl in *; rewrite ?ND; auto. }
    apply (inv_b_frame s _ b I); [reflexivity|reflexivity|reflexivity|reflexivity|reflexivity|reflexivity|..]; cbn [set_a set_b set_lock set_items set_cnt notify_pre ap bp items ser serp post present lock cnt ready pnot]; rewrite ?upd_eq; cbn [left busy incb inside sure].
    + intros c N. now rewrite !upd_ne by auto.
    + right. split; [reflexivity|]. exists r, rs. exact B.
    + intros c q N X. auto.
    + lia.
    + discriminate.
    + intros q X. congruence.
    + intros q X. congruence.
    + rewrite P1. lia.
    + auto.
    + auto.
    + intros X1 X2 X3 X4. exists (length (items s)). apply live_nth. cbn [set_b set_items items]. rewrite nth_error_app2 by lia. now rewrite Nat.sub_diag.
  - (* increment *)
    assert (Lk : lock s r = Some b) by (apply I4; now rewrite B).
    apply (inv_b_frame s _ b I); [reflexivity|reflexivity|reflexivity|reflexivity|reflexivity|reflexivity|..]; cbn [set_a set_b set_lock set_items set_cnt notify_pre ap bp items ser serp post present lock cnt ready pnot]; rewrite ?upd_eq; cbn [left busy incb inside sure].
    + intros c N. now rewrite !upd_ne by auto.
    + now left.
    + intros c q N X. apply LK; auto.
    + lia.
    + discriminate.
    + discriminate.
    + discriminate.
    + first [rewrite (pend_same s) by reflexivity; lia|lia].
    + discriminate.
    + auto.
    + intros X1 X2 X3 X4. apply Q16; auto; discriminate.
  - (* ready? *)
    apply (inv_b_frame s _ b I); [reflexivity|reflexivity|reflexivity|reflexivity|reflexivity|reflexivity|..]; cbn [set_a set_b set_lock set_items set_cnt notify_pre ap bp items ser serp post present lock cnt ready pnot]; rewrite ?upd_eq; cbn [left busy incb inside sure].
    + intros c N. rewrite !upd_ne by auto. split; [reflexivity|]. split; [reflexivity|]. destruct (cnt s b - 1 =? 1); rewrite ?upd_ne by auto; reflexivity.
    + now left.
    + intros c q N X. auto.
    + change (shared []) with 0. lia.
    + discriminate.
    + discriminate.
    + discriminate.
    + first [rewrite (pend_same s) by reflexivity; lia|lia].
    + discriminate.
    + rewrite (pend_same s (set_b (notify_pre s b) b BEnd)) by reflexivity. destruct (Nat.eqb_spec (pend s (Pre b)) 0) as [E|E].
      * replace (cnt s b - 1 =? 1) with true by (symmetry; apply Nat.eqb_eq; lia). rewrite upd_eq. lia.
      * replace (cnt s b - 1 =? 1) with false by (symmetry; apply Nat.eqb_neq; lia). exact Q11.
    + intros X1 X2 X3 X4. apply Q16; auto; discriminate.
Qed.

Lemma reach_inv : forall s, reach calm s -> inv s.
Proof.
  intros s R. induction R as [|s s' R IH H C|s b s' R IH H C]; [apply inv_init|eapply inv_a; eauto|eapply inv_b; eauto].
Qed.
End Inv.
