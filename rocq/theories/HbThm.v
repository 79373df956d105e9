(** Consequences of the knowledge invariant, for every front. *)
From Coq Require Import Bool List Arith NArith ZArith Lia Permutation Sorting.Sorted.
From Verif Require Import AccessModel AccessSpec AccessProof UserModel UserProof SchedModel SchedSpec SchedBase SchedInv1 SchedInv2 SchedInv3 SchedInv8 SchedFront SchedThm SchedSeq SchedMany NestSpec SchedNest HbModel HbSpec HbBase HbInv HbStep HbGlob HbFrame.
Import ListNotations.
Open Scope Z_scope.

Lemma two_places {A} (l : list A) : forall m k x y, (m < k)%nat -> nth_error l m = Some x -> nth_error l k = Some y ->
  exists a b c, l = a ++ x :: b ++ y :: c.
Proof.
  intros m k x y L Em Ek. apply nth_error_split in Em as (a & r & -> & <-).
  rewrite nth_error_app2 in Ek by lia. destruct (k - length a)%nat as [|j] eqn:E; [lia|]. simpl in Ek.
  apply in_split in Ek as (b & c & ->) || apply nth_error_In, in_split in Ek as (b & c & ->). now exists a, b, c.
Qed.

Section Core.
  Context (P : prog) {U : front} (W : wfc P U) (NW : p_wrap P = false) (n : nat) (s : state) (tr : list rec) (H : hreach P U n s tr).

  Lemma H_mreach : mreach P U n s.
  Proof. eapply hreach_mreach; eauto. Qed.
  Lemma H_inv : Inv P U s.
  Proof. exact (mreach_Inv P W NW n s H_mreach). Qed.
  Lemma H_glob : HGlob P U s tr.
  Proof. exact (proj1 (hreach_HInv P W NW n s tr H)). Qed.
  Notation I := H_inv.
  Notation G := H_glob.

  (** ** The history is the log *)
  Lemma tr_log (v : lev -> Z) : zsum v (log s) = zsum v (concat (map r_log tr)).
  Proof.
    induction H as [|s0 tr0 i c s' R IH E1 E2 E3]; [reflexivity|].
    rewrite (hm_log P s0 i s' _ (step_hmove P s0 i c s' E3)), map_app, concat_app, !zsum_app. cbn [map concat]. rewrite app_nil_r. specialize (IH R). lia.
  Qed.

  Lemma once (v : lev -> Z) l m k : (forall y, 0 <= v y) -> v l = 1 -> zsum v (log s) <= 1 -> does tr m l -> does tr k l -> m = k.
  Proof.
    intros N V B. assert (X : forall m k, (m < k)%nat -> does tr m l -> does tr k l -> False).
    { intros m' k' L (a & Ea & Ha) (b & Eb & Hb). destruct (two_places tr _ _ _ _ L Ea Eb) as (t1 & t2 & t3 & E).
      rewrite tr_log in B. rewrite E in B. rewrite map_app in B. simpl in B. rewrite map_app in B. simpl in B.
      rewrite !concat_app in B. simpl in B. rewrite !concat_app in B. simpl in B. rewrite !zsum_app in B.
      pose proof (zsum_ge v (r_log a) l (fun y _ => N y) Ha). pose proof (zsum_ge v (r_log b) l (fun y _ => N y) Hb).
      pose proof (nn_v v (concat (map r_log t1)) N). pose proof (nn_v v (concat (map r_log t2)) N).
      pose proof (nn_v v (concat (map r_log t3)) N). lia. }
    intros Dm Dk. destruct (lt_eq_lt_dec m k) as [[L|L]|L]; auto; exfalso; eauto.
  Qed.

  Ltac vnn := intros []; simpl; try lia; unfold ni, zb; try (destruct (_ =? _)%nat; lia).
  Lemma once_spawn c m k : does tr m (LSpawn c) -> does tr k (LSpawn c) -> m = k.
  Proof.
    apply (once (v_spawn c)); [vnn|simpl; unfold ni; now rewrite Nat.eqb_refl|].
    pose proof (law_spawn P s (i_laws P s I) c). signs c s.
    pose proof (f_startedz P s I (parent P c)). pose proof (spawns_once P W c (parent P c)). nia.
  Qed.
  Lemma once_start c m k : does tr m (LStart c) -> does tr k (LStart c) -> m = k.
  Proof.
    apply (once (v_start c)); [vnn|simpl; unfold ni; now rewrite Nat.eqb_refl|].
    pose proof (f_start P s I c). pose proof (f_exec P s I c). lia.
  Qed.
  Lemma once_end c m k : does tr m (LEnd c) -> does tr k (LEnd c) -> m = k.
  Proof.
    apply (once (v_end c)); [vnn|simpl; unfold ni; now rewrite Nat.eqb_refl|].
    pose proof (f_start P s I c). pose proof (f_exec P s I c). pose proof (f_end P s I c). lia.
  Qed.

  (** ** Bodies *)
  Lemma acts_from m l t : does tr m l -> actor P l = Some t -> exists k, does tr k (LStart t) /\ hbe tr k m.
  Proof.
    intros D A. assert (V := h_actor _ _ _ _ G m l t D A). apply in_start, (log_does P s tr G) in V as [k Dk].
    exists k. split; auto. exact (h_act _ _ _ _ G m k t l D A Dk).
  Qed.

  Lemma start_in q t m : within P q t -> does tr m (LStart t) -> exists k, does tr k (LStart q) /\ hbe tr k m.
  Proof.
    intros Wi. revert m. induction Wi as [|b c Wi IH S]; intros m D; [exists m; split; auto; now left|].
    destruct (h_start _ _ _ _ G m c D) as [(j & Dj & Bj) _].
    assert (E : actor P (LSpawn c) = Some b) by (simpl; apply (m_parent P W), S).
    destruct (acts_from j _ b Dj E) as (k & Dk & Bk). destruct (IH k Dk) as (i & Di & Bi). exists i. split; auto.
    eapply hbe_trans; [exact Bi|]. eapply hbe_trans; [exact Bk|]. now right.
  Qed.

  Lemma made_sp m l t : does tr m l -> actor P l = Some t -> sp s t.
  Proof.
    intros D A. destruct (acts_from m l t D A) as (k & Dk & _).
    destruct (h_start _ _ _ _ G k t Dk) as [(j & Dj & _) _]. apply sp_in. eapply does_log; eauto. exact G.
  Qed.

  Lemma parent_sp c q : sp s c -> parent P c = Some q -> sp s q /\ In (ISpawn c) (body P (Some q)).
  Proof.
    intros Sc E. split.
    - assert (L := Sc). apply sp_in, (log_does P s tr G) in L as [m D]. apply (made_sp m (LSpawn c)); auto.
    - rewrite <- E. apply spawns_In. exact (sp_body P W s I c Sc).
  Qed.

  Lemma in_sp q t : within P q t -> sp s t -> sp s q.
  Proof.
    induction 1 as [|b c Wi IH S]; auto. intros Q. apply IH. apply (parent_sp c b Q). apply (m_parent P W), S.
  Qed.

  Lemma reach_in q t m : within P q t -> sp s t -> does tr m (LReach (EPost q)) ->
    exists k, does tr k (LReach (EPost t)) /\ hbe tr k m.
  Proof.
    intros Wi. induction Wi as [|b c Wi IH S]; intros Q D; [exists m; split; auto; now left|].
    assert (E : parent P c = Some b) by (apply (m_parent P W), S).
    destruct (IH (proj1 (parent_sp c b Q E)) D) as (k & Dk & Bk).
    destruct (h_child _ _ _ _ G k b c Dk E Q) as (j & Dj & Bj). exists j. split; auto. right.
    destruct Bk as [->|Bk]; auto. eapply hb_trans; eauto.
  Qed.

  (** everything a task and its descendants do is before its completion *)
  Lemma reach_all q t m k l : within P q t -> does tr m (LReach (EPost q)) -> does tr k l -> actor P l = Some t -> hb tr k m.
  Proof.
    intros Wi D Dk A. destruct (reach_in q t m Wi (made_sp k l t Dk A) D) as (j & Dj & Bj).
    destruct (h_reach _ _ _ _ G j t Dj) as (i & Di & Bi).
    assert (X : hb tr k j).
    { destruct (h_end _ _ _ _ G i k t l Di Dk A) as [->|B]; auto. eapply hb_trans; eauto. }
    destruct Bj as [->|Bj]; auto. eapply hb_trans; eauto.
  Qed.

  (** ** Conflicting siblings *)
  Lemma siblings_hb r p t d e m k l1 l2 : (rk U r p < rk U r t)%nat -> ser_on P r p t -> within P p d -> within P t e ->
    does tr m l1 -> actor P l1 = Some d -> does tr k l2 -> actor P l2 = Some e -> hb tr m k.
  Proof.
    intros L S Wd We D1 A1 D2 A2.
    destruct (acts_from k l2 e D2 A2) as (i & Di & Bi). destruct (start_in t e i We Di) as (j & Dj & Bj).
    destruct (h_start _ _ _ _ G j t Dj) as [_ X].
    destruct (X r p L (in_sp p d Wd (made_sp m l1 d D1 A1)) S) as (w & Dr & Br).
    assert (Y := reach_all p d w m l1 Wd Dr D1 A1).
    assert (Z : hbe tr j k) by (eapply hbe_trans; eauto). eapply hb_trans; [exact Y|].
    destruct Z as [->|Z]; auto. eapply hb_trans; eauto.
  Qed.

  Lemma siblings_hb_all p t d e m k l1 l2 : (forall r, rk U r p < rk U r t)%nat -> ser P p t -> within P p d -> within P t e ->
    does tr m l1 -> actor P l1 = Some d -> does tr k l2 -> actor P l2 = Some e -> hb tr m k.
  Proof. intros L S. destruct (ser_ser_on P W p t S) as (r & _ & Sr). now apply (siblings_hb r). Qed.

  (** ** Submission *)
  Lemma submit_hb c t i m k a b l : nth_error tr m = Some a -> nth_error tr i = Some b -> r_who a = r_who b -> (m <= i)%nat ->
    In (LSpawn c) (r_log b) -> within P c t -> does tr k l -> actor P l = Some t -> hb tr m k.
  Proof.
    intros Em Ei Ew Lm Hs Wi D A.
    destruct (acts_from k l t D A) as (j & Dj & Bj). destruct (start_in c t j Wi Dj) as (r & Dr & Br).
    destruct (h_start _ _ _ _ G r c Dr) as [(q & Dq & Bq) _].
    assert (q = i) by (apply (once_spawn c); auto; exists b; auto). subst q.
    assert (X : hb tr i k).
    { destruct (hbe_trans tr r j k Br Bj) as [<-|Z]; auto. eapply hb_trans; eauto. }
    destruct (Nat.eq_dec m i) as [->|d]; auto. eapply hb_trans; [eapply (hb_po tr m i a b)|]; eauto. lia.
  Qed.

  Lemma same_body m k a b l1 l2 t : nth_error tr m = Some a -> nth_error tr k = Some b -> In l1 (r_log a) -> In l2 (r_log b) ->
    actor P l1 = Some t -> actor P l2 = Some t -> r_who a = r_who b.
  Proof. intros. eapply (h_own _ _ _ _ G); eauto. Qed.

  Lemma same_body_hb m k l1 l2 t : does tr m l1 -> does tr k l2 -> actor P l1 = Some t -> actor P l2 = Some t ->
    m = k \/ hb tr m k \/ hb tr k m.
  Proof.
    intros (a & Ea & Ha) (b & Eb & Hb) A1 A2. assert (X := same_body m k a b l1 l2 t Ea Eb Ha Hb A1 A2).
    destruct (lt_eq_lt_dec m k) as [[L|L]|L]; auto; right; [left|right]; eapply hb_po; eauto.
  Qed.

  (** ** Waiting *)
  Lemma get_hb c m k l : does tr k (LGet c) -> does tr m l -> actor P l = Some c -> hb tr m k.
  Proof.
    intros Dk D A. destruct (h_get _ _ _ _ G k c Dk) as (j & Dj & Bj).
    destruct (h_end _ _ _ _ G j m c l Dj D A) as [->|B]; auto. eapply hb_trans; eauto.
  Qed.

  Lemma barrier_hb p d i m k l : does tr k LBarrier -> does tr i (LSpawn p) -> (i < k)%nat -> parent P p = None ->
    within P p d -> does tr m l -> actor P l = Some d -> hb tr m k.
  Proof.
    intros Dk Di L Ep Wi D A. destruct (h_bar _ _ _ _ G k i p Dk Di L Ep) as (j & Dj & Bj).
    eapply hb_trans; [|exact Bj]. eapply reach_all; eauto.
  Qed.

  (** ** Memory *)
  Lemma free_hb t d m k l : does tr k (LFree t) -> within P t d -> does tr m l -> actor P l = Some d -> hb tr m k.
  Proof.
    intros Dk Wi D A. destruct (h_dead _ _ _ _ G k t Dk) as [(j & Dj & Bj) _]. eapply hb_trans; [|exact Bj]. eapply reach_all; eauto.
  Qed.

  Lemma free_use_hb t m k l : does tr k (LFree t) -> l = LGet t \/ l = LDrop t -> does tr m l -> hb tr m k.
  Proof.
    intros Dk El D. destruct (h_dead _ _ _ _ G k t Dk) as [_ (j & Dj & Bj)].
    assert (X : exists l' i, (l' = LGet t \/ l' = LDrop t) /\ does tr i l' /\ hb tr i j).
    { destruct (h_used _ _ _ _ G j t Dj) as [(i & Di & Bi)|(i & Di & Bi)]; [exists (LGet t), i|exists (LDrop t), i]; auto. }
    destruct X as (l' & i & El' & Di & Bi). assert (m = i); [|subst; eapply hb_trans; eauto].
    assert (F := f_use P W s I t).
    destruct (Nat.eq_dec m i) as [e|d]; auto. exfalso.
    assert (Y : forall m i l l', (m < i)%nat -> l = LGet t \/ l = LDrop t -> l' = LGet t \/ l' = LDrop t -> does tr m l -> does tr i l' -> False).
    { clear -F H. intros m i l l' L E1 E2 (a & Ea & Ha) (b & Eb & Hb).
      assert (N : forall y, 0 <= v_use t y) by (intros []; simpl; try lia; unfold ni, zb; destruct (_ =? _)%nat; lia).
      assert (V : forall l, l = LGet t \/ l = LDrop t -> v_use t l = 1) by (intros x [-> | ->]; simpl; unfold ni; now rewrite Nat.eqb_refl).
      destruct (two_places tr _ _ _ _ L Ea Eb) as (t1 & t2 & t3 & E). destruct F as [_ B].
      rewrite tr_log in B. rewrite E in B. rewrite map_app in B. simpl in B. rewrite map_app in B. simpl in B.
      rewrite !concat_app in B. simpl in B. rewrite !concat_app in B. simpl in B. rewrite !zsum_app in B.
      pose proof (zsum_ge (v_use t) (r_log a) l (fun y _ => N y) Ha). pose proof (zsum_ge (v_use t) (r_log b) l' (fun y _ => N y) Hb).
      rewrite (V l E1) in *. rewrite (V l' E2) in *.
      pose proof (nn_v (v_use t) (concat (map r_log t1)) N). pose proof (nn_v (v_use t) (concat (map r_log t2)) N).
      pose proof (nn_v (v_use t) (concat (map r_log t3)) N). lia. }
    destruct (lt_eq_lt_dec m i) as [[L|L]|L]; eauto.
  Qed.
End Core.
