(** The knowledge invariant is kept by every step: what the threads know. *)
From Coq Require Import Bool List Arith NArith ZArith Lia Permutation Sorting.Sorted.
From Verif Require Import AccessModel AccessSpec AccessProof UserModel UserProof SchedModel SchedSpec SchedBase SchedInv1 SchedInv2 SchedInv3 SchedInv4 SchedInv5 SchedInv6 SchedInv7 SchedInv8 SchedFront SchedThm HbModel HbSpec HbBase HbInv HbStep HbGlob HbGlob2.
Import ListNotations.
Open Scope Z_scope.

(** ** The search of a user list, with the lock *)
Section Search.
  Context (P : prog) {U : front} (W : wfc P U).
  Context (s : state) (tr : list rec) (I : Inv P U s) (G : HGlob P U s tr).
  Context (X : lev -> Prop).
  Context (D : forall r q p, (rk U r p < rk U r q)%nat -> sp s p -> ser_on P r p q -> X (LReach (EPost q)) -> X (LReach (EPost p))).

  Lemma kfound t r p : past s t -> (rk U r p < rk U r t)%nat -> sp s p -> ser_on P r p t ->
    (exists k, In (p, k) (users s r)) \/ O tr (OLck r) (LReach (EPost p)).
  Proof.
    intros [Ht NS] Hlt Hp (E & a & b & Ha & Hb & Hr & S).
    destruct (ent_ex P t r) as [kt Kt].
    { apply ra_is_serial_inv in S as [S _]. rewrite <- Hr, S. now apply (m_covers P W t b). }
    destruct (ent_ex P p r) as [k Hk].
    { rewrite <- Hr. now apply (m_covers P W p a). }
    destruct (h_users _ _ _ _ G p r k Hk Hp) as [H|H]; [|left; eauto|now right].
    intros o rs is Hf. destruct (le_lt_dec (length rs) k) as [|Lk]; [easy|]. exfalso.
    destruct (i_pushed P s I t r kt Kt Ht) with (p := p) as [_ N]; auto.
    - intros o' rs' is' Hf'. destruct (NS _ _ _ Hf').
    - rewrite <- E. now apply (sp_body P W s I).
    - destruct Hk as (a' & b' & Hk & _). rewrite Hk. apply in_or_app. simpl. auto.
    - apply (N _ _ _ Hf). destruct (proj1 (i_frames P s I _ Hf)) as [pre Ep]. destruct Hk as (a' & b' & Hk & <-).
      rewrite Ep in Hk. clear - Hk Lk. revert a' Hk. induction pre as [|x pre IH]; intros [|y a'] Hk; simpl in Hk.
      + subst rs. now left.
      + subst rs. right. apply in_or_app. simpl. auto.
      + injection Hk as _ Hk. apply (f_equal (@length nat)) in Hk. rewrite app_length in Hk. lia.
      + injection Hk as _ Hk. eauto.
  Qed.

  Lemma kfound_after t r p pre n rest : past s t -> (rk U r p < rk U r t)%nat -> sp s p -> ser_on P r p t ->
    users s r = pre ++ (t, n) :: rest ->
    (exists k, In (p, k) rest) \/ O tr (OLck r) (LReach (EPost p)).
  Proof.
    intros Ht Hlt Hp S E. destruct (kfound t r p Ht Hlt Hp S) as [[k Hk]|]; [|now right].
    left. exists k. rewrite E in Hk. apply in_app_or in Hk as [Hk|[Hk|Hk]]; auto.
    - assert (O := i_newer P s I r). rewrite E in O.
      apply (sorted_app_lr _ _ _ (p, k) (t, n)) in O; simpl; auto. destruct O as [O _]. simpl in O.
      destruct S as [S _]. destruct (O S) as [O'|[-> _]]; lia.
    - injection Hk as -> _. lia.
  Qed.

  Lemma kdone_next t r rs : kdone P U s X t (r :: rs) ->
    (forall p, (rk U r p < rk U r t)%nat -> sp s p -> ser_on P r p t -> kcov P U s X r p t) -> kdone P U s X t rs.
  Proof.
    intros (pre & E & H) N. exists (pre ++ [r]). split; [rewrite E, <- app_assoc; easy|].
    intros r' Hr. apply in_app_or in Hr as [Hr|[<-|[]]]; eauto.
  Qed.

  Lemma kmid_snoc r t mid p k : kmid P U s X r t mid -> (ser P p t -> kcov P U s X r p t) -> kmid P U s X r t (mid ++ [(p, k)]).
  Proof.
    intros H C p' k' Hi S. apply in_app_or in Hi as [Hi|[Hi|[]]]; [eapply H; eauto|]. injection Hi as <- <-. auto.
  Qed.

  Lemma later pre t n mid p k it r x : users s r = pre ++ (t, n) :: mid ++ (p, k) :: it -> In x it -> newer P U r (p, k) x.
  Proof.
    intros E Hx. assert (O := i_newer P s I r). rewrite E in O.
    apply (sorted_app_lr _ (pre ++ (t, n) :: mid ++ [(p, k)]) it); auto.
    - now rewrite <- app_assoc; simpl; rewrite <- app_assoc.
    - rewrite !in_app_iff; simpl. rewrite in_app_iff. simpl. auto.
  Qed.

  (** the end of the list, or the parent *)
  Lemma kiter_end t r rs : past s t -> kiter P U s tr X t r [] rs -> kdone P U s X t rs.
  Proof.
    intros Ht (C & L & pre & mid & E & Mo). eapply kdone_next; eauto.
    intros p Hlt Hsp S. destruct (kfound_after t r p _ _ _ Ht Hlt Hsp S E) as [[k Hk]|H]; [|left; now apply L].
    rewrite app_nil_r in Hk. eapply Mo; eauto. eapply ser_on_ser; eauto.
  Qed.

  Lemma kiter_parent t r q k it rs : past s t -> parent P t = Some q -> kiter P U s tr X t r ((q, k) :: it) rs -> kdone P U s X t rs.
  Proof.
    intros Ht Hq (C & L & pre & mid & E & Mo). eapply kdone_next; eauto.
    intros p Hlt Hsp S. destruct (kfound_after t r p _ _ _ Ht Hlt Hsp S E) as [[k' Hk]|H]; [|left; now apply L].
    apply in_app_or in Hk as [Hk|[Hk|Hk]].
    - eapply Mo; eauto. eapply ser_on_ser; eauto.
    - exfalso. injection Hk as -> ->. destruct S as [S _]. rewrite Hq in S.
      apply (sp_body P W s I) in Hsp. rewrite S in Hsp. apply spawns_In in Hsp. apply (m_lt P W) in Hsp. lia.
    - exfalso. apply (later _ _ _ _ _ _ _ _ _ E) in Hk as [_ Hk]. apply Hk. simpl. destruct S. congruence.
  Qed.

  Lemma kiter_skip t r p k it rs : (ser P p t -> False) -> kiter P U s tr X t r ((p, k) :: it) rs -> kiter P U s tr X t r it rs.
  Proof.
    intros N (C & L & pre & mid & E & Mo). split; auto. split; auto. exists pre, (mid ++ [(p, k)]).
    split; [rewrite E, <- app_assoc; easy|]. apply kmid_snoc; auto. intros S. destruct (N S).
  Qed.

  (** after a dependency *)
  Lemma kafter t p r it rs : past s t -> dep_ok P U s t p r it rs -> kdep P U s tr X t p r it rs ->
    X (LReach (EPost p)) \/ edge s p t ->
    (sync_on P p r = true -> kdone P U s X t rs) /\ kiter P U s tr X t r it rs.
  Proof.
    intros Ht Dok (S & Dn & L & pre & mid & k & E & Mo) C. destruct (dep_order P s t p r it rs I Dok) as [Hlt Hsp]. split.
    - intros Sy. eapply kdone_next; eauto. intros p' Hlt' Hp' S'.
      destruct (kfound_after t r p' _ _ _ Ht Hlt' Hp' S' E) as [[k' Hk]|H]; [|left; now apply L].
      apply in_app_or in Hk as [Hk|[Hk|Hk]].
      + eapply Mo; eauto. eapply ser_on_ser; eauto.
      + injection Hk as <- _. destruct C; [now left|right; now left].
      + assert (O2 := later _ _ _ _ _ _ _ _ _ E Hk).
        destruct O2 as [O2 _]. simpl in O2. destruct S as [Epar _].
        assert (Ep' : parent P p' = parent P p) by (destruct S'; congruence).
        destruct (O2 (eq_sym Ep')) as [O3|[-> _]]; [|destruct C; [now left|right; now left]].
        assert (Spp : ser_on P r p' p).
        { split; [easy|].
          unfold sync_on, has_sync_access in Sy. apply existsb_exists in Sy as (a & Ha & Sa).
          apply andb_prop in Sa as [Sa1 Sa2].
          destruct S' as (_ & b & c & Hb & Hc & Hr & Sbc).
          exists b, a. repeat split; auto. rewrite ra_is_serial_sym.
          unfold same_resource in Sa1. simpl in Sa1. apply Nat.eqb_eq in Sa1.
          eapply (ra_sync_serial a b c); eauto using (m_acc P W); [congruence|].
          eapply (m_type P W p p'); eauto. congruence. }
        destruct C as [C|C]; [left; eapply D; eauto|].
        right. right. exists p. split; [destruct Hlt as [Hlt|[-> _]]; lia|]. split; [|auto]. exact Spp.
    - split; auto. split; auto. exists pre, (mid ++ [(p, k)]). split; [rewrite E, <- app_assoc; easy|].
      apply kmid_snoc; auto. intros _. destruct C; [now left|right; now left].
  Qed.

  Lemma kdone_all t : kdone P U s X t [] -> kall P U s X t.
  Proof.
    intros (pre & E & C). rewrite app_nil_r in E. subst pre. intros r p Hlt Hsp S.
    eapply C; eauto. eapply ser_on_right; eauto.
  Qed.
End Search.

Lemma rel_lock P s f s1 fr r : fstep P s f = Some (s1, fr) -> In (OLck r) (rel P s f) -> w_holds r f = 1 \/ lck s r = false.
Proof.
  intros H Hi.
  assert (Un : forall p r0, In (OLck r) (unlocks P p r0) -> r0 = r).
  { intros p r0. unfold unlocks. destruct (sync_on P p r0); [|easy]. intros [Q|[]]. now injection Q. }
  destruct f as [o is|o c rs is|t|t rs|t r0 it rs|t p r0 it rs|t p r0 it rs|t p r0 it rs|t p r0 it rs|t q|t q|t q|e k|e st k|t rs|e st k|e l|t|t|t]; simpl in Hi; try easy.
  - destruct is as [|[]]; simpl in Hi; try (destruct o; simpl in Hi; intuition discriminate); easy.
  - destruct rs; [destruct Hi as [Q|[]]; discriminate|easy].
  - destruct Hi as [Q|[]]; discriminate.
  - left. destruct it as [|[p k] it]; [destruct Hi as [Q|[]]; injection Q as <-; apply ni_refl|].
    change (In (OLck r) (if onat_eqb (Some p) (parent P t) then [OLck r0] else [])) in Hi.
    destruct (onat_eqb _ _); [|easy]. destruct Hi as [Q|[]]; injection Q as <-; apply ni_refl.
  - left. destruct (_ =? _); [|easy]. apply Un in Hi as <-. apply ni_refl.
  - left. destruct (_ =? _); [|easy]. apply Un in Hi as <-. apply ni_refl.
  - left. destruct Hi as [Q|Hi]; [discriminate|]. apply Un in Hi as <-. apply ni_refl.
  - destruct Hi as [Q|[]]; discriminate.
  - destruct Hi as [Q|[]]; discriminate.
  - destruct e; try easy. destruct k; try easy; destruct (st =? 1); try easy; destruct Hi as [Q|[]]; discriminate.
  - destruct rs; [easy|]. destruct Hi as [Q|[]]. injection Q as <-. right. simpl in H. destruct (lck s n); [discriminate|easy].
  - destruct (_ =? 1); simpl in Hi; intuition discriminate.
Qed.

Section Step.
  Context (P : prog) {U : front} (W : wfc P U) (NW : p_wrap P = false) (n : nat).
  Context (s : state) (tr : list rec) (i : nat) (s' : state) (a : rec).
  Context (R : mreach P U n s) (R' : mreach P U n s') (M : moves P s s') (HM : hmove P s i s' a).
  Context (G : HGlob P U s tr) (F : forall j f, inst s j f -> kframe P U s tr j f).
  Notation tr' := (tr ++ [a]).
  Notation moved := (moved P s i s' a).
  Let I : Inv P U s := mreach_Inv P W NW n s R.
  Let I' : Inv P U s' := mreach_Inv P W NW n s' R'.
  Let G' : HGlob P U s' tr' := glob_step P W NW n s tr i s' a R R' M HM G F.

  Lemma holds_le r : zsum (w_holds r) (frames s) <= 1.
  Proof. rewrite (i_lock P s I). destruct (lck s r); simpl; lia. Qed.

  Lemma nn_holds r g : 0 <= w_holds r g.
  Proof. apply (w_nn r g). Qed.

  (** a lock held by a frame that stays is not released *)
  Lemma kept_lock j g r : inst s j g -> (forall f fs s1 fr, moved f fs s1 fr -> j <> i \/ In g fs) -> w_holds r g = 1 ->
    ~ In (OLck r) (r_rel a).
  Proof.
    intros Hg Hd Hw Hi. assert (L := holds_locked P s r g I (inst_in _ _ _ Hg) Hw).
    destruct HM as [f fs s1 fr new E Fs Es Ea El|c s1 fr new E Fs Es Ea El].
    - assert (Mv : moved f fs s1 fr) by (split; auto; rewrite Ea; auto).
      rewrite (mv_rel _ _ _ _ _ _ _ _ _ Mv) in Hi. destruct (rel_lock _ _ _ _ _ _ Fs Hi) as [H|H]; [|congruence].
      assert (T := two_insts (w_holds r) s i f fs j g (nn_holds r) E Hg (Hd _ _ _ _ Mv)). pose proof (holds_le r). lia.
    - rewrite Ea in Hi. easy.
  Qed.

  Lemma locked_keep (X X' : lev -> Prop) r : ~ In (OLck r) (r_rel a) -> (forall l, X l -> X' l) -> locked tr X r -> locked tr' X' r.
  Proof. intros N H L l Hl. apply H, L. eapply O_back; eauto. Qed.

  Lemma kiter_keep (X X' : lev -> Prop) t r it rs : past s t -> lck s r = true -> ~ In (OLck r) (r_rel a) -> (forall l, X l -> X' l) ->
    kiter P U s tr X t r it rs -> kiter P U s' tr' X' t r it rs.
  Proof.
    intros Ht L N H (C & Lk & pre & mid & E & Mo). split; [apply (kdone_mono P W s s' I M X X'); auto|]. split; [eapply locked_keep; eauto|].
    destruct (users_locked P s s' r M L) as [l El]. exists (l ++ pre), mid. rewrite El, E, <- app_assoc.
    split; [easy|]. apply (kmid_mono P s s' M X X'); auto.
  Qed.

  Lemma kdep_keep (X X' : lev -> Prop) t p r it rs : past s t -> lck s r = true -> ~ In (OLck r) (r_rel a) -> (forall l, X l -> X' l) ->
    kdep P U s tr X t p r it rs -> kdep P U s' tr' X' t p r it rs.
  Proof.
    intros Ht L N H (S & C & Lk & pre & mid & k & E & Mo). split; [easy|]. split; [apply (kdone_mono P W s s' I M X X'); auto|]. split; [eapply locked_keep; eauto|].
    destruct (users_locked P s s' r M L) as [l El]. exists (l ++ pre), mid, k. rewrite El, E, <- app_assoc.
    split; [easy|]. apply (kmid_mono P s s' M X X'); auto.
  Qed.

  Lemma own_new t j : own P tr t j -> (forall l, In l (r_log a) -> actor P l = Some t -> i = j) -> own P tr' t j.
  Proof.
    intros H N m b l E Hl Ha. destruct (nth_inv _ _ _ _ E) as [E'|[-> ->]]; [eapply H; eauto|].
    rewrite (hm_who P s i s' a HM). eauto.
  Qed.

  Lemma own_keep t j g : own P tr t j -> inst s j g -> (forall f fs s1 fr, moved f fs s1 fr -> j <> i \/ In g fs) ->
    is_body (Some t) g = 1 -> own P tr' t j.
  Proof.
    intros H Hg Hd Hw. apply own_new; auto. intros l Hl Ha. exfalso.
    destruct (actor_cause P W NW n s i s' a R HM l t Hl Ha) as (f & fs & s1 & fr & Mv & _ & B).
    assert (NN : forall g, 0 <= is_body (Some t) g) by (intros; apply w_nn4).
    assert (B1 := in_w s (is_body (Some t)) _ NN (inst_in _ _ _ Hg)). rewrite Hw in B1.
    pose proof (body_facts P s I t B1) as BF. pose proof (law_body P s (i_laws P s I) t) as LB.
    destruct B as [->|[is ->]].
    - pose proof (run_unstarted P W NW n s R t (moved_in _ _ _ _ _ _ _ _ _ Mv)). lia.
    - assert (T := two_insts (is_body (Some t)) s i _ fs j g NN (mv_top _ _ _ _ _ _ _ _ _ Mv) Hg (Hd _ _ _ _ Mv)).
      rewrite Hw in T. simpl in T. rewrite Nat.eqb_refl in T. simpl in T.
      pose proof (f_start P s I t). pose proof (f_exec P s I t). pose proof (f_end P s I t). lia.
  Qed.

  (** frames that stay *)
  Lemma frame_keep j g : inst s j g -> (forall f fs s1 fr, moved f fs s1 fr -> j <> i \/ In g fs) -> kframe P U s' tr' j g.
  Proof.
    intros Hg Hd. assert (Fg := F j g Hg). assert (Hi := inst_in _ _ _ Hg).
    assert (KM := K_old tr a j).
    assert (PM := fun t T => pk_mono P W s s' I M (K tr j) (K tr' j) t T KM).
    assert (TOK : forall t, w_token t g = 1 -> past s t) by (intros t H; eapply (past_tok P W s I), tok_frame; eauto).
    assert (PC : forall t, w_collect t g = 1 -> past s t) by (intros t H; eapply (past_collect P W s I); eauto).
    assert (LK : forall r, w_holds r g = 1 -> lck s r = true /\ ~ In (OLck r) (r_rel a)).
    { intros r H. split; [eapply (holds_locked P s r g I); eauto|eapply kept_lock; eauto]. }
    destruct g as [o is|o c rs is|t|t rs|t r it rs|t p r it rs|t p r it rs|t p r it rs|t p r it rs|t q|t q|t q|e k|e st k|t rs|e st k|e l|t|t|t]; unfold kframe in Fg |- *; cbv zeta in Fg |- *; auto.
    - destruct o; auto. eapply own_keep; eauto. simpl. now rewrite Nat.eqb_refl.
    - destruct Fg as [F1 F2]. split; auto. destruct o; auto. eapply own_keep; eauto. simpl. now rewrite Nat.eqb_refl.
    - destruct Fg as [F1 F2]. split; auto. apply (kdone_mono P W s s' I M (K tr j)); auto. apply PC. apply ni_refl.
    - destruct Fg as [F1 F2]. split; auto. destruct (LK r (ni_refl r)). apply (kiter_keep (K tr j)); auto. apply PC. apply ni_refl.
    - destruct Fg as [F1 F2]. split; auto. destruct (LK r (ni_refl r)). apply (kdep_keep (K tr j)); auto. apply PC. apply ni_refl.
    - destruct Fg as [F1 F2]. split; auto. destruct (LK r (ni_refl r)). apply (kdep_keep (K tr j)); auto. apply PC. apply ni_refl.
    - destruct Fg as [F1 F2]. split; auto. destruct (LK r (ni_refl r)). apply (kdep_keep (K tr j)); auto. apply PC. apply ni_refl.
    - destruct Fg as (F1 & F2 & F3). split; auto. destruct (LK r (ni_refl r)). split; [apply (kdep_keep (K tr j)); auto; apply PC; apply ni_refl|].
      eapply fol_mono; eauto.
    - destruct Fg as [F1 F2]. split; auto. apply (kall_mono P W s s' I M (K tr j)); auto. apply PC. apply ni_refl.
    - destruct Fg as [F1 F2]. split; auto. apply (kall_mono P W s s' I M (K tr j)); auto. apply PC. apply ni_refl.
    - destruct Fg as [F1 F2]. split; auto. apply (kall_mono P W s s' I M (K tr j)); auto. apply PC. apply ni_refl.
    - destruct e; auto; destruct k; auto; try (destruct Fg; auto; fail).
      destruct Fg as [F1 F2]. split; auto. apply (kall_mono P W s s' I M (K tr j)); auto. eapply (past_ninit P W s I); eauto.
    - destruct Fg as [F1 F2]. split; auto. intros t -> ->. apply PM; auto. apply TOK. simpl. now rewrite Nat.eqb_refl.
    - destruct Fg as [F1 F2]. split; auto. intros t -> -> ->. apply PM; auto. apply TOK. simpl. now rewrite Nat.eqb_refl.
    - destruct Fg as [F1 F2]. split; auto. intros x Hx. eapply fol_mono; eauto.
    - apply PM; auto. apply TOK. simpl. now rewrite ?Nat.eqb_refl, ?ni_refl.
    - apply PM; auto. eapply (past_run P W s I); eauto.
  Qed.

  (** ** New frames *)
  Notation X := (K tr i).
  Notation X' := (K tr' i).

  Lemma XX l : X l -> X' l. Proof. apply K_old. Qed.

  (** something logged by this step, or already known to an acquired object *)
  Lemma knew l x : In l (log s') -> (In l (log s) -> O tr x l) -> In x (r_acq a) -> X' l.
  Proof.
    intros H1 H2 H3. apply (log_in P s i s' a HM) in H1 as [H1|H1].
    - now apply (Kown P s tr i s' a HM).
    - eapply (Kacq P s tr i s' a HM); eauto.
  Qed.
  Lemma knew_own l : In l (log s') -> ~ In l (log s) -> X' l.
  Proof.
    intros H1 H2. apply (log_in P s i s' a HM) in H1 as [H1|H1]; [|easy]. now apply (Kown P s tr i s' a HM).
  Qed.

  Lemma new_log l : (exists k, log s' = [l] ++ k ++ log s) -> X' l.
  Proof.
    intros [k E]. apply (Kown P s tr i s' a HM). rewrite (hm_log P s i s' a HM), app_assoc in E.
    apply app_inv_tail in E. rewrite E. now left.
  Qed.

  Lemma X'down r q p : (rk U r p < rk U r q)%nat -> sp s p -> ser_on P r p q -> X' (LReach (EPost q)) -> X' (LReach (EPost p)).
  Proof.
    intros Hlt Hp S. apply K_down. intros m D. eapply (reach_down P s' tr' I' G'); eauto. eapply sp_mono; eauto.
  Qed.

  Lemma frame_new_k f fs s1 fr g : moved f fs s1 fr -> In g fr -> kframe P U s' tr' i g.
  Proof.
    intros Mv Hg. assert (Ff := F i f (moved_inst _ _ _ _ _ _ _ _ _ Mv)). assert (Hf := moved_in _ _ _ _ _ _ _ _ _ Mv).
    assert (Hg' := moved_new _ _ _ _ _ _ _ _ _ g Mv Hg). assert (Hin' := inst_in _ _ _ Hg').
    assert (H := mv_step _ _ _ _ _ _ _ _ _ Mv). assert (Es := mv_eq _ _ _ _ _ _ _ _ _ Mv).
    assert (Ea := mv_acq _ _ _ _ _ _ _ _ _ Mv). assert (Er := mv_rel _ _ _ _ _ _ _ _ _ Mv).
    assert (OW : forall t, own P tr t i -> own P tr' t i) by (intros; apply own_new; auto).
    assert (PM := fun t T => pk_mono P W s s' I M X X' t T XX).
    assert (TOK : forall t, w_token t f = 1 -> past s t) by (intros t Q; eapply (past_tok P W s I), tok_frame; eauto).
    assert (PC : forall t, w_collect t f = 1 -> past s t) by (intros t Q; eapply (past_collect P W s I); eauto).
    assert (LK : forall r, w_holds r f = 1 -> lck s r = true) by (intros r Q; eapply (holds_locked P s r f I); eauto).
    assert (KD : forall t rs (Y : lev -> Prop), past s t -> (forall l, Y l -> X' l) -> kdone P U s Y t rs -> kdone P U s' X' t rs)
      by (intros t rs Y; apply (kdone_mono P W s s' I M Y X')).
    assert (KA : forall t, past s t -> kall P U s X t -> kall P U s' X' t) by (intros t T; apply (kall_mono P W s s' I M X X' t T XX)).
    (* after a dependency *)
    assert (XK : forall t p r it rs, kdep P U s tr X t p r it rs -> kdep P U s tr X' t p r it rs).
    { intros t p r it rs (S & C & Lk & pre & mid & k & E & Mo). split; [easy|].
      assert (CV : forall r p t, kcov P U s X r p t -> kcov P U s X' r p t).
      { intros r1 p1 t1 [Q|Q]; [left; now apply XX|now right]. }
      split; [|split; [intros l Hl; apply XX, Lk; auto|exists pre, mid, k; split; [exact E|]; intros p1 k1 H1 H2; apply CV; exact (Mo p1 k1 H1 H2)]].
      destruct C as (pre0 & E0 & C). exists pre0. split; [exact E0|]. intros r0 Hr0 p0 A1 A2 A3. apply CV. exact (C r0 Hr0 p0 A1 A2 A3). }
    assert (AD : forall t p r it rs, w_collect t f = 1 -> kdep P U s tr X t p r it rs -> dep_ok P U s t p r it rs -> X' (LReach (EPost p)) \/ edge s p t ->
        w_holds r f = 1 ->
        (sync_on P p r = true -> kdone P U s' X' t rs) /\ (~ In (OLck r) (r_rel a) -> kiter P U s' tr' X' t r it rs)).
    { intros t p r it rs T Dk Dok C Hw. destruct (kafter P W s tr I G X' X'down t p r it rs (PC t T) Dok (XK _ _ _ _ _ Dk) C) as [A1 A2].
      split; [intros Sy; eapply (KD t rs X'); eauto|]. intros N. eapply kiter_keep; eauto. }
    assert (Fo := i_frames P s I f Hf).
    (* reached events acquired here *)
    assert (RD : forall p, In (OCtr (EPost p)) (r_acq a) -> (ctr s (EPost p) =? 0) = true -> X' (LReach (EPost p))).
    { intros p Q Z0. apply (reached_rc P s p I) in Z0. apply in_reach in Z0. eapply (Kacq P s tr i s' a HM); eauto.
      now apply (h_self _ _ _ _ G). }
    (* FNotify *)
    assert (PN : forall t k, g = FNotify2 (EPre t) 1 k -> In (OCtr (EPre t)) (r_acq a) -> pk P U s' X' t).
    { intros t k -> Q. destruct (tok_init P s' I' t) as [T1 T2].
      { eapply tok_frame; eauto. simpl. now rewrite Nat.eqb_refl. }
      destruct (ready_known P W s' tr' I' G' t T1 T2) as [K1 K2].
      assert (KO : forall l, O tr' (OCtr (EPre t)) l -> X' l).
      { intros l Hl. rewrite <- (hm_who P s i s' a HM). eapply K_O; eauto. }
      split; [auto|]. intros r p A1 A2 A3. exact (KO _ (K2 r p A1 A2 A3)). }
    clear Hg' Hin'.
    destruct f as [o is|o c rs is|t|t rs|t r it rs|t p r it rs|t p r it rs|t p r it rs|t p r it rs|t q|t q|t q|e k|e st k|t rs|e st k|e l|t|t|t].
    - (* FBody *)
      assert (BF : forall is', kframe P U s' tr' i (FBody o is')).
      { intros is'. destruct o; [|exact Logic.I]. now apply OW. }
      destruct is as [|[x|c|c|c|e|] is].
      + destruct o as [t|]; simpl in H; [|discriminate]. injection H as <- <-.
        assert (Q : X' (LEnd t)).
        { apply knew_own; [rewrite Es; simpl; auto|]. intros Q. apply in_end in Q.
          rewrite (body_unended P W NW n s R t _ Hf (or_intror (ex_intro _ _ eq_refl))) in Q. lia. }
        destruct Hg as [<-|[<-|[]]]; exact Q.
      + destruct o; simpl in H; injection H as <- <-; destruct Hg as [<-|[]]; apply BF.
      + assert (Q : X' (LSpawn c)).
        { apply knew_own.
          - rewrite Es. destruct o; simpl in H; injection H as <- <-; simpl; auto.
          - intros Q. apply in_spawn in Q. destruct (spawn_facts P W s I _ _ _ Hf) as [_ Z0]. unfold sp in Q. lia. }
        destruct o; simpl in H; injection H as <- <-; destruct Hg as [<-|[]]; split; auto.
      + assert (Q : X' (LDrop c)).
        { apply new_log. destruct o; simpl in H; injection H as E1 _; rewrite Es, <- E1; exists []; reflexivity. }
        destruct o; simpl in H; injection H as <- <-; (destruct Hg as [<-|[<-|[]]]; [right; exact Q|apply BF]).
      + assert (Q : X' (LGet c)).
        { apply new_log. destruct o; simpl in H; (destruct (_ =? 0); [|discriminate]); injection H as E1 _; rewrite Es, <- E1; exists []; reflexivity. }
        destruct o; simpl in H; (destruct (_ =? 0); [|discriminate]); injection H as <- <-; (destruct Hg as [<-|[<-|[]]]; [left; exact Q|apply BF]).
      + destruct o; simpl in H; injection H as <- <-; destruct Hg as [<-|[]]; apply BF.
      + destruct o; simpl in H; (destruct (_ =? 0); [|discriminate]); injection H as <- <-; destruct Hg as [<-|[]]; apply BF.
    - (* FSub *)
      destruct Ff as [F1 F2]. destruct rs as [|r rs]; simpl in H; injection H as <- <-; destruct Hg as [<-|[]].
      + destruct o; [|exact Logic.I]. now apply OW.
      + split; [now apply XX|]. destruct o; [|exact Logic.I]. now apply OW.
    - (* FInitUp *)
      simpl in H. injection H as <- <-. destruct Hg as [<-|[]]. split; [apply XX; exact Ff|]. exists []. split; [easy|]. easy.
    - (* FInit *)
      destruct Ff as [F1 F2]. apply XX in F1. assert (Pa := PC t (ni_refl t)). destruct rs as [|r rs]; simpl in H.
      + assert (A : kall P U s X t) by (apply kdone_all; auto). apply KA in A; auto.
        destruct (parent P t); injection H as <- <-; destruct Hg as [<-|[]]; split; auto.
      + destruct (lck s r) eqn:L; [discriminate|]. injection H as <- <-. destruct Hg as [<-|[]]. split; auto.
        split; [apply (KD t (r :: rs) X); auto using XX|]. split.
        * intros l Hl. rewrite <- (hm_who P s i s' a HM). apply (K_O tr a (OLck r)); auto. rewrite Ea. now left.
        * destruct Fo as (pre & E & _).
          destruct (i_present P s I t r (length rs)) as [Hi|Hi]; [exists pre, rs; auto|apply Pa|intros o rs0 is Hs; destruct (proj2 Pa _ _ _ Hs)| |].
          -- destruct (older_split _ _ Hi) as [pre' E']. exists pre', []. split; [rewrite Es; simpl; exact E'|]. easy.
          -- exfalso. pose proof (collect_facts P W s I t (in_collect s t _ Hf (ni_refl t))). unfold rc in Hi. lia.
    - (* FIter *)
      destruct Ff as [F1 F2]. apply XX in F1. assert (Pa := PC t (ni_refl t)). destruct it as [|[p k] it]; cbn [fstep] in H.
      + injection H as <- <-. destruct Hg as [<-|[]]. split; auto. eapply (KD t rs X); eauto using XX.
        eapply kiter_end; eauto.
      + cbn [rel] in Er. destruct (onat_eqb_spec (Some p) (parent P t)) as [Q|Q].
        * injection H as <- <-. destruct Hg as [<-|[]]. split; auto. eapply (KD t rs X); eauto using XX. eapply kiter_parent; eauto.
        * assert (N : ~ In (OLck r) (r_rel a)) by (rewrite Er; easy).
          destruct (onat_eqb (parent P p) (parent P t) && user_is_serial (user P p) (user P t)) eqn:B;
            injection H as <- <-; destruct Hg as [<-|[]]; (split; [auto|]).
          -- apply andb_prop in B as [B1 B2]. eapply (kdep_keep X X'); eauto using XX. { apply LK, ni_refl. }
             destruct F2 as (C & Lk & pre & mid & E & Mo). split; [|split; [auto|split; [auto|exists pre, mid, k; auto]]].
             split; auto. destruct (onat_eqb_spec (parent P p) (parent P t)); easy.
          -- eapply (kiter_keep X X'); eauto using XX. { apply LK, ni_refl. }
             eapply kiter_skip; eauto. intros [S1 S2]. rewrite S2, andb_true_r in B. destruct (onat_eqb_spec (parent P p) (parent P t)); easy.
    - (* FDep1 *)
      destruct Ff as [F1 F2]. apply XX in F1. assert (Pa := PC t (ni_refl t)). simpl in H, Er, Ea.
      destruct (ctr s (EPost p) =? 0) eqn:Z0.
      + assert (Q : X' (LReach (EPost p))) by (apply RD; auto; rewrite Ea; now left).
        destruct (AD t p r it rs (ni_refl t) F2 Fo (or_introl Q) (ni_refl r)) as [A1 A2].
        unfold after_dep in H. unfold unlocks in Er. destruct (sync_on P p r) eqn:Sy; injection H as <- <-; destruct Hg as [<-|[]]; (split; [auto|]).
        * auto.
        * apply A2. rewrite Er. easy.
      + injection H as <- <-. destruct Hg as [<-|[]]. split; [auto|]. eapply (kdep_keep X X'); eauto using XX.
        { apply LK, ni_refl. } rewrite Er. easy.
    - (* FDep2 *)
      destruct Ff as [F1 F2]. apply XX in F1. assert (Pa := PC t (ni_refl t)). simpl in H, Er, Ea.
      destruct (ctr s (EPost p) =? 0) eqn:Z0.
      + assert (Q : X' (LReach (EPost p))) by (apply RD; auto; rewrite Ea; now left).
        destruct (AD t p r it rs (ni_refl t) F2 Fo (or_introl Q) (ni_refl r)) as [A1 A2].
        unfold after_dep in H. unfold unlocks in Er. destruct (sync_on P p r) eqn:Sy; injection H as <- <-; destruct Hg as [<-|[]]; (split; [auto|]).
        * auto.
        * apply A2. rewrite Er. easy.
      + injection H as <- <-. destruct Hg as [<-|[]]. split; [auto|]. eapply (kdep_keep X X'); eauto using XX.
        { apply LK, ni_refl. } rewrite Er. easy.
    - (* FDep3 *)
      destruct Ff as [F1 F2]. apply XX in F1. assert (Pa := PC t (ni_refl t)). simpl in H, Er, Ea.
      injection H as <- <-. destruct Hg as [<-|[]]. split; [auto|]. split.
      + eapply (kdep_keep X X'); eauto using XX. { apply LK, ni_refl. } rewrite Er. easy.
      + unfold edge. rewrite Es. simpl. unfold eupd. rewrite ev_eqb_refl. now left.
    - (* FDep4 *)
      destruct Ff as (F1 & F2 & F3). apply XX in F1. assert (Pa := PC t (ni_refl t)). simpl in H, Er, Ea.
      destruct (AD t p r it rs (ni_refl t) F2 (proj1 Fo) (or_intror F3) (ni_refl r)) as [A1 A2].
      unfold after_dep in H. unfold unlocks in Er. destruct (sync_on P p r) eqn:Sy; injection H as <- <-; destruct Hg as [<-|[]]; (split; [auto|]).
      + auto.
      + apply A2. rewrite Er. intros [Q|[]]. discriminate.
    - (* FPar1 *)
      destruct Ff as [F1 F2]. apply XX in F1. apply KA in F2; [|apply PC, ni_refl]. simpl in H.
      destruct (_ =? 0); injection H as <- <-; destruct Hg as [<-|[]]; split; auto.
    - destruct Ff as [F1 F2]. apply XX in F1. apply KA in F2; [|apply PC, ni_refl]. simpl in H.
      injection H as <- <-; destruct Hg as [<-|[]]; split; auto.
    - destruct Ff as [F1 F2]. apply XX in F1. apply KA in F2; [|apply PC, ni_refl]. simpl in H.
      injection H as <- <-; destruct Hg as [<-|[]]; split; auto.
    - (* FNotify *)
      unfold fstep in H. cbv zeta in H. injection H as E1 <-. destruct Hg as [<-|[]]. split.
      + intros Z0. apply (knew _ (OCtr e)); [|apply (h_self _ _ _ _ G)|rewrite Ea; now left].
        rewrite Es. simpl. rewrite <- E1. destruct e, k; simpl; rewrite Z0; simpl; auto.
      + intros t -> Z1. eapply PN; [rewrite Z1; reflexivity|]. rewrite Ea. now left.
    - (* FNotify2 *)
      destruct Ff as [F1 F2].
      assert (N3 : forall k', kframe P U s' tr' i (FNotify3 e st k')).
      { intros k'. split; [intros Z0; apply XX; auto|]. intros t -> -> _. apply PM; [|auto]. apply TOK. simpl. now rewrite Nat.eqb_refl. }
      simpl in H.
      destruct e as [t|t|t|t|t e]; try (injection H as <- <-; destruct Hg as [<-|[]]; apply N3).
      + destruct k; try (destruct (st =? 1)); injection H as <- <-; destruct Hg as [<-|[]]; apply N3.
      + destruct (Z.eqb_spec st 0); injection H as <- <-; destruct Hg as [<-|[]]; [apply XX; auto|apply N3].
    - (* FDelete *)
      destruct rs as [|r rs]; simpl in H.
      + injection H as <- <-. destruct Hg as [<-|[]]. split; [intros _; apply XX; exact Ff|]. intros t0 Q. discriminate.
      + destruct (lck s r); [discriminate|]. injection H as <- <-. destruct Hg as [<-|[]]. apply XX; exact Ff.
    - (* FNotify3 *)
      destruct Ff as [F1 F2]. simpl in H. destruct (Z.eqb_spec st 0) as [Z0|Z0].
      + injection H as <- <-. destruct Hg as [<-|[]]. split; [apply XX; auto|]. intros x Hx. eapply fol_mono; eauto.
      + destruct e as [t|t|t|t|t e]; try (injection H as <- <-; easy). destruct k; try (injection H as <- <-; easy).
        destruct (Z.eqb_spec st 1) as [Z1|Z1]; injection H as <- <-; [|easy]. destruct Hg as [<-|[]]. apply PM; [|auto].
        apply TOK. simpl. subst st. now rewrite Nat.eqb_refl.
    - (* FFollow *)
      destruct Ff as [F1 F2]. destruct l as [|x l]; simpl in H.
      + destruct e; injection H as <- <-; try easy; destruct Hg as [<-|[]]; exact Logic.I.
      + injection H as <- <-. destruct Hg as [<-|[<-|[]]].
        * assert (Q := i_fol P s I e x (F2 x (or_introl eq_refl))). destruct x; try exact Logic.I; destruct e; destruct Q.
        * split; [apply XX; auto|]. intros y Hy. eapply fol_mono; eauto. apply F2. now right.
    - simpl in H. destruct (_ =? 1); injection H as <- <-; easy.
    - (* FExec *)
      simpl in H. injection H as <- <-. destruct Hg as [<-|[<-|[]]]; [exact Logic.I|]. apply PM; [|exact Ff].
      apply TOK. simpl. now rewrite ?Nat.eqb_refl, ?ni_refl.
    - (* FRun *)
      simpl in H. injection H as <- <-. destruct Hg as [<-|[]]. intros m b l E Hl Ha.
      destruct (nth_inv _ _ _ _ E) as [E'|[-> ->]]; [|apply (hm_who P s i s' a HM)]. exfalso.
      assert (V := h_actor _ _ _ _ G m l t (ex_intro _ b (conj E' Hl)) Ha).
      rewrite (run_unstarted P W NW n s R t Hf) in V. lia.
  Qed.

  Lemma frame_idle_k c s1 fr g : istep s c = Some (s1, fr) -> In g fr -> r_acq a = acq_idle s c -> kframe P U s' tr' i g.
  Proof.
    intros H Hg Ea. destruct c as [k|k|k]; simpl in H, Ea.
    - destruct (nth_error (rdy s) k) as [t|] eqn:E; [|discriminate]. injection H as <- <-. destruct Hg as [<-|[]].
      assert (Hi := nth_error_In _ _ E). eapply (pk_mono P W s s' I M (O tr (ORdy t))).
      + apply (past_tok P W s I). unfold tok. signs t s. apply ni_pos in Hi. lia.
      + intros l Hl. eapply (Kacq P s tr i s' a HM); eauto. rewrite Ea. now left.
      + now apply (h_rdy _ _ _ _ G).
    - destruct (nth_error (emp s) k) as [t|] eqn:E; [|discriminate]. injection H as <- <-. destruct Hg as [<-|[]].
      assert (Hi := nth_error_In _ _ E). simpl. eapply (Kacq P s tr i s' a HM); [rewrite Ea; now left|]. now apply (h_emp _ _ _ _ G).
    - destruct (nth_error (ext s) k) as [[t e]|] eqn:E; [|discriminate]. injection H as <- <-. destruct Hg as [<-|[]]. exact Logic.I.
  Qed.

  Lemma frames_step j g : inst s' j g -> kframe P U s' tr' j g.
  Proof.
    intros Hg. destruct (origins P s i s' a HM j g Hg) as [f fs s1 fr Mv -> H|c s1 fr -> H H1 _ H2 _ _|H H1].
    - eapply frame_new_k; eauto.
    - eapply frame_idle_k; eauto.
    - now apply frame_keep.
  Qed.
End Step.

(** ** Every execution *)
Section All.
  Context (P : prog) {U : front} (W : wfc P U) (NW : p_wrap P = false).

  Lemma hreach_mreach n s tr : hreach P U n s tr -> mreach P U n s.
  Proof. induction 1; [constructor|econstructor; eauto]. Qed.

  Lemma hreach_HInv n s tr : hreach P U n s tr -> HInv P U s tr.
  Proof.
    induction 1 as [|s tr i c s' H IH E1 E2 E3].
    - assert (R : mreach P U n (init_many P (mains U) n)) by constructor.
      assert (I := mreach_Inv P W NW n _ R).
      assert (ND : forall m l, does (@nil rec) m l -> False) by (intros [|m] l (b & E & _); discriminate).
      split.
      + split; intros; try (exfalso; eapply ND; eauto; fail); simpl in *; try easy; try lia.
        * split; [easy|]. intros [m D]. destruct (ND _ _ D).
        * destruct n0; discriminate.
      + intros j f (st & Ej & Hf). simpl in Ej. apply nth_error_In in Ej. unfold init_many in Ej.
        apply in_app_or in Ej as [Ej|Ej]; [apply in_map_iff in Ej as (m & <- & _); destruct Hf as [<-|[]]; exact Logic.I|].
        apply repeat_spec in Ej. subst st. easy.
    - assert (R := hreach_mreach _ _ _ H). assert (R' : mreach P U n s') by (econstructor; eauto).
      assert (M := step_moves P s i c s' E3). assert (HM := step_hmove P s i c s' E3). destruct IH as [G F]. split.
      + exact (glob_step P W NW n s tr i s' _ R R' M HM G F).
      + intros j f Hj. exact (frames_step P W NW n s tr i s' _ R R' M HM G F j f Hj).
  Qed.
End All.
