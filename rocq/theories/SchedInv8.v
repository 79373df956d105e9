(** Preservation of the invariant, part 6: coverage. *)
From Coq Require Import Bool List Arith NArith ZArith Lia Permutation Sorting.Sorted.
From Verif Require Import AccessModel AccessSpec AccessProof UserModel UserProof SchedModel SchedSpec SchedBase SchedInv1 SchedInv2 SchedInv3 SchedInv4 SchedInv5 SchedInv6 SchedInv7.
Import ListNotations.
Open Scope Z_scope.

Lemma nth_set_nth {A} (l : list A) : forall i j v, nth_error (set_nth i v l) j =
  if Nat.eqb i j then (match nth_error l i with Some _ => Some v | None => None end) else nth_error l j.
Proof.
  induction l as [|a l IH]; intros [|i] [|j] v; simpl; auto. now destruct (Nat.eqb i j).
Qed.

Section Pres.
  Context (P : prog) {U : front} (W : wfc P U) (NW : p_wrap P = false).

  (** tasks whose submission is over *)
  Lemma past_sub s t : Inv P U s ->
    1 <= zsum (w_up t) (frames s) + zsum (w_collect t) (frames s) + zsum (w_ninit t) (frames s) + zsum (v_init t) (log s) ->
    sp s t /\ forall o rs is, ~ In (FSub o t rs is) (frames s).
  Proof.
    intros I B. pose proof (law_phase P s (i_laws P s I) t) as LP. pose proof (f_spawn P W s I t) as FS. signs t s.
    split; [unfold sp; lia|]. intros o rs is Hf. pose proof (sub_facts P W s _ _ _ _ I Hf) as (_ & Q & _). lia.
  Qed.

  (** tasks that are looking for dependencies *)
  Lemma collect_busy s t f : Inv P U s -> In f (frames s) -> w_collect t f = 1 ->
    ~ rc s t /\ forall o rs is, ~ In (FSub o t rs is) (frames s).
  Proof.
    intros I Hf H. pose proof (in_collect s t f Hf H) as B. split.
    - intros R. pose proof (collect_facts P W s I t B). unfold rc in R. lia.
    - intros o rs is Hs. pose proof (sub_facts P W s _ _ _ _ I Hs). lia.
  Qed.

  Lemma holds_locked s r f : Inv P U s -> In f (frames s) -> w_holds r f = 1 -> lck s r = true.
  Proof.
    intros I Hf H. assert (B := in_w s (w_holds r) _ (fun g => proj1 (proj2 (proj2 (proj2 (proj2 (proj2 (proj2 (proj2 (proj2 (w_nn r g)))))))))) Hf).
    rewrite H, (i_lock P s I) in B. destruct (lck s r); simpl in B; auto; lia.
  Qed.

  Lemma users_locked s s' r : moves P s s' -> lck s r = true -> exists l, users s' r = l ++ users s r.
  Proof.
    intros M L. destruct (moves_users P s s' M) as [Hu|o c r0 rs is Hf Hu|t0 r0 rs Hf Hl Hu]; rewrite Hu.
    - now exists [].
    - unfold upd. destruct (Nat.eqb_spec r r0); [subst; now eexists [_] | now exists []].
    - unfold upd. destruct (Nat.eqb_spec r r0); [subst; congruence | now exists []].
  Qed.

  Lemma mid_ok_mono s s' r t mid : moves P s s' -> mid_ok P U s r t mid -> mid_ok P U s' r t mid.
  Proof. intros M H p k Hi Hs. eapply cov_mono; eauto. Qed.

  Lemma dep_ok_mono s s' t p r it rs : Inv P U s -> moves P s s' -> lck s r = true -> sp s t ->
    (forall o rs is, ~ In (FSub o t rs is) (frames s)) -> dep_ok P U s t p r it rs -> dep_ok P U s' t p r it rs.
  Proof.
    intros I M L T NS (S & C & pre & mid & k & E & Mo). split; [easy|]. split; [eapply cov_done_mono; eauto|].
    destruct (users_locked s s' r M L) as [l El]. exists (l ++ pre), mid, k. rewrite El, E, <- app_assoc.
    split; [easy|]. eapply mid_ok_mono; eauto.
  Qed.

  Lemma collect_sp s t f : Inv P U s -> In f (frames s) -> w_collect t f = 1 -> sp s t.
  Proof.
    intros I Hf H. pose proof (collect_facts P W s I t (in_collect s t f Hf H)). unfold sp. lia.
  Qed.

  Lemma done_users s s' t : Inv P U s -> moves P s s' -> rc s t ->
    forall r k, In (t, k) (users s' r) -> In (t, k) (users s r).
  Proof.
    intros I M R r k Hi.
    destruct (moves_users P s s' M) as [Hu|o c r0 rs is Hf Hu|t0 r0 rs Hf Hl Hu]; rewrite Hu in Hi; auto;
      unfold upd in Hi; destruct (Nat.eqb_spec r r0); auto; subst.
    - destruct Hi as [Hi|Hi]; auto. injection Hi as -> _.
      destruct (proj2 (proj2 (proj2 (proj2 (proj2 (sub_facts P W s _ _ _ _ I Hf))))) R).
    - apply in_without in Hi. tauto.
  Qed.

  Lemma frame_stable s s' g : Inv P U s -> moves P s s' -> In g (frames s) ->
    match g with FSub _ _ _ _ => False | _ => True end -> frame_ok P U s' g.
  Proof.
    intros I M Hg N. assert (F := i_frames P s I g Hg).
    destruct g as [o is| |t|t rs|t r it rs|t p r it rs|t p r it rs|t p r it rs|t p r it rs|t q|t q|t q|e k|e st k|t rs|e st k|e l|t|t|t];
      try easy; unfold frame_ok in *.
    - destruct (collect_busy s t _ I Hg (ni_refl t)) as [_ NS].
      eapply cov_done_mono; eauto. eapply collect_sp; eauto. apply ni_refl.
    - destruct F as (C & pre & mid & E & Mo).
      assert (L := holds_locked s r _ I Hg (ni_refl r)). assert (T := collect_sp s t _ I Hg (ni_refl t)). destruct (collect_busy s t _ I Hg (ni_refl t)) as [_ NS].
      split; [eapply cov_done_mono; eauto|].
      destruct (users_locked s s' r M L) as [l El]. exists (l ++ pre), mid. rewrite El, E, <- app_assoc.
      split; [easy|]. eapply mid_ok_mono; eauto.
    - assert (L := holds_locked s r _ I Hg (ni_refl r)). assert (T := collect_sp s t _ I Hg (ni_refl t)). destruct (collect_busy s t _ I Hg (ni_refl t)) as [_ NS].
      eapply dep_ok_mono; eauto.
    - assert (L := holds_locked s r _ I Hg (ni_refl r)). assert (T := collect_sp s t _ I Hg (ni_refl t)). destruct (collect_busy s t _ I Hg (ni_refl t)) as [_ NS].
      eapply dep_ok_mono; eauto.
    - assert (L := holds_locked s r _ I Hg (ni_refl r)). assert (T := collect_sp s t _ I Hg (ni_refl t)). destruct (collect_busy s t _ I Hg (ni_refl t)) as [_ NS].
      eapply dep_ok_mono; eauto.
    - assert (L := holds_locked s r _ I Hg (ni_refl r)). assert (T := collect_sp s t _ I Hg (ni_refl t)). destruct (collect_busy s t _ I Hg (ni_refl t)) as [_ NS].
      destruct F as [F Ed]. split; [eapply dep_ok_mono; eauto|]. eapply fol_mono; eauto.
    - assert (T := collect_sp s t _ I Hg (ni_refl t)). destruct (collect_busy s t _ I Hg (ni_refl t)) as [_ NS]. destruct F as [F C]. split; auto. eapply cov_all_mono; eauto.
    - assert (T := collect_sp s t _ I Hg (ni_refl t)). destruct (collect_busy s t _ I Hg (ni_refl t)) as [_ NS]. destruct F as [F C]. split; auto. eapply cov_all_mono; eauto.
    - assert (T := collect_sp s t _ I Hg (ni_refl t)). destruct (collect_busy s t _ I Hg (ni_refl t)) as [_ NS]. destruct F as [F C]. split; auto. eapply cov_all_mono; eauto.
    - destruct e; try easy. destruct k; try easy.
      assert (B1 := in_w s (w_ninit t) _ (fun g => proj1 (proj2 (proj2 (proj2 (w_nn t g))))) Hg).
      simpl in B1. rewrite ni_refl in B1. signs t s. destruct (past_sub s t I) as [T NS]; [lia|]. eapply cov_all_mono; eauto.
    - destruct F as [F G]. split; auto. intros r k Hi. apply (G r k).
      eapply done_users; eauto. eapply delete_facts; eauto.
    - destruct e; try easy. intros ->. specialize (F eq_refl). intros r k' Hi. apply (F r k').
      eapply done_users; eauto.
      destruct (taking_facts P s I (EPost t) _ Hg) as [_ R]; [simpl; now rewrite Nat.eqb_refl|]. unfold rc. lia.
  Qed.

  Lemma sub_stable s i f fs s1 fr rest o c rs is :
    Inv P U s -> nth_error (thr s) i = Some (f :: fs) -> fstep P s f = Some (s1, fr) ->
    let s' := set_thr s1 (set_nth i (fr ++ fs) (thr s)) in
    Permutation (frames s) (f :: rest) -> Permutation (frames s') (fr ++ rest) ->
    In (FSub o c rs is) rest -> frame_ok P U s' (FSub o c rs is).
  Proof.
    intros I E H s' Hp Hp' Hi.
    assert (Hg : In (FSub o c rs is) (frames s)) by (apply (Permutation_in _ (Permutation_sym Hp)); now right).
    destruct (i_frames P s I _ Hg) as [F G]. split; [easy|].
    assert (S1 := proj1 (proj2 (sub_facts P W s _ _ _ _ I Hg))).
    rewrite (zsum_perm _ _ _ Hp) in S1. cbn [zsum] in S1.
    assert (S2 : w_sub c (FSub o c rs is) <= zsum (w_sub c) rest).
    { apply zsum_ge; auto. intros; apply w_nn. }
    simpl in S2. rewrite ni_refl in S2.
    intros r k Hk. unfold s' in Hk. clear s' Hp' E Hp Hg.
    cases_f H; simpl in Hk; try (eapply G; exact Hk); unfold upd in Hk;
      match type of Hk with context [Nat.eqb ?a ?b] => destruct (Nat.eqb_spec a b); [subst|eapply G; exact Hk] end.
    - destruct Hk as [Hk|Hk]; [|eapply G; exact Hk]. injection Hk as -> <-. simpl in S1. rewrite ni_refl in S1. lia.
    - apply in_without in Hk. eapply G. apply Hk.
  Qed.

  (** ** Searching a user list finds every conflicting task *)
  Lemma ser_on_ser r p t : ser_on P r p t -> ser P p t.
  Proof.
    intros (E & a & b & Ha & Hb & Hr & S). split; auto. apply user_is_serial_spec. exists a, b. auto.
  Qed.

  Lemma ser_ser_on p t : ser P p t -> exists r, In r (uniq P t) /\ ser_on P r p t.
  Proof.
    intros (E & S). apply user_is_serial_spec in S as (a & b & Ha & Hb & S).
    exists (r_id (a_res b)). split; [now apply (m_covers P W t b)|]. split; auto. exists a, b.
    repeat split; auto. apply ra_is_serial_inv in S. tauto.
  Qed.

  (** with the same order in all lists *)
  Lemma i_order_all s (I : Inv P U s) t : 1 <= zsum (v_exec t) (log s) ->
    forall p, (forall r, rk U r p < rk U r t)%nat -> sp s p -> ser P p t -> rc s p.
  Proof. intros X p L S Q. destruct (ser_ser_on p t Q) as (r & _ & O). exact (i_order P s I t X r p (L r) S O). Qed.

  Lemma found s t r p : Inv P U s -> sp s t -> (forall o rs is, ~ In (FSub o t rs is) (frames s)) -> (rk U r p < rk U r t)%nat -> sp s p -> ser_on P r p t ->
    (exists k, In (p, k) (users s r)) \/ rc s p.
  Proof.
    intros I Ht NS Hlt Hp (E & a & b & Ha & Hb & Hr & S).
    destruct (ent_ex P t r) as [kt Kt].
    { apply ra_is_serial_inv in S as [S _]. rewrite <- Hr, S. now apply (m_covers P W t b). }
    destruct (ent_ex P p r) as [k Hk].
    { rewrite <- Hr. now apply (m_covers P W p a). }
    destruct (i_present P s I p r k Hk Hp) as [H|H]; [|left; eauto|now right].
    intros o rs is Hf. destruct (le_lt_dec (length rs) k) as [|Lk]; [easy|]. exfalso.
    destruct (i_pushed P s I t r kt Kt Ht) with (p := p) as [_ N]; auto.
    - intros o' rs' is' Hf'. destruct (NS _ _ _ Hf').
    - rewrite <- E. now apply (sp_body P W s I).
    - destruct Hk as (a' & b' & Hk & _). rewrite Hk. apply in_or_app. simpl. auto.
    - apply (N _ _ _ Hf). destruct (proj1 (i_frames P s I _ Hf)) as [pre Ep]. destruct Hk as (a' & b' & Hk & <-).
      rewrite Ep in Hk. clear - Hk Lk. revert a' Hk. induction pre as [|x pre IH]; intros [|y a'] Hk; simpl in Hk.
      + subst rs. now left.
      + subst rs. right. apply in_or_app. simpl. auto.
      + injection Hk as _ Hk. apply (f_equal (@length nat)) in Hk. rewrite app_length in Hk. lia.
      + injection Hk as _ Hk. eauto.
  Qed.

  (** every conflicting task is older than [t] in the list *)
  Lemma found_after s t r p pre n rest : Inv P U s -> sp s t -> (forall o rs is, ~ In (FSub o t rs is) (frames s)) -> (rk U r p < rk U r t)%nat -> sp s p -> ser_on P r p t ->
    users s r = pre ++ (t, n) :: rest ->
    (exists k, In (p, k) rest) \/ rc s p.
  Proof.
    intros I Ht NS Hlt Hp S E. destruct (found s t r p I Ht NS Hlt Hp S) as [[k Hk]|]; [|now right].
    left. exists k. rewrite E in Hk. apply in_app_or in Hk as [Hk|[Hk|Hk]]; auto.
    - assert (O := i_newer P s I r). rewrite E in O.
      apply (sorted_app_lr _ _ _ (p, k) (t, n)) in O; simpl; auto. destruct O as [O _]. simpl in O.
      destruct S as [S _]. destruct (O S) as [O'|[-> _]]; lia.
    - injection Hk as -> _. lia.
  Qed.

  (** a task naming [r] twice finds itself in the list *)
  Lemma found_self s t r pre0 pre n rest rs : Inv P U s -> sp s t -> ~ rc s t ->
    (forall o rs is, ~ In (FSub o t rs is) (frames s)) ->
    uniq P t = pre0 ++ r :: rs -> n = length rs -> In r pre0 -> users s r = pre ++ (t, n) :: rest ->
    exists k, In (t, k) rest.
  Proof.
    intros I Ht Nr Ns Eu -> Hr E. apply in_split in Hr as (a & b & ->).
    assert (K : ent P t r (length (b ++ r :: rs))).
    { exists a, (b ++ r :: rs). split; [|easy]. rewrite Eu, <- app_assoc. easy. }
    rewrite app_length in K. simpl in K.
    destruct (i_present P s I t r _ K Ht) as [H|H]; [|exists (length b + S (length rs))%nat|easy].
    { intros o l is Hf. destruct (Ns _ _ _ Hf). }
    rewrite E in H. apply in_app_or in H as [Hk|[Hk|Hk]]; auto.
    - assert (O := i_newer P s I r). rewrite E in O.
      eapply sorted_app_lr in O; [|exact Hk|now left]. destruct O as [O _]. simpl in O. specialize (O eq_refl). lia.
    - injection Hk as Hk. lia.
  Qed.

  Lemma cov_self s r t : ~ rc s t -> cov P U s r t t -> edge s t t.
  Proof. intros N [C|[C|(q & Hq & _)]]; [easy|easy|lia]. Qed.

  Lemma cov_done_next s t r rs : cov_done P U s t (r :: rs) ->
    (forall p, (rk U r p < rk U r t)%nat -> sp s p -> ser_on P r p t -> cov P U s r p t) ->
    (forall pre, uniq P t = pre ++ r :: rs -> In r pre -> ser P t t -> edge s t t) -> cov_done P U s t rs.
  Proof.
    intros (pre & E & H & H2) N N2. exists (pre ++ [r]). split; [rewrite E, <- app_assoc; easy|]. split.
    - intros r' Hr. apply in_app_or in Hr as [Hr|[<-|[]]]; eauto.
    - intros D S. destruct (in_dec Nat.eq_dec r pre) as [i|i]; [eauto|]. apply H2; auto.
      intros D2. apply D. clear -D2 i. induction pre as [|a pre IH]; simpl; [repeat constructor; easy|].
      inversion D2; subst. constructor.
      + intros Hi. apply in_app_or in Hi as [Hi|[->|[]]]; [easy|]. apply i. now left.
      + apply IH; auto. intros Hi. apply i. now right.
  Qed.

  Lemma mid_ok_snoc s r t mid p k : mid_ok P U s r t mid -> (ser P p t -> cov P U s r p t) -> mid_ok P U s r t (mid ++ [(p, k)]).
  Proof.
    intros H C p' k' Hi S. apply in_app_or in Hi as [Hi|[Hi|[]]]; [eapply H; eauto|]. injection Hi as <- <-. auto.
  Qed.

  (** after a dependency on [p] *)
  Lemma after_dep_ok s t p r it rs : Inv P U s -> sp s t -> ~ rc s t ->
    (forall o rs is, ~ In (FSub o t rs is) (frames s)) -> dep_ok P U s t p r it rs -> cov P U s r p t ->
    (rc s p \/ edge s p t) ->
    if sync_on P p r then cov_done P U s t rs
    else frame_ok P U s (FIter t r it rs).
  Proof.
    intros I Ht Nr Ns D C C2. destruct (dep_order P s t p r it rs I D) as [Hlt Hsp].
    destruct D as (S & Dn & pre & mid & k & E & Mo).
    destruct (sync_on P p r) eqn:Sy.
    - eapply cov_done_next; eauto; cycle 1.
      { intros pre0 Eu Hr Stt. destruct (found_self s t r _ _ _ _ _ I Ht Nr Ns Eu eq_refl Hr E) as [k' Hk].
        apply (cov_self s r); auto. apply in_app_or in Hk as [Hk|[Hk|Hk]].
        - eapply Mo; eauto.
        - injection Hk as -> _. auto.
        - assert (O := i_newer P s I r). rewrite E in O.
          assert (O2 : newer P U r (p, k) (t, k')).
          { apply (sorted_app_lr _ (pre ++ (t, length rs) :: mid ++ [(p, k)]) it); auto.
            - now rewrite <- app_assoc; simpl; rewrite <- app_assoc.
            - rewrite !in_app_iff; simpl. rewrite in_app_iff. simpl. auto. }
          destruct O2 as [O2 _]. simpl in O2. destruct S as [Epar _]. specialize (O2 Epar).
          destruct O2 as [O2|[-> _]]; [|auto]. destruct Hlt as [Hlt|[-> _]]; lia. }
      intros p' Hlt' Hp' S'.
      destruct (found_after s t r p' _ _ _ I Ht Ns Hlt' Hp' S' E) as [[k' Hk]|]; [|now left].
      apply in_app_or in Hk as [Hk|[Hk|Hk]].
      + eapply Mo; eauto. eapply ser_on_ser; eauto.
      + injection Hk as <- _. auto.
      + assert (O := i_newer P s I r). rewrite E in O.
        assert (O2 : newer P U r (p, k) (p', k')).
        { apply (sorted_app_lr _ (pre ++ (t, length rs) :: mid ++ [(p, k)]) it); auto.
          - now rewrite <- app_assoc; simpl; rewrite <- app_assoc.
          - rewrite !in_app_iff; simpl. rewrite in_app_iff. simpl. auto. }
        destruct O2 as [O2 _]. simpl in O2. destruct S as [Epar _].
        assert (Ep' : parent P p' = parent P p) by (destruct S'; congruence).
        destruct (O2 (eq_sym Ep')) as [O3|[-> _]]; [|easy]. right. right. exists p.
        split; [destruct Hlt as [Hlt|[-> _]]; lia|]. split; [|auto].
        split; [easy|].
        unfold sync_on, has_sync_access in Sy. apply existsb_exists in Sy as (a & Ha & Sa).
        apply andb_prop in Sa as [Sa1 Sa2].
        destruct S' as (_ & b & c & Hb & Hc & Hr & Sbc).
        exists b, a. repeat split; auto. rewrite ra_is_serial_sym.
        unfold same_resource in Sa1. simpl in Sa1. apply Nat.eqb_eq in Sa1.
        eapply (ra_sync_serial a b c); eauto using (m_acc P W); [congruence|].
        eapply (m_type P W p p'); eauto. congruence.
    - split; auto. exists pre, (mid ++ [(p, k)]). split; [rewrite E, <- app_assoc; easy|].
      apply mid_ok_snoc; auto.
  Qed.

  Lemma older_split x l : In x l -> exists pre, l = pre ++ x :: older x l.
  Proof.
    induction l as [|y l IH]; [easy|]. simpl. destruct (entry_eqb_spec y x).
    - subst. exists []. easy.
    - intros [|H]; [congruence|]. destruct (IH H) as [pre Ep]. exists (y :: pre). simpl. now rewrite <- Ep.
  Qed.

  Lemma reached_rc s p : Inv P U s -> (ctr s (EPost p) =? 0) = true -> rc s p.
  Proof.
    intros I H. apply Z.eqb_eq in H. unfold rc. destruct (i_reach P s I (EPost p)); lia.
  Qed.

  (** frames created by a step *)
  Lemma frame_new s s' i f fs s1 fr rest :
    Inv P U s -> moves P s s' ->
    fstep P s f = Some (s1, fr) ->
    s' = set_thr s1 (set_nth i (fr ++ fs) (thr s)) ->
    Permutation (frames s) (f :: rest) -> 
    forall g, In g fr -> frame_ok P U s' g.
  Proof.
    intros I M H Hs' Hp g Hg.
    assert (Hf : In f (frames s)) by (apply (Permutation_in _ (Permutation_sym Hp)); now left).
    assert (F := i_frames P s I f Hf). clear Hp.
    assert (COL : forall t, w_collect t f = 1 -> sp s t) by (intros; eapply collect_sp; eauto).
    assert (NSB : forall t, w_collect t f = 1 -> forall o rs is, ~ In (FSub o t rs is) (frames s)) by (intros t B; now apply (collect_busy s t f I Hf)).
    assert (CD : forall t rs, sp s t -> (forall o rs is, ~ In (FSub o t rs is) (frames s)) -> cov_done P U s t rs -> frame_ok P U s' (FInit t rs)) by (intros; eapply cov_done_mono; eauto).
    assert (CA : forall t, sp s t -> (forall o rs is, ~ In (FSub o t rs is) (frames s)) -> cov_all P U s t -> cov_all P U s' t) by (intros; eapply cov_all_mono; eauto).
    assert (IT : forall t r it rs, users s' r = users s r -> sp s t -> (forall o rs is, ~ In (FSub o t rs is) (frames s)) -> frame_ok P U s (FIter t r it rs) -> frame_ok P U s' (FIter t r it rs)).
    { intros t r it rs UE T NS (C & pre & mid & E & Mo). split; [eapply cov_done_mono; eauto|].
      exists pre, mid. rewrite UE. split; auto. eapply mid_ok_mono; eauto. }
    assert (DP : forall t p r it rs, users s' r = users s r -> sp s t -> (forall o rs is, ~ In (FSub o t rs is) (frames s)) -> dep_ok P U s t p r it rs -> dep_ok P U s' t p r it rs).
    { intros t p r it rs UE T NS (S & C & pre & mid & k & E & Mo). split; [easy|]. split; [eapply cov_done_mono; eauto|].
      exists pre, mid, k. rewrite UE. split; auto. eapply mid_ok_mono; eauto. }
    assert (AD : forall t p r it rs, w_collect t f = 1 -> dep_ok P U s t p r it rs -> (rc s p \/ edge s p t) ->
        if sync_on P p r then cov_done P U s t rs else frame_ok P U s (FIter t r it rs)).
    { intros t p r it rs T D C. destruct (collect_busy s t f I Hf T). apply after_dep_ok; auto. unfold cov. tauto. }
    assert (SUB : forall o c l, f = FBody o (ISpawn c :: l) -> users s' = users s -> frame_ok P U s' (FSub o c (uniq P c) l)).
    { intros o c l -> UE. split; [now exists []|]. intros r k Hi. rewrite UE in Hi.
      apply (i_ent P s I) in Hi as [_ Hi]. apply (spawn_facts P W s I) in Hf. unfold sp in Hi. lia. }
    assert (UQ : forall t, cov_done P U s t (uniq P t)).
    { intros t. exists []. split; [easy|]. split; [easy|]. intros N. destruct N. constructor. }
    assert (ALL : forall t, cov_done P U s t [] -> cov_all P U s t).
    { intros t (pre & E & C & C2). rewrite app_nil_r in E. subst pre. split; [|easy]. intros r p Hlt Hsp S.
      eapply C; eauto. eapply ser_on_right; eauto. }
    cases_f H; simpl in Hg; repeat destruct Hg as [<-|Hg]; try easy;
      try (assert (CT : sp s t) by (apply COL; simpl; apply ni_refl));
      try (assert (CN : forall o rs is, ~ In (FSub o t rs is) (frames s)) by (apply NSB; simpl; apply ni_refl));
      try (assert (US : users s' = users s) by (rewrite Hs'; reflexivity)).
    - eapply SUB; eauto.
    - eapply SUB; eauto.
    - destruct F as [F G]. split; [eapply suffix_cons; eauto|].
      intros r k Hi. subst s'. simpl in Hi. unfold upd in Hi. destruct (Nat.eqb_spec r n).
      + subst. destruct Hi as [Hi|Hi]; [injection Hi as <-; lia|]. apply G in Hi. simpl in Hi. lia.
      + apply G in Hi. simpl in Hi. lia.
    - assert (B := in_w s (w_up t) _ (fun g => proj1 (proj2 (w_nn t g))) Hf). simpl in B. rewrite ni_refl in B.
      signs t s. destruct (past_sub s t I); [lia|]. apply CD; auto.
    - split; auto.
    - apply CA; auto.
    - apply IT; [now rewrite US|auto|auto|].
      split; auto. destruct F as (pre & E & C & _).
      destruct (i_present P s I t n (length l)) as [Hi|Hi]; auto.
      + exists pre, l. auto.
      + intros o rs0 is Hs. exfalso.
        pose proof (sub_facts P W s _ _ _ _ I Hs). pose proof (in_collect s t _ Hf (ni_refl t)). lia.
      + destruct (older_split _ _ Hi) as [pre' E']. exists pre', []. split; [simpl; exact E'|]. easy.
      + exfalso. pose proof (collect_facts P W s I t (in_collect s t _ Hf (ni_refl t))). unfold rc in Hi. lia.
    - apply CD; auto. destruct F as (C & pre & mid & E & Mo). destruct (collect_busy s t _ I Hf (ni_refl t)) as [Nr Ns].
      eapply cov_done_next; eauto; cycle 1.
      { intros pre0 Eu Hr Stt. destruct (found_self s t r _ _ _ _ _ I CT Nr Ns Eu eq_refl Hr E) as [k' Hk].
        eapply cov_self; auto. rewrite app_nil_r in Hk. eapply Mo; eauto. }
      intros p Hlt Hsp S. destruct (found_after s t r p _ _ _ I CT Ns Hlt Hsp S E) as [[k Hk]|]; [|now left].
      rewrite app_nil_r in Hk. eapply Mo; eauto. eapply ser_on_ser; eauto.
    - apply CD; auto. destruct F as (C & pre & mid & E & Mo). destruct (collect_busy s t _ I Hf (ni_refl t)) as [Nr Ns].
      destruct (onat_eqb_spec (Some n) (parent P t)) as [e|]; [|discriminate].
      assert (O := i_newer P s I r). rewrite E in O.
      assert (O2 : forall y, In y l -> newer P U r (n, n0) y).
      { intros y Hy. apply (sorted_app_lr _ (pre ++ (t, length rs) :: mid ++ [(n, n0)]) l); auto.
        - now rewrite <- app_assoc; simpl; rewrite <- app_assoc.
        - rewrite !in_app_iff; simpl. rewrite in_app_iff. simpl. auto. }
      assert (Np : forall q, sp s q -> parent P q = Some q -> False).
      { intros q Hq Eq. apply (sp_body P W s I) in Hq. rewrite Eq in Hq. apply spawns_In in Hq. apply (m_lt P W) in Hq. lia. }
      eapply cov_done_next; eauto; cycle 1.
      { intros pre0 Eu Hr Stt. destruct (found_self s t r _ _ _ _ _ I CT Nr Ns Eu eq_refl Hr E) as [k' Hk].
        apply (cov_self s r); auto. apply in_app_or in Hk as [Hk|[Hk|Hk]].
        - eapply Mo; eauto.
        - exfalso. injection Hk as -> ->. eauto.
        - exfalso. apply O2 in Hk as [_ Hk]. apply Hk. simpl. congruence. }
      intros p1 Hlt Hsp S. destruct (found_after s t r p1 _ _ _ I CT Ns Hlt Hsp S E) as [[k Hk]|]; [|now left].
      apply in_app_or in Hk as [Hk|[Hk|Hk]].
      + eapply Mo; eauto. eapply ser_on_ser; eauto.
      + exfalso. injection Hk as -> ->. destruct S as [S _]. apply (Np p1 Hsp). congruence.
      + exfalso. apply O2 in Hk as [_ Hk]. apply Hk. simpl. destruct S. congruence.
    - apply DP; [now rewrite US|auto|auto|]. destruct F as (C & pre & mid & E & Mo).
      apply andb_prop in Heqb0 as [B1 B2]. split; [|split; [easy|]].
      + split; auto. destruct (onat_eqb_spec (parent P n) (parent P t)); easy.
      + exists pre, mid, n0. auto.
    - apply IT; [now rewrite US|auto|auto|]. destruct F as (C & pre & mid & E & Mo).
      split; auto. exists pre, (mid ++ [(n, n0)]). split; [rewrite E, <- app_assoc; easy|].
      apply mid_ok_snoc; auto. intros [S1 S2]. rewrite S2, andb_true_r in Heqb0.
      destruct (onat_eqb_spec (parent P n) (parent P t)); easy.
    - apply CD; auto. apply reached_rc in Heqb; auto. specialize (AD t p r it rs (ni_refl t) F (or_introl Heqb)).
      rewrite Heqb0 in AD. easy.
    - apply IT; [now rewrite US|auto|auto|]. apply reached_rc in Heqb; auto. specialize (AD t p r it rs (ni_refl t) F (or_introl Heqb)).
      rewrite Heqb0 in AD. easy.
    - apply DP; auto. now rewrite US.
    - apply CD; auto. apply reached_rc in Heqb; auto. specialize (AD t p r it rs (ni_refl t) F (or_introl Heqb)).
      rewrite Heqb0 in AD. easy.
    - apply IT; [now rewrite US|auto|auto|]. apply reached_rc in Heqb; auto. specialize (AD t p r it rs (ni_refl t) F (or_introl Heqb)).
      rewrite Heqb0 in AD. easy.
    - apply DP; auto. now rewrite US.
    - split; [apply DP; auto; now rewrite US|]. unfold edge. rewrite Hs'. simpl. unfold eupd. rewrite ev_eqb_refl.
      now left.
    - destruct F as [F Ed]. apply CD; auto. specialize (AD t p r it rs (ni_refl t) F (or_intror Ed)).
      rewrite Heqb in AD. easy.
    - destruct F as [F Ed]. apply IT; [now rewrite US|auto|auto|]. specialize (AD t p r it rs (ni_refl t) F (or_intror Ed)).
      rewrite Heqb in AD. easy.
    - destruct F as [F C]. apply CA; auto.
    - destruct F as [F C]. split; auto.
    - destruct F as [F C]. split; auto.
    - destruct F as [F C]. apply CA; auto.
    - split; [now exists []|]. intros r k' Hi. rewrite US in Hi. apply (i_ent P s I) in Hi as [Hi _].
      now apply ent_lt in Hi.
    - intros ->. apply Z.eqb_neq in Heqb. easy.
    - intros _ r k' Hi. rewrite US in Hi. destruct F as [_ F]. apply F in Hi. simpl in Hi. lia.
    - destruct F as [F G]. split; [eapply suffix_cons; eauto|]. intros r k Hi.
      assert (Hi' : In (t, k) (users s r)).
      { rewrite Hs' in Hi. simpl in Hi. unfold upd in Hi. destruct (Nat.eqb_spec r n); auto. subst.
        apply in_without in Hi. tauto. }
      apply G in Hi' as L. simpl in L. assert (k <> length l); [|lia]. intros ->.
      apply (i_ent P s I) in Hi' as [Hi' _]. assert (r = n).
      { eapply ent_fun; eauto. now apply suffix_ent. }
      subst. simpl in Hi. unfold upd in Hi. rewrite Nat.eqb_refl in Hi. apply in_without in Hi. tauto.
    - destruct e0; easy.
  Qed.

  Lemma pres_frames s s' g : Inv P U s -> moves P s s' -> In g (frames s') -> frame_ok P U s' g.
  Proof.
    intros I M Hg. assert (M' := M).
    destruct M as [i f fs s1 fr rest E H Hs' Hp Hp' | i pk s1 fr E H Hs' Hp'].
    - apply (Permutation_in _ Hp') in Hg. apply in_app_or in Hg as [Hg|Hg].
      + eapply frame_new; eauto.
      + destruct g; try (apply (frame_stable s s' _ I M'); [|easy]; apply (Permutation_in _ (Permutation_sym Hp)); now right).
        subst s'. eapply sub_stable; eauto.
    - apply (Permutation_in _ Hp') in Hg. apply in_app_or in Hg as [Hg|Hg].
      + clear Hp' E. cases_i H; simpl in Hg; destruct Hg as [<-|[]]; easy.
      + destruct g; try (apply (frame_stable s s' _ I M'); easy).
        destruct (i_frames P s I _ Hg) as [F G]. split; [easy|].
        replace (users s') with (users s); auto. subst s'. cases_i H; easy.
  Qed.

  Lemma pres_cov s s' t : Inv P U s -> moves P s s' -> 1 <= zsum (v_init t) (log s') -> cov_all P U s' t.
  Proof.
    intros I M Hi.
    assert (C : 1 <= zsum (w_ninit t) (frames s) + zsum (v_init t) (log s) /\ cov_all P U s t).
    { destruct (Z_lt_le_dec (zsum (v_init t) (log s)) 1) as [l|l].
      - destruct M as [i f fs s1 fr rest E H -> Hp Hp' | i pk s1 fr E H -> Hp'].
        + assert (Hf : In f (frames s)) by (apply (Permutation_in _ (Permutation_sym Hp)); now left).
          assert (f = FNotify (EPre t) NInit).
          { clear -H Hi l. cases_f H; simpl in Hi; rewrite ?Z.add_0_l in Hi; try lia.
            all: unfold ni in Hi; destruct (Nat.eqb_spec t0 t); subst; simpl in Hi; auto; lia. }
          subst f. split; [|exact (i_frames P s I _ Hf)].
          assert (B1 := in_w s (w_ninit t) _ (fun g => proj1 (proj2 (proj2 (proj2 (w_nn t g))))) Hf).
          simpl in B1. rewrite ni_refl in B1. nnv v_init t s. lia.
        + exfalso. cases_i H; simpl in Hi; lia.
      - split; [|now apply (i_cov P s I)]. nnw w_ninit t s. lia. }
    destruct C as [B C]. signs t s. destruct (past_sub s t I) as [T NS]; [lia|]. eapply cov_all_mono; eauto.
  Qed.

  (** a task that may be executed: everything it waits for is complete *)
  Lemma edge_rc s p t : Inv P U s -> 1 <= zsum (v_init t) (log s) -> ob s t = 0 -> sp s p -> edge s p t -> rc s p.
  Proof.
    intros I Hi Ho Hp He. unfold edge in He.
    assert (E0 : eff s (EPost p) (EPre t) <= 0).
    { assert (eff s (EPost p) (EPre t) <= edges s (EPre t)).
      { unfold edges. apply (zsum_ge (fun y => eff s y (EPre t))); [intros; exact (eff_nn P s I _ _)|].
        apply ce_pos. rewrite srcs_post. unfold sp in Hp. lia. }
      pose proof (edges_nn P s I (EPre t)). pose proof (nexec_le_notify s t). signs t s.
      nnw w_follow (EPre t) s. unfold ob in Ho. lia. }
    assert (P0 : pend s (EPost p) (EPre t) = 0).
    { destruct (Z.eq_dec (pend s (EPost p) (EPre t)) 0); auto. exfalso.
      pose proof (pend_nn s (EPost p) (EPre t)). assert (L : 0 < pend s (EPost p) (EPre t)) by lia.
      apply zsum_pos_ex in L as (g & Hg & L). destruct g; simpl in L; try lia.
      - destruct (Nat.eqb_spec p0 p), (Nat.eqb_spec t0 t); simpl in L; try lia. subst.
        pose proof (collect_facts P W s I t (in_collect s t _ Hg (ni_refl t))). lia.
      - rewrite andb_false_r in L. simpl in L. lia. }
    unfold eff in E0. rewrite P0 in E0. apply ce_pos in He.
    destruct (Z.eqb_spec (taken s (EPost p)) 0) as [e|e]; [lia|].
    pose proof (f_take P s I (EPost p)). unfold taken in e. unfold rc. lia.
  Qed.

  Lemma ready_order s t : Inv P U s -> 1 <= zsum (v_init t) (log s) -> ob s t = 0 ->
    forall r p, (rk U r p < rk U r t)%nat -> sp s p -> ser_on P r p t -> rc s p.
  Proof.
    intros I Hi Ho r p Hlt Hp S. destruct (proj1 (i_cov P s I t Hi) r p Hlt Hp S) as [C|[C|(q & Hq & S1 & S2 & Sq & C)]]; auto.
    - eapply edge_rc; eauto.
    - assert (R : rc s q) by (destruct C; auto; eapply edge_rc; eauto).
      apply (i_order P s I q) with (r := r); auto; [now apply (rc_exec P s I)|lia].
  Qed.

  (** only a task that is initialised and waits for nothing is executed *)
  Lemma exec_ready s s' t : Inv P U s -> moves P s s' -> 1 <= zsum (v_exec t) (log s') ->
    1 <= zsum (v_init t) (log s) /\ ob s t = 0.
  Proof.
    intros I M Hx.
    assert (T : tok s t = 1).
    { pose proof (tok_le P s I t) as TL. destruct (Z.eq_dec (tok s t) 1); auto. exfalso.
      assert (T0 : tok s t = 0) by lia. unfold tok in T0. signs t s.
      destruct M as [i f fs s1 fr rest E H -> Hq Hq' | i pk s1 fr E H -> Hq'].
      - assert (f = FExec t).
        { assert (V : zsum (v_exec t) (log s) < 1) by lia.
          clear -H Hx V. cases_f H; simpl in Hx; rewrite ?Z.add_0_l in Hx; try lia.
          all: unfold ni in Hx; destruct (Nat.eqb_spec t0 t); subst; simpl in Hx; auto; lia. }
        subst f. assert (Hf : In (FExec t) (frames s)) by (apply (Permutation_in _ (Permutation_sym Hq)); now left).
        assert (B := in_w s (w_token t) _ (fun g => proj1 (proj2 (proj2 (proj2 (proj2 (proj2 (proj2 (w_nn t g)))))))) Hf).
        simpl in B. rewrite ni_refl in B. lia.
      - cases_i H; simpl in Hx; lia. }
    rewrite (i_tok P s I) in T.
    destruct (Z.leb_spec 1 (zsum (v_init t) (log s))), (Z.eqb_spec (ob s t) 0); simpl in T; try lia.
  Qed.

  Lemma pres_order s s' t : Inv P U s -> moves P s s' -> 1 <= zsum (v_exec t) (log s') ->
    forall r p, (rk U r p < rk U r t)%nat -> sp s' p -> ser_on P r p t -> rc s' p.
  Proof.
    intros I M Hx r p Hlt Hp S. eapply rc_mono; eauto. destruct (exec_ready s s' t I M Hx) as [Hi Ho].
    signs t s. destruct (past_sub s t I) as [T NS]; [lia|].
    apply (ready_order s t) with (r := r); auto. eapply (sp_back P W s s' p t r); eauto; [apply S|eapply ser_on_left; eauto|eapply ser_on_right; eauto].
  Qed.

  (** a task that has registered itself as its own predecessor is never executed *)
  Lemma self_waits s s' t : Inv P U s -> moves P s s' -> ~ NoDup (uniq P t) -> ser P t t ->
    zsum (v_exec t) (log s) = 0 -> zsum (v_exec t) (log s') = 0.
  Proof.
    intros I M N S Z0. destruct (Z_lt_le_dec (zsum (v_exec t) (log s')) 1) as [l|l].
    - nnv v_exec t s'. lia.
    - exfalso. destruct (exec_ready s s' t I M l) as [Hi Ho].
      assert (Hs : sp s t) by (pose proof (f_phase P s I t); unfold sp; lia).
      assert (Ed := proj2 (i_cov P s I t Hi) N S).
      assert (R := edge_rc s t t I Hi Ho Hs Ed). apply (rc_exec P s I) in R. lia.
  Qed.

  (** ** The invariant *)
  Lemma Inv_init n : Inv P U (init_many P (mains U) n).
  Proof.
    assert (F := frames_init P (U := U) n).
    assert (Z0 : forall w : frame -> Z, (forall m, w (FBody None m) = 0) -> zsum w (map (FBody None) (mains U)) = 0).
    { intros w H. rewrite (zsum_map_None w (fun _ => 0) _ H). now apply zsum_zero. }
    split; intros; rewrite ?F in *; simpl in *; unfold ob, tok, edges, pend, sp in *; rewrite ?F in *; simpl in *;
      rewrite ?Z0 in * by easy; try easy; try lia.
    - apply laws_init; auto.
    - destruct x; unfold base; rewrite ?F, ?Z0 by easy; simpl; lia.
    - constructor.
    - apply in_map_iff in H as (m & <- & _). easy.
  Qed.

  Lemma Inv_step s i c s' : Inv P U s -> end_ok P s i -> push_ok P U s i -> step P s i c = Some s' -> Inv P U s'.
  Proof.
    intros I G PO H. assert (M := step_moves P s i c s' H).
    split; intros.
    - eapply laws_step; eauto. apply I.
    - eapply pres_acc; eauto.
    - eapply pres_tok; eauto.
    - eapply pres_nexec; eauto.
    - eapply pres_up; eauto.
    - eapply pres_pend; eauto.
    - eapply pres_reach; eauto.
    - eapply pres_fol; eauto.
    - eapply pres_lock; eauto.
    - eapply pres_guard; eauto. clear c0 q H0 H1. intros q Hq c0 Hc Hs.
      unfold step in H. destruct (nth_error (thr s) i) as [[|f fs]|] eqn:E; [| |discriminate].
      + destruct (istep s c) as [[s1 fr]|] eqn:E2; [|discriminate]. injection H as <-.
        exfalso. cases_i E2; simpl in Hq; lia.
      + destruct (fstep P s f) as [[s1 fr]|] eqn:E2; [|discriminate]. injection H as <-.
        assert (f = FBody (Some q) []).
        { clear -E2 Hq. cases_f E2; simpl in Hq; rewrite ?Z.add_0_l in Hq; try lia.
          unfold ni in Hq. destruct (Nat.eqb_spec n q); subst; simpl in Hq; auto; lia. }
        subst f. assert (Hl : In (LInit c0) (log s)).
        { eapply G; eauto. unfold sp in Hs. assert (Hs' : 0 < zsum (v_spawn c0) (log s)) by lia.
          apply zsum_pos_ex in Hs' as (x & Hx & L). destruct x; simpl in L; try lia.
          unfold ni in L. destruct (Nat.eqb_spec t c0); [now subst|simpl in L; lia]. }
        assert (v_init c0 (LInit c0) <= zsum (v_init c0) (log s)) as B.
        { apply zsum_ge; auto. intros; apply v_nn. }
        simpl in B. rewrite ni_refl in B. lia.
    - eapply pres_ent; eauto.
    - eapply pres_newer; eauto.
    - eapply pres_present; eauto.
    - eapply pres_pushed; eauto. clear - H PO. intros o c0 r0 rs is Hi NI p Hb Hl Hr.
      assert (EN : entered s p r0).
      { unfold frames in Hi. apply in_concat in Hi as (st & Hst & Hi). apply In_nth_error in Hst as [j Ej].
        destruct (Nat.eq_dec j i) as [->|n].
        - unfold step in H. rewrite Ej in H. destruct st as [|f fs]; [easy|]. destruct Hi as [->|Hi].
          + eapply PO; eauto.
          + destruct NI. destruct (fstep P s f) as [[s1 fr]|]; [|discriminate]. injection H as <-.
            unfold frames. simpl. apply in_concat. exists (fr ++ fs). split; [|apply in_or_app; auto].
            eapply nth_error_In. rewrite nth_set_nth, Nat.eqb_refl, Ej. reflexivity.
        - destruct NI. unfold frames. apply in_concat. exists st. split; auto. apply (nth_error_In _ j).
          unfold step in H. destruct (nth_error (thr s) i) as [[|f fs]|] eqn:E; [| |discriminate].
          + destruct (istep s c) as [[s1 fr]|]; [|discriminate]. injection H as <-. simpl. rewrite nth_set_nth. destruct (Nat.eqb_spec i j); [congruence|exact Ej].
          + destruct (fstep P s f) as [[s1 fr]|]; [|discriminate]. injection H as <-. simpl. rewrite nth_set_nth. destruct (Nat.eqb_spec i j); [congruence|exact Ej]. }
      destruct EN as [E1 E2]. split; [|exact E2]. unfold sp. assert (v_spawn p (LSpawn p) <= zsum (v_spawn p) (log s)) as B.
      { apply zsum_ge; auto. intros; apply v_nn. }
      simpl in B. rewrite ni_refl in B. lia.
    - eapply pres_frames; eauto.
    - eapply pres_cov; eauto.
    - eapply pres_gone; eauto.
    - eapply pres_order; eauto.
  Qed.

  Theorem mreach_Inv n s : mreach P U n s -> Inv P U s.
  Proof. induction 1; [apply Inv_init | eapply Inv_step; eauto]. Qed.

  Theorem m_never_executed n s t : mreach P U n s -> ~ patient P t -> zsum (v_exec t) (log s) = 0.
  Proof.
    intros R NP. assert (N : ~ NoDup (uniq P t)) by (intros X; apply NP; now left).
    assert (S : ser P t t).
    { split; [easy|]. destruct (user_is_serial _ _) eqn:E; auto. destruct NP. now right. }
    induction R as [|s i c s' R IH G PO H]; [reflexivity|].
    eapply self_waits; eauto using mreach_Inv. eapply step_moves; eauto.
  Qed.
End Pres.
