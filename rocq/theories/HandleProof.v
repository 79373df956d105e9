(** Invariants of the handle histories. *)
From Coq Require Import List Arith Bool Lia.
From Verif Require Import HandleModel.
Import ListNotations.

Lemma upd_eq : forall B (f : nat -> B) i x, upd f i x i = x.
Proof. intros. unfold upd. now rewrite Nat.eqb_refl. Qed.
Lemma upd_ne : forall B (f : nat -> B) i x j, j <> i -> upd f i x j = f j.
Proof. intros. unfold upd. apply Nat.eqb_neq in H. now rewrite H. Qed.
Lemma upd_case : forall B (f : nat -> B) i x j, (j = i /\ upd f i x j = x) \/ (j <> i /\ upd f i x j = f j).
Proof. intros. destruct (Nat.eq_dec j i) as [->|N]; [left; now rewrite upd_eq|right; now rewrite upd_ne]. Qed.

Lemma run_app : forall l1 l2 s, run s (l1 ++ l2) = match run s l1 with Some (Ok s') => run s' l2 | o => o end.
Proof. induction l1 as [|o l1 IH]; intros l2 s; [reflexivity|]. simpl. destruct (step s o) as [[s'|]|]; auto. Qed.
Lemma run_snoc : forall l o s s', run s (l ++ [o]) = Some (Ok s') -> exists s1, run s l = Some (Ok s1) /\ step s1 o = Some (Ok s').
Proof. intros l o s s' H. rewrite run_app in H. destruct (run s l) as [[s1|]|]; try discriminate. exists s1. split; [reflexivity|]. simpl in H. destruct (step s1 o) as [[?|]|]; congruence. Qed.

(** spaces in which the tasks of a history were created *)
Definition spaces (l : list op) : list nat := flat_map (fun o => match o with Create sp => [sp] | _ => [] end) l.
Lemma spaces_app : forall a b, spaces (a ++ b) = spaces a ++ spaces b.
Proof. intros. apply flat_map_app. Qed.

(** what submitting does *)
Lemma submit_ok : forall s b s', bld_submit s b = Ok s' -> exists t p,
  b_task (blds s b) = Some t /\ b_space (blds s b) = Some p /\
  nb s' = nb s /\ (forall x, blds s' x = upd (blds s) b (mkB (b_live (blds s b)) (Some p) None) x) /\
  nf s' = S (S (nf s)) /\
  (forall f, futs s' f = upd (upd (futs s) (nf s) (mkF false true t)) (S (nf s)) (mkF true false t) f) /\
  nt s' = nt s /\ (forall x, subm s' x = upd (subm s) t true x) /\ (forall x, res s' x = res s x) /\ (forall x, rget s' x = rget s x) /\
  log s' = ESubmit t p :: log s.
Proof.
  intros s b s' H. unfold bld_submit in H. destruct (b_space (blds s b)) as [p|] eqn:P; [|discriminate]. destruct (b_task (blds s b)) as [t|] eqn:K; [|discriminate].
  simpl in H. unfold fut_drop, fut_move, fut_new in H. simpl in H.
  assert (Z : f_taken (upd (upd (upd (futs s) (nf s) (mkF true false t)) (S (nf s))
       (mkF true (f_taken (upd (futs s) (nf s) (mkF true false t) (nf s))) (f_task (upd (futs s) (nf s) (mkF true false t) (nf s))))) (nf s)
       (mkF (f_live (upd (futs s) (nf s) (mkF true false t) (nf s))) true (f_task (upd (futs s) (nf s) (mkF true false t) (nf s)))) (nf s)) = true) by now rewrite upd_eq.
  rewrite Z in H. injection H as <-. exists t, p. simpl. rewrite !upd_eq. simpl. repeat (split; [auto; fail|]). split; [|auto 10].
  intros f. destruct (upd_case _ (futs s) (nf s) (mkF false true t) f) as [[-> _]|[N1 _]].
  - rewrite upd_eq. rewrite upd_ne by lia. now rewrite upd_eq.
  - rewrite upd_ne by auto. rewrite upd_ne by auto. destruct (Nat.eq_dec f (S (nf s))) as [->|N2]; [now rewrite !upd_eq|].
    rewrite !upd_ne by auto. reflexivity.
Qed.
Lemma submit_ub : forall s b, bld_submit s b = UB -> b_task (blds s b) = None \/ b_space (blds s b) = None.
Proof.
  intros s b H. unfold bld_submit in H. destruct (b_space (blds s b)) as [p|]; [|auto]. destruct (b_task (blds s b)) as [t|]; [|auto].
  simpl in H. unfold fut_drop, fut_move, fut_new in H. simpl in H. rewrite upd_eq in H. discriminate.
Qed.
Lemma notify_ok : forall s t s', notify_get s t = Ok s' -> rget s t = false /\ s' = mkS (nb s) (blds s) (nf s) (futs s) (nt s) (subm s) (res s) (upd (rget s) t true) (ENotify t :: log s).
Proof. intros s t s' H. unfold notify_get in H. destruct (rget s t); [discriminate|]. injection H as <-. auto. Qed.

Definition nsub (t : nat) (l : list ev) : nat := length (filter (fun e => match e with ESubmit u _ => Nat.eqb u t | _ => false end) l).
Definition nnot (t : nat) (l : list ev) : nat := length (filter (fun e => match e with ENotify u => Nat.eqb u t | _ => false end) l).
Definition b2n (b : bool) : nat := if b then 1 else 0.

(** ** Builders: every history *)
Record binv (l : list op) (s : st) : Prop := {
  bi_n : length (spaces l) = nt s;
  bi_fresh : forall b, nb s <= b -> b_live (blds s b) = false /\ b_task (blds s b) = None;
  bi_holds : forall b t, b_task (blds s b) = Some t -> b_live (blds s b) = true /\ t < nt s /\ subm s t = false /\ exists p, b_space (blds s b) = Some p /\ nth_error (spaces l) t = Some p;
  bi_one : forall b c t, b_task (blds s b) = Some t -> b_task (blds s c) = Some t -> b = c;
  bi_held : forall t, t < nt s -> subm s t = false -> exists b, b_task (blds s b) = Some t;
  bi_sub : forall t, subm s t = true -> t < nt s;
  bi_cnt : forall t, nsub t (log s) = b2n (subm s t);
  bi_log : forall t p, In (ESubmit t p) (log s) -> nth_error (spaces l) t = Some p }.

Lemma binv_frame : forall l o s s', (match o with Create _ => False | _ => True end) -> binv l s ->
  nt s' = nt s -> nb s' = nb s -> (forall b, blds s' b = blds s b) -> (forall t, subm s' t = subm s t) ->
  (forall t, nsub t (log s') = nsub t (log s)) -> (forall t p, In (ESubmit t p) (log s') -> In (ESubmit t p) (log s)) ->
  binv (l ++ [o]) s'.
Proof.
  intros l o s s' O B En Eb Ebl Es El Ei. destruct B as [B1 B2 B3 B4 B5 B6 B7 B8].
  assert (E : spaces (l ++ [o]) = spaces l). { rewrite spaces_app. destruct o; [destruct O|..]; simpl; apply app_nil_r. }
  split.
  - now rewrite E, En.
  - intros b. rewrite Eb, Ebl. apply B2.
  - intros b t. rewrite Ebl, En, Es, E. apply B3.
  - intros b c t. rewrite !Ebl. apply B4.
  - intros t. rewrite En, Es. intros H1 H2. destruct (B5 t H1 H2) as (b & Hb). exists b. now rewrite Ebl.
  - intros t. rewrite Es, En. apply B6.
  - intros t. now rewrite El, Es.
  - intros t p H. rewrite E. apply B8. auto.
Qed.
Lemma binv_hand : forall l o s s' b sp, (match o with Create _ => False | _ => True end) -> binv l s -> b_live (blds s b) = true ->
  nt s' = nt s -> nb s' = S (nb s) ->
  (forall x, blds s' x = upd (upd (blds s) (nb s) (mkB true (b_space (blds s b)) (b_task (blds s b)))) b (mkB (b_live (blds s b)) sp None) x) ->
  (forall t, subm s' t = subm s t) -> log s' = log s -> binv (l ++ [o]) s'.
Proof.
  intros l o s s' b sp O B Lv En Eb Ebl Es El. destruct B as [B1 B2 B3 B4 B5 B6 B7 B8].
  assert (E : spaces (l ++ [o]) = spaces l). { rewrite spaces_app. destruct o; [destruct O|..]; simpl; apply app_nil_r. }
  assert (Nb : b < nb s). { destruct (le_lt_dec (nb s) b) as [G|G]; [|exact G]. destruct (B2 b G). congruence. }
  assert (H1 : forall x t, b_task (blds s' x) = Some t -> exists y, b_task (blds s y) = Some t /\ ((x = nb s /\ y = b) \/ (x <> nb s /\ x <> b /\ y = x)) /\ b_space (blds s' x) = b_space (blds s y) /\ b_live (blds s' x) = true).
  { intros x t H. rewrite Ebl in *. destruct (Nat.eq_dec x b) as [->|N1]; [rewrite upd_eq in H; discriminate|]. rewrite (upd_ne _ _ b) in * by auto.
    destruct (Nat.eq_dec x (nb s)) as [->|N2]; [rewrite upd_eq in *; exists b; simpl in *; auto 10|]. rewrite upd_ne in * by auto. exists x. destruct (B3 x t H) as (L & _). auto 10. }
  split.
  - now rewrite E, En.
  - intros x Hx. rewrite Ebl. rewrite !upd_ne by lia. apply B2. lia.
  - intros x t H. destruct (H1 x t H) as (y & Hy & _ & Sy & Ly). destruct (B3 y t Hy) as (a1 & a2 & a3 & p & a4 & a5). rewrite En, Es, E, Sy. eauto 10.
  - intros x c t Hx Hc. destruct (H1 x t Hx) as (y & Hy & Dy & _). destruct (H1 c t Hc) as (z & Hz & Dz & _). assert (y = z) by eauto. subst z. lia.
  - intros t L1 L2. rewrite En in L1. rewrite Es in L2. destruct (B5 t L1 L2) as (x & Hx). destruct (Nat.eq_dec x b) as [->|N].
    + exists (nb s). rewrite Ebl. rewrite upd_ne by lia. rewrite upd_eq. exact Hx.
    + exists x. rewrite Ebl. rewrite upd_ne by auto. destruct (Nat.eq_dec x (nb s)) as [->|N2]; [destruct (B2 (nb s) (le_n _)); congruence|]. now rewrite upd_ne.
  - intros t. rewrite Es, En. apply B6.
  - intros t. now rewrite El, Es.
  - intros t p. rewrite E, El. apply B8.
Qed.
Lemma binv_submit : forall l o s s' b t p, (match o with Create _ => False | _ => True end) -> binv l s ->
  b_task (blds s b) = Some t -> b_space (blds s b) = Some p -> nt s' = nt s -> nb s' = nb s ->
  (exists lv sp, (forall x, blds s' x = upd (blds s) b (mkB lv sp None) x) /\ (lv = false \/ b_live (blds s b) = true)) ->
  (forall x, subm s' x = upd (subm s) t true x) -> (forall u, nsub u (log s') = nsub u (ESubmit t p :: log s)) ->
  (forall u q, In (ESubmit u q) (log s') -> In (ESubmit u q) (ESubmit t p :: log s)) -> binv (l ++ [o]) s'.
Proof.
  intros l o s s' b t p O B K P En Eb (lv & sp & Ebl & _) Es El Ei. destruct B as [B1 B2 B3 B4 B5 B6 B7 B8].
  assert (E : spaces (l ++ [o]) = spaces l). { rewrite spaces_app. destruct o; [destruct O|..]; simpl; apply app_nil_r. }
  destruct (B3 b t K) as (b1 & b2 & b3 & q & b4 & b5). assert (q = p) by congruence. subst q.
  assert (H1 : forall x u, b_task (blds s' x) = Some u -> x <> b /\ blds s' x = blds s x).
  { intros x u H. rewrite Ebl in *. destruct (Nat.eq_dec x b) as [->|N]; [rewrite upd_eq in H; discriminate|]. rewrite upd_ne in * by auto. auto. }
  split.
  - now rewrite E, En.
  - intros x Hx. rewrite Ebl. destruct (Nat.eq_dec x b) as [->|N]; [|rewrite upd_ne by auto; apply B2; lia].
    exfalso. rewrite Eb in Hx. destruct (B2 b Hx). congruence.
  - intros x u H. destruct (H1 x u H) as (Nx & Ex). rewrite Ex in *. destruct (B3 x u H) as (a1 & a2 & a3 & r & a4 & a5). rewrite En, E, Es.
    rewrite upd_ne; [eauto 10|]. intros ->. apply Nx. eapply B4; eauto.
  - intros x c u Hx Hc. destruct (H1 x u Hx) as (_ & Ex), (H1 c u Hc) as (_ & Ec). rewrite Ex in Hx. rewrite Ec in Hc. eauto.
  - intros u L1 L2. rewrite En in L1. rewrite Es in L2. destruct (Nat.eq_dec u t) as [->|N]; [rewrite upd_eq in L2; discriminate|]. rewrite upd_ne in L2 by auto.
    destruct (B5 u L1 L2) as (x & Hx). exists x. rewrite Ebl. rewrite upd_ne; [exact Hx|]. intros ->. congruence.
  - intros u. rewrite Es, En. destruct (Nat.eq_dec u t) as [->|N]; [auto|]. rewrite upd_ne by auto. apply B6.
  - intros u. rewrite El, Es. unfold nsub. simpl. destruct (Nat.eqb_spec t u) as [->|N].
    + rewrite upd_eq. simpl. f_equal. change (nsub u (log s) = 0). rewrite B7, b3. reflexivity.
    + rewrite upd_ne by auto. apply B7.
  - intros u q H. rewrite E. destruct (Ei u q H) as [X|X]; [injection X as <- <-; exact b5|auto].
Qed.

Lemma drop_fut_ok : forall s f s', fut_drop s f = Ok s' ->
  nb s' = nb s /\ (forall b, blds s' b = blds s b) /\ nt s' = nt s /\ (forall t, subm s' t = subm s t) /\ nf s' = nf s /\ (forall t, res s' t = res s t) /\
  (forall g, futs s' g = upd (futs s) f (mkF false (f_taken (futs s f)) (f_task (futs s f))) g) /\
  ((f_taken (futs s f) = true /\ log s' = log s /\ forall t, rget s' t = rget s t) \/
   (f_taken (futs s f) = false /\ rget s (f_task (futs s f)) = false /\ log s' = ENotify (f_task (futs s f)) :: log s /\ forall t, rget s' t = upd (rget s) (f_task (futs s f)) true t)).
Proof.
  intros s f s' H. unfold fut_drop in H. destruct (f_taken (futs s f)) eqn:T.
  - injection H as <-. simpl. auto 20.
  - destruct (notify_get s (f_task (futs s f))) as [s1|] eqn:N; [|discriminate]. destruct (notify_ok _ _ _ N) as (R & ->). simpl in H. injection H as <-. simpl. auto 20.
Qed.
Lemma get_fut_ok : forall s f s', fut_get s f = Some (Ok s') -> let t := f_task (futs s f) in
  nb s' = nb s /\ (forall b, blds s' b = blds s b) /\ nt s' = nt s /\ (forall u, subm s' u = subm s u) /\ nf s' = nf s /\
  rget s t = false /\ (forall u, rget s' u = upd (rget s) t true u) /\ res s t <> Unset /\ (forall u, res s' u = upd (res s) t Moved u) /\
  (forall g, futs s' g = upd (futs s) f (mkF (f_live (futs s f)) true t) g) /\ log s' = ENotify t :: EGot t (res s t) :: log s.
Proof.
  intros s f s' H t. unfold fut_get in H. fold t in H. destruct (rget s t) eqn:R; [discriminate|].
  destruct (res s t) as [|v|] eqn:V; [discriminate|..]; injection H as H.
  - destruct (notify_get _ t) as [s1|] eqn:N in H; [|discriminate]. destruct (notify_ok _ _ _ N) as (_ & ->). simpl in H. injection H as <-. simpl. repeat (split; [auto; fail|]). split; [discriminate|auto].
  - destruct (notify_get _ t) as [s1|] eqn:N in H; [|discriminate]. destruct (notify_ok _ _ _ N) as (_ & ->). simpl in H. injection H as <-. simpl. repeat (split; [auto; fail|]). split; [discriminate|auto].
Qed.

(** dropping a builder, case by case *)
Lemma drop_bld_ok : forall s b s', bld_drop s b = Ok s' ->
  (b_task (blds s b) = None /\ s' = set_bld s b (mkB false (b_space (blds s b)) None)) \/
  (exists t p, b_task (blds s b) = Some t /\ b_space (blds s b) = Some p /\ rget s t = false /\
    nb s' = nb s /\ (forall x, blds s' x = upd (blds s) b (mkB false (Some p) None) x) /\ nf s' = S (S (nf s)) /\
    (forall f, futs s' f = upd (upd (futs s) (nf s) (mkF false true t)) (S (nf s)) (mkF false false t) f) /\
    nt s' = nt s /\ (forall x, subm s' x = upd (subm s) t true x) /\ (forall x, res s' x = res s x) /\ (forall x, rget s' x = upd (rget s) t true x) /\
    log s' = ENotify t :: ESubmit t p :: log s).
Proof.
  intros s b s' H. unfold bld_drop in H. destruct (b_task (blds s b)) as [t|] eqn:K.
  - right. destruct (bld_submit s b) as [s1|] eqn:S1; [|discriminate]. simpl in H. destruct (fut_drop s1 (nf s1 - 1)) as [s2|] eqn:D; [|discriminate]. simpl in H. injection H as <-.
    destruct (submit_ok s b s1 S1) as (t' & p & k1 & k2 & k3 & k4 & k5 & k6 & k7 & k8 & k9 & k10 & k11). assert (t' = t) by congruence. subst t'.
    destruct (drop_fut_ok s1 _ s2 D) as (d1 & d2 & d3 & d4 & d5 & d6 & d7 & d8).
    rewrite k5 in *. replace (S (S (nf s)) - 1) with (S (nf s)) in * by lia. rewrite k6, upd_eq in d8. simpl in d8. destruct d8 as [[? _]|(_ & e1 & e2 & e3)]; [discriminate|].
    exists t, p. simpl. split; [reflexivity|]. split; [exact k2|]. split; [now rewrite k10 in e1|]. split; [congruence|].
    split. { intros x. rewrite d2, k4, upd_eq. simpl. unfold upd. destruct (x =? b) eqn:Xb; [reflexivity|]. rewrite d2, k4. unfold upd. now rewrite Xb. }
    split; [congruence|]. split. { intros f. rewrite d7, k6, upd_eq. simpl. destruct (Nat.eq_dec f (S (nf s))) as [->|N]; [now rewrite !upd_eq|]. rewrite !(upd_ne _ _ (S (nf s))) by auto. rewrite k6. now rewrite upd_ne. }
    split; [congruence|]. split; [intros x; now rewrite d4|]. split; [intros x; now rewrite d6|]. split; [|rewrite e2, k11; reflexivity].
    intros x. rewrite e3. unfold upd. destruct (x =? t); auto.
  - left. split; [reflexivity|]. injection H as <-. destruct (blds s b) as [x1 x2 x3] eqn:Q. simpl in K. subst x3. unfold set_bld. reflexivity.
Qed.

Lemma nsub_other : forall t e l, (match e with ESubmit _ _ => False | _ => True end) -> nsub t (e :: l) = nsub t l.
Proof. intros t e l H. unfold nsub. destruct e; [destruct H|reflexivity..]. Qed.

Lemma binv_step : forall l o s s', binv l s -> step s o = Some (Ok s') -> binv (l ++ [o]) s'.
Proof.
  intros l o s s' B H. destruct o; unfold step, live_b, live_f in H.
  - (* create *) injection H as <-. destruct B as [B1 B2 B3 B4 B5 B6 B7 B8].
    assert (E : spaces (l ++ [Create sp]) = spaces l ++ [sp]) by now rewrite spaces_app.
    assert (Nx : forall t p, nth_error (spaces l) t = Some p -> nth_error (spaces l ++ [sp]) t = Some p). { intros t p X. rewrite nth_error_app1; [exact X|]. apply nth_error_Some. congruence. }
    assert (H1 : forall x t, b_task (upd (blds s) (nb s) (mkB true (Some sp) (Some (nt s))) x) = Some t -> (x = nb s /\ t = nt s) \/ (x <> nb s /\ b_task (blds s x) = Some t)).
    { intros x t X. destruct (Nat.eq_dec x (nb s)) as [->|N]; [rewrite upd_eq in X; injection X; auto|]. rewrite upd_ne in X by auto. auto. }
    split; cbn [bld_new add_bld nt nb blds subm log].
    + rewrite E, app_length. simpl. lia.
    + intros b Hb. rewrite upd_ne by lia. apply B2. lia.
    + intros b t X. destruct (H1 b t X) as [[-> ->]|[N Y]].
      * rewrite upd_eq. simpl. split; [reflexivity|]. split; [lia|]. split. { destruct (subm s (nt s)) eqn:Z; [|reflexivity]. apply B6 in Z. lia. }
        exists sp. split; [reflexivity|]. rewrite E, nth_error_app2 by lia. now rewrite B1, Nat.sub_diag.
      * rewrite upd_ne by auto. destruct (B3 b t Y) as (a1 & a2 & a3 & p & a4 & a5). rewrite E. eauto 10.
    + intros b c t Xb Xc. destruct (H1 b t Xb) as [[-> ->]|[N Y]], (H1 c _ Xc) as [[-> ?]|[N' Y']]; auto.
      * apply B3 in Y'. lia.
      * subst t. apply B3 in Y. lia.
      * eauto.
    + intros t L1 L2. destruct (Nat.eq_dec t (nt s)) as [->|N]; [exists (nb s); now rewrite upd_eq|]. destruct (B5 t) as (b & Hb); [lia|exact L2|]. exists b.
      rewrite upd_ne; [exact Hb|]. intros ->. destruct (B2 (nb s) (le_n _)); congruence.
    + intros t X. apply B6 in X. lia.
    + apply B7.
    + intros t p X. rewrite E. auto.
  - destruct (b_live (blds s b)) eqn:Lv; [|discriminate]. injection H as <-. eapply (binv_hand l _ s _ b (b_space (blds s b))); simpl; eauto; simpl; auto.
  - destruct (b_live (blds s b)) eqn:Lv; [|discriminate]. injection H as <-. eapply (binv_hand l _ s _ b None); simpl; eauto; simpl; auto.
  - destruct (b_live (blds s b)) eqn:Lv; [|discriminate]. unfold bld_set in H. destruct (b_task (blds s b)); [|discriminate]. injection H as <-. eapply binv_frame; eauto.
  - destruct (b_live (blds s b)) eqn:Lv; [|discriminate]. injection H as H. destruct (submit_ok s b s' H) as (t & p & k1 & k2 & k3 & k4 & k5 & k6 & k7 & k8 & k9 & k10 & k11).
    eapply binv_submit; eauto; try exact I; try (now rewrite k11). 
  - destruct (b_live (blds s b)) eqn:Lv; [|discriminate]. injection H as H. destruct (drop_bld_ok s b s' H) as [[K ->]|(t & p & k1 & k2 & k3 & k4 & k5 & k6 & k7 & k8 & k9 & k10 & k11 & k12)].
    + destruct B as [B1 B2 B3 B4 B5 B6 B7 B8].
      assert (E : spaces (l ++ [DropB b]) = spaces l). { rewrite spaces_app. simpl. apply app_nil_r. }
      assert (H1 : forall x t, b_task (upd (blds s) b (mkB false (b_space (blds s b)) None) x) = Some t -> x <> b /\ b_task (blds s x) = Some t).
      { intros x t X. destruct (Nat.eq_dec x b) as [->|N]; [rewrite upd_eq in X; discriminate|]. rewrite upd_ne in X by auto. auto. }
      split; cbn [set_bld nt nb blds subm log]; rewrite ?E; auto.
      * intros x Hx. destruct (Nat.eq_dec x b) as [->|N]; [rewrite upd_eq; auto|]. rewrite upd_ne by auto. auto.
      * intros x t X. destruct (H1 x t X) as (N & Y). rewrite upd_ne by auto. auto.
      * intros x c t X1 X2. destruct (H1 x t X1), (H1 c t X2). eauto.
      * intros t L1 L2. destruct (B5 t L1 L2) as (x & Hx). exists x. rewrite upd_ne; [exact Hx|]. intros ->. congruence.
    + eapply (binv_submit l _ s s' b t p); eauto; try exact I; intros; rewrite k12 in *; [now apply nsub_other|]. destruct H0 as [X|X]; [discriminate|exact X].
  - destruct (f_live (futs s f)); [|discriminate]. injection H as <-. eapply binv_frame; eauto; simpl; auto.
  - destruct (f_live (futs s f)); [|discriminate]. unfold fut_ready in H. destruct (rget s _); [discriminate|]. injection H as <-. eapply binv_frame; eauto; simpl; auto.
  - destruct (f_live (futs s f)); [|discriminate]. destruct (get_fut_ok s f s' H) as (g1 & g2 & g3 & g4 & g5 & g6 & g7 & g8 & g9 & g10 & g11).
    eapply binv_frame; eauto; try exact I; rewrite g11; [reflexivity|]. intros t p [X|[X|X]]; [discriminate..|exact X].
  - destruct (f_live (futs s f)); [|discriminate]. injection H as H. destruct (drop_fut_ok s f s' H) as (g1 & g2 & g3 & g4 & g5 & g6 & g7 & [(g8 & g9 & g10)|(g8 & g9 & g10 & g11)]).
    + eapply binv_frame; eauto; try exact I; now rewrite g9.
    + eapply binv_frame; eauto; try exact I; rewrite g10; [reflexivity|]. intros t p [X|X]; [discriminate|exact X].
  - destruct (subm s t); [|discriminate]. destruct (res s t); [|discriminate..]. injection H as <-. eapply binv_frame; eauto; simpl; auto.
Qed.
Lemma binv_run : forall l s, run init l = Some (Ok s) -> binv l s.
Proof.
  induction l as [|o l IH] using rev_ind; intros s H.
  - injection H as <-. split; simpl; auto; try discriminate; try lia; try contradiction.
  - destruct (run_snoc _ _ _ _ H) as (s1 & R & S1). eapply binv_step; eauto.
Qed.

(** ** Futures: histories in which no spent future is asked *)
Definition valid_use (s : st) (o : op) : Prop := match o with GetF f | ReadyF f => f_taken (futs s f) = false | _ => True end.
Inductive vrun : list op -> st -> Prop :=
| v_nil : vrun [] init
| v_snoc : forall l s o s', vrun l s -> valid_use s o -> step s o = Some (Ok s') -> vrun (l ++ [o]) s'.
Lemma vrun_run : forall l s, vrun l s -> run init l = Some (Ok s).
Proof. intros l s H. induction H as [|l s o s' V IH U S]; [reflexivity|]. rewrite run_app, IH. simpl. now rewrite S. Qed.

Definition open (s : st) (f t : nat) : Prop := f_live (futs s f) = true /\ f_taken (futs s f) = false /\ f_task (futs s f) = t.
Record finv (l : list op) (s : st) : Prop := {
  fi_fresh : forall f, nf s <= f -> f_live (futs s f) = false;
  fi_open : forall f t, open s f t -> subm s t = true /\ rget s t = false;
  fi_one : forall f g t, open s f t -> open s g t -> f = g;
  fi_held : forall t, subm s t = true -> rget s t = false -> exists f, open s f t;
  fi_rget : forall t, rget s t = true -> subm s t = true;
  fi_cnt : forall t, nnot t (log s) = b2n (rget s t);
  fi_res : forall t, (res s t = Unset /\ forall v, ~ In (Run t v) l) \/
                     (exists v, In (Run t v) l /\ (forall w, In (Run t w) l -> w = v) /\ (res s t = Val v \/ (res s t = Moved /\ rget s t = true)));
  fi_got : forall t c, In (EGot t c) (log s) -> exists v, c = Val v /\ In (Run t v) l }.

Lemma res_frame : forall l o s s' t, (match o with Run u _ => u <> t | _ => True end) ->
  ((res s t = Unset /\ forall v, ~ In (Run t v) l) \/ (exists v, In (Run t v) l /\ (forall w, In (Run t w) l -> w = v) /\ (res s t = Val v \/ (res s t = Moved /\ rget s t = true)))) ->
  (res s' t = res s t \/ (res s' t = Moved /\ res s t <> Unset /\ rget s' t = true)) -> (rget s t = true -> rget s' t = true) ->
  (res s' t = Unset /\ forall v, ~ In (Run t v) (l ++ [o])) \/ (exists v, In (Run t v) (l ++ [o]) /\ (forall w, In (Run t w) (l ++ [o]) -> w = v) /\ (res s' t = Val v \/ (res s' t = Moved /\ rget s' t = true))).
Proof.
  intros l o s s' t O H E G. assert (Z : forall w, In (Run t w) (l ++ [o]) <-> In (Run t w) l).
  { intros w. rewrite in_app_iff. split; [|auto]. intros [X|[X|[]]]; [exact X|]. subst o. now destruct O. }
  destruct H as [[H1 H2]|(v & H1 & H2 & H3)].
  - left. destruct E as [E|(E1 & E2 & E3)]; [|congruence]. split; [congruence|]. intros v X. apply Z in X. now apply (H2 v).
  - right. exists v. split; [now apply Z|]. split; [intros w X; apply H2; now apply Z|]. destruct E as [E|(E1 & E2 & E3)]; [|auto].
    rewrite E. destruct H3 as [H3|[H3 H4]]; auto.
Qed.

Lemma finv_step : forall l o s s', binv l s -> finv l s -> valid_use s o -> step s o = Some (Ok s') -> finv (l ++ [o]) s'.
Proof.
  intros l o s s' B F V H. destruct F as [F1 F2 F3 F4 F5 F6 F7 F8].
  (* operations that leave the futures and results alone *)
  assert (SAME : (match o with Run _ _ => False | _ => True end) -> nf s' = nf s -> (forall f, futs s' f = futs s f) -> (forall t, subm s' t = subm s t) -> (forall t, res s' t = res s t) -> (forall t, rget s' t = rget s t) -> log s' = log s ->
    finv (l ++ [o]) s').
  { intros O E1 E2 E3 E4 E5 E6. assert (OP : forall f t, open s' f t <-> open s f t) by (intros; unfold open; now rewrite E2).
    split.
    - intros f. rewrite E1, E2. apply F1.
    - intros f t X. rewrite E3, E5. apply OP in X. eauto.
    - intros f g t X Y. apply OP in X. apply OP in Y. eauto.
    - intros t. rewrite E3, E5. intros X Y. destruct (F4 t X Y) as (f & Z). exists f. now apply OP.
    - intros t. rewrite E3, E5. apply F5.
    - intros t. now rewrite E6, E5.
    - intros t. apply (res_frame l o s s' t); auto; [now destruct o|rewrite E5; auto].
    - intros t c. rewrite E6. intros X. destruct (F8 t c X) as (v & ? & ?). exists v. rewrite in_app_iff. auto. }
  (* a future is closed, the event is notified *)
  assert (CLOSE : forall f t lv, (match o with Run _ _ => False | _ => True end) -> open s f t -> nf s' = nf s -> (forall g, futs s' g = upd (futs s) f (mkF lv true t) g \/ futs s' g = upd (futs s) f (mkF false false t) g) ->
    (forall t, subm s' t = subm s t) -> (forall u, res s' u = res s u \/ (res s' u = Moved /\ res s u <> Unset /\ rget s' u = true)) -> (forall u, rget s' u = upd (rget s) t true u) ->
    (log s' = ENotify t :: log s \/ (log s' = ENotify t :: EGot t (res s t) :: log s /\ res s t <> Unset)) -> finv (l ++ [o]) s').
  { intros f t lv O OP E1 E2 E3 E4 E5 E6. assert (OP' : forall g u, open s' g u -> g <> f /\ open s g u).
    { intros g u (x1 & x2 & x3). destruct (Nat.eq_dec g f) as [->|N]; [destruct (E2 f) as [X|X]; rewrite X, upd_eq in *; discriminate|]. split; [exact N|]. unfold open. destruct (E2 g) as [X|X]; rewrite X, upd_ne in * by auto; auto. }
    assert (OP2 : forall g u, g <> f -> open s g u -> open s' g u).
    { intros g u N X. unfold open. destruct (E2 g) as [Y|Y]; rewrite Y, upd_ne by auto; exact X. }
    destruct (F2 f t OP) as (S1 & S2). split.
    - intros g Hg. rewrite E1 in Hg. assert (g <> f). { intros ->. destruct OP as (X & _). rewrite F1 in X by auto. discriminate. }
      destruct (E2 g) as [Y|Y]; rewrite Y, upd_ne by auto; auto.
    - intros g u X. destruct (OP' g u X) as (N & Y). rewrite E3, E5. destruct (F2 g u Y). split; [auto|]. rewrite upd_ne; [auto|]. intros ->. apply N. eauto.
    - intros g h u X Y. apply OP' in X as (_ & X). apply OP' in Y as (_ & Y). eauto.
    - intros u X Y. rewrite E3 in X. rewrite E5 in Y. destruct (Nat.eq_dec u t) as [->|N]; [rewrite upd_eq in Y; discriminate|]. rewrite upd_ne in Y by auto.
      destruct (F4 u X Y) as (g & Z). exists g. apply OP2; [|exact Z]. intros ->. destruct Z as (_ & _ & Z), OP as (_ & _ & OP). congruence.
    - intros u X. rewrite E3. rewrite E5 in X. destruct (Nat.eq_dec u t) as [->|N]; [exact S1|]. rewrite upd_ne in X by auto. auto.
    - intros u. rewrite E5. assert (Z : nnot u (log s') = (if t =? u then 1 else 0) + nnot u (log s)). { destruct E6 as [->|[-> _]]; unfold nnot; simpl; destruct (t =? u); reflexivity. }
      rewrite Z. destruct (Nat.eqb_spec t u) as [->|N]; [rewrite upd_eq, F6, S2; reflexivity|]. rewrite upd_ne by auto. apply F6.
    - intros u. apply (res_frame l o s s' u); auto; [now destruct o|]. intros X. rewrite E5. unfold upd. destruct (u =? t); auto.
    - intros u c X. destruct E6 as [E6|[E6 RS]]; rewrite E6 in X.
      + destruct X as [X|X]; [discriminate|]. destruct (F8 u c X) as (v & ? & ?). exists v. rewrite in_app_iff. auto.
      + destruct X as [X|[X|X]]; [discriminate|injection X as <- <-|destruct (F8 u c X) as (v & ? & ?); exists v; rewrite in_app_iff; auto].
        destruct (F7 t) as [[? _]|(v & H1 & H2 & [H3|[_ H3]])]; [congruence| |congruence]. exists v. rewrite in_app_iff. auto. }
  destruct o; unfold step, live_b, live_f in H.
  - injection H as <-. apply SAME; simpl; auto.
  - destruct (b_live (blds s b)); [|discriminate]. injection H as <-. apply SAME; simpl; auto.
  - destruct (b_live (blds s b)); [|discriminate]. injection H as <-. apply SAME; simpl; auto.
  - destruct (b_live (blds s b)); [|discriminate]. unfold bld_set in H. destruct (b_task (blds s b)); [|discriminate]. injection H as <-. apply SAME; simpl; auto.
  - (* submit *) destruct (b_live (blds s b)); [|discriminate]. injection H as H. destruct (submit_ok s b s' H) as (t & p & k1 & k2 & k3 & k4 & k5 & k6 & k7 & k8 & k9 & k10 & k11).
    destruct (bi_holds _ _ B b t k1) as (_ & _ & NS & _). assert (NR : rget s t = false). { destruct (rget s t) eqn:Z; [|reflexivity]. apply F5 in Z. congruence. }
    assert (OP : forall f u, open s' f u -> (f = S (nf s) /\ u = t) \/ (f < nf s /\ open s f u)).
    { intros f u (x1 & x2 & x3). rewrite k6 in *. destruct (Nat.eq_dec f (S (nf s))) as [->|N1]; [rewrite upd_eq in *; simpl in *; auto|]. rewrite (upd_ne _ _ (S (nf s))) in * by auto.
      destruct (Nat.eq_dec f (nf s)) as [->|N2]; [rewrite upd_eq in x2; discriminate|]. rewrite upd_ne in * by auto. right. split; [|split; auto].
      destruct (le_lt_dec (nf s) f) as [G|G]; [rewrite F1 in x1 by auto; discriminate|exact G]. }
    assert (OP2 : forall f u, open s f u -> open s' f u).
    { intros f u X. assert (f < nf s). { destruct (le_lt_dec (nf s) f) as [G|G]; [destruct X as (X & _); rewrite F1 in X by auto; discriminate|exact G]. } unfold open. rewrite k6. rewrite !upd_ne by lia. exact X. }
    split.
    + intros f Hf. rewrite k6. rewrite !upd_ne by lia. apply F1. lia.
    + intros f u X. rewrite k8, k10. destruct (OP f u X) as [[-> ->]|[_ Y]]; [rewrite upd_eq; auto|]. destruct (F2 f u Y). unfold upd. destruct (u =? t); auto.
    + intros f g u X Y. destruct (OP f u X) as [[-> ->]|[? X']], (OP g _ Y) as [[-> E]|[? Y']]; auto.
      * destruct (F2 g t Y'). congruence.
      * subst u. destruct (F2 f t X'). congruence.
      * eauto.
    + intros u X Y. rewrite k8 in X. rewrite k10 in Y. destruct (Nat.eq_dec u t) as [->|N]; [exists (S (nf s)); unfold open; rewrite k6, upd_eq; auto|].
      rewrite upd_ne in X by auto. destruct (F4 u X Y) as (f & Z). exists f. auto.
    + intros u X. rewrite k10 in X. rewrite k8. unfold upd. destruct (u =? t); auto.
    + intros u. rewrite k11, k10. apply F6.
    + intros u. apply (res_frame l _ s s' u); simpl; auto. now rewrite k10.
    + intros u c. rewrite k11. intros [X|X]; [discriminate|]. destruct (F8 u c X) as (v & ? & ?). exists v. rewrite in_app_iff. auto.
  - (* drop a builder *) destruct (b_live (blds s b)); [|discriminate]. injection H as H. destruct (drop_bld_ok s b s' H) as [[K ->]|(t & p & k1 & k2 & k3 & k4 & k5 & k6 & k7 & k8 & k9 & k10 & k11 & k12)]; [apply SAME; simpl; auto|].
    destruct (bi_holds _ _ B b t k1) as (_ & _ & NS & _).
    assert (OP : forall f u, open s' f u <-> open s f u).
    { intros f u. unfold open. rewrite k7. destruct (Nat.eq_dec f (S (nf s))) as [->|N1].
      { rewrite upd_eq. simpl. rewrite (F1 (S (nf s))) by lia. split; intros (? & _); discriminate. }
      rewrite (upd_ne _ _ (S (nf s))) by auto. destruct (Nat.eq_dec f (nf s)) as [->|N2]; [|rewrite upd_ne by auto; tauto].
      rewrite upd_eq. simpl. rewrite (F1 (nf s)) by lia. split; intros (? & _); discriminate. }
    split.
    + intros f Hf. rewrite k7. rewrite !upd_ne by lia. apply F1. lia.
    + intros f u X. apply OP in X. destruct (F2 f u X). rewrite k9, k11. rewrite !upd_ne by congruence. auto.
    + intros f g u X Y. apply OP in X. apply OP in Y. eauto.
    + intros u X Y. rewrite k9 in X. rewrite k11 in Y. destruct (Nat.eq_dec u t) as [->|N]; [rewrite upd_eq in Y; discriminate|]. rewrite upd_ne in X, Y by auto. destruct (F4 u X Y) as (f & Z). exists f. now apply OP.
    + intros u X. rewrite k11 in X. rewrite k9. unfold upd in *. destruct (u =? t); auto.
    + intros u. rewrite k12, k11. assert (Z : nnot u (ENotify t :: ESubmit t p :: log s) = (if t =? u then 1 else 0) + nnot u (log s)) by (unfold nnot; simpl; destruct (t =? u); reflexivity).
      rewrite Z. destruct (Nat.eqb_spec t u) as [->|N]; [rewrite upd_eq, F6, k3; reflexivity|]. rewrite upd_ne by auto. apply F6.
    + intros u. apply (res_frame l _ s s' u); simpl; auto. intros X. rewrite k11. unfold upd. destruct (u =? t); auto.
    + intros u c. rewrite k12. intros [X|[X|X]]; [discriminate..|]. destruct (F8 u c X) as (v & ? & ?). exists v. rewrite in_app_iff. auto.
  - (* move a future *) destruct (f_live (futs s f)) eqn:Lv; [|discriminate]. injection H as <-.
    assert (Nf : f < nf s). { destruct (le_lt_dec (nf s) f) as [G|G]; [rewrite F1 in Lv by auto; discriminate|exact G]. }
    assert (OP : forall g u, open (fut_move s f) g u <-> (g = nf s /\ open s f u) \/ (g <> nf s /\ g <> f /\ open s g u)).
    { intros g u. unfold open, fut_move. simpl. destruct (Nat.eq_dec g f) as [->|N1].
      { rewrite upd_eq. simpl. split; [intros (_ & ? & _); discriminate|]. intros [[? _]|[_ [? _]]]; [lia|congruence]. }
      rewrite (upd_ne _ _ f) by auto. destruct (Nat.eq_dec g (nf s)) as [->|N2]; [rewrite upd_eq; simpl|rewrite upd_ne by auto].
      - rewrite Lv. split; [intros (_ & ? & ?); auto|]. intros [(_ & _ & ? & ?)|[? _]]; [auto|congruence].
      - split; [auto|]. intros [[? _]|(_ & _ & ?)]; [congruence|auto]. }
    split.
    + intros g Hg. unfold fut_move in *. simpl in *. rewrite !upd_ne by lia. apply F1. lia.
    + intros g u X. apply OP in X as [[_ X]|(_ & _ & X)]; apply F2 in X; auto.
    + intros g h u X Y. apply OP in X as [[-> X]|(N1 & N2 & X)]; apply OP in Y as [[-> Y]|(M1 & M2 & Y)]; [reflexivity|exfalso; apply M2; eauto|exfalso; apply N2; eauto|eauto].
    + intros u X Y. destruct (F4 u X Y) as (g & Z). destruct (Nat.eq_dec g f) as [->|N]; [exists (nf s); apply OP; auto|]. exists g. apply OP. right. split; [|auto].
      intros ->. destruct Z as (Z & _). rewrite F1 in Z by auto. discriminate.
    + exact F5.
    + exact F6.
    + intros u. apply (res_frame l _ s (fut_move s f) u); simpl; auto.
    + intros u c X. destruct (F8 u c X) as (v & ? & ?). exists v. rewrite in_app_iff. auto.
  - destruct (f_live (futs s f)); [|discriminate]. unfold fut_ready in H. destruct (rget s _); [discriminate|]. injection H as <-. apply SAME; simpl; auto.
  - (* get *) destruct (f_live (futs s f)) eqn:Lv; [|discriminate]. destruct (get_fut_ok s f s' H) as (g1 & g2 & g3 & g4 & g5 & g6 & g7 & g8 & g9 & g10 & g11).
    apply (CLOSE f (f_task (futs s f)) (f_live (futs s f))); auto; try exact I.
    + split; [exact Lv|]. split; [exact V|reflexivity].
    + intros u. rewrite g9, g7. destruct (Nat.eq_dec u (f_task (futs s f))) as [->|N]; [rewrite !upd_eq; auto|rewrite upd_ne by auto; auto].
  - (* drop *) destruct (f_live (futs s f)) eqn:Lv; [|discriminate]. injection H as H. destruct (drop_fut_ok s f s' H) as (g1 & g2 & g3 & g4 & g5 & g6 & g7 & [(g8 & g9 & g10)|(g8 & g9 & g10 & g11)]).
    + (* spent *) assert (OP : forall g u, open s' g u <-> open s g u).
      { intros g u. unfold open. rewrite g7. destruct (Nat.eq_dec g f) as [->|N]; [rewrite upd_eq; simpl; rewrite g8; split; intros (? & ? & ?); discriminate|]. rewrite upd_ne by auto. tauto. }
      split.
      * intros g Hg. rewrite g7. unfold upd. destruct (g =? f); [reflexivity|]. apply F1. lia.
      * intros g u X. apply OP in X. rewrite g4, g10. eauto.
      * intros g h u X Y. apply OP in X. apply OP in Y. eauto.
      * intros u. rewrite g4, g10. intros X Y. destruct (F4 u X Y) as (g & Z). exists g. now apply OP.
      * intros u. rewrite g4, g10. apply F5.
      * intros u. rewrite g9, g10. apply F6.
      * intros u. apply (res_frame l _ s s' u); simpl; auto. now rewrite g10.
      * intros u c. rewrite g9. intros X. destruct (F8 u c X) as (v & ? & ?). exists v. rewrite in_app_iff. auto.
    + apply (CLOSE f (f_task (futs s f)) false); auto; try exact I.
      * split; [exact Lv|auto].
      * intros g. right. rewrite g7, g8. reflexivity.
  - (* the body ends *) destruct (subm s t) eqn:Su; [|discriminate]. destruct (res s t) eqn:Rs; [|discriminate..]. injection H as <-.
    split; simpl; auto.
    + intros u. destruct (Nat.eq_dec u t) as [->|N].
      * right. exists v. rewrite upd_eq. split; [rewrite in_app_iff; simpl; auto|]. split; [|auto]. intros w. rewrite in_app_iff. intros [X|[X|[]]]; [|congruence].
        destruct (F7 t) as [[_ Z]|(x & _ & _ & [Z|[Z _]])]; [exfalso; eapply Z; eauto|congruence..].
      * match goal with |- context [upd (res s) t (Val v) u] => rewrite upd_ne by auto end.
        apply (res_frame l (Run t v) s s u); auto.
    + intros u c X. destruct (F8 u c X) as (w & ? & ?). exists w. rewrite in_app_iff. auto.
Qed.
Lemma finv_run : forall l s, vrun l s -> finv l s.
Proof.
  intros l s H. induction H as [|l s o s' V IH U S].
  - split; simpl; auto; try discriminate; try contradiction; try (intros f t (X & _); discriminate). intros f g t (X & _). discriminate.
  - eapply finv_step; eauto. apply binv_run. now apply vrun_run.
Qed.

(** ** Histories that respect the handles *)
Definition uses_b (o : op) (b : nat) : Prop := o = SetB b \/ o = SubmitB b \/ o = CopyB b \/ o = MoveB b.
Definition spends_b (o : op) (b : nat) : Prop := o = SubmitB b \/ o = CopyB b \/ o = MoveB b.
Definition uses_f (o : op) (f : nat) : Prop := o = ReadyF f \/ o = GetF f \/ o = MoveF f.
Definition spends_f (o : op) (f : nat) : Prop := o = GetF f \/ o = MoveF f.
(** a handle that was moved from, submitted or asked for its result is only destroyed *)
Definition disciplined (l : list op) : Prop := forall l1 o l2, l = l1 ++ o :: l2 ->
  (forall b o', uses_b o b -> In o' l1 -> ~ spends_b o' b) /\ (forall f o', uses_f o f -> In o' l1 -> ~ spends_f o' f).
Lemma disciplined_prefix : forall l o, disciplined (l ++ [o]) -> disciplined l.
Proof. intros l o D l1 p l2 E. apply (D l1 p (l2 ++ [o])). rewrite E, <- app_assoc. reflexivity. Qed.
Lemma disciplined_last : forall l o, disciplined (l ++ [o]) -> (forall b o', uses_b o b -> In o' l -> ~ spends_b o' b) /\ (forall f o', uses_f o f -> In o' l -> ~ spends_f o' f).
Proof. intros l o D. apply (D l o []). reflexivity. Qed.

Record hinv (l : list op) (s : st) : Prop := {
  hi_b : forall b, b_live (blds s b) = true -> b_task (blds s b) = None -> exists o, In o l /\ spends_b o b;
  hi_f : forall f, f_live (futs s f) = true -> f_taken (futs s f) = true -> exists o, In o l /\ spends_f o f }.
Lemma wider : forall (P : op -> Prop) l o, (exists x, In x l /\ P x) -> exists x, In x (l ++ [o]) /\ P x.
Proof. intros P l o (x & H & Hx). exists x. rewrite in_app_iff. auto. Qed.
Lemma newer : forall (P : op -> Prop) l (o : op), P o -> exists x, In x (l ++ [o]) /\ P x.
Proof. intros P l o H. exists o. rewrite in_app_iff. simpl. auto. Qed.
Lemma hinv_step : forall l o s s', disciplined (l ++ [o]) -> hinv l s -> step s o = Some (Ok s') -> hinv (l ++ [o]) s'.
Proof.
  intros l o s s' D [HB HF] H. apply disciplined_last in D as (DB & DF).
  destruct o; unfold step, live_b, live_f in H.
  - injection H as <-. split; simpl; [|intros; apply wider; auto]. intros b X Y. destruct (Nat.eq_dec b (nb s)) as [->|N]; [rewrite upd_eq in Y; discriminate|]. rewrite upd_ne in * by auto. apply wider. auto.
  - destruct (b_live (blds s b)) eqn:Lv; [|discriminate]. injection H as <-. split; simpl; [|intros; apply wider; auto]. intros x X Y.
    destruct (Nat.eq_dec x b) as [->|N]; [apply newer; unfold spends_b; auto|]. rewrite (upd_ne _ _ b) in * by auto.
    destruct (Nat.eq_dec x (nb s)) as [->|N2]; [|rewrite upd_ne in * by auto; apply wider; auto]. rewrite upd_eq in Y. simpl in Y.
    destruct (HB b Lv Y) as (o' & I' & S'). exfalso. apply (DB b o'); auto. unfold uses_b. auto.
  - destruct (b_live (blds s b)) eqn:Lv; [|discriminate]. injection H as <-. split; simpl; [|intros; apply wider; auto]. intros x X Y.
    destruct (Nat.eq_dec x b) as [->|N]; [apply newer; unfold spends_b; auto|]. rewrite (upd_ne _ _ b) in * by auto.
    destruct (Nat.eq_dec x (nb s)) as [->|N2]; [|rewrite upd_ne in * by auto; apply wider; auto]. rewrite upd_eq in Y. simpl in Y.
    destruct (HB b Lv Y) as (o' & I' & S'). exfalso. apply (DB b o'); auto. unfold uses_b. auto.
  - destruct (b_live (blds s b)); [|discriminate]. unfold bld_set in H. destruct (b_task (blds s b)); [|discriminate]. injection H as <-. split; intros; apply wider; auto.
  - destruct (b_live (blds s b)); [|discriminate]. injection H as H. destruct (submit_ok s b s' H) as (t & p & k1 & k2 & k3 & k4 & k5 & k6 & k7 & k8 & k9 & k10 & k11). split.
    + intros x X Y. rewrite k4 in *. destruct (Nat.eq_dec x b) as [->|N]; [apply newer; unfold spends_b; auto|]. rewrite upd_ne in * by auto. apply wider; auto.
    + intros f X Y. rewrite k6 in *. destruct (Nat.eq_dec f (S (nf s))) as [->|N1]; [rewrite upd_eq in Y; discriminate|]. rewrite (upd_ne _ _ (S (nf s))) in * by auto.
      destruct (Nat.eq_dec f (nf s)) as [->|N2]; [rewrite upd_eq in X; discriminate|]. rewrite upd_ne in * by auto. apply wider; auto.
  - destruct (b_live (blds s b)); [|discriminate]. injection H as H. destruct (drop_bld_ok s b s' H) as [[K ->]|(t & p & k1 & k2 & k3 & k4 & k5 & k6 & k7 & k8 & k9 & k10 & k11 & k12)].
    + split; simpl; [|intros; apply wider; auto]. intros x X Y. destruct (Nat.eq_dec x b) as [->|N]; [rewrite upd_eq in X; discriminate|]. rewrite upd_ne in * by auto. apply wider; auto.
    + split.
      * intros x X Y. rewrite k5 in *. destruct (Nat.eq_dec x b) as [->|N]; [rewrite upd_eq in X; discriminate|]. rewrite upd_ne in * by auto. apply wider; auto.
      * intros f X Y. rewrite k7 in *. destruct (Nat.eq_dec f (S (nf s))) as [->|N1]; [rewrite upd_eq in Y; discriminate|]. rewrite (upd_ne _ _ (S (nf s))) in * by auto.
        destruct (Nat.eq_dec f (nf s)) as [->|N2]; [rewrite upd_eq in X; discriminate|]. rewrite upd_ne in * by auto. apply wider; auto.
  - destruct (f_live (futs s f)) eqn:Lv; [|discriminate]. injection H as <-. split; simpl; [intros; apply wider; auto|]. intros x X Y.
    destruct (Nat.eq_dec x f) as [->|N]; [apply newer; unfold spends_f; auto|]. rewrite (upd_ne _ _ f) in * by auto.
    destruct (Nat.eq_dec x (nf s)) as [->|N2]; [|rewrite upd_ne in * by auto; apply wider; auto]. rewrite upd_eq in Y. simpl in Y.
    destruct (HF f Lv Y) as (o' & I' & S'). exfalso. apply (DF f o'); auto. unfold uses_f. auto.
  - destruct (f_live (futs s f)); [|discriminate]. unfold fut_ready in H. destruct (rget s _); [discriminate|]. injection H as <-. split; intros; apply wider; auto.
  - destruct (f_live (futs s f)) eqn:Lv; [|discriminate]. destruct (get_fut_ok s f s' H) as (g1 & g2 & g3 & g4 & g5 & g6 & g7 & g8 & g9 & g10 & g11). split.
    + intros x. rewrite g2. intros; apply wider; auto.
    + intros x X Y. rewrite g10 in *. destruct (Nat.eq_dec x f) as [->|N]; [apply newer; unfold spends_f; auto|]. rewrite upd_ne in * by auto. apply wider; auto.
  - destruct (f_live (futs s f)) eqn:Lv; [|discriminate]. injection H as H. destruct (drop_fut_ok s f s' H) as (g1 & g2 & g3 & g4 & g5 & g6 & g7 & _). split.
    + intros x. rewrite g2. intros; apply wider; auto.
    + intros x X Y. rewrite g7 in *. destruct (Nat.eq_dec x f) as [->|N]; [rewrite upd_eq in X; discriminate|]. rewrite upd_ne in * by auto. apply wider; auto.
  - destruct (subm s t); [|discriminate]. destruct (res s t); [|discriminate..]. injection H as <-. split; intros; apply wider; auto.
Qed.
(** such a history is valid and never undefined *)
Lemma disciplined_ok : forall l, disciplined l -> run init l = None \/ exists s, run init l = Some (Ok s) /\ vrun l s /\ hinv l s.
Proof.
  induction l as [|o l IH] using rev_ind; intros D.
  - right. exists init. split; [reflexivity|]. split; [constructor|]. split; simpl; discriminate.
  - specialize (IH (disciplined_prefix _ _ D)). rewrite run_app. destruct IH as [IH|(s & R & V & HI)]; [rewrite IH; now left|]. rewrite R. simpl.
    destruct (disciplined_last _ _ D) as (DB & DF). assert (BI := binv_run _ _ R). assert (FI := finv_run _ _ V).
    assert (VU : match o with GetF f | ReadyF f => f_live (futs s f) = true -> f_taken (futs s f) = false | _ => True end).
    { destruct o; auto; intros Lv; destruct (f_taken (futs s f)) eqn:T; auto; destruct (hi_f _ _ HI f Lv T) as (o' & I' & S'); exfalso; apply (DF f o'); unfold uses_f; auto. }
    destruct (step s o) as [[s'|]|] eqn:S; [|exfalso|now left].
    + right. exists s'. split; [reflexivity|]. split; [|eapply hinv_step; eauto]. econstructor; eauto. destruct o; simpl; auto; apply VU; simpl in S; unfold live_f in S; destruct (f_live (futs s f)); auto; discriminate.
    + assert (BT : forall b, b_live (blds s b) = true -> uses_b o b -> exists t p, b_task (blds s b) = Some t /\ b_space (blds s b) = Some p).
      { intros b Lv U. destruct (b_task (blds s b)) as [t|] eqn:T; [destruct (bi_holds _ _ BI b t T) as (_ & _ & _ & p & P & _); eauto|]. destruct (hi_b _ _ HI b Lv T) as (o' & I' & S'). exfalso. apply (DB b o'); auto. }
      assert (OP : forall f, f_live (futs s f) = true -> f_taken (futs s f) = false -> rget s (f_task (futs s f)) = false). { intros f Lv T. apply (fi_open _ _ FI f). repeat split; auto. }
      destruct o; unfold step, live_b, live_f in S; try discriminate.
      * destruct (b_live (blds s b)); discriminate.
      * destruct (b_live (blds s b)); discriminate.
      * destruct (b_live (blds s b)) eqn:Lv; [|discriminate]. destruct (BT b Lv) as (t & p & T & _); [unfold uses_b; auto|]. unfold bld_set in S. rewrite T in S. discriminate.
      * destruct (b_live (blds s b)) eqn:Lv; [|discriminate]. destruct (BT b Lv) as (t & p & T & P); [unfold uses_b; auto|]. injection S as S. apply submit_ub in S as [S|S]; congruence.
      * destruct (b_live (blds s b)) eqn:Lv; [|discriminate]. injection S as S. unfold bld_drop in S. destruct (b_task (blds s b)) as [t|] eqn:T; [|discriminate].
        destruct (bi_holds _ _ BI b t T) as (_ & _ & NS & p & P & _). destruct (bld_submit s b) as [s1|] eqn:S1; [|apply submit_ub in S1 as [?|?]; congruence].
        destruct (submit_ok s b s1 S1) as (t' & p' & k1 & k2 & k3 & k4 & k5 & k6 & k7 & k8 & k9 & k10 & k11). assert (t' = t) by congruence. subst t'. simpl in S.
        unfold fut_drop in S. rewrite k5 in S. change (Datatypes.S (Datatypes.S (nf s)) - 1) with (2 + nf s - 1) in S; replace (2 + nf s - 1) with (1 + nf s) in S by lia; cbn [Nat.add] in S. rewrite k6, upd_eq in S. simpl in S. unfold notify_get in S. rewrite k10 in S.
        destruct (rget s t) eqn:G; [apply (fi_rget _ _ FI) in G; congruence|]. discriminate.
      * destruct (f_live (futs s f)); discriminate.
      * destruct (f_live (futs s f)) eqn:Lv; [|discriminate]. unfold fut_ready in S. rewrite OP in S by auto. discriminate.
      * destruct (f_live (futs s f)) eqn:Lv; [|discriminate]. unfold fut_get in S. rewrite OP in S by auto. destruct (res s _); [discriminate|..]; unfold notify_get in S; simpl in S; rewrite OP in S by auto; discriminate.
      * destruct (f_live (futs s f)) eqn:Lv; [|discriminate]. unfold fut_drop in S. destruct (f_taken (futs s f)) eqn:T; [discriminate|]. unfold notify_get in S. rewrite OP in S by auto. discriminate.
      * destruct (subm s t); [|discriminate]. destruct (res s t); discriminate.
Qed.
