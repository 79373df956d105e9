(** AtomicList: invariants. *)
From Coq Require Import Bool List Arith Lia.
From Verif Require Import AtomModel.
Import ListNotations.

Lemma upd_eq : forall B (f : nat -> B) i x, upd f i x i = x.
Proof. intros. unfold upd. now rewrite Nat.eqb_refl. Qed.
Lemma upd_ne : forall B (f : nat -> B) i x j, j <> i -> upd f i x j = f j.
Proof. intros. unfold upd. apply Nat.eqb_neq in H. now rewrite H. Qed.

(** from a place below [r] going back to [p] skips erased nodes only *)
Definition leads (s : ast) (r : nat) (p : option node) : Prop :=
  match p with
  | Some q => app s q = true /\ rk s q < r /\ forall m, app s m = true -> rk s q < rk s m -> rk s m < r -> deleted s m = true
  | None => forall m, app s m = true -> rk s m < r -> deleted s m = true
  end.
Definition own (p : apc) : option node := match p with NLoad n | NStore n _ | NCas n _ | FCas n => Some n | _ => None end.
Fixpoint newer (s : ast) (l : list node) : Prop :=
  match l with [] => True | x :: l => (forall y, In y l -> rk s x < rk s y) /\ newer s l end.
(** nodes of the beginning with place at least [r] were visited or are erased *)
Record walked (s : ast) (bn : node -> bool) (r : nat) (seen : list node) : Prop := {
  w_all : forall m, bn m = true -> deleted s m = false -> r <= rk s m -> In m seen;
  w_low : forall m, In m seen -> r <= rk s m;
  w_newer : newer s seen;
  w_app : forall m, In m seen -> app s m = true;
  w_bn : forall m, bn m = true -> app s m = true
}.
Definition k_ok (s : ast) (p : apc) : Prop :=
  match p with
  | K0 bn n seen => app s n = true /\ walked s bn (rk s n) seen
  | K1 bn n q seen | K2 bn n q seen => app s n = true /\ leads s (rk s n) q /\ walked s bn (rk s n) seen
  | K3 bn n seen => app s n = true /\ walked s bn (rk s n) seen
  | KDone bn seen => walked s bn 0 seen
  | NCas n old => prev s n = old
  | FCas n => prev s n = None
  | _ => True
  end.
Record ainv (s : ast) : Prop := {
  i_head : match head s with Some n => app s n = true /\ S (rk s n) = cnt s | None => cnt s = 0 end;
  i_rk : forall n, app s n = true -> rk s n < cnt s;
  i_inj : forall n m, app s n = true -> app s m = true -> rk s n = rk s m -> n = m;
  i_prev : forall n, app s n = true -> leads s (rk s n) (prev s n);
  i_fr : forall n, app s n = true -> n < fr s;
  i_none : forall n, fr s <= n -> prev s n = None;
  i_own : forall t n, own (pcs s t) = Some n -> n < fr s /\ app s n = false;
  i_own1 : forall t t' n, own (pcs s t) = Some n -> own (pcs s t') = Some n -> t = t';
  i_old : forall t n q, pcs s t = NStore n (Some q) -> app s q = true;
  i_pc : forall t, k_ok s (pcs s t);
  i_first : firsts s <= (match head s with Some _ => 1 | None => 0 end)
}.
Lemma ainv_init : ainv a_init.
Proof. split; simpl; intros; try discriminate; try lia; try easy. Qed.

(** monotone facts *)
Record grows (s s' : ast) : Prop := {
  m_app : forall n, app s n = true -> app s' n = true;
  m_rk : forall n, app s n = true -> rk s' n = rk s n;
  m_del : forall n, deleted s n = true -> deleted s' n = true;
  m_new : forall n, app s' n = true -> app s n = false -> cnt s <= rk s' n
}.
Lemma step_grows : forall s t s', ainv s -> astep s t s' -> grows s s'.
Proof.
  intros s t s' I H. assert (O : forall u n, own (pcs s u) = Some n -> app s n = false) by (intros u n X; now apply (i_own _ I) in X).
  inversion H; subst; split; simpl; intros; auto; try congruence.
  - unfold upd. now destruct (n0 =? n).
  - rewrite upd_ne; [reflexivity|]. intros ->. rewrite (O t n) in H1; [discriminate|]. now rewrite H0.
  - unfold upd in *. destruct (n0 =? n); [lia|congruence].
  - unfold upd. now destruct (n0 =? n).
  - rewrite upd_ne; [reflexivity|]. intros ->. rewrite (O t n) in H2; [discriminate|]. now rewrite H0.
  - unfold upd in *. destruct (n0 =? n); [lia|congruence].
  - unfold upd. now destruct (n0 =? n).
Qed.
Lemma leads_grows : forall s s' r p, ainv s -> grows s s' -> r <= cnt s -> leads s r p -> leads s' r p.
Proof.
  intros s s' r p I G L H. assert (K : forall m, app s' m = true -> rk s' m < r -> app s m = true /\ rk s' m = rk s m).
  { intros m X Y. destruct (app s m) eqn:E; [split; [reflexivity|now apply (m_rk _ _ G)]|]. apply (m_new _ _ G) in E; [lia|assumption]. }
  destruct p as [q|]; simpl in *.
  - destruct H as (a & b & c). rewrite (m_rk _ _ G q a). split; [now apply (m_app _ _ G)|]. split; [assumption|].
    intros m X Y Z. destruct (K m X Z) as [K1 K2]. apply (m_del _ _ G). apply c; [assumption|lia|lia].
  - intros m X Y. destruct (K m X Y) as [K1 K2]. apply (m_del _ _ G). apply H; [assumption|lia].
Qed.
Lemma newer_grows : forall s s' l, grows s s' -> (forall m, In m l -> app s m = true) -> newer s l -> newer s' l.
Proof.
  intros s s' l G. induction l as [|x l IH]; intros A H; [exact Logic.I|]. destruct H as [H1 H2]. split.
  - intros y Y. rewrite (m_rk _ _ G x), (m_rk _ _ G y); [now apply H1|apply A; now right|apply A; now left].
  - apply IH; [intros; apply A; now right|assumption].
Qed.
Lemma walked_grows : forall s s' bn r seen, grows s s' -> walked s bn r seen -> walked s' bn r seen.
Proof.
  intros s s' bn r seen G W. split.
  - intros m B D L. assert (A := w_bn _ _ _ _ W m B). rewrite (m_rk _ _ G m A) in L. apply (w_all _ _ _ _ W); auto.
    destruct (deleted s m) eqn:E; [|reflexivity]. apply (m_del _ _ G) in E. congruence.
  - intros m X. rewrite (m_rk _ _ G m (w_app _ _ _ _ W m X)). now apply (w_low _ _ _ _ W).
  - eapply newer_grows; eauto; apply W.
  - intros m X. apply (m_app _ _ G). now apply (w_app _ _ _ _ W).
  - intros m X. apply (m_app _ _ G). now apply (w_bn _ _ _ _ W).
Qed.
(** going from place [r] back to [q] *)
Lemma walked_next : forall s bn r q seen, walked s bn r seen -> leads s r (Some q) -> (forall m, app s m = true -> rk s m = rk s q -> m = q) ->
  walked s bn (rk s q) (q :: seen).
Proof.
  intros s bn r q seen W (A & L & B) U. split.
  - intros m X D Y. destruct (Nat.le_gt_cases r (rk s m)) as [Z|Z]; [right; now apply (w_all _ _ _ _ W)|].
    destruct (Nat.eq_dec (rk s m) (rk s q)) as [E|E]; [left; symmetry; apply U; [now apply (w_bn _ _ _ _ W)|assumption]|].
    rewrite (B m) in D; [discriminate|now apply (w_bn _ _ _ _ W)|lia|lia].
  - intros m [<-|X]; [lia|]. apply (w_low _ _ _ _ W) in X. lia.
  - split; [|apply W]. intros y Y. apply (w_low _ _ _ _ W) in Y. lia.
  - intros m [<-|X]; [assumption|]. now apply (w_app _ _ _ _ W).
  - apply W.
Qed.
Lemma walked_end : forall s bn r seen, walked s bn r seen -> leads s r None -> walked s bn 0 seen.
Proof.
  intros s bn r seen W B. split; try apply W; [|intros; lia].
  intros m X D _. destruct (Nat.le_gt_cases r (rk s m)); [now apply (w_all _ _ _ _ W)|]. simpl in B. rewrite (B m) in D; [discriminate|now apply (w_bn _ _ _ _ W)|lia].
Qed.

Lemma k_ok_grows : forall s s' p, ainv s -> grows s s' -> (forall n, own p = Some n -> prev s' n = prev s n) -> k_ok s p -> k_ok s' p.
Proof.
  intros s s' p I G PR H. destruct p; simpl in *; auto.
  - rewrite (PR n eq_refl). assumption.
  - rewrite (PR n eq_refl). assumption.
  - destruct H as (a & b). split; [now apply (m_app _ _ G)|]. rewrite (m_rk _ _ G n a). eapply walked_grows; eauto.
  - destruct H as (a & b & c). split; [now apply (m_app _ _ G)|]. rewrite (m_rk _ _ G n a). split; [|eapply walked_grows; eauto].
    eapply leads_grows; eauto. apply (i_rk _ I) in a. lia.
  - destruct H as (a & b & c). split; [now apply (m_app _ _ G)|]. rewrite (m_rk _ _ G n a). split; [|eapply walked_grows; eauto].
    eapply leads_grows; eauto. apply (i_rk _ I) in a. lia.
  - destruct H as (a & b). split; [now apply (m_app _ _ G)|]. rewrite (m_rk _ _ G n a). eapply walked_grows; eauto.
  - eapply walked_grows; eauto.
Qed.

Lemma own_step : forall (f : nat -> apc) t p u n, own (upd f t p u) = Some n -> (u = t /\ own p = Some n) \/ (u <> t /\ own (f u) = Some n).
Proof. intros f t p u n H. unfold upd in H. destruct (Nat.eqb_spec u t); auto. Qed.

(** steps that move a thread only *)
Lemma ainv_pc : forall s s' t p, ainv s -> s' = at_pc s t p ->
  (forall n, own p = Some n -> own (pcs s t) = Some n) -> (forall n q, p = NStore n (Some q) -> app s q = true) -> k_ok s p -> ainv s'.
Proof.
  intros s s' t p I -> O Q K.
  assert (OW : forall u n, own (upd (pcs s) t p u) = Some n -> own (pcs s u) = Some n).
  { intros u n X. apply own_step in X as [[-> X]|[_ X]]; auto. }
  split; simpl; try apply I.
  - intros u n X. apply (i_own _ I u). auto.
  - intros u u' n X Y. eapply i_own1; eauto.
  - intros u n q X. unfold upd in X. destruct (u =? t); [eauto|]. eapply i_old; eauto.
  - intros u. assert (KK : forall p0, k_ok s p0 -> k_ok (at_pc s t p) p0) by (intros p0; apply k_ok_grows; [assumption|split; simpl; auto; intros; congruence|reflexivity]). apply KK. unfold upd. destruct (u =? t); [assumption|]. apply (i_pc _ I).
Qed.
Lemma ainv_link : forall s t n f, ainv s -> own (pcs s t) = Some n -> prev s n = head s ->
  f <= 1 -> (forall p, pcs s t = p -> True) -> ainv (link s n f t).
Proof.
  intros s t n f I O P F _. destruct (i_own _ I t n O) as [NF NA].
  assert (G : grows s (link s n f t)).
  { split; simpl; intros m X.
    - unfold upd. now destruct (m =? n).
    - rewrite upd_ne; [reflexivity|]. intros ->. congruence.
    - assumption.
    - intros Y. unfold upd in *. destruct (m =? n); [lia|congruence]. }
  assert (AP : forall m, upd (app s) n true m = true -> m = n \/ app s m = true) by (intros m; unfold upd; destruct (Nat.eqb_spec m n); auto).
  assert (RO : forall m, app s m = true -> upd (rk s) n (cnt s) m = rk s m) by (intros m X; apply (m_rk _ _ G m X)).
  split; cbn [head prev deleted fr cnt rk app firsts pcs link].
  - now rewrite !upd_eq.
  - intros m X. destruct (AP m X) as [->|Y]; [rewrite upd_eq; lia|]. rewrite RO by assumption. apply (i_rk _ I) in Y. lia.
  - intros m m' X Y Z. destruct (AP m X) as [->|X'], (AP m' Y) as [->|Y']; auto.
    + rewrite upd_eq, RO in Z by assumption. apply (i_rk _ I) in Y'. lia.
    + rewrite upd_eq, RO in Z by assumption. apply (i_rk _ I) in X'. lia.
    + rewrite !RO in Z by assumption. now apply (i_inj _ I).
  - intros m X. destruct (AP m X) as [->|Y].
    + rewrite upd_eq, P. assert (Hh := i_head _ I). destruct (head s) as [h|]; simpl.
      * destruct Hh as [A R]. rewrite RO by assumption. split; [unfold upd; now destruct (h =? n)|]. split; [lia|].
        intros m' X' Y' Z'. destruct (AP m' X') as [->|W]; [rewrite upd_eq in Z'; lia|]. rewrite RO in Y', Z' by assumption. apply (i_rk _ I) in W. lia.
      * intros m' X' Y'. lia.
    + rewrite RO by assumption. apply (leads_grows s (link s n f t)); try assumption; [apply (i_rk _ I) in Y; lia|now apply (i_prev _ I)].
  - intros m X. destruct (AP m X) as [->|Y]; [assumption|]. now apply (i_fr _ I).
  - apply I.
  - intros u m X. apply own_step in X as [[_ X]|[U X]]; [discriminate|]. destruct (i_own _ I u m X) as [a b]. split; [assumption|].
    unfold upd. destruct (Nat.eqb_spec m n); [|assumption]. subst. exfalso. apply U. eapply i_own1; eauto.
  - intros u u' m X Y. apply own_step in X as [[_ X]|[U X]]; [discriminate|]. apply own_step in Y as [[_ Y]|[U' Y]]; [discriminate|]. eapply i_own1; eauto.
  - intros u m q X. unfold upd in X. destruct (u =? t); [discriminate|]. apply (i_old _ I) in X. unfold upd. now destruct (q =? n).
  - intros u. unfold upd at 1. destruct (u =? t); [exact Logic.I|]. apply (k_ok_grows s); auto. apply (i_pc _ I).
  - assumption.
Qed.

Lemma ainv_mem : forall s s' t p (pv : node -> option node) (dl : node -> bool), ainv s ->
  s' = mkA (head s) pv dl (fr s) (cnt s) (rk s) (app s) (firsts s) (upd (pcs s) t p) ->
  (forall n, deleted s n = true -> dl n = true) ->
  (forall n, app s n = true -> leads s (rk s n) (pv n)) ->
  (forall n, fr s <= n -> pv n = None) ->
  (forall u n, u <> t -> own (pcs s u) = Some n -> pv n = prev s n) ->
  (forall n, own p = Some n -> own (pcs s t) = Some n) -> (forall n q, p <> NStore n q) -> k_ok s' p -> ainv s'.
Proof.
  intros s s' t p pv dl I -> D L N P O Q K.
  assert (OW : forall u n, own (upd (pcs s) t p u) = Some n -> own (pcs s u) = Some n).
  { intros u n X. apply own_step in X as [[-> X]|[_ X]]; auto. }
  assert (G : grows s (mkA (head s) pv dl (fr s) (cnt s) (rk s) (app s) (firsts s) (upd (pcs s) t p))) by (split; simpl; auto; intros; congruence).
  split; cbn [head prev deleted fr cnt rk app firsts pcs]; try apply I; auto.
  - intros n X. apply (leads_grows s); auto. apply (i_rk _ I) in X. lia.
  - intros u n X. apply (i_own _ I u). auto.
  - intros u u' n X Y. eapply i_own1; eauto.
  - intros u n q X. unfold upd in X. destruct (u =? t); [now apply Q in X|]. eapply i_old; eauto.
  - intros u. destruct (Nat.eq_dec u t); [subst u; rewrite upd_eq; exact K|]. rewrite upd_ne by assumption.
    apply (k_ok_grows s); auto; [|apply (i_pc _ I)]. intros m X. simpl. eauto.
Qed.
Lemma ainv_step : forall s t s', ainv s -> astep s t s' -> ainv s'.
Proof.
  intros s t s' I H. assert (G := step_grows s t s' I H). assert (It := i_pc _ I t). inversion H; subst; clear H.
  - (* a_new *) assert (OW : own (if first then FCas (fr s) else NLoad (fr s)) = Some (fr s)) by now destruct first.
    assert (NA : app s (fr s) = false) by (destruct (app s (fr s)) eqn:E; [apply (i_fr _ I) in E; lia|reflexivity]).
    split; cbn [head prev deleted fr cnt rk app firsts pcs]; try apply I.
    + intros n X. apply (i_fr _ I) in X. lia.
    + intros n X. apply (i_none _ I). lia.
    + intros u n X. apply own_step in X as [[-> X]|[U X]].
      * rewrite OW in X. injection X as <-. split; [lia|assumption].
      * destruct (i_own _ I u n X). split; [lia|assumption].
    + intros u u' n X Y. apply own_step in X as [[-> X]|[U X]]; apply own_step in Y as [[-> Y]|[U' Y]]; auto.
      * rewrite OW in X. injection X as <-. destruct (i_own _ I u' _ Y). lia.
      * rewrite OW in Y. injection Y as <-. destruct (i_own _ I u _ X). lia.
      * eapply i_own1; eauto.
    + intros u n q X. unfold upd in X. destruct (u =? t); [destruct first; discriminate|]. eapply i_old; eauto.
    + intros u. destruct (Nat.eq_dec u t); [subst u; rewrite upd_eq|rewrite upd_ne by assumption].
      * destruct first; simpl; [apply (i_none _ I); lia|exact Logic.I].
      * apply (k_ok_grows s); auto. apply (i_pc _ I).
  - (* a_load *) eapply ainv_pc; eauto; simpl.
    + intros m X. now rewrite H0.
    + intros m q X. injection X as <- X. assert (Hh := i_head _ I). rewrite X in Hh. apply Hh.
    + exact Logic.I.
  - (* a_store *) assert (OT : own (pcs s t) = Some n) by now rewrite H0. destruct (i_own _ I t n OT) as [NF NA].
    eapply ainv_mem; eauto; simpl; try discriminate.
    + intros m X. rewrite upd_ne by (intros ->; congruence). now apply (i_prev _ I).
    + intros m X. rewrite upd_ne by lia. now apply (i_none _ I).
    + intros u m U X. rewrite upd_ne; [reflexivity|]. intros ->. apply U. eapply i_own1; eauto.
    + intros m X. now rewrite H0.
    + now rewrite upd_eq.
  - (* a_cas *) rewrite H0 in It. apply ainv_link; auto; [now rewrite H0|]. assert (F := i_first _ I). destruct (head s); lia.
  - eapply ainv_pc; eauto; simpl; try discriminate; try exact Logic.I. intros m X. now rewrite H0.
  - (* a_first *) rewrite H0 in It. simpl in It. apply ainv_link; auto; [now rewrite H0|congruence|]. assert (F := i_first _ I). rewrite H1 in F. lia.
  - eapply ainv_pc; eauto; simpl; try discriminate; try exact Logic.I.
  - (* a_erase *) split; cbn [head prev deleted fr cnt rk app firsts pcs]; try apply I.
    + intros m X. apply (leads_grows s); try assumption; [apply (i_rk _ I) in X; lia|now apply (i_prev _ I)].
    + intros u. apply (k_ok_grows s); auto. apply (i_pc _ I).
  - (* a_begin *) assert (Hh := i_head _ I). eapply ainv_pc; eauto; simpl; [destruct (head s); discriminate|destruct (head s); discriminate|].
    destruct (head s) as [h|] eqn:HE; simpl.
    + destruct Hh as [A R]. split; [assumption|]. split.
      * intros m X D L. left. apply (i_inj _ I); try assumption. apply (i_rk _ I) in X. lia.
      * intros m [<-|[]]. lia.
      * split; [intros y []|exact Logic.I].
      * intros m [<-|[]]. assumption.
      * auto.
    + split; simpl; auto; try easy. intros m X. apply (i_rk _ I) in X. lia.
  - (* a_k0 *) rewrite H0 in It. destruct It as [a b]. eapply ainv_pc; eauto; simpl; try discriminate.
    split; [assumption|]. split; [now apply (i_prev _ I)|assumption].
  - (* a_k1 *) rewrite H0 in It. destruct It as (a & b & c). eapply ainv_pc; eauto; simpl; try discriminate.
    split; [assumption|]. split; [|assumption]. destruct b as (b1 & b2 & b3). assert (L := i_prev _ I q b1).
    destruct (prev s q) as [q'|]; simpl in *.
    + destruct L as (l1 & l2 & l3). split; [assumption|]. split; [lia|]. intros m X Y Z.
      destruct (Nat.lt_trichotomy (rk s m) (rk s q)) as [W|[W|W]]; [now apply l3| |now apply b3].
      apply (i_inj _ I) in W; try assumption. now subst.
    + intros m X Z. destruct (Nat.lt_trichotomy (rk s m) (rk s q)) as [W|[W|W]]; [now apply L| |now apply b3].
      apply (i_inj _ I) in W; try assumption. now subst.
  - rewrite H0 in It. eapply ainv_pc; eauto; simpl; try discriminate.
  - (* a_k2 *) rewrite H0 in It. destruct It as (a & b & c).
    eapply ainv_mem; eauto; simpl; try discriminate.
    + intros m X. unfold upd. destruct (Nat.eqb_spec m n); [subst; assumption|]. now apply (i_prev _ I).
    + intros m X. rewrite upd_ne; [now apply (i_none _ I)|]. intros ->. apply (i_fr _ I) in a. lia.
    + intros u m U X. rewrite upd_ne; [reflexivity|]. intros ->. apply (i_own _ I) in X. destruct X. congruence.
    + split; [assumption|]. apply (walked_grows s); assumption.
  - (* a_k3 *) rewrite H0 in It. destruct It as (a & b). assert (L := i_prev _ I n a). eapply ainv_pc; eauto; simpl; [destruct (prev s n); discriminate|destruct (prev s n); discriminate|].
    destruct (prev s n) as [q|]; simpl.
    + split; [apply L|]. eapply walked_next; eauto. intros m X Y. apply (i_inj _ I); auto. apply L.
    + eapply walked_end; eauto.
Qed.
Lemma areach_inv : forall s, areach s -> ainv s.
Proof. induction 1; [apply ainv_init|eapply ainv_step; eauto]. Qed.
