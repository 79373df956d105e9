(** Laws of access policies. *)
From Coq Require Import Bool List Arith NArith ZArith Lia Eqdep_dec.
From Verif Require Import AccessModel AccessSpec.
Import ListNotations.

Lemma arr_all2_spec {A} (f : A -> A -> bool) n (x y : arr A n) :
  arr_all2 f n x y = true <-> arr_permits (fun a b => f a b = true) n x y.
Proof.
  induction n; simpl; [tauto|]. rewrite andb_true_iff, IHn. tauto.
Qed.

Lemma area_serial_sym a b : area_is_serial a b = area_is_serial b a.
Proof. unfold area_is_serial. now rewrite orb_comm. Qed.

Lemma io_serial_sym a b : io_is_serial a b = io_is_serial b a.
Proof. destruct a, b; reflexivity. Qed.

Lemma arr_all2_sym {A} (f : A -> A -> bool) n :
  (forall a b, f a b = f b a) -> forall x y, arr_all2 f n x y = arr_all2 f n y x.
Proof. intros H. induction n; simpl; intros; [easy|]. now rewrite H, IHn. Qed.

Lemma arr_ex2_sym {A} (f : A -> A -> bool) n :
  (forall a b, f a b = f b a) -> forall x y, arr_ex2 f n x y = arr_ex2 f n y x.
Proof. intros H. induction n; simpl; intros; [easy|]. now rewrite H, IHn. Qed.

Lemma is_serial_sym t : forall a b : val t, is_serial t a b = is_serial t b a.
Proof.
  induction t; simpl.
  - apply io_serial_sym.
  - apply area_serial_sym.
  - destruct op; [now apply arr_all2_sym|now apply arr_ex2_sym].
  - destruct op; intros; now rewrite IHt1, IHt2.
Qed.

(** soundness: parallel accesses permit no conflicting touches *)
Lemma kind_sound m m' k k' :
  io_is_serial m m' = false -> mode_permits m k -> mode_permits m' k' ->
  kind_conflict k k' = true -> False.
Proof. destruct m, m'; simpl; try discriminate; intros _; intros; subst; discriminate. Qed.

Lemma is_serial_sound t : forall (a b : val t) (x y : touch t),
  permits t a x -> permits t b y -> conflict t x y -> is_serial t a b = true.
Proof.
  induction t; simpl.
  - intros a b x y Ha Hb Hc. destruct (io_is_serial a b) eqn:E; [easy|].
    exfalso. eapply kind_sound; eauto.
  - intros a b x y Ha Hb Hc. subst y. unfold area_is_serial.
    apply negb_true_iff, orb_false_iff. split; apply N.leb_gt; lia.
  - destruct op; intros a b x y.
    + induction n; simpl; [easy|]. intros [? ?] [? ?] [? ?].
      apply andb_true_iff. split; [eapply IHt; eauto|eapply IHn; eauto].
    + induction n; simpl; [easy|]. intros Ha Hb Hc. apply orb_true_iff.
      destruct x, y; try contradiction; [left; eapply IHt; eauto|right; eapply IHn; eauto].
  - destruct op; intros a b x y.
    + intros [? ?] [? ?] [? ?]. apply andb_true_iff.
      split; [eapply IHt1; eauto|eapply IHt2; eauto].
    + intros Ha Hb Hc. apply orb_true_iff.
      destruct x, y; try contradiction; [left; eapply IHt1; eauto|right; eapply IHt2; eauto].
Qed.

(** exactness: serial accesses with non-empty areas do conflict somewhere *)
Lemma io_complete a b :
  io_is_serial a b = true ->
  exists x y, mode_permits a x /\ mode_permits b y /\ kind_conflict x y = true.
Proof.
  destruct a, b; simpl; try discriminate; intros _.
  all: try (exists KWrite; (exists KRead + exists KAdd + exists KMul + exists KWrite); simpl; tauto).
  all: try ((exists KRead + exists KAdd + exists KMul); exists KWrite; simpl; tauto).
  - exists KRead, KAdd; simpl; tauto.
  - exists KRead, KMul; simpl; tauto.
  - exists KAdd, KRead; simpl; tauto.
  - exists KAdd, KMul; simpl; tauto.
  - exists KMul, KRead; simpl; tauto.
  - exists KMul, KAdd; simpl; tauto.
Qed.

Lemma is_serial_complete t : forall (a b : val t),
  nonempty t a = true -> nonempty t b = true -> is_serial t a b = true ->
  exists x y, permits t a x /\ permits t b y /\ conflict t x y.
Proof.
  induction t; simpl.
  - intros a b _ _ H. now apply io_complete.
  - intros [a0 a1] [b0 b1]; simpl. rewrite !N.ltb_lt. unfold area_is_serial; simpl.
    rewrite negb_true_iff, orb_false_iff, !N.leb_gt. intros.
    exists (N.max a0 b0), (N.max a0 b0). repeat split; lia.
  - destruct op; intros a b.
    + induction n; simpl.
      * intros. exists tt, tt. tauto.
      * rewrite !andb_true_iff. intros [? ?] [? ?] [? ?].
        destruct (IHt (fst a) (fst b)) as (x & y & ? & ? & ?); auto.
        destruct (IHn (snd a) (snd b)) as (x' & y' & ? & ? & ?); auto.
        exists (x, x'), (y, y'). simpl. tauto.
    + induction n; simpl; [discriminate|].
      rewrite !andb_true_iff, orb_true_iff. intros [? ?] [? ?] [?|?].
      * destruct (IHt (fst a) (fst b)) as (x & y & ? & ? & ?); auto.
        exists (inl x), (inl y). simpl. tauto.
      * destruct (IHn (snd a) (snd b)) as (x' & y' & ? & ? & ?); auto.
        exists (inr x'), (inr y'). simpl. tauto.
  - destruct op; intros a b; rewrite !andb_true_iff.
    + intros [? ?] [? ?] [? ?].
      destruct (IHt1 (fst a) (fst b)) as (x & y & ? & ? & ?); auto.
      destruct (IHt2 (snd a) (snd b)) as (x' & y' & ? & ? & ?); auto.
      exists (x, x'), (y, y'). simpl. tauto.
    + rewrite orb_true_iff. intros [? ?] [? ?] [?|?].
      * destruct (IHt1 (fst a) (fst b)) as (x & y & ? & ? & ?); auto.
        exists (inl x), (inl y). simpl. tauto.
      * destruct (IHt2 (snd a) (snd b)) as (x' & y' & ? & ? & ?); auto.
        exists (inr x'), (inr y'). simpl. tauto.
Qed.

(** superset laws *)
Lemma io_superset_refl a : io_is_superset a a = true.
Proof. destruct a; reflexivity. Qed.

Lemma area_superset_refl a : area_is_superset a a = true.
Proof. unfold area_is_superset. now rewrite !N.leb_refl. Qed.

Lemma arr_all2_refl {A} (f : A -> A -> bool) n :
  (forall a, f a a = true) -> forall x, arr_all2 f n x x = true.
Proof. intros H. induction n; simpl; intros; [easy|]. now rewrite H, IHn. Qed.

Lemma is_superset_refl t : forall a : val t, is_superset t a a = true.
Proof.
  induction t; simpl.
  - apply io_superset_refl.
  - apply area_superset_refl.
  - now apply arr_all2_refl.
  - intros a. now rewrite IHt1, IHt2.
Qed.

Lemma arr_all2_trans {A} (f : A -> A -> bool) n :
  (forall a b c, f a b = true -> f b c = true -> f a c = true) ->
  forall x y z, arr_all2 f n x y = true -> arr_all2 f n y z = true -> arr_all2 f n x z = true.
Proof.
  intros H. induction n; simpl; [easy|]. intros x y z.
  rewrite !andb_true_iff. intros [? ?] [? ?]. split; eauto.
Qed.

Lemma is_superset_trans t : forall a b c : val t,
  is_superset t a b = true -> is_superset t b c = true -> is_superset t a c = true.
Proof.
  induction t; simpl.
  - intros a b c; destruct a, b, c; simpl; try discriminate; easy.
  - intros [a0 a1] [b0 b1] [c0 c1]. unfold area_is_superset; simpl.
    rewrite !andb_true_iff, !N.leb_le. lia.
  - now apply arr_all2_trans.
  - intros a b c. rewrite !andb_true_iff. intros [? ?] [? ?]. split; eauto.
Qed.

Lemma is_superset_permits t : forall (a b : val t) x,
  is_superset t a b = true -> permits t b x -> permits t a x.
Proof.
  induction t; simpl.
  - intros a b x. destruct a, b; simpl; try discriminate; easy.
  - intros [a0 a1] [b0 b1] x. unfold area_is_superset; simpl.
    rewrite andb_true_iff, !N.leb_le. lia.
  - destruct op; intros a b x.
    + induction n; simpl; [easy|]. rewrite andb_true_iff. intros [? ?] [? ?]. split; eauto.
    + induction n; simpl; [easy|]. rewrite andb_true_iff. intros [? ?]. destruct x; eauto.
  - destruct op; intros a b x; rewrite andb_true_iff; intros [? ?].
    + intros [? ?]. split; eauto.
    + destruct x; eauto.
Qed.

Lemma is_superset_serial t : forall a b c : val t,
  is_superset t a b = true -> is_serial t b c = true -> is_serial t a c = true.
Proof.
  induction t; simpl.
  - intros a b c; destruct a, b, c; simpl; try discriminate; easy.
  - intros [a0 a1] [b0 b1] [c0 c1]. unfold area_is_superset, area_is_serial; simpl.
    rewrite !andb_true_iff, !negb_true_iff, !orb_false_iff, !N.leb_le, !N.leb_gt. lia.
  - destruct op; intros a b c.
    + induction n; simpl; [easy|]. rewrite !andb_true_iff. intros [? ?] [? ?]. split; eauto.
    + induction n; simpl; [easy|]. rewrite !andb_true_iff, !orb_true_iff.
      intros [? ?] [?|?]; [left|right]; eauto.
  - destruct op; intros a b c; rewrite !andb_true_iff.
    + intros [? ?] [? ?]. split; eauto.
    + rewrite !orb_true_iff. intros [? ?] [?|?]; [left|right]; eauto.
Qed.

(** a synchronising access conflicts with everything that conflicts with anything *)
Lemma is_sync_serial t : forall a b c : val t,
  wf_val t b = true -> wf_val t c = true ->
  is_sync t a = true -> is_serial t b c = true -> is_serial t a b = true.
Proof.
  induction t; simpl.
  - intros a b c _ _. destruct a, b, c; simpl; try discriminate; easy.
  - intros [a0 a1] [b0 b1] [c0 c1]. unfold area_is_sync, area_is_serial; simpl.
    rewrite !andb_true_iff, !negb_true_iff, !orb_false_iff, !N.leb_le, !N.leb_gt, !N.eqb_eq.
    intros. lia.
  - destruct op; intros a b c.
    + induction n; simpl; [easy|]. rewrite !andb_true_iff.
      intros [? ?] [? ?] [? ?] [? ?]. split; eauto.
    + induction n; simpl; [easy|]. rewrite !andb_true_iff, !orb_true_iff.
      intros [? ?] [? ?] [? ?] [?|?]; [left|right]; eauto.
  - destruct op; intros a b c; rewrite !andb_true_iff.
    + intros [? ?] [? ?] [? ?] [? ?]. split; eauto.
    + rewrite !orb_true_iff. intros [? ?] [? ?] [? ?] [?|?]; [left|right]; eauto.
Qed.

Lemma val_eqb_eq t : forall a b : val t, val_eqb t a b = true <-> a = b.
Proof.
  induction t; simpl.
  - intros a b. destruct a, b; simpl; split; try discriminate; easy.
  - intros [a0 a1] [b0 b1]. unfold area_eqb; simpl. rewrite andb_true_iff, !N.eqb_eq.
    split; [intros [? ?]; congruence|intros E; now inversion E].
  - intros a b. induction n; simpl.
    + destruct a, b. easy.
    + rewrite andb_true_iff, IHt, IHn. destruct a, b; simpl.
      split; [intros [? ?]; congruence|intros E; now inversion E].
  - intros a b. rewrite andb_true_iff, IHt1, IHt2. destruct a, b; simpl.
    split; [intros [? ?]; congruence|intros E; now inversion E].
Qed.

(** ** ResourceAccess *)
Lemma cast_val_irrel {t} (e : t = t) (v : val t) : cast_val e v = v.
Proof. now rewrite (UIP_dec ty_eq_dec e eq_refl). Qed.

Lemma ra_is_serial_same r r' t (v w : val t) :
  ra_is_serial (mkAcc r t v) (mkAcc r' t w) = same_resource r r' && is_serial t v w.
Proof.
  unfold ra_is_serial; simpl. destruct (ty_eq_dec t t); [|congruence].
  now rewrite cast_val_irrel.
Qed.

Lemma ra_is_superset_same r r' t (v w : val t) :
  ra_is_superset (mkAcc r t v) (mkAcc r' t w) = same_resource r r' && is_superset t v w.
Proof.
  unfold ra_is_superset; simpl. destruct (ty_eq_dec t t); [|congruence].
  now rewrite cast_val_irrel.
Qed.

Lemma ra_eqb_same r r' t (v w : val t) :
  ra_eqb (mkAcc r t v) (mkAcc r' t w) = same_resource r r' && val_eqb t v w.
Proof.
  unfold ra_eqb; simpl. destruct (ty_eq_dec t t); [|congruence].
  now rewrite cast_val_irrel.
Qed.

Lemma ra_is_serial_inv a b :
  ra_is_serial a b = true ->
  r_id (a_res a) = r_id (a_res b) /\
  exists t v w, a = mkAcc (a_res a) t v /\ b = mkAcc (a_res b) t w /\ is_serial t v w = true.
Proof.
  destruct a as [r t v], b as [r' t' w]; simpl. intros H.
  assert (t' = t) as ->.
  { unfold ra_is_serial in H; simpl in H. destruct (ty_eq_dec t' t); congruence. }
  rewrite ra_is_serial_same in H. apply andb_true_iff in H as [H1 H2].
  split; [now apply Nat.eqb_eq|]. now exists t, v, w.
Qed.

Lemma ra_is_superset_inv a b :
  ra_is_superset a b = true ->
  r_id (a_res a) = r_id (a_res b) /\
  exists t v w, a = mkAcc (a_res a) t v /\ b = mkAcc (a_res b) t w /\ is_superset t v w = true.
Proof.
  destruct a as [r t v], b as [r' t' w]; simpl. intros H.
  assert (t' = t) as ->.
  { unfold ra_is_superset in H; simpl in H. destruct (ty_eq_dec t' t); congruence. }
  rewrite ra_is_superset_same in H. apply andb_true_iff in H as [H1 H2].
  split; [now apply Nat.eqb_eq|]. now exists t, v, w.
Qed.

Lemma ra_is_serial_intro r r' t (v w : val t) :
  r_id r = r_id r' -> is_serial t v w = true ->
  ra_is_serial (mkAcc r t v) (mkAcc r' t w) = true.
Proof.
  intros H1 H2. rewrite ra_is_serial_same, H2. unfold same_resource.
  now rewrite H1, Nat.eqb_refl.
Qed.

Lemma ra_is_serial_sym a b : ra_is_serial a b = ra_is_serial b a.
Proof.
  destruct (ra_is_serial a b) eqn:E.
  - apply ra_is_serial_inv in E as (Er & t & v & w & Ea & Eb & Es).
    rewrite Ea, Eb. symmetry. apply ra_is_serial_intro; [easy|]. now rewrite is_serial_sym.
  - destruct (ra_is_serial b a) eqn:E'; [|easy].
    apply ra_is_serial_inv in E' as (Er & t & v & w & Ea & Eb & Es).
    rewrite Ea, Eb, ra_is_serial_intro in E; try easy. now rewrite is_serial_sym.
Qed.

Lemma ra_superset_serial a b c :
  ra_is_superset a b = true -> ra_is_serial b c = true -> ra_is_serial a c = true.
Proof.
  intros H1 H2.
  apply ra_is_superset_inv in H1 as (Er & t & v & w & Ea & Eb & Es).
  apply ra_is_serial_inv in H2 as (Er' & t' & v' & w' & Ea' & Eb' & Es').
  rewrite Eb in Ea'. injection Ea' as Et Ew. subst t'.
  apply (inj_pair2_eq_dec ty ty_eq_dec) in Ew. subst v'.
  rewrite Ea, Eb'. apply ra_is_serial_intro; [congruence|].
  eapply is_superset_serial; eauto.
Qed.

Definition ra_wf (a : raccess) : bool := wf_val (a_ty a) (a_val a).

Lemma ra_sync_serial a b c :
  ra_wf b = true -> ra_wf c = true ->
  ra_is_sync a = true -> r_id (a_res a) = r_id (a_res b) -> a_ty a = a_ty b ->
  ra_is_serial b c = true -> ra_is_serial a b = true.
Proof.
  intros Wb Wc Hs Hr Ht H.
  apply ra_is_serial_inv in H as (Er' & t' & v' & w' & Ea' & Eb' & Es').
  destruct a as [ra ta va], b as [rb tb vb], c as [rc tc vc]; simpl in *. subst tb.
  injection Ea' as Et Ev. injection Eb' as Et' Ew. subst t' tc.
  apply (inj_pair2_eq_dec ty ty_eq_dec) in Ev.
  apply (inj_pair2_eq_dec ty ty_eq_dec) in Ew. subst v' w'.
  apply ra_is_serial_intro; [easy|].
  eapply is_sync_serial; eauto.
Qed.

Lemma ra_superset_refl a : ra_is_superset a a = true.
Proof.
  destruct a as [r t v]. rewrite ra_is_superset_same, is_superset_refl.
  unfold same_resource. now rewrite Nat.eqb_refl.
Qed.

Lemma ra_superset_trans a b c :
  ra_is_superset a b = true -> ra_is_superset b c = true -> ra_is_superset a c = true.
Proof.
  intros H1 H2.
  apply ra_is_superset_inv in H1 as (Er & t & v & w & Ea & Eb & Es).
  apply ra_is_superset_inv in H2 as (Er' & t' & v' & w' & Ea' & Eb' & Es').
  rewrite Eb in Ea'. injection Ea' as Et Ew. subst t'.
  apply (inj_pair2_eq_dec ty ty_eq_dec) in Ew. subst v'.
  rewrite Ea, Eb', ra_is_superset_same. apply andb_true_iff. split.
  - unfold same_resource. apply Nat.eqb_eq. congruence.
  - eapply is_superset_trans; eauto.
Qed.

(** ** C01: commuting operations *)
Lemma kinds_commute o p : kind_conflict (op_kind o) (op_kind p) = false -> ops_commute o p.
Proof.
  destruct o, p; simpl; try discriminate; intros _ c; simpl; repeat split; lia.
Qed.

Lemma kinds_conflict_real k k' :
  kind_conflict k k' = true ->
  exists o p, op_kind o = k /\ op_kind p = k' /\ ~ ops_commute o p.
Proof.
  destruct k, k'; simpl; try discriminate; intros _.
  1: exists OpRead, (OpWrite 1).
  2: exists OpRead, (OpAdd 1).
  3: exists OpRead, (OpMul 2).
  4: exists (OpWrite 1), OpRead.
  5: exists (OpWrite 1), (OpWrite 2).
  6: exists (OpWrite 1), (OpAdd 1).
  7: exists (OpWrite 1), (OpMul 2).
  8: exists (OpAdd 1), OpRead.
  9: exists (OpAdd 1), (OpWrite 1).
  10: exists (OpAdd 1), (OpMul 2).
  11: exists (OpMul 2), OpRead.
  12: exists (OpMul 2), (OpWrite 1).
  13: exists (OpMul 2), (OpAdd 1).
  all: repeat split; intros H; specialize (H 5%Z); simpl in H;
    destruct H as (H1 & H2 & H3); discriminate.
Qed.
