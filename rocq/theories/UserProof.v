From Coq Require Import Bool List Arith NArith Lia.
From Verif Require Import AccessModel AccessSpec AccessProof UserModel.
Import ListNotations.

Lemma user_is_serial_spec a b :
  user_is_serial a b = true <->
  exists ra rb, In ra (u_acc a) /\ In rb (u_acc b) /\ ra_is_serial ra rb = true.
Proof.
  unfold user_is_serial. rewrite existsb_exists. split.
  - intros (ra & Ha & H). apply existsb_exists in H as (rb & Hb & H). eauto.
  - intros (ra & rb & Ha & Hb & H). exists ra. split; [easy|]. apply existsb_exists. eauto.
Qed.

Lemma user_is_serial_sym a b : user_is_serial a b = user_is_serial b a.
Proof.
  apply eq_true_iff_eq. rewrite !user_is_serial_spec.
  split; intros (ra & rb & ? & ? & ?); exists rb, ra; rewrite ra_is_serial_sym; auto.
Qed.

Lemma user_is_superset_spec u a :
  user_is_superset_of u a = true <->
  forall ra, In ra (u_acc a) -> r_scope (a_res ra) <= u_scope u ->
             exists r, In r (u_acc u) /\ ra_is_superset r ra = true.
Proof.
  unfold user_is_superset_of. rewrite forallb_forall. split.
  - intros H ra Hin Hs. apply H in Hin. apply orb_true_iff in Hin as [E|E].
    + apply existsb_exists in E. exact E.
    + apply negb_true_iff, Nat.leb_gt in E. lia.
  - intros H ra Hin. apply orb_true_iff.
    destruct (r_scope (a_res ra) <=? u_scope u) eqn:E; [left|right; easy].
    apply existsb_exists. apply H; [easy|]. now apply Nat.leb_le.
Qed.

Lemma child_conflict_lifts p c o ac ao :
  user_is_superset_of p c = true ->
  In ac (u_acc c) -> In ao (u_acc o) -> ra_is_serial ac ao = true ->
  r_scope (a_res ac) <= u_scope p ->
  user_is_serial p o = true.
Proof.
  rewrite user_is_superset_spec. intros H Hac Hao Hs Hsc.
  destruct (H ac Hac Hsc) as (ap & Hap & Hsup).
  apply user_is_serial_spec. exists ap, ao. repeat split; auto.
  eapply ra_superset_serial; eauto.
Qed.

(** ** unique resource lists *)
Definition ids (l : list resource) : list nat := map r_id l.

Lemma uniq_erase_ids r l x :
  In x (ids (uniq_erase r l)) <-> In x (ids l) /\ x <> r_id r.
Proof.
  unfold ids, uniq_erase. rewrite !in_map_iff. split.
  - intros (y & Ey & Hy). apply filter_In in Hy as [Hy Hn].
    apply negb_true_iff in Hn. unfold same_resource in Hn. apply Nat.eqb_neq in Hn.
    split; [exists y; auto|congruence].
  - intros [(y & Ey & Hy) Hn]. exists y. split; [easy|]. apply filter_In. split; [easy|].
    apply negb_true_iff, Nat.eqb_neq. congruence.
Qed.

Lemma uniq_erase_NoDup r l : NoDup (ids l) -> NoDup (ids (uniq_erase r l)).
Proof.
  unfold ids, uniq_erase. induction l; simpl; [easy|].
  intros H. inversion H; subst. destruct (negb (same_resource a r)); simpl; auto.
  constructor; auto. intros Hin. apply H2. apply in_map_iff in Hin as (y & Ey & Hy).
  apply filter_In in Hy as [Hy _]. apply in_map_iff. eauto.
Qed.

Definition bstep l (ra : raccess) := a_res ra :: uniq_erase (a_res ra) l.

Lemma bfold_ids acc : forall l x,
  In x (ids (fold_left bstep acc l)) <->
  In x (ids l) \/ In x (map (fun ra => r_id (a_res ra)) acc).
Proof.
  induction acc as [|ra acc IH]; simpl; [tauto|]. intros l x.
  rewrite IH. unfold bstep. simpl. rewrite uniq_erase_ids.
  destruct (Nat.eq_dec x (r_id (a_res ra))); [subst; tauto|].
  split; intros; intuition congruence.
Qed.

(** all entries occurring in the list before are moved to the (duplicate free)
    front; the rest keeps its position *)
Lemma bfold_NoDup_gen acc : forall l,
  NoDup (ids l) -> NoDup (ids (fold_left bstep acc l)).
Proof.
  induction acc as [|ra acc IH]; simpl; [easy|]. intros l H. apply IH.
  unfold bstep. simpl. constructor.
  - rewrite uniq_erase_ids. tauto.
  - now apply uniq_erase_NoDup.
Qed.

(** duplicates of resources that occur in the access list disappear *)
Definition cnt (x : nat) (l : list resource) := count_occ Nat.eq_dec (ids l) x.

Lemma cnt_erase r l x : cnt x (uniq_erase r l) = if Nat.eq_dec x (r_id r) then 0 else cnt x l.
Proof.
  unfold cnt, ids, uniq_erase. induction l as [|a l IH]; simpl.
  - now destruct (Nat.eq_dec _ _).
  - unfold same_resource at 1. destruct (Nat.eqb_spec (r_id a) (r_id r)); simpl; rewrite IH.
    + destruct (Nat.eq_dec x (r_id r)); [easy|].
      destruct (Nat.eq_dec (r_id a) x); [congruence|easy].
    + destruct (Nat.eq_dec x (r_id r)).
      * destruct (Nat.eq_dec (r_id a) x); [congruence|easy].
      * now destruct (Nat.eq_dec (r_id a) x).
Qed.

Lemma bfold_cnt acc : forall l x,
  cnt x (fold_left bstep acc l) =
  if in_dec Nat.eq_dec x (map (fun ra => r_id (a_res ra)) acc) then 1 else cnt x l.
Proof.
  induction acc as [|ra acc IH]; intros l x; [easy|].
  simpl fold_left. rewrite IH. clear IH.
  assert (E : cnt x (bstep l ra) = if Nat.eq_dec x (r_id (a_res ra)) then 1 else cnt x l).
  { unfold bstep.
    transitivity ((if Nat.eq_dec (r_id (a_res ra)) x then 1 else 0) + cnt x (uniq_erase (a_res ra) l)).
    { unfold cnt, ids. simpl. now destruct (Nat.eq_dec (r_id (a_res ra)) x). }
    rewrite cnt_erase.
    destruct (Nat.eq_dec (r_id (a_res ra)) x), (Nat.eq_dec x (r_id (a_res ra))); try congruence; easy. }
  rewrite E. simpl map.
  destruct (in_dec Nat.eq_dec x (map (fun ra0 => r_id (a_res ra0)) acc)) as [i|i];
    destruct (in_dec Nat.eq_dec x (r_id (a_res ra) :: map (fun ra0 => r_id (a_res ra0)) acc)) as [j|j];
    destruct (Nat.eq_dec x (r_id (a_res ra))); try easy; simpl in j; intuition congruence.
Qed.

Lemma push_all_acc l : forall acc, fold_left (fun (a : list raccess) ra => ra :: a) l acc = rev l ++ acc.
Proof.
  induction l as [|x l IH]; simpl; [easy|]. intros acc. rewrite IH, <- app_assoc. easy.
Qed.

(** invariant of declarations: the unique list and the access list mention the
    same resources *)
Definition covers (u : ruser) : Prop :=
  forall x, In x (ids (u_uniq u)) <-> In x (map (fun ra => r_id (a_res ra)) (u_acc u)).

Lemma add_covers u ra : covers u -> covers (add_resource_access u ra).
Proof. unfold covers. intros H x. simpl. rewrite H. easy. Qed.

Lemma resources_acc u l : u_acc (resources u l) = rev l ++ u_acc u.
Proof. unfold resources. simpl. now rewrite push_all_acc. Qed.

Lemma resources_uniq u l : u_uniq (resources u l) = fold_left bstep (rev l ++ u_acc u) (u_uniq u).
Proof. unfold resources. simpl. rewrite push_all_acc. reflexivity. Qed.

Lemma resources_covers u l : covers u -> covers (resources u l).
Proof.
  unfold covers. intros H x. rewrite resources_acc, resources_uniq, bfold_ids, H, map_app, !in_app_iff.
  tauto.
Qed.

Lemma resources_NoDup u l : covers u -> NoDup (ids (u_uniq (resources u l))).
Proof.
  intros H. apply (NoDup_count_occ Nat.eq_dec). intros x.
  change (cnt x (u_uniq (resources u l)) <= 1). rewrite resources_uniq, bfold_cnt.
  destruct (in_dec _ _ _) as [i|i]; [lia|].
  assert (cnt x (u_uniq u) = 0); [|lia].
  unfold cnt. apply count_occ_not_In. intros Hin. apply i. apply H in Hin.
  rewrite map_app. apply in_or_app. now right.
Qed.

Lemma args_covers args : forall u, covers u -> covers (fold_left add_resource_access args u).
Proof. induction args; simpl; auto using add_covers. Qed.

Lemma calls_covers calls : forall u, covers u -> covers (fold_left resources calls u).
Proof. induction calls; simpl; auto using resources_covers. Qed.

Lemma declare_covers depth args calls : covers (declare depth args calls).
Proof. apply calls_covers, args_covers. now intros x. Qed.

Lemma declare_NoDup_calls depth args c calls : NoDup (ids (u_uniq (declare depth args (c :: calls)))).
Proof.
  unfold declare. simpl.
  assert (H : covers (fold_left add_resource_access args (new_user depth))).
  { apply args_covers. now intros x. }
  revert H. generalize (fold_left add_resource_access args (new_user depth)) as u. intros u H.
  assert (G : forall cs v, covers v -> NoDup (ids (u_uniq v)) -> NoDup (ids (u_uniq (fold_left resources cs v)))).
  { induction cs; simpl; intros; auto. apply IHcs; auto using resources_covers, resources_NoDup. }
  apply G; auto using resources_covers, resources_NoDup.
Qed.

Lemma args_uniq args : forall u,
  ids (u_uniq (fold_left add_resource_access args u)) =
  rev (map (fun ra => r_id (a_res ra)) args) ++ ids (u_uniq u).
Proof.
  induction args; simpl; [easy|]. intros. rewrite IHargs. simpl. now rewrite <- app_assoc.
Qed.

Lemma declare_NoDup_args depth args :
  NoDup (ids (u_uniq (declare depth args []))) <-> NoDup (map (fun ra => r_id (a_res ra)) args).
Proof.
  unfold declare. simpl. rewrite args_uniq. simpl. rewrite app_nil_r.
  split; intros H.
  - rewrite <- rev_involutive. now apply NoDup_rev.
  - now apply NoDup_rev.
Qed.

(** ** patches *)
Lemma apply_patch_ok u p :
  snd (apply_patch u p) = true <->
  forall ra, In ra (u_acc (fst (apply_patch u p))) -> u_scope u < r_scope (a_res ra).
Proof.
  unfold apply_patch; simpl. rewrite user_is_superset_spec; simpl. split.
  - intros H ra Hin. specialize (H ra Hin).
    destruct (le_lt_dec (r_scope (a_res ra)) (u_scope u)) as [Hle|]; [|easy].
    destruct (H Hle) as (? & [] & _).
  - intros H ra Hin Hle. specialize (H ra Hin). lia.
Qed.

(** ** guards *)
Lemma arr_contains_permits n : forall (a : arr (N * N) n) (i : arr N n),
  arr_contains n a i = true <-> permits (TArr TArea n CAnd) a i.
Proof.
  induction n; simpl; [tauto|]. intros a i.
  rewrite andb_true_iff, IHn, negb_true_iff, orb_false_iff, N.ltb_ge, N.leb_gt. easy.
Qed.

Lemma g_sub_contains {d} (g g' : guard d) b e i :
  g_sub g b e = Some g' -> contains g' i = true -> contains g i = true.
Proof.
  unfold g_sub, contains. destruct (arr_all2 _ _ _ _) eqn:E; [|discriminate].
  intros H; injection H as <-. simpl. rewrite !arr_contains_permits.
  apply (is_superset_permits (TArr TArea d CAnd)). exact E.
Qed.

Lemma g_call_contains {d} (g g' : guard d) c i :
  g_call g c = Some g' -> contains g' i = true -> contains g i = true.
Proof.
  destruct c; simpl.
  - apply g_sub_contains.
  - apply g_sub_contains.
  - intros H; injection H as <-. easy.
Qed.

Lemma g_calls_contains {d} cs : forall (g g' : guard d) i,
  g_calls g cs = Some g' -> contains g' i = true -> contains g i = true.
Proof.
  induction cs as [|c cs IH]; simpl; intros g g' i.
  - intros H; injection H as <-. easy.
  - destruct (g_call g c) eqn:E; [|discriminate]. intros H Hc.
    eapply g_call_contains; eauto.
Qed.

Lemma g_call_write {d} (g g' : guard d) c :
  g_call g c = Some g' -> g_write g' = true -> g_write g = true.
Proof.
  destruct c; simpl; unfold g_at, g_sub, g_read.
  - destruct (arr_all2 _ _ _ _); [|discriminate]. intros H; injection H as <-. easy.
  - destruct (arr_all2 _ _ _ _); [|discriminate]. intros H; injection H as <-. easy.
  - intros H; injection H as <-. simpl. discriminate.
Qed.

Lemma g_sub_ok {d} (g : guard d) b e :
  g_sub g b e = None <-> arr_all2 area_is_superset d (g_area g) (arr_map2 pair d b e) = false.
Proof. unfold g_sub. destruct (arr_all2 _ _ _ _); split; congruence. Qed.

Lemma permits_access {d} (g : guard d) i k :
  contains g i = true -> (k = KRead \/ g_write g = true) ->
  permits (field_ty d) (g_access g) (k, i).
Proof.
  intros Hc Hk. split.
  - unfold g_access. simpl. destruct (g_write g); simpl; [easy|]. now destruct Hk.
  - apply arr_contains_permits. exact Hc.
Qed.

Lemma arr_eq_conflict d (i : arr N d) : conflict (TArr TArea d CAnd) i i.
Proof. simpl. induction d; simpl; auto. Qed.

Lemma guards_disjoint {d} (g h : guard d) i :
  is_serial (field_ty d) (g_access g) (g_access h) = false ->
  g_write g = true \/ g_write h = true ->
  contains g i = true -> contains h i = true -> False.
Proof.
  intros Hs Hw Hg Hh.
  assert (is_serial (field_ty d) (g_access g) (g_access h) = true); [|congruence].
  destruct Hw.
  - apply is_serial_sound with (x := (KWrite, i)) (y := (KRead, i)).
    + apply permits_access; auto.
    + apply permits_access; auto.
    + split; [easy|apply arr_eq_conflict].
  - apply is_serial_sound with (x := (KRead, i)) (y := (KWrite, i)).
    + apply permits_access; auto.
    + apply permits_access; auto.
    + split; [easy|apply arr_eq_conflict].
Qed.

Lemma arr_contains_one d : forall (i j : arr N d),
  arr_permits (fun a b => (a < size_max)%N) d i i ->
  arr_contains d (arr_map2 pair d i (arr_map (fun x => ((x + 1) mod 18446744073709551616)%N) d i)) j = true
  <-> i = j.
Proof.
  induction d; simpl.
  - intros [] []. easy.
  - intros [i i'] [j j']; simpl. intros [Hi Hi'].
    rewrite andb_true_iff, IHd, negb_true_iff, orb_false_iff, N.ltb_ge, N.leb_gt; [|easy].
    rewrite N.mod_small by (unfold size_max in Hi; lia).
    split.
    + intros [? <-]. f_equal. lia.
    + intros E; injection E as -> ->. split; [lia|easy].
Qed.

Lemma g_at_contains {d} (g g' : guard d) i j :
  arr_permits (fun a b => (a < size_max)%N) d i i ->
  g_at g i = Some g' -> (contains g' j = true <-> i = j).
Proof.
  unfold g_at, g_sub. intros Hi.
  destruct (arr_all2 _ _ _ _); [|discriminate]. intros H; injection H as <-.
  unfold contains. simpl. now apply arr_contains_one.
Qed.

Lemma g_at_defined {d} (g : guard d) i :
  arr_permits (fun a b => (a < size_max)%N) d i i ->
  (g_at g i <> None <-> contains g i = true).
Proof.
  intros Hi. unfold g_at, g_sub, contains. destruct g as [w a]. simpl.
  assert (E : arr_all2 area_is_superset d a
     (arr_map2 pair d i (arr_map (fun x => ((x + 1) mod 18446744073709551616)%N) d i)) = arr_contains d a i).
  { induction d; simpl; [easy|]. destruct a as [[a0 a1] a], i as [i i']; simpl in *.
    destruct Hi as [Hi Hi']. rewrite IHd by easy. f_equal. unfold area_is_superset; simpl.
    rewrite N.mod_small by (unfold size_max in Hi; lia).
    apply eq_true_iff_eq.
    rewrite andb_true_iff, negb_true_iff, orb_false_iff, !N.leb_le, N.ltb_ge, N.leb_gt. lia. }
  rewrite E. destruct (arr_contains d a i); split; congruence.
Qed.

Lemma g_calls_write {d} cs : forall (g g' : guard d),
  g_calls g cs = Some g' -> g_write g' = true -> g_write g = true.
Proof.
  induction cs as [|c cs IH]; simpl; intros g g'.
  - intros H; injection H as <-. easy.
  - destruct (g_call g c) eqn:E; [|discriminate]. intros H Hc.
    eapply g_call_write; eauto.
Qed.

Lemma g_calls_permits {d} cs (g g' : guard d) i k :
  g_calls g cs = Some g' -> get_ok g' i = true -> k = KRead \/ g_write g' = true ->
  permits (field_ty d) (g_access g) (k, i).
Proof.
  intros H Hc Hk. apply permits_access.
  - eapply g_calls_contains; eauto.
  - destruct Hk; [now left|right]. eapply g_calls_write; eauto.
Qed.
