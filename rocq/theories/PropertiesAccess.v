(** Properties C01-C11: access policies, access lists, guards, patches.
    Statements only; proofs are in AccessProof.v and UserProof.v.  Each theorem
    is followed by an example that meets its hypotheses. *)
From Coq Require Import Bool List Arith NArith ZArith Lia.
From Verif Require Import AccessModel AccessSpec AccessProof UserModel UserProof.
Import ListNotations.

(** ** C01 *)
Theorem C01_parallel_modes_commute :
  forall (m m' : iomode), io_is_serial m m' = false ->
  forall o p, mode_permits m (op_kind o) -> mode_permits m' (op_kind p) -> ops_commute o p.
Proof.
  intros m m' H o p Ho Hp. apply kinds_commute.
  destruct (kind_conflict (op_kind o) (op_kind p)) eqn:E; [|easy].
  exfalso. eapply kind_sound; eauto.
Qed.

Example C01_ex : io_is_serial MAadd MAadd = false /\ mode_permits MAadd (op_kind (OpAdd 3)).
Proof. now split. Qed.

Theorem C01_serial_modes_conflict :
  forall (m m' : iomode), io_is_serial m m' = true ->
  exists o p, mode_permits m (op_kind o) /\ mode_permits m' (op_kind p) /\ ~ ops_commute o p.
Proof.
  intros m m' H. destruct (io_complete _ _ H) as (x & y & Hx & Hy & Hc).
  destruct (kinds_conflict_real _ _ Hc) as (o & p & <- & <- & Hn). eauto.
Qed.

Example C01_ex_serial : io_is_serial MAadd MAmul = true.
Proof. reflexivity. Qed.

(** ** C02 *)
Theorem C02_parallel_areas_disjoint :
  forall a b : N * N, area_is_serial a b = false ->
  forall i, ~ ((fst a <= i < snd a)%N /\ (fst b <= i < snd b)%N).
Proof.
  intros a b H i [Ha Hb].
  assert (area_is_serial a b = true); [|congruence].
  exact (is_serial_sound TArea a b i i Ha Hb eq_refl).
Qed.

Example C02_ex : area_is_serial (0, 10)%N (10, 20)%N = false.
Proof. reflexivity. Qed.

Theorem C02_overlapping_areas_serial :
  forall (a b : N * N) i,
  (fst a <= i < snd a)%N -> (fst b <= i < snd b)%N -> area_is_serial a b = true.
Proof. intros a b i Ha Hb. exact (is_serial_sound TArea a b i i Ha Hb eq_refl). Qed.

Theorem C02_serial_areas_overlap :
  forall a b : N * N, (fst a < snd a)%N -> (fst b < snd b)%N -> area_is_serial a b = true ->
  exists i, (fst a <= i < snd a)%N /\ (fst b <= i < snd b)%N.
Proof.
  intros a b Ha Hb H.
  destruct (is_serial_complete TArea a b) as (x & y & Hx & Hy & E); simpl; auto.
  - now apply N.ltb_lt.
  - now apply N.ltb_lt.
  - simpl in *. subst y. eauto.
Qed.

Example C02_ex_serial : area_is_serial (0, 11)%N (10, 20)%N = true.
Proof. reflexivity. Qed.

(** The non-emptiness hypothesis is needed: an empty area strictly inside another
    one counts as serial. *)
Example C02_empty_area_is_serial : area_is_serial (5, 5)%N (0, 10)%N = true.
Proof. reflexivity. Qed.

(** ** C03 *)
Theorem C03_parallel_accesses_do_not_conflict :
  forall (t : ty) (a b : val t), is_serial t a b = false ->
  forall x y : touch t, permits t a x -> permits t b y -> ~ conflict t x y.
Proof.
  intros t a b H x y Ha Hb Hc.
  rewrite (is_serial_sound t a b x y Ha Hb Hc) in H. discriminate.
Qed.

Theorem C03_serial_accesses_conflict :
  forall (t : ty) (a b : val t),
  nonempty t a = true -> nonempty t b = true -> is_serial t a b = true ->
  exists x y : touch t, permits t a x /\ permits t b y /\ conflict t x y.
Proof. exact is_serial_complete. Qed.

(** two writers of a 2-dimensional field whose areas overlap in one dimension only *)
Example C03_ex :
  let a := (MWrite, ((0, 4), ((0, 4), tt)))%N : val (field_ty 2) in
  let b := (MWrite, ((2, 6), ((4, 8), tt)))%N : val (field_ty 2) in
  let c := (MRead, ((2, 6), ((3, 8), tt)))%N : val (field_ty 2) in
  is_serial (field_ty 2) a b = false /\ is_serial (field_ty 2) a c = true /\
  nonempty (field_ty 2) a = true /\ nonempty (field_ty 2) c = true.
Proof. now repeat split. Qed.

(** ** C04 *)
Theorem C04_policy_serial_symmetric :
  forall (t : ty) (a b : val t), is_serial t a b = is_serial t b a.
Proof. exact is_serial_sym. Qed.

Theorem C04_access_serial_symmetric :
  forall a b : raccess, ra_is_serial a b = ra_is_serial b a.
Proof. exact ra_is_serial_sym. Qed.

Theorem C04_task_serial_symmetric :
  forall a b : ruser, user_is_serial a b = user_is_serial b a.
Proof. exact user_is_serial_sym. Qed.

(** overlapping areas, one of them written: serial both ways; the same for tasks that
    declare them, beside accesses that do not matter; two readers: parallel both ways *)
Example C04_ex :
  let f m b e := mkAcc (mkRes 3 0) (field_ty 1) (m, ((b, e)%N, tt)) in
  let io m := mkAcc (mkRes 5 0) TIO m in
  let u := declare 0 [io MRead; f MWrite 0 4]%N [] in
  let v := declare 0 [f MRead 2 6; io MRead]%N [] in
  let w := declare 0 [f MRead 4 9; io MRead]%N [] in
  ra_is_serial (f MWrite 0 4)%N (f MRead 2 6)%N = true /\ ra_is_serial (f MRead 2 6)%N (f MWrite 0 4)%N = true /\
  user_is_serial u v = true /\ user_is_serial v u = true /\
  user_is_serial u w = false /\ user_is_serial w u = false /\ user_is_serial v w = false /\ user_is_serial w v = false.
Proof. now repeat split. Qed.

(** ** C05 *)
Theorem C05_superset_reflexive : forall t (a : val t), is_superset t a a = true.
Proof. exact is_superset_refl. Qed.

Theorem C05_superset_transitive :
  forall t (a b c : val t),
  is_superset t a b = true -> is_superset t b c = true -> is_superset t a c = true.
Proof. exact is_superset_trans. Qed.

Theorem C05_superset_permits :
  forall t (a b : val t) (x : touch t),
  is_superset t a b = true -> permits t b x -> permits t a x.
Proof. exact is_superset_permits. Qed.

Theorem C05_superset_inherits_conflicts :
  forall t (a b c : val t),
  is_superset t a b = true -> is_serial t b c = true -> is_serial t a c = true.
Proof. exact is_superset_serial. Qed.

Theorem C05_access_superset :
  forall a b c : raccess,
  ra_is_superset a a = true /\
  (ra_is_superset a b = true -> ra_is_superset b c = true -> ra_is_superset a c = true) /\
  (ra_is_superset a b = true -> ra_is_serial b c = true -> ra_is_serial a c = true).
Proof.
  intros a b c. split; [apply ra_superset_refl|split].
  - apply ra_superset_trans.
  - apply ra_superset_serial.
Qed.

Example C05_ex :
  let a := (MWrite, ((0, 9), tt))%N : val (field_ty 1) in
  let b := (MRead, ((2, 6), tt))%N : val (field_ty 1) in
  let c := (MWrite, ((5, 7), tt))%N : val (field_ty 1) in
  is_superset (field_ty 1) a b = true /\ is_serial (field_ty 1) b c = true.
Proof. now split. Qed.

(** ** C06 *)
Theorem C06_synchronizing_access_is_a_barrier :
  forall t (s b c : val t),
  wf_val t b = true -> wf_val t c = true ->
  is_sync t s = true -> is_serial t b c = true -> is_serial t s b = true.
Proof. exact is_sync_serial. Qed.

Example C06_ex :
  let s := (MWrite, ((0, size_max), tt))%N : val (field_ty 1) in
  let b := (MRead, ((2, 6), tt))%N : val (field_ty 1) in
  let c := (MWrite, ((5, 7), tt))%N : val (field_ty 1) in
  wf_val (field_ty 1) b = true /\ wf_val (field_ty 1) c = true /\
  is_sync (field_ty 1) s = true /\ is_serial (field_ty 1) b c = true.
Proof. now repeat split. Qed.

(** The same for tasks: a task that synchronizes on a resource conflicts with
    every task whose access to that resource conflicts with anything.  All
    accesses to one resource have the type its class gives them. *)
Theorem C06_synchronizing_task_is_a_barrier :
  forall (T : nat -> ty) (u v w : ruser) (r : resource) b c,
  (forall x, In x (u_acc u ++ u_acc v ++ u_acc w) -> a_ty x = T (r_id (a_res x)) /\ wf_val (a_ty x) (a_val x) = true) ->
  has_sync_access u r = true ->
  In b (u_acc v) -> In c (u_acc w) -> r_id (a_res b) = r_id r -> ra_is_serial b c = true ->
  user_is_serial u v = true.
Proof.
  intros T u v w r b c H S Hb Hc Rb E. apply existsb_exists in S as (a & Ha & Sa). apply andb_true_iff in Sa as (Sr & Sy).
  apply Nat.eqb_eq in Sr. apply user_is_serial_spec. exists a, b. repeat split; auto.
  destruct (H a) as (Ta & _); [apply in_or_app; auto|]. destruct (H b) as (Tb & Wb); [apply in_or_app; right; apply in_or_app; auto|].
  destruct (H c) as (_ & Wc); [apply in_or_app; right; apply in_or_app; auto|].
  apply (ra_sync_serial a b c); auto; congruence.
Qed.
Example C06_ex_task :
  let r := mkRes 4 0 in let f := mkAcc r (field_ty 1) in
  let u := declare 0 [] [[mkAcc (mkRes 5 0) TIO MRead; f (MWrite, ((0, size_max), tt))%N]] in
  let v := declare 0 [] [[f (MRead, ((2, 6), tt))%N]] in
  let w := declare 0 [] [[f (MWrite, ((5, 7), tt))%N]] in
  (forall x, In x (u_acc u ++ u_acc v ++ u_acc w) ->
     a_ty x = (if r_id (a_res x) =? 5 then TIO else field_ty 1) /\ wf_val (a_ty x) (a_val x) = true) /\
  has_sync_access u r = true /\ has_sync_access u (mkRes 5 0) = false /\ has_sync_access v r = false /\
  user_is_serial v w = true.
Proof.
  cbv zeta. split; [|now repeat split].
  intros x [<-|[<-|[<-|[<-|[]]]]]; now split.
Qed.

(** ** C07 *)
Theorem C07_tasks_conflict_iff_accesses_conflict :
  forall a b : ruser,
  user_is_serial a b = true <->
  exists r r' t (v w : val t),
    In (mkAcc r t v) (u_acc a) /\ In (mkAcc r' t w) (u_acc b) /\
    r_id r = r_id r' /\ is_serial t v w = true.
Proof.
  intros a b. rewrite user_is_serial_spec. split.
  - intros (ra & rb & Ha & Hb & H).
    apply ra_is_serial_inv in H as (Er & t & v & w & Ea & Eb & Es).
    exists (a_res ra), (a_res rb), t, v, w. rewrite <- Ea, <- Eb. auto.
  - intros (r & r' & t & v & w & Ha & Hb & Er & Es).
    exists (mkAcc r t v), (mkAcc r' t w). auto using ra_is_serial_intro.
Qed.

Corollary C07_no_shared_resource_no_conflict :
  forall a b : ruser,
  (forall x y, In x (u_acc a) -> In y (u_acc b) -> r_id (a_res x) <> r_id (a_res y)) ->
  user_is_serial a b = false.
Proof.
  intros a b H. destruct (user_is_serial a b) eqn:E; [|easy].
  apply user_is_serial_spec in E as (ra & rb & Ha & Hb & Hs).
  apply ra_is_serial_inv in Hs as [Er _]. exfalso. eapply H; eauto.
Qed.

Example C07_ex :
  let r1 := mkRes 1 0 in let r2 := mkRes 2 0 in
  user_is_serial (declare 0 [] [[mkAcc r1 TIO MRead; mkAcc r2 TIO MRead]])
                 (declare 0 [] [[mkAcc r2 TIO MWrite]]) = true /\
  user_is_serial (declare 0 [] [[mkAcc r1 TIO MWrite]])
                 (declare 0 [] [[mkAcc r2 TIO MWrite]]) = false.
Proof. now split. Qed.

(** ** C08 *)
Theorem C08_child_conflicts_are_parent_conflicts :
  forall (parent child outside : ruser),
  user_is_superset_of parent child = true ->
  forall ac ao, In ac (u_acc child) -> In ao (u_acc outside) -> ra_is_serial ac ao = true ->
  r_scope (a_res ac) <= u_scope parent ->
  user_is_serial parent outside = true.
Proof. intros p c o H ac ao. exact (child_conflict_lifts p c o ac ao H). Qed.

Theorem C08_accepted_children_characterised :
  forall parent child : ruser,
  user_is_superset_of parent child = true <->
  forall ra, In ra (u_acc child) -> r_scope (a_res ra) <= u_scope parent ->
             exists r, In r (u_acc parent) /\ ra_is_superset r ra = true.
Proof. exact user_is_superset_spec. Qed.

Example C08_ex :
  let r := mkRes 1 0 in
  let parent := declare 0 [] [[mkAcc r TIO MWrite]] in
  let child := declare 1 [] [[mkAcc r TIO MRead; mkAcc (mkRes 7 1) TIO MWrite]] in
  let outside := declare 0 [] [[mkAcc r TIO MWrite]] in
  user_is_superset_of parent child = true /\
  ra_is_serial (mkAcc r TIO MRead) (mkAcc r TIO MWrite) = true /\
  user_is_serial parent outside = true.
Proof. now repeat split. Qed.

(** ** C09 *)
Theorem C09_resources_registered_once :
  forall depth args call calls,
  let u := declare depth args (call :: calls) in
  NoDup (map r_id (u_uniq u)) /\
  forall x, In x (map r_id (u_uniq u)) <-> In x (map (fun ra => r_id (a_res ra)) (u_acc u)).
Proof.
  intros depth args call calls u. split.
  - apply declare_NoDup_calls.
  - exact (declare_covers depth args (call :: calls)).
Qed.

Example C09_ex :
  map r_id (u_uniq (declare 0 [mkAcc (mkRes 1 0) TIO MRead]
     [[mkAcc (mkRes 1 0) TIO MWrite; mkAcc (mkRes 2 0) TIO MRead; mkAcc (mkRes 1 0) TIO MRead]]))
  = [1; 2].
Proof. reflexivity. Qed.

Theorem C09_args_registered_once_iff_distinct :
  forall depth args,
  NoDup (map r_id (u_uniq (declare depth args []))) <->
  NoDup (map (fun ra => r_id (a_res ra)) args).
Proof. exact declare_NoDup_args. Qed.

(** Accesses given as arguments of emplace_task are not de-duplicated. *)
Theorem C09_args_registered_once_refuted :
  ~ (forall depth args, NoDup (map r_id (u_uniq (declare depth args [])))).
Proof.
  intros H. specialize (H 0 [mkAcc (mkRes 1 0) TIO MRead; mkAcc (mkRes 1 0) TIO MWrite]).
  simpl in H. inversion H; subst. apply H2. now left.
Qed.

(** ** C10 *)
(** A task registers the access of the guard [g] it is given.  Whatever guard [g']
    its body derives from it, an element reached through [g'] is permitted by the
    registered access, with the kind of operation [g'] offers. *)
Theorem C10_guard_within_access :
  forall d (cs : list (gcall d)) (g g' : guard d) (i : index d) k,
  g_calls g cs = Some g' -> get_ok g' i = true ->
  k = KRead \/ g_write g' = true ->
  permits (field_ty d) (g_access g) (k, i).
Proof. intros d cs g g' i k. exact (g_calls_permits cs g g' i k). Qed.

Theorem C10_narrowing_never_widens :
  forall d (cs : list (gcall d)) (g g' : guard d) (i : index d),
  g_calls g cs = Some g' -> get_ok g' i = true -> get_ok g i = true.
Proof. intros d cs g g' i. exact (g_calls_contains cs g g' i). Qed.

Theorem C10_parallel_guards_disjoint :
  forall d (g h : guard d) (i : index d),
  is_serial (field_ty d) (g_access g) (g_access h) = false ->
  g_write g = true \/ g_write h = true ->
  ~ (get_ok g i = true /\ get_ok h i = true).
Proof. intros d g h i Hs Hw [Hg Hh]. exact (guards_disjoint g h i Hs Hw Hg Hh). Qed.

Theorem C10_at_is_one_element :
  forall d (g g' : guard d) (i j : index d),
  arr_permits (fun a _ => (a < size_max)%N) d i i ->
  g_at g i = Some g' -> (get_ok g' j = true <-> i = j).
Proof. intros d g g' i j. exact (g_at_contains g g' i j). Qed.

Theorem C10_at_throws_outside :
  forall d (g : guard d) (i : index d),
  arr_permits (fun a _ => (a < size_max)%N) d i i ->
  (g_at g i <> None <-> get_ok g i = true).
Proof. intros d g i. exact (g_at_defined g i). Qed.

Example C10_ex :
  let idx x y := (x, (y, tt)) : index 2 in
  match g_calls (full_guard 2) [GArea (idx 0 0)%N (idx 8 8)%N; GArea (idx 0 0)%N (idx 4 8)%N],
        g_calls (full_guard 2) [GArea (idx 4 0)%N (idx 8 8)%N; GRead] with
  | Some g, Some h =>
      get_ok g (idx 3 7)%N = true /\ get_ok g (idx 4 7)%N = false /\
      is_serial (field_ty 2) (g_access g) (g_access h) = false /\
      g_write g = true /\ g_write h = false /\
      g_calls g [GArea (idx 0 0)%N (idx 5 1)%N] = None
  | _, _ => False
  end.
Proof. now repeat split. Qed.

(** The condition on the index is needed: for the index 2^64 - 1 the end of the area wraps
    to 0, and at() returns a guard instead of throwing, though no guard contains the index. *)
Theorem C10_at_any_index_throws_outside_refuted :
  ~ (forall d (g : guard d) (i : index d),
       arr_permits (fun a _ => (a <= size_max)%N) d i i -> (g_at g i <> None <-> get_ok g i = true)).
Proof.
  intros H. destruct (H 1 (full_guard 1) (size_max, tt) (conj (N.le_refl _) I)) as [X _].
  assert (Y : get_ok (full_guard 1) (size_max, tt) = false) by reflexivity. rewrite X in Y by discriminate. discriminate.
Qed.

(** operator-> of an area guard gives access outside the registered area. *)
Theorem C10_arrow_within_access_refuted :
  ~ (forall d (cs : list (gcall d)) (g : guard d) (i : index d) k,
       g_calls (full_guard d) cs = Some g -> arrow_reaches g i = true ->
       k = KRead \/ g_write g = true ->
       permits (field_ty d) (g_access g) (k, i)).
Proof.
  intros H.
  specialize (H 1 [@GArea 1 (0, tt)%N (5, tt)%N] (@mkGuard 1 true ((0, 5)%N, tt)) (7, tt)%N KWrite
                eq_refl eq_refl (or_intror eq_refl)).
  destruct H as [_ [[_ H] _]]. simpl in H. lia.
Qed.

(** ** C11 *)
(** what a user expects of a patch: the new list is covered by the old one *)
Definition demotion (old new : ruser) : Prop :=
  forall ra, In ra (u_acc new) -> r_scope (a_res ra) <= u_scope old ->
             exists r, In r (u_acc old) /\ ra_is_superset r ra = true.

(** Nothing that is not a demotion is accepted. *)
Theorem C11_accepted_patch_is_demotion_partial :
  forall u p, snd (apply_patch u p) = true -> demotion u (fst (apply_patch u p)).
Proof.
  intros u p H ra Hin Hs. rewrite apply_patch_ok in H. specialize (H ra Hin). lia.
Qed.

(** What a patch leaves: an access is in the list afterwards iff it was there or
    was added and no later removal named an equal access (same resource, same
    policy). *)
Definition same_access (x y : raccess) : Prop :=
  r_id (a_res x) = r_id (a_res y) /\ exists t v, x = mkAcc (a_res x) t v /\ y = mkAcc (a_res y) t v.
Fixpoint left_by (p : list diff) (x : raccess) (here : Prop) : Prop :=
  match p with
  | [] => here
  | DAdd y :: p => left_by p x (here \/ y = x)
  | DRemove y :: p => left_by p x (here /\ ~ same_access x y)
  end.
Lemma ra_eqb_spec x y : ra_eqb x y = true <-> same_access x y.
Proof.
  destruct x as [r t v], y as [r' t' v']. unfold same_access; simpl. split.
  - intros H. assert (t' = t) as -> by (unfold ra_eqb in H; simpl in H; destruct (ty_eq_dec t' t); congruence).
    rewrite ra_eqb_same in H. apply andb_true_iff in H as (A & B). apply val_eqb_eq in B. subst v'.
    split; [now apply Nat.eqb_eq|eauto].
  - intros (R & t1 & v1 & E & E'). injection E as Et Ev. injection E' as Et' Ev'. subst t1 t'.
    apply (Eqdep_dec.inj_pair2_eq_dec ty ty_eq_dec) in Ev, Ev'. subst v1 v'.
    rewrite ra_eqb_same. apply andb_true_iff. split; [now apply Nat.eqb_eq|now apply val_eqb_eq].
Qed.
Lemma left_by_iff p x : forall h h', (h <-> h') -> (left_by p x h <-> left_by p x h').
Proof. induction p as [|[y|y] p IH]; intros h h' E; simpl; auto; apply IH; rewrite E; reflexivity. Qed.
Theorem C11_patch_leaves :
  forall u p x, In x (u_acc (fst (apply_patch u p))) <-> left_by p x (In x (u_acc u)).
Proof.
  intros u p x. simpl. revert u. induction p as [|[y|y] p IH]; intros u; simpl; [reflexivity| |].
  - rewrite IH. apply left_by_iff. simpl. tauto.
  - rewrite IH. apply left_by_iff. simpl. rewrite filter_In, negb_true_iff, <- not_true_iff_false, ra_eqb_spec. reflexivity.
Qed.
Example C11_ex_leaves :
  let w := mkAcc (mkRes 1 0) TIO MWrite in let r := mkAcc (mkRes 1 0) TIO MRead in
  u_acc (fst (apply_patch (declare 0 [] [[w]]) [DAdd r; DRemove w])) = [r].
Proof. reflexivity. Qed.

(** What is accepted exactly: only patches after which no access to a resource of
    the task's own or an outer scope is left. *)
Theorem C11_acceptance_characterised :
  forall u p,
  snd (apply_patch u p) = true <->
  forall ra, In ra (u_acc (fst (apply_patch u p))) -> u_scope u < r_scope (a_res ra).
Proof. exact apply_patch_ok. Qed.

Example C11_ex_accepted :
  let w := mkAcc (mkRes 1 0) TIO MWrite in
  snd (apply_patch (declare 0 [] [[w]]) [DRemove w]) = true.
Proof. reflexivity. Qed.

(** A legal demotion (write to read) is rejected... *)
Theorem C11_demotion_accepted_refuted :
  ~ (forall u p, demotion u (fst (apply_patch u p)) -> snd (apply_patch u p) = true).
Proof.
  set (r := mkRes 1 0).
  set (u := declare 0 [] [[mkAcc r TIO MWrite]]).
  set (p := [DAdd (mkAcc r TIO MRead); DRemove (mkAcc r TIO MWrite)]).
  intros H. specialize (H u p). 
  assert (D : demotion u (fst (apply_patch u p))).
  { intros ra [<-|[]] _. exists (mkAcc r TIO MWrite). split; [now left|reflexivity]. }
  specialize (H D). vm_compute in H. discriminate.
Qed.

(** ... and the rejected patch stays applied. *)
Theorem C11_rejected_patch_has_no_effect_refuted :
  ~ (forall u p, snd (apply_patch u p) = false -> u_acc (fst (apply_patch u p)) = u_acc u).
Proof.
  set (r := mkRes 1 0).
  intros H. specialize (H (declare 0 [] [[mkAcc r TIO MRead]]) [DAdd (mkAcc r TIO MWrite)] eq_refl).
  apply (f_equal (@length _)) in H. vm_compute in H. discriminate.
Qed.

Definition all_access := (@C01_parallel_modes_commute, @C01_ex, @C01_serial_modes_conflict, @C01_ex_serial, @C02_parallel_areas_disjoint, @C02_ex, @C02_overlapping_areas_serial,
  @C02_serial_areas_overlap, @C02_ex_serial, @C02_empty_area_is_serial, @C03_parallel_accesses_do_not_conflict, @C03_serial_accesses_conflict, @C03_ex,
  @C04_policy_serial_symmetric, @C04_access_serial_symmetric, @C04_task_serial_symmetric, @C04_ex, @C05_superset_reflexive, @C05_superset_transitive,
  @C05_superset_permits, @C05_superset_inherits_conflicts, @C05_access_superset, @C05_ex, @C06_synchronizing_access_is_a_barrier, @C06_ex,
  @C06_synchronizing_task_is_a_barrier, @C06_ex_task, @C07_tasks_conflict_iff_accesses_conflict, @C07_ex, @C08_child_conflicts_are_parent_conflicts,
  @C08_accepted_children_characterised, @C08_ex, @C09_resources_registered_once, @C09_ex, @C09_args_registered_once_iff_distinct,
  @C09_args_registered_once_refuted, @C10_guard_within_access, @C10_narrowing_never_widens, @C10_parallel_guards_disjoint, @C10_at_is_one_element,
  @C10_at_throws_outside, @C10_ex, @C10_at_any_index_throws_outside_refuted, @C10_arrow_within_access_refuted, @C11_accepted_patch_is_demotion_partial,
  @C11_patch_leaves, @C11_ex_leaves, @C11_acceptance_characterised, @C11_ex_accepted, @C11_demotion_accepted_refuted,
  @C11_rejected_patch_has_no_effect_refuted).
Print Assumptions all_access.
