(** Property C79: arguments, guards and the accesses of a task. *)
From Coq Require Import Bool List Arith NArith Lia Permutation.
From Verif Require Import AccessModel UserModel ArgModel.
Import ListNotations.
Open Scope nat_scope.

(** Specification: the guards an argument gives to the body *)
Fixpoint gives (a : arg) (ra : raccess) : Prop :=
  match a with ANum => False | AAcc x => ra = x | ARef b => gives b ra | AObj l => In ra l end.
Fixpoint hides (a : arg) : Prop :=
  match a with AObj l => l <> [] | ARef b => hides b | _ => False end.

Lemma declare_acc : forall d l calls, u_acc (declare d l calls) = rev (concat calls) ++ rev l.
Proof.
  intros d l calls. unfold declare. assert (A : forall l u, u_acc (fold_left add_resource_access l u) = rev l ++ u_acc u).
  { clear. induction l as [|x l IH]; intros u; [reflexivity|]. cbn [fold_left rev]. rewrite IH. cbn [u_acc add_resource_access]. now rewrite <- app_assoc. }
  assert (B : forall (l acc : list raccess), fold_left (fun acc ra => ra :: acc) l acc = rev l ++ acc).
  { clear. induction l as [|x l IH]; intros acc; [reflexivity|]. cbn [fold_left rev]. rewrite IH. now rewrite <- app_assoc. }
  assert (C : forall calls u, u_acc (fold_left resources calls u) = rev (concat calls) ++ u_acc u).
  { clear - B. induction calls as [|c calls IH]; intros u; [reflexivity|]. cbn [fold_left concat]. rewrite IH, rev_app_distr. unfold resources, build_unique_resource_list. cbn [u_acc].
    rewrite B. now rewrite <- app_assoc. }
  rewrite C, A. unfold new_user. cbn [u_acc]. now rewrite app_nil_r.
Qed.
Lemma build_gives : forall a ra, ~ hides a -> (In ra (fst (build a)) <-> gives a ra).
Proof.
  induction a as [|x|a IH|l]; intros ra H; cbn [build fst gives hides] in *.
  - tauto.
  - cbn [In]. split; [intros [->|[]]; reflexivity|intros ->; now left].
  - now apply IH.
  - destruct l as [|x l]; [tauto|]. exfalso. now apply H.
Qed.

(** The access list of a task holds exactly the accesses of the guards its arguments give to its body,
    and those named by resources(), if no argument hides a guard in an object that is not itself one. *)
Theorem C79_accesses_of_arguments : forall d args calls ra, (forall a, In a args -> ~ hides a) ->
  (In ra (u_acc (emplace_user d args calls)) <-> (exists a, In a args /\ gives a ra) \/ exists c, In c calls /\ In ra c).
Proof.
  intros d args calls ra H. unfold emplace_user. rewrite declare_acc, in_app_iff, <- !in_rev, in_flat_map, in_concat. split.
  - intros [X|(a & A & X)]; [right; exact X|]. left. exists a. split; [exact A|]. apply build_gives; auto.
  - intros [(a & A & X)|X]; [|left; exact X]. right. exists a. split; [exact A|]. apply build_gives; auto.
Qed.
(** each of them as often as it is given *)
Fixpoint given (a : arg) : list raccess := match a with ANum => [] | AAcc x => [x] | ARef b => given b | AObj l => l end.
Theorem C79_each_access_once : forall d args calls, (forall a, In a args -> ~ hides a) ->
  Permutation (u_acc (emplace_user d args calls)) (flat_map given args ++ concat calls).
Proof.
  intros d args calls H. unfold emplace_user. rewrite declare_acc. assert (E : flat_map (fun a => fst (build a)) args = flat_map given args).
  { induction args as [|a l IH]; [reflexivity|]. cbn [flat_map]. rewrite IH by (intros x X; apply H; now right). f_equal.
    assert (Ha : ~ hides a) by (apply H; now left). clear - Ha. induction a as [|x|a IH|l]; cbn [build fst given hides] in *; auto.
    destruct l as [|x l]; [reflexivity|]. exfalso. now apply Ha. }
  rewrite E. eapply perm_trans; [apply Permutation_app_comm|]. apply Permutation_app; apply Permutation_sym, Permutation_rev.
Qed.
(** A warning is given exactly if an argument is, or refers to, something that is neither a number nor a
    guard; so no argument that hides a guard is overlooked without a warning. *)
Fixpoint other (a : arg) : Prop := match a with AObj _ => True | ARef b => other b | _ => False end.
Theorem C79_warns_iff : forall args, warned args = true <-> exists a, In a args /\ other a.
Proof.
  intros args. unfold warned. rewrite existsb_exists. assert (E : forall a, snd (build a) = true <-> other a).
  { induction a as [|x|a IH|l]; cbn [build snd other]; try exact IH; split; (discriminate || tauto). }
  split; intros (a & A & X); exists a; (split; [exact A|now apply E]).
Qed.
Theorem C79_hidden_guard_warns : forall args, (exists a, In a args /\ hides a) -> warned args = true.
Proof.
  intros args (a & A & H). apply existsb_exists. exists a. split; [exact A|]. clear A. induction a as [|x|a IH|l]; cbn [hides build snd] in *; tauto.
Qed.
(** Guards hidden in an object are not registered: a task that writes and one that reads the same
    resource do not conflict. *)
Definition r0 : resource := mkRes 7 0.
Definition w0 : raccess := g_access (mkGuard GRes r0).
Definition rd0 : raccess := g_access (mkGuard GRead r0).
Theorem C79_every_guard_counts_refuted : exists hidden plain, gives hidden w0 /\ gives plain rd0 /\
  ra_is_serial w0 rd0 = true /\ user_is_serial (emplace_user 1 [hidden] []) (emplace_user 1 [plain] []) = false.
Proof. exists (AObj [w0]), (AAcc rd0). repeat split. now left. Qed.
Example C79_ex : u_acc (emplace_user 1 [ANum; ARef (ARef (AAcc w0)); AObj []; AAcc rd0] [[rd0]]) = [rd0; rd0; w0] /\
  (forall a, In a [ANum; ARef (ARef (AAcc w0)); AObj []; AAcc rd0] -> ~ hides a) /\
  warned [ANum; ARef (ARef (AAcc w0)); AAcc rd0] = false /\ warned [ANum; ARef (AObj [w0])] = true /\
  user_is_serial (emplace_user 1 [ARef (AAcc w0)] []) (emplace_user 1 [AAcc rd0] []) = true.
Proof.
  split; [reflexivity|]. split; [|now repeat split]. intros a [<-|[<-|[<-|[<-|[]]]]]; cbn [hides]; tauto.
Qed.

(** The compiler may evaluate the arguments in any order: which tasks conflict, which demotions are
    accepted and which resources are synchronised does not depend on it, nor how often the task
    enters the list of a resource. *)
Lemma existsb_perm : forall A (f : A -> bool) l l', Permutation l l' -> existsb f l = existsb f l'.
Proof.
  intros A f l l' P. apply eq_true_iff_eq. rewrite !existsb_exists. split; intros (x & X & E); exists x; (split; [|exact E]).
  - eapply Permutation_in; eassumption.
  - eapply Permutation_in; [apply Permutation_sym; eassumption|exact X].
Qed.
Lemma flat_map_perm : forall A B (f : A -> list B) l l', Permutation l l' -> Permutation (flat_map f l) (flat_map f l').
Proof.
  intros A B f l l' P. induction P; cbn [flat_map].
  - constructor.
  - now apply Permutation_app_head.
  - rewrite !app_assoc. apply Permutation_app_tail, Permutation_app_comm.
  - eapply perm_trans; eassumption.
Qed.
Lemma acc_perm : forall d args args' calls, Permutation args args' -> Permutation (u_acc (emplace_user d args calls)) (u_acc (emplace_user d args' calls)).
Proof.
  intros d args args' calls P. unfold emplace_user. rewrite !declare_acc. apply Permutation_app_head.
  eapply perm_trans; [apply Permutation_sym, Permutation_rev|]. eapply perm_trans; [|apply Permutation_rev]. now apply flat_map_perm.
Qed.
Theorem C79_order_of_arguments : forall d args args' calls u r, Permutation args args' ->
  user_is_serial (emplace_user d args calls) u = user_is_serial (emplace_user d args' calls) u /\
  user_is_serial u (emplace_user d args calls) = user_is_serial u (emplace_user d args' calls) /\
  user_is_superset_of u (emplace_user d args calls) = user_is_superset_of u (emplace_user d args' calls) /\
  user_is_superset_of (emplace_user d args calls) u = user_is_superset_of (emplace_user d args' calls) u /\
  has_sync_access (emplace_user d args calls) r = has_sync_access (emplace_user d args' calls) r.
Proof.
  intros d args args' calls u r P. apply (acc_perm d _ _ calls) in P.
  assert (S : u_scope (emplace_user d args calls) = u_scope (emplace_user d args' calls)).
  { unfold emplace_user, declare. assert (A : forall l x, u_scope (fold_left add_resource_access l x) = u_scope x) by (clear; induction l; intros x; cbn [fold_left]; [reflexivity|now rewrite IHl]).
    assert (C : forall l x, u_scope (fold_left resources l x) = u_scope x) by (clear; induction l; intros x; cbn [fold_left]; [reflexivity|now rewrite IHl]). now rewrite !C, !A. }
  split; [|split; [|split; [|split]]].
  - unfold user_is_serial. now apply existsb_perm.
  - unfold user_is_serial. induction (u_acc u) as [|x l IH]; [reflexivity|]. cbn [existsb]. rewrite IH. f_equal. now apply existsb_perm.
  - unfold user_is_superset_of. apply eq_true_iff_eq. rewrite !forallb_forall. split; intros H x X; apply H.
    + eapply Permutation_in; [apply Permutation_sym; eassumption|exact X].
    + eapply Permutation_in; eassumption.
  - unfold user_is_superset_of. rewrite S. induction (u_acc u) as [|x l IH]; [reflexivity|]. cbn [forallb]. rewrite IH. f_equal. f_equal. now apply existsb_perm.
  - unfold has_sync_access. now apply existsb_perm.
Qed.
(** without resources(), the entries of the list of resources are the same, each as often *)
Theorem C79_order_of_entries : forall d args args', Permutation args args' -> Permutation (u_uniq (emplace_user d args [])) (u_uniq (emplace_user d args' [])).
Proof.
  intros d args args' P. unfold emplace_user, declare. cbn [fold_left].
  assert (A : forall l u, u_uniq (fold_left add_resource_access l u) = rev (map a_res l) ++ u_uniq u).
  { clear. induction l as [|x l IH]; intros u; [reflexivity|]. cbn [fold_left rev map]. rewrite IH. cbn [u_uniq add_resource_access]. now rewrite <- app_assoc. }
  rewrite !A. apply Permutation_app_tail. eapply perm_trans; [apply Permutation_sym, Permutation_rev|]. eapply perm_trans; [|apply Permutation_rev].
  apply Permutation_map. now apply flat_map_perm.
Qed.
Definition r1 : resource := mkRes 8 0.
Definition w1 : raccess := mkAcc r1 TIO MWrite.
Example C79_ex_order : let u := emplace_user 1 [AAcc w0; AAcc w1; AAcc rd0] [] in let v := emplace_user 1 [AAcc rd0; AAcc w0; AAcc w1] [] in
  u <> v /\ u_uniq u = [r0; r1; r0] /\ u_uniq v = [r1; r0; r0] /\ user_is_serial u v = true.
Proof. cbn zeta. split; [discriminate|]. now repeat split. Qed.
(** but not their order: a machine may lock the lists of two resources in either order *)
Theorem C79_order_of_locks_refuted : exists args args', Permutation args args' /\ u_uniq (emplace_user 1 args []) <> u_uniq (emplace_user 1 args' []).
Proof. exists [AAcc w0; AAcc w1], [AAcc w1; AAcc w0]. split; [apply perm_swap|discriminate]. Qed.

(** ** Guards *)
(** the guards obtained from a resource by calls of read() and write(), in any number *)
Inductive obtained (r : resource) : guard -> Prop :=
| ob_res : obtained r (mkGuard GRes r)
| ob_read : forall g h, obtained r g -> g_read g = Some h -> obtained r h
| ob_write : forall g h, obtained r g -> g_write g = Some h -> obtained r h.
(** Whatever calls a guard comes from: its access is on its resource, and it is write exactly if
    get(), operator* and operator-> give an object that may be changed, otherwise read. *)
Theorem C79_guards_register_what_they_allow : forall r g, obtained r g -> a_res (g_access g) = r /\
  (g_mutable g = true -> g_access g = mkAcc r TIO MWrite) /\ (g_mutable g = false -> g_access g = mkAcc r TIO MRead).
Proof.
  intros r g O. assert (E : g_res g = r) by (induction O as [|g h _ IH H|g h _ IH H]; [reflexivity| |];
    unfold g_read, g_write in H; [|destruct (g_kind g); [discriminate| |]]; inversion H; exact IH).
  unfold g_access, g_mutable. rewrite E. cbn [a_res]. destruct (g_kind g); repeat split; congruence.
Qed.
(** No call leads from a guard for reading back to one for writing. *)
Theorem C79_reading_stays_reading : forall r g, g_mutable g = false -> g_write g = None /\ (forall h, g_read g = Some h -> g_mutable h = false) /\
  (g_res g = r -> obtained r g).
Proof.
  intros r g M. unfold g_mutable, g_write, g_read in *. destruct g as [k x]. cbn [g_kind g_res] in *. destruct k; try discriminate.
  split; [reflexivity|]. split; [intros h H; now inversion H|]. intros ->. apply (ob_read r (mkGuard GRes r)); [apply ob_res|reflexivity].
Qed.
(** But the member obj of every guard is public and not const: a task that registers a read access can
    change the object, beside another reader. *)
Theorem C79_readers_do_not_write_refuted : forall r, exists g, obtained r g /\ g_access g = mkAcc r TIO MRead /\ obj_mutable g = true /\
  user_is_serial (emplace_user 1 [AAcc (g_access g)] []) (emplace_user 1 [AAcc (g_access g)] []) = false.
Proof.
  intros r. exists (mkGuard GRead r). split; [apply (ob_read r (mkGuard GRes r)); [apply ob_res|reflexivity]|]. split; [reflexivity|]. split; [reflexivity|].
  cbn. unfold ra_is_serial. cbn. now destruct (same_resource r r).
Qed.
Example C79_ex_guards : exists w g, g_write (mkGuard GRes r0) = Some w /\ g_read w = Some g /\ obtained r0 g /\ g_mutable w = true /\ g_mutable g = false /\
  g_access w = w0 /\ g_access g = rd0 /\ g_write g = None.
Proof.
  do 2 eexists. split; [reflexivity|]. split; [reflexivity|]. split; [|now repeat split]. eapply ob_read; [eapply ob_write; [apply ob_res|reflexivity]|reflexivity].
Qed.

Definition all_arg := (@C79_accesses_of_arguments, @C79_each_access_once, @C79_warns_iff, @C79_hidden_guard_warns, @C79_every_guard_counts_refuted, @C79_ex, @C79_order_of_arguments, @C79_order_of_entries,
  @C79_ex_order, @C79_order_of_locks_refuted, @C79_guards_register_what_they_allow, @C79_reading_stays_reading, @C79_readers_do_not_write_refuted, @C79_ex_guards).
Print Assumptions all_arg.
