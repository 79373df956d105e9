(** Property C81: patches as users build them, and the demotion example. *)
From Coq Require Import Bool List Arith NArith Lia.
From Verif Require Import AccessModel UserModel ArgModel DemoModel PropertiesAccess.
Import ListNotations.
Open Scope nat_scope.

(** Specification: all changes of the calls, in their order *)
Definition asked (cs : list bcall) : list diff :=
  flat_map (fun c => match c with BAdd l => map DAdd l | BRemove l => map DRemove l end) cs.

Lemma set_nth_length : forall h i p, length (set_nth i p h) = length h.
Proof. induction h as [|q h IH]; intros [|i] p; cbn [set_nth length]; auto. Qed.
Lemma nth_set : forall h i p, i < length h -> nth i (set_nth i p h) [] = p.
Proof. induction h as [|q h IH]; intros [|i] p H; cbn [length set_nth nth] in *; try lia; [reflexivity|]. apply IH. lia. Qed.
Lemma nth_other : forall h i j p, i <> j -> nth j (set_nth i p h) [] = nth j h [].
Proof. induction h as [|q h IH]; intros [|i] [|j] p H; cbn [set_nth nth]; try reflexivity; try lia. apply IH. lia. Qed.

Lemma chain_spec : forall cs h i, i < length h -> let r := chain h i cs in snd r < length (fst r) /\ nth (snd r) (fst r) [] = nth i h [] ++ asked cs.
Proof.
  induction cs as [|c cs IH]; intros h i H; cbn [chain asked flat_map fst snd]; [split; [exact H|now rewrite app_nil_r]|].
  cbn [bstep]. specialize (IH (set_nth i (nth i h [] ++ diffs c) h ++ [nth i h [] ++ diffs c]) (length h)).
  cbn zeta in IH. destruct IH as [A B]; [rewrite app_length, set_nth_length; cbn [length]; lia|]. split; [exact A|]. rewrite B.
  rewrite app_nth2 by (rewrite set_nth_length; lia). rewrite set_nth_length, Nat.sub_diag. cbn [nth]. now rewrite <- app_assoc.
Qed.
(** A chain of calls, though each works on another copy of the builder, makes the patch with all their
    changes, in their order, each once. *)
Theorem C81_chain_collects_all_changes : forall cs, patch_of cs = asked cs.
Proof.
  intros cs. unfold patch_of. assert (H := chain_spec cs [[]] 0 ltac:(cbn; lia)). cbn zeta in H. destruct (chain [[]] 0 cs) as [h i]. destruct H as [_ H]. exact H.
Qed.
(** A builder that is kept gets the changes of the calls made on it, and not those made on what they return. *)
Theorem C81_builders_are_separate : forall h i c d, i < length h -> let (h1, j) := bstep h i c in let (h2, k) := bstep h1 j d in
  nth i h2 [] = nth i h [] ++ diffs c /\ nth k h2 [] = nth i h [] ++ diffs c ++ diffs d.
Proof.
  intros h i c d H. cbn [bstep]. set (p := nth i h [] ++ diffs c). set (h1 := set_nth i p h ++ [p]).
  assert (L : length h1 = S (length h)) by (unfold h1; rewrite app_length, set_nth_length; cbn [length]; lia).
  assert (N1 : nth (length h) h1 [] = p) by (unfold h1; rewrite app_nth2, set_nth_length, Nat.sub_diag by (rewrite set_nth_length; lia); reflexivity).
  rewrite N1. split.
  - rewrite app_nth1 by (rewrite set_nth_length; lia). rewrite nth_other by lia. unfold h1. rewrite app_nth1 by (rewrite set_nth_length; lia). now apply nth_set.
  - rewrite app_nth2 by (rewrite set_nth_length; lia). rewrite set_nth_length, Nat.sub_diag. cbn [nth]. unfold p. now rewrite app_assoc.
Qed.
Definition ra : resource := mkRes 3 0.
Example C81_ex : patch_of (demote ra) = [DRemove (mkAcc ra TIO MWrite); DAdd (mkAcc ra TIO MRead)] /\
  patch_of [BAdd [mkAcc ra TIO MRead; mkAcc ra TIO MAadd]; BRemove []; BRemove [mkAcc ra TIO MRead]] =
  [DAdd (mkAcc ra TIO MRead); DAdd (mkAcc ra TIO MAadd); DRemove (mkAcc ra TIO MRead)].
Proof. vm_compute. split; reflexivity. Qed.

(** The patch of examples/5_access_demotion.cpp leaves exactly the read access, and is a demotion in the
    sense of C11: whatever the resource and the depth. *)
Theorem C81_example_asks_for_a_demotion : forall d r, u_acc (fst (apply_patch (f1 d r) (patch_of (demote r)))) = [mkAcc r TIO MRead] /\
  demotion (f1 d r) (fst (apply_patch (f1 d r) (patch_of (demote r)))) /\
  user_is_serial (f1 d r) (f2 d r) = true /\ user_is_serial (fst (apply_patch (f1 d r) (patch_of (demote r)))) (f2 d r) = false.
Proof.
  intros d r. assert (E : u_acc (fst (apply_patch (f1 d r) (patch_of (demote r)))) = [mkAcc r TIO MRead]).
  { unfold apply_patch, f1, emplace_user, declare, patch_of, demote, g_access. cbn [fst]. cbn. unfold rm_resource_access. cbn.
    unfold same_resource. now rewrite Nat.eqb_refl. }
  split; [exact E|]. split; [|split].
  - intros x X _. rewrite E in X. destruct X as [<-|[]]. exists (mkAcc r TIO MWrite). split; [now left|]. unfold ra_is_superset. cbn. unfold same_resource. now rewrite Nat.eqb_refl.
  - unfold user_is_serial, f1, f2, emplace_user, declare, g_access. cbn. unfold ra_is_serial. cbn. unfold same_resource. now rewrite Nat.eqb_refl.
  - unfold user_is_serial. rewrite E. unfold f2, emplace_user, declare, g_access. cbn. unfold ra_is_serial. cbn. now destruct (same_resource r r).
Qed.
(** But update_properties throws in it, for every resource that is not made deeper than the task (all
    resources of its caller), and does so after the access list was changed. *)
Theorem C81_the_example_demotes_refuted : forall d r, r_scope r <= d -> d < 256 ->
  exists u, update_properties (Some (f1 d r)) (patch_of (demote r)) = Some (u, false) /\ u_acc u = [mkAcc r TIO MRead].
Proof.
  intros d r S D. destruct (C81_example_asks_for_a_demotion d r) as (E & _). exists (fst (apply_patch (f1 d r) (patch_of (demote r)))). split; [|exact E].
  unfold update_properties. f_equal. destruct (apply_patch (f1 d r) (patch_of (demote r))) as [u b] eqn:A. cbn [fst] in *. f_equal.
  destruct b; [|reflexivity]. exfalso. assert (H : snd (apply_patch (f1 d r) (patch_of (demote r))) = true) by now rewrite A.
  rewrite C11_acceptance_characterised in H. specialize (H (mkAcc r TIO MRead)). rewrite A in H. cbn [fst] in H. rewrite E in H. specialize (H (or_introl eq_refl)).
  change (d mod 256 < r_scope r) in H. rewrite Nat.mod_small in H by exact D. lia.
Qed.
(** as in the example itself: the resource and both tasks are made by the main thread, at depth 0 *)
Example C81_ex_example : exists u, update_properties (Some (f1 0 ra)) (patch_of (demote ra)) = Some (u, false) /\ u_acc u = [mkAcc ra TIO MRead] /\
  u_acc (f1 0 ra) = [mkAcc ra TIO MWrite] /\ user_is_serial (f1 0 ra) (f2 0 ra) = true.
Proof. eexists. split; [reflexivity|]. now repeat split. Qed.
(** Only a resource made at a greater depth than that of the task is demoted so. *)
Theorem C81_deeper_resources_are_demoted : forall d r, d < 256 -> d < r_scope r -> exists u, update_properties (Some (f1 d r)) (patch_of (demote r)) = Some (u, true) /\ u_acc u = [mkAcc r TIO MRead].
Proof.
  intros d r D S. destruct (C81_example_asks_for_a_demotion d r) as (E & _). exists (fst (apply_patch (f1 d r) (patch_of (demote r)))). split; [|exact E].
  unfold update_properties. f_equal. rewrite (surjective_pairing (apply_patch _ _)) at 1. f_equal. rewrite C11_acceptance_characterised. intros x X. rewrite E in X. destruct X as [<-|[]].
  change (d mod 256 < r_scope r). now rewrite Nat.mod_small.
Qed.
Example C81_ex_deeper : let r := mkRes 3 2 in exists u, update_properties (Some (f1 1 r)) (patch_of (demote r)) = Some (u, true) /\ u_acc u = [mkAcc r TIO MRead].
Proof. eexists. now split. Qed.
(** update_properties returns exactly if it is called by a task and leaves it only accesses to deeper resources. *)
Theorem C81_update_returns_iff : forall t cs, (exists u, update_properties t (patch_of cs) = Some (u, true)) <->
  exists v, t = Some v /\ forall x, left_by (asked cs) x (In x (u_acc v)) -> u_scope v < r_scope (a_res x).
Proof.
  intros t cs. rewrite C81_chain_collects_all_changes. split.
  - intros [u H]. destruct t as [v|]; [|discriminate]. exists v. split; [reflexivity|]. intros x X. 
    assert (A : snd (apply_patch v (asked cs)) = true) by (unfold update_properties in H; destruct (apply_patch v (asked cs)) as [w b]; now inversion H). rewrite C11_acceptance_characterised in A. apply A. now apply C11_patch_leaves.
  - intros (v & -> & H). exists (fst (apply_patch v (asked cs))). unfold update_properties. f_equal. rewrite (surjective_pairing (apply_patch _ _)) at 1. f_equal.
    rewrite C11_acceptance_characterised. intros x X. apply H. now apply C11_patch_leaves.
Qed.
Example C81_ex_returns : update_properties None (patch_of (demote ra)) = None /\
  snd (match update_properties (Some (f1 0 ra)) (patch_of [BRemove [mkAcc ra TIO MWrite]]) with Some r => r | None => (f1 0 ra, false) end) = true.
Proof. vm_compute. now split. Qed.

Definition all_demo := (@C81_chain_collects_all_changes, @C81_builders_are_separate, @C81_ex, @C81_example_asks_for_a_demotion, @C81_the_example_demotes_refuted,
  @C81_ex_example, @C81_update_returns_iff, @C81_ex_returns, @C81_deeper_resources_are_demoted, @C81_ex_deeper).
Print Assumptions all_demo.
