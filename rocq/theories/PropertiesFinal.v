(** Property C57: finalize() waits for the threads that use what it takes down. *)
From Coq Require Import Bool List Arith Lia.
From Verif Require Import FinalModel.
Import ListNotations.

Lemma put_inv {A} (l : list A) : forall i x z, In z (put l i x) -> z = x \/ In z l.
Proof. induction l as [|y l IH]; intros [|i] x z H; simpl in *; try tauto; destruct H as [<-|H]; auto. apply IH in H as [|]; auto. Qed.
Fixpoint tot {A} (f : A -> nat) (l : list A) : nat := match l with [] => 0 | x :: l => f x + tot f l end.
Lemma tot_put {A} (f : A -> nat) (l : list A) : forall i x y, nth_error l i = Some y -> tot f (put l i x) + f y = tot f l + f x.
Proof.
  induction l as [|z l IH]; intros [|i] x y E; simpl in *; try discriminate.
  - injection E as ->. lia.
  - specialize (IH i x y E). lia.
Qed.
Lemma tot_app {A} (f : A -> nat) l m : tot f (l ++ m) = tot f l + tot f m.
Proof. induction l; simpl; lia. Qed.
Lemma tot_in {A} (f : A -> nat) l x : In x l -> f x <= tot f l.
Proof. induction l; simpl; [contradiction|]. intros [->|H]; [lia|]. apply IHl in H. lia. Qed.

Definition waiting (x : who * rpc) : nat := match snd x with RCount => 1 | _ => 0 end.
Definition past (p : mpc) : bool := match p with MRun | MBarrier => false | _ => true end.
(** workers already joined *)
Definition joined (n : nat) (p : mpc) : nat := match p with MRun | MBarrier => 0 | MStop i | MJoin i => i | _ => n end.

(** what holds whoever releases *)
Record inv0 (n : nat) (s : st) : Prop := {
  z_count : count s = live s + tot waiting (rel s);
  z_past : past (main s) = true -> count s = 0;
  z_run : forall x, In x (rel s) -> active x = true -> fst x = Main -> main s = MRun;
  z_up : forall w, up s w = true -> w < n;
  z_join : forall w, w < joined n (main s) -> up s w = false;
  z_pos : forall i, main s = MStop i \/ main s = MJoin i -> i < n;
  z_stop : forall i, main s = MJoin i -> stop s i = true;
  z_work : forall x w, In x (rel s) -> active x = true -> fst x = Work w -> up s w = true }.

Lemma busy_spec o s x : busy o s = false -> In x (rel s) -> active x = true -> fst x = o -> False.
Proof.
  intros B I A E. unfold busy in B. assert (existsb (fun x => who_eqb (fst x) o && active x) (rel s) = true); [|congruence].
  apply existsb_exists. exists x. split; auto. rewrite A, E, andb_true_r. destruct o; simpl; auto. apply Nat.eqb_refl.
Qed.

Lemma inv0_step n ext m s s' : inv0 n s -> step n ext m s = Some s' -> inv0 n s'.
Proof.
  intros [C P R U J PO SP WK] ST. destruct m as [| |o|i|w]; simpl in ST.
  - unfold main_step in ST. destruct (main s) as [| |i|i| | | |] eqn:M.
    + destruct (busy Main s) eqn:B; [discriminate|]. injection ST as <-. constructor; simpl; auto; try discriminate.
      * intros x I A E. exfalso. eapply busy_spec; eauto.
      * intros i [|]; discriminate.
    + destruct (count s =? 0) eqn:B; [|discriminate]. apply Nat.eqb_eq in B. injection ST as <-.
      constructor; simpl; auto.
      * intros x I A E. specialize (R x I A E). discriminate.
      * destruct (n =? 0) eqn:N; simpl; intros w H; [|lia]. apply Nat.eqb_eq in N. lia.
      * destruct (n =? 0) eqn:N; intros i [E|E]; try discriminate. injection E as <-. apply Nat.eqb_neq in N. lia.
      * destruct (n =? 0); discriminate.
    + injection ST as <-. constructor; simpl; auto.
      * intros x I A E. specialize (R x I A E). discriminate.
      * intros j [E|E]; try discriminate. injection E as <-. auto.
      * intros j [= <-]. unfold upd. now rewrite Nat.eqb_refl.
    + destruct (up s i) eqn:UI; [discriminate|]. destruct (S i =? n) eqn:N; injection ST as <-; constructor; simpl; auto; try discriminate; try (intros j [|]; discriminate).
      * intros x I A E. specialize (R x I A E). discriminate.
      * intros w H. apply Nat.eqb_eq in N. destruct (Nat.eq_dec w i) as [->|]; auto. apply J. simpl. lia.
      * intros x I A E. specialize (R x I A E). discriminate.
      * intros w H. destruct (Nat.eq_dec w i) as [->|]; auto. apply J. simpl. lia.
      * assert (L : i < n) by auto. intros j [E|E]; try discriminate. injection E as <-. apply Nat.eqb_neq in N. lia.
    + injection ST as <-. constructor; simpl; auto; try discriminate; try (intros j [|]; discriminate).
      intros x I A E. specialize (R x I A E). discriminate.
    + injection ST as <-. constructor; simpl; auto; try discriminate; try (intros j [|]; discriminate).
      intros x I A E. specialize (R x I A E). discriminate.
    + injection ST as <-. constructor; simpl; auto; try discriminate; try (intros j [|]; discriminate).
      intros x I A E. specialize (R x I A E). discriminate.
    + discriminate.
  - destruct (main s) eqn:M; try discriminate. injection ST as <-. constructor; simpl; auto; try discriminate; try lia.

  - destruct (may_release ext o s && negb (busy o s)) eqn:B; [|discriminate]. apply andb_true_iff in B as (B1 & B2).
    apply negb_true_iff in B2. destruct (live s) as [|k] eqn:L; [discriminate|]. injection ST as <-.
    constructor; simpl; auto.
    + rewrite tot_app. simpl. lia.
    + intros x I A E. apply in_app_or in I as [I|[<-|[]]]; eauto. simpl in E. subst o. simpl in B1. destruct (main s); auto; discriminate.
    + intros x w I A E. apply in_app_or in I as [I|[<-|[]]]; eauto. simpl in E. subst o. auto.
  - unfold rel_step in ST. destruct (nth_error (rel s) i) as [[o p]|] eqn:E; [|discriminate].
    assert (IN := nth_error_In _ _ E).
    assert (K : active (o, p) = true -> forall x, In x (put (rel s) i x) -> True) by auto. clear K.
    assert (G1 : forall p' x, active (o, p) = true -> In x (put (rel s) i (o, p')) -> active x = true -> fst x = Main -> main s = MRun).
    { intros p' x A I A' F. apply put_inv in I as [->|I]; [|eauto]. apply (R (o, p)); auto. }
    assert (G2 : forall p' x w, active (o, p) = true -> In x (put (rel s) i (o, p')) -> active x = true -> fst x = Work w -> up s w = true).
    { intros p' x w A I A' F. apply put_inv in I as [->|I]; [|eauto]. apply (WK (o, p)); auto. }
    destruct p as [|z| |]; try discriminate; injection ST as <-.
    + pose proof (tot_put waiting (rel s) i (o, RFree (count s - 1 =? 0)) _ E) as T. pose proof (tot_in waiting _ _ IN) as T1. cbn in T, T1.
      constructor; simpl; auto; try lia.
      * intros H. specialize (P H). lia.
      * intros x. apply (G1 (RFree (count s - 1 =? 0)) x). auto.
      * intros x w. apply (G2 (RFree (count s - 1 =? 0)) x w). auto.
    + pose proof (tot_put waiting (rel s) i (o, if z then RWake else RDone) _ E) as T. destruct z; cbn in T;
        constructor; simpl; auto; try lia; intros x; try (apply (G1 RWake x); auto); try (apply (G1 RDone x); auto);
        intros w; try (apply (G2 RWake x w); auto); apply (G2 RDone x w); auto.
    + pose proof (tot_put waiting (rel s) i (o, RDone) _ E) as T. cbn in T. constructor; simpl; auto; try lia.
      * intros x. apply (G1 RDone x). auto.
      * intros x w. apply (G2 RDone x w). auto.
  - destruct (up s w && stop s w && negb (busy (Work w) s)) eqn:B; [|discriminate]. injection ST as <-.
    apply andb_true_iff in B as (B & B3). apply negb_true_iff in B3. constructor; simpl; auto; unfold upd.
    + intros v H. destruct (v =? w); [discriminate|auto].
    + intros v H. destruct (v =? w); auto.
    + intros x v I A E. destruct (v =? w) eqn:V; [|eauto]. apply Nat.eqb_eq in V. subst v. exfalso. eapply busy_spec; eauto.
Qed.
Lemma inv0_reach n ext s : reach n ext s -> inv0 n s.
Proof.
  induction 1; [|eapply inv0_step; eauto]. constructor; simpl; try discriminate; auto; try lia; try contradiction.
  - intros w H. now apply Nat.ltb_lt.
  - intros i [|]; discriminate.
Qed.

(** Nobody but the main thread and the workers releases tasks. *)
Record inv1 (s : st) : Prop := { y_ext : forall x, In x (rel s) -> fst x <> Ext; y_ub : ub s = false }.
Lemma gone n s : inv0 n s -> inv1 s -> workers_there (main s) = false -> forall x, In x (rel s) -> active x = false.
Proof.
  intros I0 I1 G x I. destruct (active x) eqn:A; auto. exfalso. destruct (fst x) as [|w|] eqn:E.
  - rewrite (z_run n s I0 x I A E) in G. discriminate.
  - pose proof (z_work n s I0 x w I A E) as U. pose proof (z_up n s I0 w U) as L.
    rewrite (z_join n s I0 w) in U; [discriminate|]. destruct (main s); try discriminate; simpl; auto.
  - exact (y_ext s I1 x I E).
Qed.
Lemma inv1_step n m s s' : inv0 n s -> inv1 s -> step n false m s = Some s' -> inv1 s'.
Proof.
  intros I0 I1 ST. assert (G := gone n s I0 I1). destruct I1 as [E U]. destruct m as [| |o|i|w]; simpl in ST.
  - unfold main_step in ST. destruct (main s); repeat match type of ST with context [if ?b then _ else _] => destruct b end; try discriminate; injection ST as <-; constructor; auto.
  - destruct (main s); try discriminate; injection ST as <-; constructor; auto.
  - destruct (may_release false o s && negb (busy o s)) eqn:B; [|discriminate]. destruct (live s); [discriminate|]. injection ST as <-.
    constructor; simpl; auto. intros x I. apply in_app_or in I as [I|[<-|[]]]; auto. simpl. intros ->. discriminate.
  - unfold rel_step in ST. destruct (nth_error (rel s) i) as [[o p]|] eqn:N; [|discriminate]. assert (IN := nth_error_In _ _ N).
    assert (A : active (o, p) = true -> workers_there (main s) = true) by (intros A; destruct (workers_there (main s)); auto; rewrite (G eq_refl _ IN) in A; discriminate).
    assert (A2 : active (o, p) = true -> sched_there (main s) = true) by (intros A'; specialize (A A'); destruct (main s); auto; discriminate).
    assert (P : forall p' x, In x (put (rel s) i (o, p')) -> fst x <> Ext).
    { intros p' x I. apply put_inv in I as [->|I]; auto. exact (E _ IN). }
    destruct p as [|z| |]; try discriminate; injection ST as <-; constructor; simpl; rewrite ?A, ?A2, ?U by reflexivity; auto; intros x I; eapply P; eauto.
  - destruct (up s w && stop s w && negb (busy (Work w) s)); [|discriminate]. injection ST as <-. constructor; auto.
Qed.
Lemma inv1_reach n s : reach n false s -> inv1 s.
Proof. induction 1; [constructor; simpl; auto|]. eapply inv1_step; eauto. eapply inv0_reach; eauto. Qed.

(** Statement in full: whoever releases the last tasks, nothing that finalize()
    takes down is used afterwards.  Proved when only the main thread and the workers
    release tasks. *)
Theorem C57_nothing_used_after_teardown_partial : forall n s, reach n false s -> ub s = false.
Proof. intros n s R. apply (inv1_reach n s R). Qed.
(** When finalize() has returned no release is in progress and every task was
    released. *)
Theorem C57_finalized_means_released_partial : forall n s, reach n false s -> main s = MDone ->
  count s = 0 /\ live s = 0 /\ (forall x, In x (rel s) -> snd x = RDone) /\ forall w, up s w = false.
Proof.
  intros n s R M. pose proof (inv0_reach _ _ _ R) as I0. pose proof (inv1_reach _ _ R) as I1.
  assert (C : count s = 0) by (apply (z_past n s I0); now rewrite M). pose proof (z_count n s I0) as C'. repeat split; auto; try lia.
  - intros x I. assert (A : active x = false) by (apply (gone n s); auto; now rewrite M). destruct x as [o []]; auto; discriminate.
  - intros w. destruct (up s w) eqn:U; auto. pose proof (z_up n s I0 w U) as L. rewrite (z_join n s I0 w) in U; auto. now rewrite M.
Qed.

(** finalize() returns when every task is released eventually: no other standstill
    exists, and all runs from its call on are bounded.  This holds whoever releases. *)
Theorem C57_finalize_returns : forall n ext s, reach n ext s -> main s <> MRun -> live s = 0 ->
  (forall m, step n ext m s = None) -> main s = MDone.
Proof.
  intros n ext s R M L Q. pose proof (inv0_reach _ _ _ R) as I0.
  assert (D : forall x, In x (rel s) -> snd x = RDone).
  { intros x I. apply In_nth_error in I as (i & E). specialize (Q (VRel i)). simpl in Q. unfold rel_step in Q. rewrite E in Q.
    destruct x as [o []]; try discriminate; auto. }
  assert (T : tot waiting (rel s) = 0).
  { clear -D. induction (rel s) as [|x l IH]; simpl; auto. rewrite IH by (intros; apply D; simpl; auto). unfold waiting. rewrite (D x); simpl; auto. }
  assert (C : count s = 0) by (rewrite (z_count n s I0); lia).
  pose proof (Q VMain) as QM. simpl in QM. unfold main_step in QM. destruct (main s) as [| |i|i| | | |] eqn:E; try discriminate; try congruence; auto.
  - rewrite C in QM. discriminate.
  - destruct (up s i) eqn:U; [|discriminate]. specialize (Q (VExit i)). simpl in Q. rewrite U, (z_stop n s I0 i E) in Q. simpl in Q.
    destruct (busy (Work i) s) eqn:B; [|discriminate]. unfold busy in B. apply existsb_exists in B as (x & I & B). apply D in I.
    unfold active in B. rewrite I, andb_false_r in B. discriminate.
Qed.
Definition left (n : nat) (p : mpc) : nat :=
  match p with MRun => 0 | MBarrier => 2 * n + 4 | MStop i => 2 * (n - i) + 3 | MJoin i => 2 * (n - i) + 2 | MClear => 3 | MSched => 2 | MRoot => 1 | MDone => 0 end.
Definition rleft (x : who * rpc) : nat := match snd x with RCount => 3 | RFree _ => 2 | RWake => 1 | RDone => 0 end.
Fixpoint ups (k : nat) (u : nat -> bool) : nat := match k with O => 0 | S k => (if u k then 1 else 0) + ups k u end.
Definition mu (n : nat) (s : st) : nat := left n (main s) + 4 * live s + tot rleft (rel s) + ups n (up s).
Lemma ups_exit k u w : w < k -> u w = true -> ups k (upd u w false) < ups k u.
Proof.
  assert (N : forall k, k <= w -> ups k (upd u w false) = ups k u).
  { induction k0 as [|k0 IH]; intros H; simpl; auto. unfold upd at 1. destruct (Nat.eqb_spec k0 w); [lia|]. rewrite IH; lia. }
  induction k as [|k IH]; intros L U; [lia|]. simpl. unfold upd at 1. destruct (Nat.eqb_spec k w) as [->|D].
  - rewrite U, N by lia. lia.
  - specialize (IH ltac:(lia) U). lia.
Qed.
Theorem C57_finalize_is_bounded : forall n ext m s s', reach n ext s -> main s <> MRun -> step n ext m s = Some s' ->
  main s' <> MRun /\ mu n s' < mu n s.
Proof.
  intros n ext m s s' R M ST. pose proof (inv0_reach _ _ _ R) as I0. unfold mu. destruct m as [| |o|i|w]; simpl in ST.
  - unfold main_step in ST. destruct (main s) as [| |i|i| | | |] eqn:E; try congruence.
    + destruct (count s =? 0); [|discriminate]. injection ST as <-. destruct (n =? 0) eqn:N; simpl; split; try discriminate; lia.
    + injection ST as <-. simpl. split; [discriminate|]. lia.
    + assert (L : i < n) by (apply (z_pos n s I0); auto). destruct (up s i); [discriminate|]. destruct (S i =? n) eqn:N; injection ST as <-; cbn [left set_main main live rel up]; split; try discriminate; lia.
    + injection ST as <-. simpl. split; [discriminate|]. lia.
    + injection ST as <-. simpl. split; [discriminate|]. lia.
    + injection ST as <-. simpl. split; [discriminate|]. lia.
  - destruct (main s); congruence.
  - destruct (may_release ext o s && negb (busy o s)); [|discriminate]. destruct (live s) as [|k]; [discriminate|]. injection ST as <-.
    simpl. rewrite tot_app. simpl. split; auto. change (rleft (o, RCount)) with 3. lia.
  - unfold rel_step in ST. destruct (nth_error (rel s) i) as [[o p]|] eqn:E; [|discriminate].
    assert (T := fun p' => tot_put rleft (rel s) i (o, p') _ E).
    destruct p as [|z| |]; try discriminate; injection ST as <-; simpl; split; auto.
    + specialize (T (RFree (count s - 1 =? 0))). cbn in T. lia.
    + destruct z; [specialize (T RWake)|specialize (T RDone)]; cbn in T; lia.
    + specialize (T RDone). cbn in T. lia.
  - destruct (up s w && stop s w && negb (busy (Work w) s)) eqn:B; [|discriminate]. injection ST as <-.
    apply andb_true_iff in B as (B & _). apply andb_true_iff in B as (B & _). simpl. split; auto.
    pose proof (ups_exit n (up s) w (z_up n s I0 w B) B). lia.
Qed.

Lemma exec_reach n ext ms : forall s s', reach n ext s -> exec n ext ms s = Some s' -> reach n ext s'.
Proof.
  induction ms as [|m ms IH]; intros s s' R E; simpl in E; [congruence|]. destruct (step n ext m s) as [s1|] eqn:S1; [|discriminate].
  apply (IH s1 s'); auto. eapply rs; eauto.
Qed.
(** Two workers, two tasks; the second release is between its decrement and its
    deallocation when the main thread begins to stop the workers. *)
Definition run : list move :=
  [VEmplace; VEmplace; VBegin Main; VRel 0; VRel 0; VMain; VBegin (Work 1); VRel 1; VMain; VMain; VExit 0; VMain; VMain;
   VRel 1; VRel 1; VExit 1; VMain; VMain; VMain; VMain].
Example C57_ex : exists s, reach 2 false s /\ main s = MDone /\ rel s = [(Main, RDone); (Work 1, RDone)].
Proof.
  assert (H : match exec 2 false run (init 2) with Some s => (main s, rel s) = (MDone, [(Main, RDone); (Work 1, RDone)]) | None => False end) by (vm_compute; reflexivity).
  destruct (exec 2 false run (init 2)) as [s|] eqn:E; [|contradiction]. injection H as H1 H2. exists s. split; auto. eapply exec_reach; [apply r0|exact E].
Qed.
(** A thread that is neither main thread nor worker and releases the last task is
    waited for by nobody: the workers are gone when it gives the memory back. *)
Definition late : list move :=
  [VEmplace; VBegin Ext; VRel 0; VMain; VMain; VMain; VExit 0; VMain; VMain; VMain; VMain; VRel 0].
Theorem C57_nothing_used_after_teardown_refuted : exists s, reach 1 true s /\ ub s = true /\ main s = MDone.
Proof.
  assert (H : match exec 1 true late (init 1) with Some s => (main s, ub s) = (MDone, true) | None => False end) by (vm_compute; reflexivity).
  destruct (exec 1 true late (init 1)) as [s|] eqn:E; [|contradiction]. injection H as H1 H2. exists s. split; auto. eapply exec_reach; [apply r0|exact E].
Qed.

Definition all_final := (C57_nothing_used_after_teardown_partial, C57_finalized_means_released_partial, C57_finalize_returns, C57_finalize_is_bounded,
  C57_nothing_used_after_teardown_refuted).
Print Assumptions all_final.
