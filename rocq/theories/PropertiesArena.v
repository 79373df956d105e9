(** Properties C55 (memory goes back to where it was taken) and C56 (wake_all). *)
From Coq Require Import Bool List Arith NArith ZArith Lia.
From Verif Require Import ArenaModel.
Import ListNotations.

(** * C55 *)
Definition live (s : st) : list obj := tasks s ++ bound s.

Record inv (n : nat) (s : st) : Prop := {
  i_mem : forall a b, In b (mem s a) <-> exists x, In x (live s) /\ b_id x = b /\ b_arena x = a;
  i_ids : NoDup (map b_id (live s));
  i_one : forall a, NoDup (mem s a);
  i_new : forall x, In x (live s) -> b_id x < fresh s;
  i_rng : forall x, In x (live s) -> b_arena x < n;
  i_ok : bad s = false }.

Lemma drop_in {A} (l : list A) : forall k y, In y (drop k l) -> In y l.
Proof. induction l as [|z l IH]; intros [|k] y H; simpl in *; auto. destruct H; eauto. Qed.
Lemma drop_keep {A} (l : list A) : forall k x y, nth_error l k = Some x -> In y l -> y <> x -> In y (drop k l).
Proof.
  induction l as [|z l IH]; intros [|k] x y E H D; simpl in *; try discriminate.
  - injection E as ->. destruct H; congruence.
  - destruct H; eauto.
Qed.
Lemma drop_perm {A B} (f : A -> B) (l : list A) : forall k, NoDup (map f l) -> NoDup (map f (drop k l)).
Proof.
  induction l as [|z l IH]; intros [|k] H; simpl in *; auto; inversion H; subst; auto.
  constructor; auto. intros C. apply H2. apply in_map_iff in C as (y & E & C). apply in_map_iff. exists y. split; auto. eapply drop_in; eauto.
Qed.
Lemma drop_not {A B} (f : A -> B) (l : list A) : forall k x y, NoDup (map f l) -> nth_error l k = Some x -> In y (drop k l) -> f y <> f x.
Proof.
  induction l as [|z l IH]; intros [|k] x y ND E H; simpl in *; try discriminate; try contradiction; inversion ND; subst.
  - injection E as ->. intros C. apply H2. rewrite <- C. now apply in_map.
  - destruct H as [->|H]; [|eapply IH; eauto]. intros C. apply H2. rewrite C. apply in_map. eapply nth_error_In; eauto.
Qed.
Lemma pick_lt n x : 0 < n -> pick n x < n.
Proof. intros H. unfold pick. assert (x mod N.of_nat n < N.of_nat n)%N by (apply N.mod_lt; lia). lia. Qed.

(** giving back the [k]-th object of [l] where [l] is one part of what lives *)
Lemma nodup_app {A B} (f : A -> B) l m : NoDup (map f (l ++ m)) <-> NoDup (map f l) /\ NoDup (map f m) /\ forall x y, In x l -> In y m -> f x <> f y.
Proof.
  induction l as [|z l IH]; simpl.
  - split; [|tauto]. intros H. repeat split; auto. constructor.
  - split.
    + intros H. inversion H; subst. apply IH in H3 as (A1 & A2 & A3). repeat split; auto.
      * constructor; auto. intros C. apply H2. rewrite map_app. apply in_or_app; auto.
      * intros x y [->|I] J; auto. intros C. apply H2. rewrite C. apply in_map. apply in_or_app; auto.
    + intros (A1 & A2 & A3). inversion A1; subst. constructor.
      * rewrite map_app. intros C. apply in_app_or in C as [C|C]; auto. apply in_map_iff in C as (y & E & C). apply (A3 z y); auto.
      * apply IH. repeat split; auto.
Qed.

Lemma inv_init n : inv n init.
Proof.
  constructor; simpl; try tauto; try constructor; try contradiction. intros (x & [] & _).
Qed.
Lemma inv_step n p o s s' : 0 < n <= p -> inv n s -> step n p o s = Some s' -> inv n s'.
Proof.
  intros NP [IM II IO IN IR IK] ST. destruct o as [t|k|a|k]; simpl in ST.
  - injection ST as <-. pose proof (pick_lt n (nxt s t) (proj1 NP)) as L. set (a := pick n (nxt s t)) in *.
    assert (RA : route n a = a) by (apply Nat.mod_small; auto). rewrite RA. constructor; simpl.
    + intros a' b. unfold upd. destruct (a' =? a) eqn:E.
      * apply Nat.eqb_eq in E. subst a'. simpl. rewrite (IM a b). split.
        -- intros [<-|(x & I & B & C)]; [exists (mkObj (fresh s) a)|exists x]; simpl; auto.
        -- intros (x & [<-|I] & B & C); simpl in *; [left; auto|right; exists x; auto].
      * apply Nat.eqb_neq in E. rewrite (IM a' b). split; intros (x & I & B & C); exists x; simpl in *; auto.
        destruct I as [<-|I]; auto. simpl in C. congruence.
    + unfold live in *. simpl. constructor; auto. intros C. apply in_map_iff in C as (y & E & C). apply IN in C. lia.
    + intros a'. unfold upd. destruct (a' =? a) eqn:E; auto. constructor; auto. intros C. apply IM in C as (x & I & B & _). apply IN in I. lia.
    + unfold live in *. simpl. intros x [<-|I]; simpl; [lia|]. apply IN in I. lia.
    + unfold live in *. simpl. intros x [<-|I]; simpl; auto.
    + rewrite IK. simpl. apply Nat.ltb_lt in L. now rewrite L.
  - destruct (nth_error (tasks s) k) as [x|] eqn:E; [|discriminate]. injection ST as <-.
    assert (X : In x (live s)) by (apply in_or_app; left; eapply nth_error_In; eauto).
    assert (L := IR x X). assert (WA : worker_alloc p (b_arena x) = b_arena x) by (apply Nat.mod_small; lia). rewrite WA.
    assert (SP := II). apply nodup_app in SP as (S1 & S2 & S3).
    assert (EQ : forall y, In y (drop k (tasks s) ++ bound s) <-> In y (live s) /\ b_id y <> b_id x).
    { intros y. rewrite in_app_iff. unfold live. rewrite in_app_iff. split.
      - intros [I|I]; [split; [left; eapply drop_in; eauto|apply (drop_not b_id (tasks s) k x y); auto]|].
        split; auto. intros C. apply (S3 x y); auto. eapply nth_error_In; eauto.
      - intros [[I|I] D]; auto. left. eapply drop_keep; eauto. congruence. }
    constructor; unfold live; simpl.
    + intros a' b. unfold upd. destruct (a' =? b_arena x) eqn:Ea.
      * apply Nat.eqb_eq in Ea. subst a'. split.
        -- intros H. apply in_remove in H as (H & D). apply IM in H as (y & I & B & C). exists y. rewrite EQ. subst b. auto.
        -- intros (y & I & B & C). apply EQ in I as (I & D). apply in_in_remove; [congruence|]. apply IM. eauto.
      * apply Nat.eqb_neq in Ea. rewrite IM. split; intros (y & I & B & C); exists y.
        -- rewrite EQ. repeat split; auto. intros D. assert (y = x); [|congruence].
           assert (ND := II). clear -I X D ND. unfold live in *. induction (tasks s ++ bound s) as [|z l IH]; [contradiction|].
           simpl in *. inversion ND; subst. destruct I as [->|I], X as [->|X]; auto.
           ++ exfalso. apply H1. rewrite D. now apply in_map.
           ++ exfalso. apply H1. rewrite <- D. now apply in_map.
        -- apply EQ in I as (I & _). auto.
    + apply nodup_app. repeat split; auto; [now apply drop_perm|]. intros y z I J. apply S3; auto. eapply drop_in; eauto.
    + intros a'. unfold upd. destruct (a' =? b_arena x); auto. clear -IO. specialize (IO (b_arena x)).
      induction IO as [|z l N1 N2 IH]; simpl; [constructor|]. destruct (Nat.eq_dec (b_id x) z); auto. constructor; auto.
      intros C. apply in_remove in C as (C & _). auto.
    + intros y I. apply EQ in I as (I & _). auto.
    + intros y I. apply EQ in I as (I & _). auto.
    + rewrite IK. apply Nat.ltb_lt in L. now rewrite L.
  - injection ST as <-. assert (L : route n a < n) by (apply Nat.mod_upper_bound; lia). set (r := route n a) in *.
    assert (EQ : forall y, In y (tasks s ++ mkObj (fresh s) r :: bound s) <-> y = mkObj (fresh s) r \/ In y (live s)).
    { intros y. unfold live. rewrite !in_app_iff. simpl. intuition. }
    constructor; unfold live; simpl.
    + intros a' b. unfold upd. destruct (a' =? r) eqn:E.
      * apply Nat.eqb_eq in E. subst a'. simpl. rewrite (IM r b). split.
        -- intros [<-|(x & I & B & C)]; [exists (mkObj (fresh s) r)|exists x]; rewrite EQ; simpl; auto.
        -- intros (x & I & B & C). apply EQ in I as [->|I]; simpl in *; [left; auto|right; exists x; auto].
      * apply Nat.eqb_neq in E. rewrite (IM a' b). split; intros (x & I & B & C); exists x; [rewrite EQ; auto|].
        apply EQ in I as [->|I]; auto. simpl in C. congruence.
    + apply nodup_app in II as (S1 & S2 & S3). apply nodup_app. repeat split; auto.
      * simpl. constructor; auto. intros C. apply in_map_iff in C as (y & E & C). assert (In y (live s)) as Y by (apply in_or_app; auto). apply IN in Y. lia.
      * intros x y I [<-|J]; auto. assert (In x (live s)) as Y by (apply in_or_app; auto). apply IN in Y. simpl. lia.
    + intros a'. unfold upd. destruct (a' =? r) eqn:E; auto. constructor; auto. intros C. apply IM in C as (x & I & B & _). apply IN in I. lia.
    + intros x I. apply EQ in I as [->|I]; simpl; [lia|]. apply IN in I. lia.
    + intros x I. apply EQ in I as [->|I]; simpl; auto.
    + rewrite IK. apply Nat.ltb_lt in L. simpl. now rewrite L.
  - destruct (nth_error (bound s) k) as [x|] eqn:E; [|discriminate]. injection ST as <-.
    assert (X : In x (live s)) by (apply in_or_app; right; eapply nth_error_In; eauto).
    assert (L := IR x X). assert (SP := II). apply nodup_app in SP as (S1 & S2 & S3).
    assert (EQ : forall y, In y (tasks s ++ drop k (bound s)) <-> In y (live s) /\ b_id y <> b_id x).
    { intros y. rewrite in_app_iff. unfold live. rewrite in_app_iff. split.
      - intros [I|I]; [|split; [right; eapply drop_in; eauto|apply (drop_not b_id (bound s) k x y); auto]].
        split; auto. apply (S3 y x); auto. eapply nth_error_In; eauto.
      - intros [[I|I] D]; auto. right. eapply drop_keep; eauto. congruence. }
    constructor; unfold live; simpl.
    + intros a' b. unfold upd. destruct (a' =? b_arena x) eqn:Ea.
      * apply Nat.eqb_eq in Ea. subst a'. split.
        -- intros H. apply in_remove in H as (H & D). apply IM in H as (y & I & B & C). exists y. rewrite EQ. subst b. auto.
        -- intros (y & I & B & C). apply EQ in I as (I & D). apply in_in_remove; [congruence|]. apply IM. eauto.
      * apply Nat.eqb_neq in Ea. rewrite IM. split; intros (y & I & B & C); exists y.
        -- rewrite EQ. repeat split; auto. intros D. assert (y = x); [|congruence].
           assert (ND := II). clear -I X D ND. unfold live in *. induction (tasks s ++ bound s) as [|z l IH]; [contradiction|].
           simpl in *. inversion ND; subst. destruct I as [->|I], X as [->|X]; auto.
           ++ exfalso. apply H1. rewrite D. now apply in_map.
           ++ exfalso. apply H1. rewrite <- D. now apply in_map.
        -- apply EQ in I as (I & _). auto.
    + apply nodup_app. repeat split; auto; [now apply drop_perm|]. intros y z I J. apply S3; auto. eapply drop_in; eauto.
    + intros a'. unfold upd. destruct (a' =? b_arena x); auto. clear -IO. specialize (IO (b_arena x)).
      induction IO as [|z l N1 N2 IH]; simpl; [constructor|]. destruct (Nat.eq_dec (b_id x) z); auto. constructor; auto.
      intros C. apply in_remove in C as (C & _). auto.
    + intros y I. apply EQ in I as (I & _). auto.
    + intros y I. apply EQ in I as (I & _). auto.
    + rewrite IK. apply Nat.ltb_lt in L. now rewrite L.
Qed.
Lemma inv_exec n p os : 0 < n <= p -> forall s s', inv n s -> exec n p os s = Some s' -> inv n s'.
Proof.
  intros NP. induction os as [|o os IH]; intros s s' I E; simpl in E; [congruence|].
  destruct (step n p o s) as [s1|] eqn:S1; [|discriminate]. apply (IH s1 s'); auto. eapply inv_step; eauto.
Qed.

(** Statement in full: for any number of workers the memory in use is exactly that
    of what lives; in particular it is all free when nothing lives.  Proved for at
    most as many workers as processing units. *)
Theorem C55_memory_is_what_lives_partial : forall n p os s, 0 < n <= p -> exec n p os init = Some s ->
  forall a b, In b (mem s a) <-> exists x, In x (tasks s ++ bound s) /\ b_id x = b /\ b_arena x = a.
Proof. intros n p os s NP E. exact (i_mem n s (inv_exec n p os NP init s (inv_init n) E)). Qed.
Theorem C55_all_returned_partial : forall n p os s, 0 < n <= p -> exec n p os init = Some s ->
  tasks s = [] -> bound s = [] -> forall a, mem s a = [].
Proof.
  intros n p os s NP E T B a. pose proof (i_mem n s (inv_exec n p os NP init s (inv_init n) E) a) as M. unfold live in M. rewrite T, B in M.
  destruct (mem s a) as [|b l]; auto. destruct (M b) as (H & _). destruct H as (x & [] & _). now left.
Qed.

(** With more workers than processing units the tasks of the surplus workers are
    given back to another allocator, which ignores them: after every [n] tasks of
    one thread, each freed at once, one block more is lost in each of the arenas
    [p .. n-1]. *)
Definition rounds (k : nat) : list op := concat (repeat [OEmplace 0; OFree 0] k).
Fixpoint lost (n p a k : nat) : nat :=
  match k with O => 0 | S k => (if (a =? k mod n) && (p <=? a) then 1 else 0) + lost n p a k end.
Lemma exec_app n p os os' : forall s, exec n p (os ++ os') s = match exec n p os s with Some s' => exec n p os' s' | None => None end.
Proof. induction os as [|o os IH]; intros s; simpl; auto. destruct (step n p o s); auto. Qed.
Lemma rounds_S k : rounds (S k) = rounds k ++ [OEmplace 0; OFree 0].
Proof.
  unfold rounds. induction k as [|k IH]; [reflexivity|].
  transitivity ([OEmplace 0; OFree 0] ++ concat (repeat [OEmplace 0; OFree 0] (S k))); [reflexivity|]. rewrite IH at 1. reflexivity.
Qed.
Lemma rounds_run n p k : 0 < p -> p < n -> (N.of_nat k < 4294967296)%N -> exists s, exec n p (rounds k) init = Some s /\
  nxt s 0 = N.of_nat k /\ tasks s = [] /\ bound s = [] /\ (forall a b, In b (mem s a) -> b < fresh s) /\
  forall a, a < n -> length (mem s a) = lost n p a k.
Proof.
  intros P PN. induction k as [|k IH]; intros K.
  - exists init. simpl. repeat split; auto. contradiction.
  - destruct IH as (s & E & X & T & B & F & L); [lia|]. rewrite rounds_S, exec_app, E. simpl. rewrite T. simpl.
    rewrite X. assert (PK : pick n (N.of_nat k) = k mod n).
    { unfold pick. rewrite <- (Nat2N.id (k mod n)). f_equal. rewrite Nnat.Nat2N.inj_mod. auto. }
    rewrite PK. assert (R : route n (k mod n) = k mod n) by (apply Nat.mod_small, Nat.mod_upper_bound; lia). rewrite R.
    unfold worker_alloc. set (a := k mod n) in *. assert (AN : a < n) by (apply Nat.mod_upper_bound; lia).
    eexists. split; [reflexivity|]. simpl. repeat split; auto.
    + unfold upd. simpl. unfold incr. rewrite N.mod_small; lia.
    + intros a' b. unfold upd. destruct (a' =? a mod p).
      * intros H. apply in_remove in H as (H & _). destruct (a mod p =? a) eqn:E2; [|apply F in H; lia].
        destruct H as [<-|H]; [lia|]. apply F in H. lia.
      * destruct (a' =? a); [|intros H; apply F in H; lia]. intros [<-|H]; [lia|]. apply F in H. lia.
    + intros a' A'. unfold upd. assert (NI : forall c, ~ In (fresh s) (mem s c)) by (intros c C; apply F in C; lia).
      destruct (p <=? a) eqn:PA.
      * apply Nat.leb_le in PA. assert (MP : a mod p < p) by (apply Nat.mod_upper_bound; lia).
        assert (D : (a mod p =? a) = false) by (apply Nat.eqb_neq; lia). rewrite D.
        destruct (a' =? a mod p) eqn:E1.
        -- apply Nat.eqb_eq in E1. subst a'. rewrite notin_remove by auto. rewrite L by lia. rewrite D. reflexivity.
        -- destruct (a' =? a) eqn:E2; simpl.
           ++ apply Nat.eqb_eq in E2. subst a'. rewrite L by lia. apply Nat.leb_le in PA. now rewrite PA.
           ++ rewrite L by lia. reflexivity.
      * apply Nat.leb_gt in PA. rewrite (Nat.mod_small a p PA), Nat.eqb_refl.
        destruct (a' =? a) eqn:E2; simpl.
        -- apply Nat.eqb_eq in E2. subst a'. destruct (Nat.eq_dec (fresh s) (fresh s)); [|congruence].
           rewrite notin_remove by auto. rewrite L by lia. apply Nat.leb_gt in PA. now rewrite PA.
        -- now apply L.
Qed.
Lemma lost_plus n p a k j : 0 < n -> a < n -> p <= a -> j <= n -> lost n p a (n * k + j) = lost n p a (n * k) + (if a <? j then 1 else 0).
Proof.
  intros N A P. induction j as [|j IH]; intros J; [rewrite !Nat.add_0_r; reflexivity|].
  rewrite <- plus_n_Sm. simpl. rewrite IH by lia.
  replace ((n * k + j) mod n) with j.
  2:{ rewrite (Nat.mul_comm n k), (Nat.add_comm (k * n) j), Nat.mod_add, Nat.mod_small; lia. }
  apply Nat.leb_le in P. rewrite P, andb_true_r. destruct (Nat.eqb_spec a j), (Nat.ltb_spec a j), (Nat.ltb_spec a (S j)); lia.
Qed.
Theorem C55_all_returned_refuted : forall n p m, 0 < p -> p < n -> (N.of_nat (n * m) < 4294967296)%N ->
  exists s, exec n p (rounds (n * m)) init = Some s /\ tasks s = [] /\ bound s = [] /\
  forall a, p <= a < n -> length (mem s a) = m.
Proof.
  intros n p m P PN K. destruct (rounds_run n p (n * m) P PN K) as (s & E & _ & T & B & _ & L). exists s. repeat split; auto.
  intros a A. rewrite L by lia. clear -A P. induction m as [|m IH]; [rewrite Nat.mul_0_r; reflexivity|].
  rewrite Nat.mul_succ_r, lost_plus, IH by lia. destruct (Nat.ltb_spec a n); lia.
Qed.

(** No index into the workers or allocators is ever out of range, whatever the
    numbers of workers and processing units, also when next_worker wraps. *)
Theorem C55_indices_in_range : forall n p os s, 0 < n -> 0 < p -> exec n p os init = Some s -> bad s = false.
Proof.
  intros n p os s N P. assert (G : forall os s s', bad s = false -> (forall x, In x (live s) -> b_arena x < n) -> exec n p os s = Some s' -> bad s' = false).
  { clear -N P. induction os as [|o os IH]; intros s s' K R E; simpl in E; [congruence|].
    destruct (step n p o s) as [s1|] eqn:S1; [|discriminate]. apply (IH s1 s'); auto; clear IH E.
    - destruct o as [t|k|a|k]; simpl in S1.
      + injection S1 as <-. simpl. rewrite K. simpl. assert (L : route n (pick n (nxt s t)) < n) by (apply Nat.mod_upper_bound; lia). apply Nat.ltb_lt in L. now rewrite L.
      + destruct (nth_error (tasks s) k) as [x|] eqn:E; [|discriminate]. injection S1 as <-. simpl. rewrite K.
        assert (X : b_arena x < n) by (apply R, in_or_app; left; eapply nth_error_In; eauto).
        assert (L : worker_alloc p (b_arena x) < n) by (unfold worker_alloc; pose proof (Nat.mod_le (b_arena x) p); lia).
        apply Nat.ltb_lt in X, L. now rewrite X, L.
      + injection S1 as <-. simpl. rewrite K. simpl. assert (L : route n a < n) by (apply Nat.mod_upper_bound; lia). apply Nat.ltb_lt in L. now rewrite L.
      + destruct (nth_error (bound s) k) as [x|] eqn:E; [|discriminate]. injection S1 as <-. simpl. rewrite K.
        assert (X : b_arena x < n) by (apply R, in_or_app; right; eapply nth_error_In; eauto). apply Nat.ltb_lt in X. now rewrite X.
    - unfold live in *. intros x I. apply in_app_or in I. destruct o as [t|k|a|k]; simpl in S1.
      + injection S1 as <-. simpl in I. destruct I as [[<-|I]|I]; [now apply pick_lt| |]; apply R, in_or_app; auto.
      + destruct (nth_error (tasks s) k) as [y|] eqn:E; [|discriminate]. injection S1 as <-. simpl in I. apply R, in_or_app. destruct I; auto. left. eapply drop_in; eauto.
      + injection S1 as <-. simpl in I. destruct I as [I|[<-|I]]; [|simpl; apply Nat.mod_upper_bound; lia|]; apply R, in_or_app; auto.
      + destruct (nth_error (bound s) k) as [y|] eqn:E; [|discriminate]. injection S1 as <-. simpl in I. apply R, in_or_app. destruct I; auto. right. eapply drop_in; eauto. }
  intros E. apply (G os init s); auto. simpl. contradiction.
Qed.

(** The tasks of one thread go to the workers in turn: the task it emplaces after
    [k] others is for worker [k mod n], as long as its 32-bit counter has not
    wrapped. *)
Fixpoint emplaced (t : nat) (os : list op) : nat :=
  match os with [] => 0 | OEmplace u :: os => (if u =? t then 1 else 0) + emplaced t os | _ :: os => emplaced t os end.
Lemma nxt_exec n p t os : forall s s', exec n p os s = Some s' -> (nxt s t < 4294967296)%N ->
  nxt s' t = ((nxt s t + N.of_nat (emplaced t os)) mod 4294967296)%N.
Proof.
  induction os as [|o os IH]; intros s s' E B; simpl in E.
  - injection E as <-. simpl. rewrite N.add_0_r, N.mod_small; auto.
  - destruct (step n p o s) as [s1|] eqn:S1; [|discriminate].
    assert (X : nxt s1 t = (if match o with OEmplace u => u =? t | _ => false end then incr (nxt s t) else nxt s t)).
    { destruct o as [u|k|a|k]; simpl in S1.
      - injection S1 as <-. simpl. unfold upd. rewrite Nat.eqb_sym. destruct (u =? t) eqn:E1; auto. apply Nat.eqb_eq in E1. now subst.
      - destruct (nth_error (tasks s) k); [|discriminate]. injection S1 as <-. auto.
      - injection S1 as <-. auto.
      - destruct (nth_error (bound s) k); [|discriminate]. injection S1 as <-. auto. }
    assert (B1 : (nxt s1 t < 4294967296)%N).
    { rewrite X. destruct (match o with OEmplace u => u =? t | _ => false end); auto. unfold incr. apply N.mod_lt. discriminate. }
    rewrite (IH s1 s' E B1), X. destruct o as [u|k|a|k]; simpl; auto. destruct (u =? t); auto.
    unfold incr. rewrite N.add_mod_idemp_l by discriminate. f_equal. lia.
Qed.
Theorem C55_round_robin : forall n p os s t s', exec n p os init = Some s -> step n p (OEmplace t) s = Some s' ->
  exists x, tasks s' = x :: tasks s /\
  b_arena x = N.to_nat ((N.of_nat (emplaced t os) mod 4294967296) mod N.of_nat n).
Proof.
  intros n p os s t s' E ST. simpl in ST. injection ST as <-. simpl. eexists. split; [reflexivity|]. simpl.
  rewrite (nxt_exec n p t os init s E); [reflexivity|]. simpl. lia.
Qed.
Theorem C55_round_robin_small : forall n p os s t s', 0 < n -> (N.of_nat (emplaced t os) < 4294967296)%N ->
  exec n p os init = Some s -> step n p (OEmplace t) s = Some s' -> exists x, tasks s' = x :: tasks s /\ b_arena x = emplaced t os mod n.
Proof.
  intros n p os s t s' N B E ST. destruct (C55_round_robin n p os s t s' E ST) as (x & T & A). exists x. split; auto.
  rewrite A, (N.mod_small _ _ B). rewrite <- (Nat2N.id (emplaced t os mod n)). f_equal. rewrite Nnat.Nat2N.inj_mod. auto.
Qed.

(** Four workers on four units, two threads, a resource: everything comes back;
    the same program on two units loses a block. *)
Definition prog : list op := [OBind 7; OEmplace 0; OEmplace 0; OEmplace 1; OEmplace 0; OFree 1; OFree 0; OFree 1; OUnbind 0; OFree 0].
Example C55_ex : exists s, exec 4 4 prog init = Some s /\ (tasks s, bound s, map (mem s) [0; 1; 2; 3], fresh s) = ([], [], [[]; []; []; []], 5).
Proof.
  assert (H : match exec 4 4 prog init with Some s => (tasks s, bound s, map (mem s) [0; 1; 2; 3], fresh s) = ([], [], [[]; []; []; []], 5) | None => False end)
    by (vm_compute; reflexivity).
  destruct (exec 4 4 prog init) as [s|]; [exists s; auto|contradiction].
Qed.
Example C55_ex_lost : exists s, exec 4 2 prog init = Some s /\ (tasks s, bound s, map (mem s) [0; 1; 2; 3], fresh s) = ([], [], [[]; []; [4]; []], 5).
Proof.
  assert (H : match exec 4 2 prog init with Some s => (tasks s, bound s, map (mem s) [0; 1; 2; 3], fresh s) = ([], [], [[]; []; [4]; []], 5) | None => False end)
    by (vm_compute; reflexivity).
  destruct (exec 4 2 prog init) as [s|]; [exists s; auto|contradiction].
Qed.

(** * C56 *)

(** With fewer than 32768 workers the loop ends and wakes the main thread and
    every worker, each once. *)
Lemma wake_small size i : (i <= size)%N -> (size < 32768)%N -> wake size (int16 i) = Some i.
Proof.
  intros A B. unfold int16. rewrite N.mod_small by lia. destruct (N.ltb_spec i 32768); [|lia]. unfold wake.
  destruct (Z.eqb_spec (Z.of_N i) 0); [f_equal; lia|]. destruct (Z.ltb_spec 0 (Z.of_N i)); [|lia].
  destruct (Z.leb_spec (Z.of_N i) (Z.of_N size)); [|lia]. simpl. f_equal. lia.
Qed.
Lemma wake_from k : (N.of_nat k < 32768)%N -> forall j i fuel, i + j = S k -> j < fuel ->
  wake_loop fuel (N.of_nat k) (N.of_nat i) = Some (map N.of_nat (seq i j)).
Proof.
  intros K. induction j as [|j IH]; intros i [|fuel] S F; try lia; simpl.
  - unfold wake_iter. destruct (N.leb_spec (N.of_nat i) (N.of_nat k)); [lia|reflexivity].
  - unfold wake_iter. destruct (N.leb_spec (N.of_nat i) (N.of_nat k)); [|lia]. rewrite wake_small by lia.
    rewrite N.mod_small by lia. replace (N.of_nat i + 1)%N with (N.of_nat (Datatypes.S i)) by lia. rewrite IH by lia. reflexivity.
Qed.
Theorem C56_wakes_everybody_once_partial : forall k fuel, (N.of_nat k < 32768)%N -> k + 1 < fuel ->
  wake_loop fuel (N.of_nat k) 0 = Some (map N.of_nat (seq 0 (k + 1))).
Proof. intros k fuel K F. apply (wake_from k K (k + 1) 0 fuel); lia. Qed.
(** The id of a worker leads to that worker. *)
Theorem C56_waker_id_partial : forall size w, (w < size)%N -> (size < 32768)%N -> wake size (waker_id w) = Some (w + 1)%N.
Proof. intros size w A B. apply wake_small; lia. Qed.
Example C56_ex : wake_loop 6 3 0 = Some [0; 1; 2; 3]%N /\ wake 3 (waker_id 2) = Some 3%N.
Proof. split; reflexivity. Qed.

(** With more, worker 32767 and those above are never woken, neither by wake_all ... *)
Lemma wake_bound size i x : wake size (int16 i) = Some x -> (x < 32768)%N.
Proof.
  unfold int16. assert (i mod 65536 < 65536)%N by (apply N.mod_lt; discriminate). set (y := (i mod 65536)%N) in *. clearbody y. unfold wake.
  destruct (N.ltb_spec y 32768).
  - destruct (Z.eqb_spec (Z.of_N y) 0); [intros [= <-]; lia|].
    destruct (_ && _); intros E; [injection E as <-|discriminate]. lia.
  - destruct (Z.eqb_spec (Z.of_N y - 65536) 0); [lia|]. destruct (Z.ltb_spec 0 (Z.of_N y - 65536)); [lia|]. discriminate.
Qed.
Theorem C56_wakes_everybody_refuted : forall size fuel i l w, wake_loop fuel size i = Some l -> (32767 <= w)%N -> ~ In (w + 1)%N l.
Proof.
  intros size fuel. induction fuel as [|f IH]; intros i l w E W; simpl in E; [discriminate|].
  destruct (wake_iter size i) as [[x i']|] eqn:WI; [|injection E as <-; auto].
  destruct (wake_loop f size i') as [l'|] eqn:E'; [|discriminate]. specialize (IH i' l' w E' W).
  unfold wake_iter in WI. destruct (i <=? size)%N; [|discriminate]. injection WI as WI _.
  destruct x as [x|]; injection E as <-; auto. intros [->|H]; auto. apply wake_bound in WI. lia.
Qed.
(** ... nor through its own id. *)
Theorem C56_waker_id_refuted : forall size, wake size (waker_id 32767) = None.
Proof. intros size. reflexivity. Qed.
(** From 65535 workers on the loop does not end. *)
Theorem C56_wake_all_ends_refuted : forall size fuel, (65535 <= size)%N -> wake_loop fuel size 0 = None.
Proof.
  intros size fuel S. assert (G : forall i, (i < 65536)%N -> wake_loop fuel size i = None); [|apply G; lia].
  induction fuel as [|f IH]; intros i I; auto. simpl. unfold wake_iter. destruct (N.leb_spec i size); [|lia].
  rewrite IH; auto. apply N.mod_lt. discriminate.
Qed.

Definition all_arena := (C55_memory_is_what_lives_partial, C55_all_returned_partial, C55_all_returned_refuted, C55_indices_in_range, C55_round_robin,
  C55_round_robin_small, C56_wakes_everybody_once_partial, C56_waker_id_partial, C56_wakes_everybody_refuted, C56_waker_id_refuted, C56_wake_all_ends_refuted).
Print Assumptions all_arena.
