(** Applications: 16-bit counters, and the pool of workers. *)
From Coq Require Import Bool List Arith NArith ZArith Lia.
From Verif Require Import AccessModel AccessSpec UserModel SchedModel SchedSpec SchedBase SchedInv1 SchedInv2 SchedInv8 SchedFront SchedThm SchedLive SchedTerm SchedSeq SchedMore SchedEx
  PropertiesSched PoolModel PoolProof PropertiesPool AppModel AppProof.
Import ListNotations.
Open Scope nat_scope.

(** ** How often resource [x] is named in the calls [js] *)
Definition ids (j : job) : list nat := map (fun a => r_id (a_res a)) (j_acc j).
Definition cnt (x : nat) (js : list job) : nat := list_sum (map (fun j => count_occ Nat.eq_dec (ids j) x) js).
Lemma list_sum_app l1 l2 : list_sum (l1 ++ l2) = list_sum l1 + list_sum l2.
Proof. induction l1; simpl; lia. Qed.
Lemma cnt_app x l1 l2 : cnt x (l1 ++ l2) = cnt x l1 + cnt x l2.
Proof. unfold cnt. now rewrite map_app, list_sum_app. Qed.
Lemma cnt_flat {A} x (f : A -> list job) l : cnt x (flat_map f l) = list_sum (map (fun a => cnt x (f a)) l).
Proof. induction l as [|a l IH]; [reflexivity|]. simpl. now rewrite cnt_app, IH. Qed.
Lemma cnt_map {A} x (f : A -> job) l : cnt x (map f l) = list_sum (map (fun a => count_occ Nat.eq_dec (ids (f a)) x) l).
Proof. unfold cnt. now rewrite map_map. Qed.

Lemma count_rev (l : list nat) x : count_occ Nat.eq_dec (rev l) x = count_occ Nat.eq_dec l x.
Proof. induction l as [|y l IH]; [reflexivity|]. simpl rev. rewrite count_occ_app, IH. simpl. destruct (Nat.eq_dec y x); lia. Qed.
Lemma uniq_app js w t : uniq (app js w) t = match nth_error js t with Some j => rev (ids j) | None => [] end.
Proof. unfold uniq, user. simpl. destruct (nth_error js t) as [j|]; [apply task_uniq|reflexivity]. Qed.
Lemma mentions_app js w x : mentions (app js w) (length js) x = cnt x js.
Proof.
  unfold mentions, cnt. f_equal.
  assert (H : forall k ts, (forall i, nth_error ts i = nth_error js (k + i)) ->
    map (fun t => count_occ Nat.eq_dec (uniq (app js w) t) x) (seq k (length ts)) = map (fun j => count_occ Nat.eq_dec (ids j) x) ts).
  { intros k ts. revert k. induction ts as [|j ts IH]; intros k E; [reflexivity|]. simpl. f_equal.
    - rewrite uniq_app. specialize (E 0). rewrite Nat.add_0_r in E. rewrite <- E. simpl. apply count_rev.
    - apply IH. intros i. specialize (E (S i)). simpl in E. rewrite E. f_equal. lia. }
  apply (H 0 js). reflexivity.
Qed.

(** ** 16-bit counters *)
Definition few (js : list job) : Prop := forall j, In j js -> (2 + Z.of_nat (list_sum (map (fun x => cnt x js) (ids j))) <= 65535)%Z.
Lemma list_sum_rev l : list_sum (rev l) = list_sum l.
Proof. induction l as [|x l IH]; [reflexivity|]. simpl rev. rewrite list_sum_app. simpl. lia. Qed.
Lemma app_bounded js w : bounded (app js w) (length js).
Proof.
  intros [t|] c H.
  - destruct (body_only_acts js w t _ H). discriminate.
  - assert (Q : In c (spawns (p_main (app js w)))) by now apply spawns_in. rewrite main_spawns in Q. apply in_seq in Q. lia.
Qed.
Lemma made_none l : (forall i, In i l -> exists a, i = IAct a) -> made l = [].
Proof. induction l as [|i l IH]; intros H; [easy|]. destruct (H i (or_introl eq_refl)) as [a ->]. simpl. apply IH. intros. apply H. now right. Qed.

Lemma app_limits js : few js -> forall t,
  (2 + mass (app js false) (length js) (uniq (app js true) t) <= 65535)%Z /\
  (1 + len (made (body (app js true) (Some t))) + len (spawns (body (app js true) (Some t))) <= 65535)%Z.
Proof.
  intros F t. split.
  - rewrite mass_sum. rewrite uniq_app. destruct (nth_error js t) as [j|] eqn:E; [|simpl; lia].
    rewrite map_rev, list_sum_rev. rewrite (map_ext _ (fun x => cnt x js) (mentions_app js false)). apply F. now apply nth_error_In in E.
  - rewrite made_none by apply body_only_acts. rewrite app_flat. unfold len. simpl. lia.
Qed.
Lemma app_small js n s : sound_app js -> few js -> reach (app js false) n s -> forall e, (0 <= ctr s e <= 65535)%Z.
Proof.
  intros OK F R. assert (W := app_wf js false OK).
  apply (counters_small (app js true) (length js) n W (app_bounded js false) (app_limits js F)). exact (flat_greach _ W eq_refl n s (app_flat js false) R).
Qed.
Lemma app_narrow js n s : sound_app js -> few js -> reach (app js true) n s <-> reach (app js false) n s.
Proof. intros OK F. apply (transfer (app js true) n). intros s' R. exact (app_small js n s' OK F R). Qed.
Lemma narrow js s f s1 fr : fstep (app js false) s f = Some (s1, fr) -> (forall e, (0 <= ctr s1 e <= 65535)%Z) -> fstep (app js true) s f = Some (s1, fr).
Proof. exact (fstep_narrow (app js true) s f s1 fr). Qed.
Lemma narrow_none js s f : fstep (app js false) s f = None -> fstep (app js true) s f = None.
Proof. exact (fstep_none (app js true) s f). Qed.
Lemma app_stuck js n s : sound_app js -> few js -> reach (app js false) n s -> stuck (app js true) s -> stuck (app js false) s.
Proof.
  intros OK F R K i c. destruct (step (app js false) s i c) as [s'|] eqn:E; auto. exfalso.
  assert (R' : reach (app js false) n s') by (econstructor; eauto). assert (B := app_small js n s' OK F R').
  specialize (K i c). unfold step in *. destruct (nth_error (thr s) i) as [[|f fs]|]; try congruence.
  destruct (fstep (app js false) s f) as [[s1 fr]|] eqn:E1; [|discriminate].
  rewrite (narrow js s f s1 fr E1) in K; [discriminate|]. injection E as <-. exact B.
Qed.
Lemma app_stuck_back js s : stuck (app js false) s -> stuck (app js true) s.
Proof.
  intros K i c. specialize (K i c). unfold step in *. destruct (nth_error (thr s) i) as [[|f fs]|]; auto.
  destruct (fstep (app js false) s f) as [[s1 fr]|] eqn:E1; [discriminate|]. now rewrite (narrow_none js s f E1).
Qed.
(** an execution with either kind of counters is one with ideal counters *)
Lemma app_ideal js w n s : sound_app js -> (w = true -> few js) -> reach (app js w) n s -> stuck (app js w) s ->
  reach (app js false) n s /\ stuck (app js false) s.
Proof.
  intros OK F R K. destruct w; [|auto]. assert (R' := proj1 (app_narrow js n s OK (F eq_refl)) R). split; [exact R'|]. exact (app_stuck js n s OK (F eq_refl) R' K).
Qed.
Lemma app_run js w n l s : sound_app js -> (w = true -> few js) -> run (app js w) (init (app js w) n) l = Some s -> run (app js false) (init (app js false) n) l = Some s.
Proof.
  intros OK F. destruct w; [|auto]. specialize (F eq_refl).
  assert (H : forall l s0 s1, reach (app js false) n s0 -> run (app js true) s0 l = Some s1 -> run (app js false) s0 l = Some s1).
  { clear l s. induction l as [|[i c] l IH]; intros s0 s1 R H; simpl in *; auto.
    destruct (step (app js true) s0 i c) as [s2|] eqn:E; [|discriminate].
    destruct (step (app js false) s0 i c) as [s3|] eqn:E2.
    - assert (R3 : reach (app js false) n s3) by (econstructor; eauto).
      assert (Q : step (app js true) s0 i c = Some s3).
      { assert (B := app_small js n s3 OK F R3). unfold step in *. destruct (nth_error (thr s0) i) as [[|f fs]|]; auto.
        destruct (fstep (app js false) s0 f) as [[s4 fr]|] eqn:E1; [|discriminate].
        rewrite (narrow js s0 f s4 fr E1); [exact E2|]. injection E2 as <-. exact B. }
      rewrite E in Q. injection Q as ->. exact (IH _ _ R3 H).
    - exfalso. unfold step in *. destruct (nth_error (thr s0) i) as [[|f fs]|]; try congruence.
      destruct (fstep (app js false) s0 f) as [[s4 fr]|] eqn:E1; [discriminate|]. now rewrite (narrow_none js s0 f E1) in E. }
  apply (H l (init (app js false) n) s). constructor.
Qed.

(** ** The pool: n workers, m threads that only wait *)
Lemma app_pool js n m k c : sound_app js -> 1 <= n -> 1 <= m -> psteps (app js false) n m false k c -> pstuck (app js false) n m c ->
  exists s, reach (app js false) (n + m) s /\ stuck (app js false) s /\ log s = log (core c) /\ all_frames s = all_frames (core c).
Proof.
  intros OK Hn Hm H K. assert (W := app_wf js false OK).
  destruct (pruns_greach (app js false) n m false k c W eq_refl (conj H (or_intror (app_flat js false)))) as (I & a & s & G & Sm & _).
  apply gsteps_greach in G. assert (ST := pstuck_stuck _ n m c s W eq_refl Hn Hm I G Sm K).
  assert (R : reach (app js false) (n + m) s) by (clear -G; induction G; econstructor; eauto).
  exists s. split; [exact R|]. split; [exact ST|]. destruct Sm as (e & r & -> & _ & _). split; reflexivity.
Qed.
