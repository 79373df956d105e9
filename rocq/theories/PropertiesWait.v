(** C52: get() and barrier() return. *)
From Coq Require Import Bool List Arith Lia.
From Verif Require Import WaitModel WaitProof.
Import ListNotations.

(** barrier() of the thread that is in it returns once the last task of the root
    space was released: let all threads run on (with whatever new work) until
    none of them can move; then the call has returned.  With and without store
    buffer. *)
Theorem C52_barrier_returns : forall tso own s ms s', reach tso own s ->
  waits (pc s) = Some None -> cnt s = 0 -> exec tso own ms s = Some s' -> quiet own s' ->
  length (ret s) < length (ret s').
Proof.
  intros tso own s ms s' R W C E Q. apply (wait_returns tso own s ms s' None R W); auto.
  simpl. now rewrite C.
Qed.

(** get() returns once the result is set, if stores are visible at once.
    Missing: the store buffer, see [C52_get_returns_refuted]. *)
Theorem C52_get_returns_partial : forall own s ms s' e, reach false own s ->
  waits (pc s) = Some (Some e) -> ctr s e = 0 -> exec false own ms s = Some s' -> quiet own s' ->
  length (ret s) < length (ret s').
Proof.
  intros own s ms s' e R W C E Q. apply (wait_returns false own s ms s' (Some e) R W); auto.
  simpl. now rewrite C.
Qed.

(** The threads do come to such a point: without new work they make only
    finitely many accesses, and they never get stuck before. *)
Theorem C52_threads_come_to_rest : forall tso own s,
  (forall ms s', Forall internal ms -> exec tso own ms s = Some s' -> length ms <= mu s) /\
  exists ms s', Forall internal ms /\ exec tso own ms s = Some s' /\ quiet own s'.
Proof.
  intros tso own s. split; [|apply can_finish]. intros ms s' F E. pose proof (mu_exec tso own ms s s' F E). lia.
Qed.

(** get() returns only after the result was set. *)
Theorem C52_get_returns_only_when_set : forall tso own s e, reach tso own s -> In (Some e) (ret s) -> ctr s e = 0.
Proof. intros tso own s e R H. exact (i_ret _ _ _ (inv_reach _ _ _ R) _ H). Qed.

(** barrier() returns only when no task is left. *)
Theorem C52_barrier_returns_only_when_empty : forall tso own s s' m, step tso own m s = Some s' ->
  ret s' = None :: ret s -> cnt s' = 0.
Proof.
  intros tso own s s' m E H.
  assert (NE : ret s <> None :: ret s) by (intros X; apply (f_equal (@length _)) in X; simpl in X; lia).
  destruct m as [c| | | |e|p|i]; simpl in E.
  - unfold call_step in E. destruct (pc s); try discriminate.
    destruct c; [destruct (length (buf s) =? 0); [|discriminate]|destruct tso|]; injection E as <-; simpl in H; congruence.
  - unfold main_step in E. destruct (pc s) as [|w|w|w|w|w|w|w|w|w|w|]; try discriminate;
      repeat match type of E with (if ?b then _ else _) = _ => destruct b eqn:? end; try discriminate; injection E as <-; simpl in H; try congruence.
    injection H as ->. simpl in *. now apply Nat.eqb_eq.
  - unfold flush_step in E. destruct (buf s); [discriminate|]. injection E as <-. simpl in H. congruence.
  - destruct (pc s); try discriminate. injection E as <-. simpl in H. congruence.
  - destruct (ctr s e); [discriminate|]. injection E as <-. simpl in H. congruence.
  - destruct p; try discriminate; injection E as <-; simpl in H; congruence.
  - unfold note_step in E. destruct (nth_error (ns s) i) as [[e|e| | | | | |]|]; try discriminate;
      try (destruct (ctr s e); [discriminate|]); try (destruct (cnt s); [discriminate|]); try (destruct (mtx s); [discriminate|]);
      injection E as <-; simpl in H; congruence.
Qed.

(** Run-to-state helper for the examples. *)
Lemma exec_some tso own ms s (Q : st -> Prop) : match exec tso own ms s with Some s' => Q s' | None => False end ->
  exists s', exec tso own ms s = Some s' /\ Q s'.
Proof. destruct (exec tso own ms s) as [s'|]; [eauto|contradiction]. Qed.

(** get() is asleep when event 5 gets notified by one thread and event 3 by another; afterwards barrier() *)
Definition ex_wait : list move :=
  [MCall CSubmit; MCall (CGet 5); MMain; MMain; MMain; MMain; MMain; MMain; (* asleep *)
   MNew (NDec 3); MNew (NDec 5); MNote 0; MNote 1 (* result set *)].
Definition ex_wait2 : list move :=
  [MNote 0; MNote 1; MNote 1; MNote 1; MNote 1; MNote 1; MMain; MMain; MMain; MMain; MMain; MMain;
   MCall CBarrier; MMain; MMain; MNew NFree; MMain; MNote 2; MMain; MNote 2; MMain; MMain; MNote 2; MMain; MMain; MNote 2; MNote 2; MMain].
Example C52_ex : exists s s', reach false true s /\ waits (pc s) = Some (Some 5) /\ ctr s 5 = 0 /\ pc s = MAsleep (Some 5) /\
  exec false true ex_wait2 s = Some s' /\ quiet true s' /\ ret s' = [None; Some 5].
Proof.
  destruct (exec_some false true ex_wait init (fun s => waits (pc s) = Some (Some 5) /\ ctr s 5 = 0 /\ pc s = MAsleep (Some 5) /\
    match exec false true ex_wait2 s with Some s' => (main_step true s', buf s', ns s', ret s') = (None, [], [NDone; NDone; NDone], [None; Some 5]) | None => False end))
    as (s & E & A1 & A2 & A3 & A4).
  - vm_compute. auto.
  - destruct (exec false true ex_wait2 s) as [s'|] eqn:E'; [|contradiction]. injection A4 as B1 B2 B3 B4.
    exists s, s'. repeat split; auto.
    + eapply exec_reach; [apply r_init|exact E].
    + unfold flush_step. now rewrite B2.
    + intros i. unfold note_step. rewrite B3. destruct i as [|[|[|i]]]; auto. simpl. now destruct i.
Qed.

(** With the store buffer of x86 get() may sleep for ever although the result is
    set: [waker_id] is stored by a plain assignment and read by the notifying
    thread before the store left the buffer.  Neither spurious wake-ups nor
    further notifications of other events help. *)
Definition ex_lost : list move :=
  [MCall CSubmit; MCall (CGet 5); MMain; MNew (NDec 5); MNote 0; MNote 0; MMain; MMain; MFlush; MMain; MMain; MMain].
Theorem C52_get_returns_refuted : exists s, reach true true s /\
  pc s = MAsleep (Some 5) /\ ctr s 5 = 0 /\ wk s 5 = true /\ cnt s = 1 /\ quiet true s /\
  forall ms s', Forall only_events ms -> exec true true ms s = Some s' -> waits (pc s') = Some (Some 5) /\ ret s' = [].
Proof.
  destruct (exec_some true true ex_lost init (fun s => (pc s, ctr s 5, wk s 5, cnt s, buf s, ns s, sw s, ret s) =
     (MAsleep (Some 5), 0, true, 1, [], [NDone], true, []) /\ (forall x, wk s x = true -> x = 5)))
    as (s & E & A & WK).
  - vm_compute. split; [reflexivity|]. intros [|[|[|[|[|[|x]]]]]] H; try discriminate H; reflexivity.
  - injection A as A1 A2 A3 A4 A5 A6 A7 A8.
    assert (L5 : lost 5 s).
    { unfold lost. rewrite A1, A2, A5, A6, A7. split; [tauto|]. split; [auto|]. split; [auto|]. split; [intros x []|]. split; [exact WK|].
      intros p [<-|[]]. auto. }
    exists s. repeat split; auto.
    + eapply exec_reach; [apply r_init|exact E].
    + unfold main_step. now rewrite A1.
    + unfold flush_step. now rewrite A5.
    + intros i. unfold note_step. rewrite A6. destruct i as [|i]; auto. simpl. now destruct i.
    + assert (L : lost 5 s').
      { apply (lost_exec true true 5 ms s s'); auto. }
      destruct L as (P & _). decompose [or] P; match goal with H : pc s' = _ |- _ => rewrite H end; reflexivity.
    + assert (L : forall ms s s', lost 5 s -> Forall only_events ms -> exec true true ms s = Some s' -> ret s' = ret s).
      { clear. induction ms as [|m ms IH]; intros s s' L F E; simpl in E; [congruence|].
        destruct (step true true m s) as [s1|] eqn:S1; [|discriminate]. inversion F; subst.
        rewrite (IH s1 s'); auto; [|eapply lost_step; eauto].
        destruct L as (P & S & _). clear IH E F. destruct m as [c| | | |e|p|i]; simpl in S1.
        - unfold call_step in S1. decompose [or] P; rewrite H in S1 || rewrite H0 in S1; discriminate.
        - unfold main_step in S1. destruct P as [P|[P|[P|[P|[P|[P|P]]]]]]; rewrite P in S1; try discriminate;
            repeat match type of S1 with (if ?b then _ else _) = _ => destruct b end; try discriminate; injection S1 as <-; auto.
        - unfold flush_step in S1. destruct (buf s); [discriminate|]. injection S1 as <-. auto.
        - destruct (pc s); try discriminate. injection S1 as <-. auto.
        - destruct (ctr s e); [discriminate|]. injection S1 as <-. auto.
        - destruct p; try discriminate; injection S1 as <-; auto.
        - unfold note_step in S1. destruct (nth_error (ns s) i) as [[e|e| | | | | |]|]; try discriminate;
            try (destruct (ctr s e); [discriminate|]); try (destruct (cnt s); [discriminate|]); try (destruct (mtx s); [discriminate|]);
            injection S1 as <-; auto. }
      rewrite <- A8. apply (L ms s s'); auto.
Qed.

(** The thread that constructed the context never meets an empty [idle]. *)
Theorem C52_no_throw : forall tso s, reach tso true s -> pc s <> MThrown.
Proof. intros tso s R. exact (i_throw _ _ _ (inv_reach _ _ _ R) eq_refl). Qed.

(** Every other thread that is no worker gets an exception unless the result is
    set when it looks for the first time: it can wait neither for a future nor
    for the barrier. *)
Theorem C52_any_thread_may_wait_refuted : forall tso s w, pc s = MTest w -> is_done s w = false ->
  exists s', step tso false MMain s = Some s' /\ pc s' = MThrown.
Proof. intros tso s w P D. simpl. unfold main_step. rewrite P, D. eexists. split; reflexivity. Qed.
Example C52_ex_throw : exists s, reach false false s /\ pc s = MTest (Some 2) /\ is_done s (Some 2) = false.
Proof.
  exists (mkS (fun _ => 1) (upd (fun _ => false) 2 true) [] 0 true false (MTest (Some 2)) [] []). split; [|split; reflexivity].
  apply (r_step false false init (MCall (CGet 2))); [apply r_init|reflexivity].
Qed.

Definition all_wait := (C52_barrier_returns, C52_get_returns_partial, C52_threads_come_to_rest, C52_get_returns_only_when_set,
  C52_barrier_returns_only_when_empty, C52_get_returns_refuted, C52_no_throw, C52_any_thread_may_wait_refuted).
Print Assumptions all_wait.
