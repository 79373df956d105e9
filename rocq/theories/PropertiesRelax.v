(** Properties C53 (what is written under a spin lock is seen by its next holder)
    and C54 (no worker sleeps on a task, with the memory orders of cv.cpp). *)
From Coq Require Import Bool List Arith Lia.
From Verif Require Import RelaxModel RelaxProof.
Import ListNotations.

(** * C53 *)

(** At any time at most one thread is between lock() and unlock(). *)
Theorem C53_exclusion : forall s t i j, sl_reach s t -> pcs s i = In_ -> pcs s j = In_ -> i = j.
Proof. intros s t i j R. apply (l_one s (linv_reach s t R)). Qed.

(** A read inside returns what was written last, by whichever thread, though the
    reading thread knows about other threads only through the lock. *)
Theorem C53_reads_latest : forall s t i x v s', sl_reach s t -> sl_step s (LRead i x v) s' -> v = last_write t x.
Proof. exact read_latest. Qed.

(** ... and a read is always possible: a thread inside can read every variable. *)
Theorem C53_can_read : forall s t i x, sl_reach s t -> pcs s i = In_ -> exists v s', sl_step s (LRead i x v) s'.
Proof.
  intros s t i x R P. pose proof (l_cur s (linv_reach s t R) i P x) as C.
  destruct (nth_error (data s x) (tv s i x)) as [v|] eqn:E.
  - exists v. eexists. eapply l_read; eauto.
  - apply nth_error_None in E. lia.
Qed.

(** Thread 0 writes 7 to variable 3 and leaves, thread 1 fails once, enters and
    reads 7, while an old 0 is still in the history of the variable. *)
Example C53_ex : exists s t s', sl_reach s t /\ pcs s 1 = In_ /\ sl_step s (LRead 1 3 7) s' /\ data s 3 = [0; 7] /\ last_write t 3 = 7.
Proof.
  assert (R : exists s, sl_reach s [LTau; LTau; LTau; LTau; LTau; LWrite 0 3 7; LTau; LTau] /\
     pcs s 1 = In_ /\ data s 3 = [0; 7] /\ tv s 1 3 = 1).
  { unshelve epose proof (l1 _ _ _ _ l0 (l_call sl_init 0 _)) as R; [reflexivity || (left; reflexivity)..|].
    unshelve epose proof (l1 _ _ _ _ R (l_cas _ 0 _ _)) as R1; [reflexivity || (left; reflexivity)..|]. clear R. cbv [lk data tv pcs] in R1.
    unshelve epose proof (l1 _ _ _ _ R1 (l_write _ 0 3 7 _)) as R; [reflexivity || (left; reflexivity)..|]. clear R1. cbv [lk data tv pcs] in R.
    unshelve epose proof (l1 _ _ _ _ R (l_call _ 1 _)) as R1; [reflexivity || (left; reflexivity)..|]. clear R. cbv [lk data tv pcs] in R1.
    unshelve epose proof (l1 _ _ _ _ R1 (l_fail _ 1 _)) as R; [reflexivity || (left; reflexivity)..|]. clear R1. cbv [lk data tv pcs] in R.
    unshelve epose proof (l1 _ _ _ _ R (l_unlock _ 0 _)) as R1; [reflexivity || (left; reflexivity)..|]. clear R. cbv [lk data tv pcs] in R1.
    unshelve epose proof (l1 _ _ _ _ R1 (l_spin _ 1 false (fun _ => 0) _ _)) as R; [reflexivity || (left; reflexivity)..|]. clear R1. cbv [lk data tv pcs] in R.
    unshelve epose proof (l1 _ _ _ _ R (l_cas _ 1 _ _)) as R1; [reflexivity || (left; reflexivity)..|]. clear R. cbv [lk data tv pcs] in R1.
    eexists. split; [exact R1|]. clear R1. vm_compute. auto. }
  destruct R as (s & R & P & D & T). exists s. eexists. eexists.
  split; [exact R|]. split; [exact P|]. split; [apply (l_read s 1 3 1 7); auto; [lia|now rewrite D]|]. split; [exact D|reflexivity].
Qed.

(** * C54 *)

(** Statement in full: in every run, when neither the worker nor a notifying
    thread can move, no task is left in the queue of the worker.  Proved for the
    runs in which a failing compare_exchange has read the newest value, whatever
    values the acquire loads return. *)
Theorem C54_no_sleep_on_work_partial : forall s, reach fresh s -> quiet s -> q s = 0 /\ pc s = WAsleep.
Proof.
  intros s R Q. pose proof (cinv_reach s R) as I. split; [apply quiet_no_work|apply quiet_sleeps]; auto.
Qed.

(** The flag alone tells the truth: a worker asleep with a task in its queue will
    be woken by a thread that is about to notify it. *)
Theorem C54_wakeup_pending_partial : forall s, reach fresh s -> pc s = WAsleep -> 0 < q s ->
  exists p v, In (p, v) (ns s) /\ (p = NCas \/ p = NLock \/ p = NNotify).
Proof.
  intros s R P Q. pose proof (cinv_reach s R) as I. destruct (flag s) eqn:F.
  - destruct (c_work s I) as (v & IN); auto; [now rewrite P|]. eauto.
  - destruct (c_sleep s I P F) as [IN|(v & IN)]; eauto 6.
Qed.

Lemma leads_reach (ok : clab -> Prop) s s' : reach ok s -> leads ok s s' -> reach ok s'.
Proof. intros R L. induction L; auto. apply IHL. eapply r_step; eauto. Qed.


(** The worker falls asleep, a thread brings a task; the worker wakes, executes
    it and sleeps again: at rest without work. *)
Example C54_ex : exists s, reach fresh s /\ quiet s /\ sw s = [true; false; true].
Proof.
  exists (mkC [true; false; true] 2 2 false 0 WAsleep [(NDone, 1)]). split.
  - eapply leads_reach; [apply r_init|].
    eapply d_step; [apply s_worker; eapply (w_spin _ 0); simpl; reflexivity|discriminate|cbv [wset nset put sw wv mv mtx q pc ns length app Nat.max]].
    eapply d_step; [apply s_worker; eapply w_lock; simpl; auto|discriminate|cbv [wset nset put sw wv mv mtx q pc ns length app Nat.max]].
    eapply d_step; [apply s_worker; eapply (w_pred _ 0); simpl; reflexivity|discriminate|cbv [wset nset put sw wv mv mtx q pc ns length app Nat.max]].
    eapply d_step; [apply s_worker; eapply w_block; simpl; reflexivity|discriminate|cbv [wset nset put sw wv mv mtx q pc ns length app Nat.max]].
    eapply d_step; [apply (s_new _ 0); simpl; auto|discriminate|cbv [wset nset put sw wv mv mtx q pc ns length app Nat.max]].
    eapply d_step; [apply s_note; eapply (n_push _ 0); simpl; reflexivity|discriminate|cbv [wset nset put sw wv mv mtx q pc ns length app Nat.max]].
    eapply d_step; [apply s_note; eapply (n_cas _ 0); simpl; reflexivity|discriminate|cbv [wset nset put sw wv mv mtx q pc ns length app Nat.max]].
    eapply d_step; [apply s_note; eapply (n_lock _ 0); simpl; reflexivity|discriminate|cbv [wset nset put sw wv mv mtx q pc ns length app Nat.max]].
    eapply d_step; [apply s_note; eapply (n_notify _ 0); simpl; reflexivity|discriminate|cbv [wset nset put sw wv mv mtx q pc ns length app Nat.max]].
    eapply d_step; [apply s_note; eapply (n_unlock _ 0); simpl; reflexivity|discriminate|cbv [wset nset put sw wv mv mtx q pc ns length app Nat.max]].
    eapply d_step; [apply s_worker; eapply w_lock; simpl; auto|discriminate|cbv [wset nset put sw wv mv mtx q pc ns length app Nat.max]].
    eapply d_step; [apply s_worker; eapply (w_pred _ 1); simpl; try reflexivity; auto|discriminate|cbv [wset nset put sw wv mv mtx q pc ns length app Nat.max]].
    eapply d_step; [apply s_worker; eapply w_unlock; simpl; reflexivity|discriminate|cbv [wset nset put sw wv mv mtx q pc ns length app Nat.max]].
    eapply d_step; [apply s_worker; eapply (w_spin _ 1); simpl; try reflexivity; auto|discriminate|cbv [wset nset put sw wv mv mtx q pc ns length app Nat.max]].
    eapply d_step; [apply s_worker; eapply w_reset; simpl; reflexivity|discriminate|cbv [wset nset put sw wv mv mtx q pc ns length app Nat.max]].
    eapply d_step; [apply s_worker; eapply w_take; simpl; reflexivity|discriminate|cbv [wset nset put sw wv mv mtx q pc ns length app Nat.max]].
    eapply d_step; [apply s_worker; eapply w_empty; simpl; reflexivity|discriminate|cbv [wset nset put sw wv mv mtx q pc ns length app Nat.max]].
    eapply d_step; [apply s_worker; eapply (w_spin _ 2); simpl; try reflexivity; auto|discriminate|cbv [wset nset put sw wv mv mtx q pc ns length app Nat.max]].
    eapply d_step; [apply s_worker; eapply w_lock; simpl; auto|discriminate|cbv [wset nset put sw wv mv mtx q pc ns length app Nat.max]].
    eapply d_step; [apply s_worker; eapply (w_pred _ 2); simpl; try reflexivity; auto|discriminate|cbv [wset nset put sw wv mv mtx q pc ns length app Nat.max]].
    eapply d_step; [apply s_worker; eapply w_block; simpl; reflexivity|discriminate|cbv [wset nset put sw wv mv mtx q pc ns length app Nat.max]].
    apply d_refl.
  - split; [|reflexivity]. split.
    + intros s' W. inversion W; simpl in *; try discriminate. destruct H; discriminate.
    + intros l s' W. inversion W as [? i ? E|? i ? E|? i ? ? E|? i ? E|? i ? E|? i ? E]; simpl in E; destruct i as [|[|i]]; simpl in E; discriminate.
Qed.

(** a worker that has missed its task *)
Definition missed (s : cv) : Prop :=
  q s = 1 /\ (forall k, wv s <= k -> nth_error (sw s) k = Some false -> False) /\ (forall p v, In (p, v) (ns s) -> p = NDone) /\
  (pc s = WSpin \/ pc s = WLock \/ pc s = WPred \/ pc s = WBlock \/ pc s = WAsleep \/ pc s = WRelock).
Lemma missed_step s l s' : missed s -> step s l s' -> l <> LNew -> missed s'.
Proof.
  intros (Q & V & N & P) ST NL. destruct ST.
  - destruct H; try (exfalso; rewrite H in P; intuition discriminate); unfold missed; simpl.
    + destruct b; [|exfalso; eauto]. repeat split; auto 10. intros k' L E. apply (V k'); auto. lia.
    + repeat split; auto 10. intros k' L E. apply (V k'); auto. lia.
    + destruct b; [|exfalso; eauto]. repeat split; auto 10. intros k' L E. apply (V k'); auto. lia.
    + repeat split; auto 10.
  - exfalso. destruct H; match goal with H : nth_error (ns s) _ = _ |- _ => apply nth_error_In in H; apply N in H; discriminate end.
  - congruence.
  - unfold missed; simpl. repeat split; auto 10.
Qed.
Lemma missed_leads s s' : missed s -> leads (fun l => l <> LNew) s s' -> missed s'.
Proof. intros M L. induction L; auto. apply IHL. eapply missed_step; eauto. Qed.

(** In general it is false: the compare_exchange of the second notification may
    fail on the value left by the first one, after the worker has reset the flag
    and found its queue empty.  The task then stays in the queue of a sleeping
    worker for ever, spurious wake-ups notwithstanding, until somebody notifies
    the worker again. *)
Theorem C54_no_sleep_on_work_refuted : exists s, reach any s /\ quiet s /\ q s = 1 /\ pc s = WAsleep /\
  forall s', leads (fun l => l <> LNew) s s' -> q s' = 1.
Proof.
  exists (mkC [true; false; true] 2 2 false 1 WAsleep [(NDone, 1); (NDone, 1)]). split; [|split; [|split; [reflexivity|split; [reflexivity|]]]].
  - eapply leads_reach; [apply r_init|].
    eapply d_step; [apply (s_new _ 0); simpl; auto|exact I|cbv [wset nset put sw wv mv mtx q pc ns length app Nat.max]].
    eapply d_step; [apply (s_new _ 0); simpl; auto|exact I|cbv [wset nset put sw wv mv mtx q pc ns length app Nat.max]].
    eapply d_step; [apply s_note; eapply (n_push _ 0); simpl; reflexivity|exact I|cbv [wset nset put sw wv mv mtx q pc ns length app Nat.max]].
    eapply d_step; [apply s_note; eapply (n_cas _ 0); simpl; reflexivity|exact I|cbv [wset nset put sw wv mv mtx q pc ns length app Nat.max]].
    eapply d_step; [apply s_note; eapply (n_lock _ 0); simpl; reflexivity|exact I|cbv [wset nset put sw wv mv mtx q pc ns length app Nat.max]].
    eapply d_step; [apply s_note; eapply (n_notify _ 0); simpl; reflexivity|exact I|cbv [wset nset put sw wv mv mtx q pc ns length app Nat.max]].
    eapply d_step; [apply s_note; eapply (n_unlock _ 0); simpl; reflexivity|exact I|cbv [wset nset put sw wv mv mtx q pc ns length app Nat.max]].
    eapply d_step; [apply s_worker; eapply (w_spin _ 1); simpl; try reflexivity; auto|exact I|cbv [wset nset put sw wv mv mtx q pc ns length app Nat.max]].
    eapply d_step; [apply s_worker; eapply w_reset; simpl; reflexivity|exact I|cbv [wset nset put sw wv mv mtx q pc ns length app Nat.max]].
    eapply d_step; [apply s_worker; eapply w_take; simpl; reflexivity|exact I|cbv [wset nset put sw wv mv mtx q pc ns length app Nat.max]].
    eapply d_step; [apply s_worker; eapply w_empty; simpl; reflexivity|exact I|cbv [wset nset put sw wv mv mtx q pc ns length app Nat.max]].
    eapply d_step; [apply s_note; eapply (n_push _ 1); simpl; reflexivity|exact I|cbv [wset nset put sw wv mv mtx q pc ns length app Nat.max]].
    eapply d_step; [apply s_note; eapply (n_fail _ 1 0 1); simpl; try reflexivity; auto|exact I|cbv [wset nset put sw wv mv mtx q pc ns length app Nat.max]].
    eapply d_step; [apply s_note; eapply (n_lock _ 1); simpl; reflexivity|exact I|cbv [wset nset put sw wv mv mtx q pc ns length app Nat.max]].
    eapply d_step; [apply s_note; eapply (n_notify _ 1); simpl; reflexivity|exact I|cbv [wset nset put sw wv mv mtx q pc ns length app Nat.max]].
    eapply d_step; [apply s_note; eapply (n_unlock _ 1); simpl; reflexivity|exact I|cbv [wset nset put sw wv mv mtx q pc ns length app Nat.max]].
    eapply d_step; [apply s_worker; eapply (w_spin _ 2); simpl; try reflexivity; auto|exact I|cbv [wset nset put sw wv mv mtx q pc ns length app Nat.max]].
    eapply d_step; [apply s_worker; eapply w_lock; simpl; auto|exact I|cbv [wset nset put sw wv mv mtx q pc ns length app Nat.max]].
    eapply d_step; [apply s_worker; eapply (w_pred _ 2); simpl; try reflexivity; auto|exact I|cbv [wset nset put sw wv mv mtx q pc ns length app Nat.max]].
    eapply d_step; [apply s_worker; eapply w_block; simpl; reflexivity|exact I|cbv [wset nset put sw wv mv mtx q pc ns length app Nat.max]].
    apply d_refl.
  - split.
    + intros s' W. inversion W; simpl in *; try discriminate. destruct H; discriminate.
    + intros l s' W. inversion W as [? i ? E|? i ? E|? i ? ? E|? i ? E|? i ? E|? i ? E]; simpl in E; destruct i as [|[|[|i]]]; simpl in E; discriminate.
  - intros s' L. assert (M : missed s'); [|apply M]. eapply missed_leads; [|exact L].
    unfold missed; simpl. repeat split; auto 6.
    + intros [|[|[|k]]] L1 E; simpl in *; try discriminate; try lia. destruct k; discriminate.
    + intros p v [[= <- <-]|[[= <- <-]|[]]]; auto.
Qed.

Definition all_relax := (C53_exclusion, C53_reads_latest, C53_can_read, C54_no_sleep_on_work_partial, C54_wakeup_pending_partial,
  C54_no_sleep_on_work_refuted).
Print Assumptions all_relax.
