(** Waiting: invariant, termination measure, the lost wake-up. *)
From Coq Require Import Bool List Arith Lia.
From Verif Require Import WaitModel.
Import ListNotations.

Lemma put_in {A} (l : list A) : forall i x y, nth_error l i = Some y -> In x (put l i x).
Proof. induction l as [|z l IH]; intros [|i] x y E; try discriminate; simpl; eauto. Qed.
Lemma put_keep {A} (l : list A) : forall i x y z, nth_error l i = Some y -> In z l -> z <> y -> In z (put l i x).
Proof.
  induction l as [|a l IH]; intros [|i] x y z E H N; try discriminate; simpl in *.
  - injection E as ->. destruct H; [congruence|auto].
  - destruct H; eauto.
Qed.
Lemma put_inv {A} (l : list A) : forall i x z, In z (put l i x) -> z = x \/ In z l.
Proof. induction l as [|a l IH]; intros [|i] x z H; simpl in *; auto. - destruct H; auto. - destruct H as [H|H]; auto. destruct (IH i x z H); auto. Qed.

Fixpoint tot {A} (f : A -> nat) (l : list A) : nat := match l with [] => 0 | x :: l => f x + tot f l end.
Lemma tot_put {A} (f : A -> nat) (l : list A) : forall i x y, nth_error l i = Some y -> tot f (put l i x) + f y = tot f l + f x.
Proof.
  induction l as [|z l IH]; intros [|i] x y E; try discriminate; simpl in *; [injection E as ->; lia|].
  specialize (IH i x y E). lia.
Qed.
Lemma tot_app {A} (f : A -> nat) l m : tot f (l ++ m) = tot f l + tot f m.
Proof. induction l as [|x l IH]; simpl; auto. rewrite IH. lia. Qed.
Lemma tot_in {A} (f : A -> nat) l x : In x l -> f x <= tot f l.
Proof. induction l as [|y l IH]; simpl; intros []; [subst; lia|]. specialize (IH H). lia. Qed.

Definition b2n (b : bool) := if b then 1 else 0.
Definition mholds (p : mpc) : bool := match p with MPred _ | MBlock _ | MUnlock _ => true | _ => false end.
Definition nholds (p : npc) : nat := match p with NNotify | NUnlock => 1 | _ => 0 end.
(** inside cv.wait *)
Definition idles (p : mpc) : option wait :=
  match p with
  | MSpin w | MLoad w | MLock w | MPred w | MBlock w | MAsleep w | MRelock w | MUnlock w | MReset w => Some w
  | _ => None
  end.
Lemma idles_waits p w : idles p = Some w -> waits p = Some w.
Proof. destruct p; simpl; congruence. Qed.
Definition pending (s : st) (w : wait) : Prop := In NCas (ns s) \/ exists e, w = Some e /\ In (NWaker e) (ns s).

Record inv (tso own : bool) (s : st) : Prop := mkInv {
  i_mtx : b2n (mholds (pc s)) + tot nholds (ns s) = b2n (mtx s);
  i_sleep : forall w, pc s = MAsleep w -> sw s = false -> In NLock (ns s) \/ In NNotify (ns s);
  i_reset : forall w, pc s = MReset w -> sw s = false;
  i_reg : tso = false -> forall e, waits (pc s) = Some (Some e) -> wk s e = true;
  i_wake : forall w, idles (pc s) = Some w -> is_done s w = true -> (w = None \/ tso = false) -> sw s = true -> pending s w;
  i_block : forall w, pc s = MBlock w -> sw s = false -> In NLock (ns s);
  i_ret : forall w, In w (ret s) -> match w with Some e => ctr s e = 0 | None => True end;
  i_buf : tso = false -> buf s = [];
  i_throw : own = true -> pc s <> MThrown }.

Lemma inv_init tso own : inv tso own init.
Proof. constructor; simpl; try discriminate; try (intros; discriminate); try (exact WK); try (intros v0 A0 B0 C0 _; exact (WK v0 A0 B0 C0 eq_refl)); auto; try tauto. Qed.

Ltac usep H := match type of H with context [nth_error ?l ?i] => idtac end.

Lemma inv_main tso own s s' : inv tso own s -> main_step own s = Some s' -> inv tso own s'.
Proof.
  intros [M SL RS RG WK BL RT BF TH] E. unfold main_step in E.
  assert (LB : forall (r : st), (if length (buf s) =? 0 then Some r else None) = Some s' -> r = s')
    by (intros r; destruct (length (buf s) =? 0); congruence).
  destruct (pc s) as [|w|w|w|w|w|w|w|w|w|w|] eqn:P; try discriminate; simpl in *.
  - destruct (is_done s w) eqn:D; injection E as <-.
    + constructor; simpl; try discriminate; try (intros; discriminate); try (exact WK); try (intros v0 A0 B0 C0 _; exact (WK v0 A0 B0 C0 eq_refl)); auto. intros v [<-|H]; [|exact (RT v H)]. destruct w as [e|]; auto.
      simpl in D. now apply Nat.eqb_eq in D.
    + destruct own; constructor; simpl; try discriminate; try (intros; discriminate); try (exact WK); try (intros v0 A0 B0 C0 _; exact (WK v0 A0 B0 C0 eq_refl)); auto.
      intros v [= <-] D'. unfold is_done in *. simpl in D'. congruence.
  - injection E as <-. destruct (sw s) eqn:W; constructor; simpl; try discriminate; try (intros; discriminate); try (exact WK); try (intros v0 A0 B0 C0 _; exact (WK v0 A0 B0 C0 eq_refl)); auto; try congruence.
  - injection E as <-. destruct (sw s) eqn:W; constructor; simpl; try discriminate; try (intros; discriminate); try (exact WK); try (intros v0 A0 B0 C0 _; exact (WK v0 A0 B0 C0 eq_refl)); auto; try congruence.
  - destruct (mtx s) eqn:X; [discriminate|]. apply LB in E. subst s'.
    constructor; simpl; try discriminate; try (intros; discriminate); try (exact WK); try (intros v0 A0 B0 C0 _; exact (WK v0 A0 B0 C0 eq_refl)); auto; try (simpl in M; lia).
  - injection E as <-. destruct (sw s) eqn:W; constructor; simpl; try discriminate; try (intros; discriminate); try (exact WK); try (intros v0 A0 B0 C0 _; exact (WK v0 A0 B0 C0 eq_refl)); auto; try congruence.
  - injection E as <-. destruct (mtx s) eqn:X; simpl in M; constructor; simpl; try discriminate; try (intros; discriminate); try (exact WK); try (intros v0 A0 B0 C0 _; exact (WK v0 A0 B0 C0 eq_refl)); auto; try lia.
    intros v [= <-] W. left. eauto.
  - destruct (mtx s) eqn:X; [discriminate|]. apply LB in E. subst s'.
    constructor; simpl; try discriminate; try (intros; discriminate); try (exact WK); try (intros v0 A0 B0 C0 _; exact (WK v0 A0 B0 C0 eq_refl)); auto; try (simpl in M; lia).
  - injection E as <-. destruct (mtx s) eqn:X; simpl in M; constructor; simpl; try discriminate; try (intros; discriminate); try (exact WK); try (intros v0 A0 B0 C0 _; exact (WK v0 A0 B0 C0 eq_refl)); auto; try lia.
  - apply LB in E. subst s'. constructor; simpl; try discriminate; try (intros; discriminate); try (exact WK); try (intros v0 A0 B0 C0 _; exact (WK v0 A0 B0 C0 eq_refl)); auto.
Qed.

Lemma inv_call tso own c s s' : inv tso own s -> call_step tso c s = Some s' -> inv tso own s'.
Proof.
  intros [M SL RS RG WK BL RT BF TH] E. unfold call_step in E.
  destruct (pc s) as [|w|w|w|w|w|w|w|w|w|w|] eqn:P; try discriminate.
  destruct c as [|e|].
  - destruct (length (buf s) =? 0); [|discriminate]. injection E as <-. constructor; simpl; try discriminate; try (intros; discriminate); try (exact WK); try (intros v0 A0 B0 C0 _; exact (WK v0 A0 B0 C0 eq_refl)); auto.
  - injection E as <-. destruct tso; constructor; simpl; try discriminate; try (intros; discriminate); try (exact WK); try (intros v0 A0 B0 C0 _; exact (WK v0 A0 B0 C0 eq_refl)); auto.
    intros _ e' [= <-]. unfold upd. now rewrite Nat.eqb_refl.
  - injection E as <-. constructor; simpl; try discriminate; try (intros; discriminate); try (exact WK); try (intros v0 A0 B0 C0 _; exact (WK v0 A0 B0 C0 eq_refl)); auto.
Qed.

Lemma inv_note tso own i s s' : inv tso own s -> note_step i s = Some s' -> inv tso own s'.
Proof.
  intros [M SL RS RG WK BL RT BF TH] E. unfold note_step in E.
  destruct (nth_error (ns s) i) as [p|] eqn:N; [|discriminate].
  assert (TP := fun x => tot_put nholds (ns s) i x p N).
  assert (KP := fun x z => put_keep (ns s) i x p z N).
  assert (PI := fun x => put_in (ns s) i x p N).
  assert (PK : forall x w, pending s w -> p <> NCas -> (forall e, p <> NWaker e) ->
     In NCas (put (ns s) i x) \/ exists e, w = Some e /\ In (NWaker e) (put (ns s) i x)).
  { intros x w [H|(e & W & H)] D1 D2; [left; apply KP; congruence|right; exists e; split; auto; apply KP; congruence]. }
  destruct p as [e|e| | | | | |]; try discriminate; simpl in *.
  - destruct (ctr s e) as [|k] eqn:C; [discriminate|]. injection E as <-.
    assert (TP' : tot nholds (put (ns s) i (if k <=? 1 then NWaker e else NDone)) = tot nholds (ns s)).
    { specialize (TP (if k <=? 1 then NWaker e else NDone)). destruct (k <=? 1); simpl in TP; lia. }
    constructor; simpl; auto.
    + lia.
    + intros w P W. destruct (SL w P W); [left|right]; apply KP; congruence.
    + intros w I D T W. unfold pending. simpl.
      destruct w as [e'|].
      * simpl in D. unfold upd in D. destruct (e' =? e) eqn:Q.
        -- apply Nat.eqb_eq in Q, D. subst. right. exists e. split; auto.
        -- apply PK; try discriminate; try congruence; apply WK; auto.
      * apply PK; try discriminate; try congruence; apply WK; auto.
    + intros w P W. apply KP; [eauto|discriminate].
    + intros [e'|] H; auto. specialize (RT _ H). simpl in RT. unfold upd. destruct (e' =? e) eqn:Q; auto.
      apply Nat.eqb_eq in Q. subst. congruence.
  - injection E as <-.
    assert (TP' : tot nholds (put (ns s) i (if wk s e then NCas else NDone)) = tot nholds (ns s)).
    { specialize (TP (if wk s e then NCas else NDone)). destruct (wk s e); simpl in TP; lia. }
    constructor; simpl; auto.
    + lia.
    + intros w P W. destruct (SL w P W); [left|right]; apply KP; congruence.
    + intros w I D T W. destruct (WK w I D T W) as [H|(e' & -> & H)]; unfold pending; simpl.
      * left. apply KP; congruence.
      * destruct (Nat.eq_dec e' e) as [->|Ne].
        -- destruct T as [T|T]; [discriminate|]. left.
           assert (RE : wk s e = true). { apply RG; auto. now apply idles_waits. }
           specialize (PI (if wk s e then NCas else NDone)). rewrite RE in PI at 1. exact PI.
        -- right. exists e'. split; auto. apply KP; congruence.
    + intros w P W. apply KP; [eauto|discriminate].
  - destruct (cnt s) as [|k] eqn:C; [discriminate|]. injection E as <-.
    assert (TP' : tot nholds (put (ns s) i (if k =? 0 then NCas else NDone)) = tot nholds (ns s)).
    { specialize (TP (if k =? 0 then NCas else NDone)). destruct (k =? 0); simpl in TP; lia. }
    constructor; simpl; auto.
    + lia.
    + intros w P W. destruct (SL w P W); [left|right]; apply KP; congruence.
    + intros w I D T W. unfold pending. simpl.
      destruct w as [e'|].
      * apply PK; try discriminate; apply WK; auto.
      * simpl in D. left. specialize (PI (if k =? 0 then NCas else NDone)). rewrite D in PI at 1. exact PI.
    + intros w P W. apply KP; [eauto|discriminate].
  - injection E as <-. specialize (TP NLock). simpl in TP. constructor; simpl; auto.
    + lia.
    + congruence.
  - destruct (mtx s) eqn:X; [discriminate|]. injection E as <-. specialize (TP NNotify). simpl in TP. constructor; simpl; auto.
    + simpl in M. lia.
    + intros w I D T W. apply PK; try discriminate; try congruence; apply WK; auto.
    + intros w P W. rewrite P in M. simpl in M. lia.
  - injection E as <-. specialize (TP NUnlock). simpl in TP.
    assert (L : 1 <= tot nholds (ns s)) by (apply (tot_in nholds (ns s) NNotify), nth_error_In with i; auto).
    assert (MH : mholds (match pc s with MAsleep w => MRelock w | q => q end) = mholds (pc s)) by (destruct (pc s); auto).
    constructor; simpl; auto; try rewrite MH.
    + lia.
    + intros w P. destruct (pc s); discriminate.
    + intros w P. apply (RS w). destruct (pc s); auto; discriminate.
    + intros T e I. apply RG; auto. destruct (pc s); auto.
    + intros w I D T W. apply PK; try discriminate; try congruence; apply WK; auto. destruct (pc s); auto.
    + intros w P W. apply KP; [|discriminate]. apply (BL w); auto. destruct (pc s); auto; discriminate.
    + intros O. specialize (TH O). destruct (pc s); congruence.
  - injection E as <-. specialize (TP NDone). simpl in TP.
    assert (L : 1 <= tot nholds (ns s)) by (apply (tot_in nholds (ns s) NUnlock), nth_error_In with i; auto).
    constructor; simpl; auto.
    + destruct (mtx s); simpl in M; lia.
    + intros w P W. destruct (SL w P W); [left|right]; apply KP; congruence.
    + intros w I D T W. apply PK; try discriminate; try congruence; apply WK; auto.
    + intros w P W. apply KP; [eauto|discriminate].
Qed.

Lemma inv_step tso own m s s' : inv tso own s -> step tso own m s = Some s' -> inv tso own s'.
Proof.
  intros I E. destruct m as [c| | | |e|p|i]; simpl in E.
  - eapply inv_call; eauto.
  - eapply inv_main; eauto.
  - unfold flush_step in E. destruct I as [M SL RS RG WK BL RT BF TH].
    destruct (buf s) as [|e l] eqn:B; [discriminate|]. injection E as <-. constructor; simpl; auto.
    + intros T. specialize (BF T). discriminate.
    + intros T. specialize (BF T). discriminate.
  - destruct I as [M SL RS RG WK BL RT BF TH].
    destruct (pc s) eqn:P; try discriminate. injection E as <-. constructor; simpl; try discriminate; try (intros; discriminate); try (exact WK); try (intros v0 A0 B0 C0 _; exact (WK v0 A0 B0 C0 eq_refl)); auto.
  - destruct I as [M SL RS RG WK BL RT BF TH]. destruct (ctr s e) as [|k] eqn:C; [discriminate|]. injection E as <-.
    constructor; simpl; auto.
    + intros w I D T W. unfold pending. apply WK; auto. destruct w as [e'|]; auto. simpl in *. unfold upd in D.
      destruct (e' =? e) eqn:Q; auto. discriminate.
    + intros [e'|] H; auto. specialize (RT _ H). simpl in RT. unfold upd. destruct (e' =? e) eqn:Q; auto.
      apply Nat.eqb_eq in Q. subst. congruence.
  - destruct I as [M SL RS RG WK BL RT BF TH].
    assert (T0 : nholds p = 0) by (destruct p; auto; discriminate).
    assert (E' : mkS (ctr s) (wk s) (buf s) (cnt s) (sw s) (mtx s) (pc s) (ns s ++ [p]) (ret s) = s') by (destruct p; congruence).
    clear E. subst s'. constructor; simpl; auto.
    + rewrite tot_app. simpl. lia.
    + intros w P W. destruct (SL w P W); [left|right]; apply in_or_app; auto.
    + intros w I D T W. destruct (WK w I D T W) as [H|(e & Q & H)]; [left|right; exists e; split; auto]; apply in_or_app; auto.
    + intros w P W. apply in_or_app. eauto.
  - eapply inv_note; eauto.
Qed.
Lemma inv_reach tso own s : reach tso own s -> inv tso own s.
Proof. induction 1; [apply inv_init|eapply inv_step; eauto]. Qed.

Lemma exec_inv tso own ms : forall s s', inv tso own s -> exec tso own ms s = Some s' -> inv tso own s'.
Proof.
  induction ms as [|m ms IH]; intros s s' I E; simpl in E; [congruence|].
  destruct (step tso own m s) as [s1|] eqn:S1; [|discriminate]. eapply IH; [|eauto]. eapply inv_step; eauto.
Qed.
Lemma exec_reach tso own ms : forall s s', reach tso own s -> exec tso own ms s = Some s' -> reach tso own s'.
Proof.
  induction ms as [|m ms IH]; intros s s' I E; simpl in E; [congruence|].
  destruct (step tso own m s) as [s1|] eqn:S1; [|discriminate]. eapply IH; [|eauto]. eapply r_step; eauto.
Qed.
Lemma exec_app tso own ms ms' : forall s, exec tso own (ms ++ ms') s = match exec tso own ms s with Some s1 => exec tso own ms' s1 | None => None end.
Proof. induction ms as [|m ms IH]; intros s; simpl; auto. destruct (step tso own m s); auto. Qed.

(** ** A wait whose condition holds ends *)
Definition going (w : wait) (r : nat) (s : st) : Prop :=
  r < length (ret s) \/ (waits (pc s) = Some w /\ is_done s w = true).
Lemma going_step tso own w r m s s' : r <= length (ret s) -> going w r s -> step tso own m s = Some s' -> r <= length (ret s') /\ going w r s'.
Proof.
  intros L G E.
  assert (X : length (ret s) <= length (ret s') /\ (waits (pc s) = Some w -> is_done s w = true -> going w (length (ret s)) s')).
  { clear L G. destruct m as [c| | | |e|p|i]; simpl in E.
    - unfold call_step in E. destruct (pc s) eqn:P; try discriminate.
      split; [|simpl; discriminate]. destruct c; [destruct (length (buf s) =? 0); [|discriminate]|destruct tso|];
        injection E as <-; simpl; auto.
    - unfold main_step in E. destruct (pc s) as [|v|v|v|v|v|v|v|v|v|v|] eqn:P; try discriminate; simpl in *;
        repeat match type of E with
        | (if ?b then _ else _) = _ => destruct b eqn:?
        end; try discriminate; injection E as <-; simpl; split; try lia; intros [= <-] D; try (right; simpl; split; auto; fail).
      + left. simpl. lia.
      + congruence.
      + right. simpl. destruct (sw s); auto.
      + right. simpl. destruct (sw s); auto.
      + right. simpl. destruct (sw s); auto.
    - unfold flush_step in E. destruct (buf s); [discriminate|]. injection E as <-. simpl. split; auto. right; auto.
    - destruct (pc s) eqn:P; try discriminate. injection E as <-. simpl. split; auto. intros [= <-] D. right; auto.
    - destruct (ctr s e) as [|k] eqn:C; [discriminate|]. injection E as <-. simpl. split; auto. intros W D. right. split; auto.
      destruct w as [e'|]; simpl in *; auto. unfold upd. destruct (e' =? e) eqn:Q; auto.
      apply Nat.eqb_eq in Q, D. congruence.
    - destruct p; try discriminate; injection E as <-; simpl; split; auto; right; auto.
    - unfold note_step in E. destruct (nth_error (ns s) i) as [[e|e| | | | | |]|]; try discriminate.
      + destruct (ctr s e) as [|k] eqn:C; [discriminate|]. injection E as <-. simpl. split; auto. intros W D. right. split; auto.
        destruct w as [e'|]; simpl in *; auto. unfold upd. destruct (e' =? e) eqn:Q; auto.
        apply Nat.eqb_eq in Q, D. congruence.
      + injection E as <-. simpl. split; auto. right; auto.
      + destruct (cnt s) as [|k] eqn:C; [discriminate|]. injection E as <-. simpl. split; auto. intros W D. right. split; auto.
        destruct w as [e'|]; simpl in *; auto. rewrite C in D. discriminate.
      + injection E as <-. simpl. split; auto. right; auto.
      + destruct (mtx s); [discriminate|]. injection E as <-. simpl. split; auto. right; auto.
      + injection E as <-. simpl. split; auto. right. split; auto. simpl. destruct (pc s); auto.
      + injection E as <-. simpl. split; auto. right; auto. }
  destruct X as [X1 X2]. split; [lia|]. destruct G as [G|[G1 G2]]; [left; lia|].
  destruct (X2 G1 G2) as [H|H]; [left; lia|right; auto].
Qed.
Lemma going_exec tso own w r ms : forall s s', r <= length (ret s) -> going w r s -> exec tso own ms s = Some s' -> going w r s'.
Proof.
  induction ms as [|m ms IH]; intros s s' L G E; simpl in E; [congruence|].
  destruct (step tso own m s) as [s1|] eqn:S1; [|discriminate].
  destruct (going_step tso own w r m s s1 L G S1). eauto.
Qed.

Lemma quiet_holder tso own s : inv tso own s -> quiet own s -> mtx s = true -> mholds (pc s) = true.
Proof.
  intros I (Q1 & Q2 & Q3) X. destruct (mholds (pc s)) eqn:H; auto. exfalso.
  pose proof (i_mtx _ _ _ I) as M. rewrite H, X in M. simpl in M.
  assert (exists p, In p (ns s) /\ nholds p = 1) as (p & IN & N).
  { clear -M. induction (ns s) as [|p l IH]; simpl in M; [discriminate|].
    destruct (nholds p) as [|[|k]] eqn:N.
    - destruct IH as (q & A & B); auto. exists q; simpl; auto.
    - exists p; simpl; auto.
    - destruct p; discriminate. }
  apply In_nth_error in IN as (i & IN). specialize (Q3 i). unfold note_step in Q3. rewrite IN in Q3.
  destruct p; discriminate.
Qed.
Lemma quiet_moves tso own s w : inv tso own s -> quiet own s -> waits (pc s) = Some w -> is_done s w = true ->
  w = None \/ tso = false -> False.
Proof.
  intros I Q W D T. pose proof (quiet_holder tso own s I Q) as QH.
  destruct Q as (Q1 & Q2 & Q3).
  assert (B : buf s = []) by (unfold flush_step in Q2; destruct (buf s); congruence).
  assert (NN : forall p, In p (ns s) -> p <> NCas /\ p <> NNotify /\ (forall e, p <> NWaker e) /\ (p = NLock -> mtx s = true)).
  { intros p IN. apply In_nth_error in IN as (i & IN). specialize (Q3 i). unfold note_step in Q3. rewrite IN in Q3.
    destruct p; try discriminate; repeat split; try congruence; intros; try discriminate.
    destruct (mtx s); auto; discriminate. }
  unfold main_step in Q1. rewrite B in Q1. simpl in Q1.
  destruct (pc s) as [|v|v|v|v|v|v|v|v|v|v|] eqn:P; simpl in W; try discriminate; injection W as ->; simpl in QH.
  - rewrite D in Q1. discriminate.
  - destruct (mtx s); try discriminate. specialize (QH eq_refl). discriminate.
  - assert (X : mtx s = true -> False) by (intros X; specialize (QH X); discriminate).
    destruct (sw s) eqn:S.
    + assert (ID : idles (pc s) = Some w) by (rewrite P; auto).
      destruct (i_wake _ _ _ I w ID D T S) as [H|(e & -> & H)]; destruct (NN _ H) as (A1 & A2 & A3 & A4); [congruence|exact (A3 e eq_refl)].
    + destruct (i_sleep _ _ _ I w P S) as [H|H]; destruct (NN _ H) as (A1 & A2 & A3 & A4); [auto|congruence].
  - destruct (mtx s); try discriminate. specialize (QH eq_refl). discriminate.
Qed.

Lemma wait_returns tso own s ms s' w : reach tso own s -> waits (pc s) = Some w -> is_done s w = true -> w = None \/ tso = false ->
  exec tso own ms s = Some s' -> quiet own s' -> length (ret s) < length (ret s').
Proof.
  intros R W D T E Q. assert (I := inv_reach _ _ _ R).
  destruct (going_exec tso own w (length (ret s)) ms s s') as [G|[G1 G2]]; auto; [right; auto|].
  exfalso. apply (quiet_moves tso own s' w (exec_inv _ _ _ _ _ I E) Q G1 G2 T).
Qed.

(** ** Only finitely many accesses without new work *)
Definition internal (m : move) : Prop := match m with MMain | MFlush | MNote _ => True | _ => False end.
Definition nw (p : npc) : nat :=
  match p with NDec _ => 6 | NWaker _ => 5 | NFree => 5 | NCas => 4 | NLock => 3 | NNotify => 2 | NUnlock => 1 | NDone => 0 end.
Definition rT (p : mpc) : nat :=
  match p with
  | MRun | MThrown => 0 | MTest _ => 7 | MSpin _ => 6 | MLoad _ => 5 | MLock _ => 4 | MPred _ => 3 | MBlock _ => 2 | MAsleep _ => 1
  | MRelock _ => 4 | MUnlock _ => 7 | MReset _ => 8
  end.
Definition rF (p : mpc) : nat :=
  match p with
  | MRun | MThrown => 0 | MTest _ => 10 | MSpin _ => 9 | MLoad _ => 10 | MLock _ => 12 | MPred _ => 11 | MBlock _ => 13 | MAsleep _ => 12
  | MRelock _ => 12 | MUnlock _ => 10 | MReset _ => 8
  end.
Definition mu (s : st) : nat := 20 * tot nw (ns s) + length (buf s) + if sw s then rT (pc s) else rF (pc s).

Lemma mu_step tso own m s s' : internal m -> step tso own m s = Some s' -> mu s' < mu s.
Proof.
  intros IM E. destruct m as [c| | | |e|p|i]; simpl in IM; try contradiction; simpl in E.
  - unfold main_step in E. unfold mu. destruct (pc s) as [|v|v|v|v|v|v|v|v|v|v|] eqn:P; try discriminate;
      repeat match type of E with
      | (if ?b then _ else _) = _ => destruct b eqn:?
      end; try discriminate; injection E as <-; simpl; destruct (sw s), own; simpl; lia.
  - unfold flush_step in E. unfold mu. destruct (buf s); [discriminate|]. injection E as <-. simpl. lia.
  - unfold note_step in E. destruct (nth_error (ns s) i) as [p|] eqn:N; [|discriminate].
    assert (TP := fun x => tot_put nw (ns s) i x p N).
    assert (B1 : rT (pc s) <= 8 /\ rF (pc s) <= 13) by (destruct (pc s); simpl; lia).
    unfold mu. destruct p as [e|e| | | | | |]; try discriminate.
    + destruct (ctr s e) as [|k]; [discriminate|]. injection E as <-. simpl.
      specialize (TP (if k <=? 1 then NWaker e else NDone)). destruct (k <=? 1); simpl in TP; lia.
    + injection E as <-. simpl. specialize (TP (if wk s e then NCas else NDone)). destruct (wk s e); simpl in TP; lia.
    + destruct (cnt s) as [|k]; [discriminate|]. injection E as <-. simpl.
      specialize (TP (if k =? 0 then NCas else NDone)). destruct (k =? 0); simpl in TP; lia.
    + injection E as <-. simpl. specialize (TP NLock). simpl in TP. destruct (sw s); lia.
    + destruct (mtx s); [discriminate|]. injection E as <-. simpl. specialize (TP NNotify). simpl in TP. lia.
    + injection E as <-. simpl. specialize (TP NUnlock). simpl in TP. destruct (pc s), (sw s); simpl in *; lia.
    + injection E as <-. simpl. specialize (TP NDone). simpl in TP. lia.
Qed.
Lemma mu_exec tso own ms : forall s s', Forall internal ms -> exec tso own ms s = Some s' -> length ms + mu s' <= mu s.
Proof.
  induction ms as [|m ms IH]; intros s s' F E; simpl in E; [injection E as <-; simpl; lia|].
  destruct (step tso own m s) as [s1|] eqn:S1; [|discriminate]. inversion F; subst.
  pose proof (mu_step _ _ _ _ _ H1 S1). specialize (IH _ _ H2 E). simpl. lia.
Qed.
(** and when they are over, no thread can move *)
Lemma can_finish tso own s : exists ms s', Forall internal ms /\ exec tso own ms s = Some s' /\ quiet own s'.
Proof.
  remember (mu s) as n eqn:En. revert s En. induction n as [n IH] using lt_wf_ind. intros s ->.
  assert (G : forall m s1, internal m -> step tso own m s = Some s1 ->
     exists ms s', Forall internal ms /\ exec tso own ms s = Some s' /\ quiet own s').
  { intros m s1 Im S1. destruct (IH (mu s1) (mu_step _ _ _ _ _ Im S1) s1 eq_refl) as (ms & s' & F & E & Q).
    exists (m :: ms), s'. split; [constructor; auto|]. split; auto. simpl. now rewrite S1. }
  destruct (main_step own s) as [s1|] eqn:E1; [apply (G MMain s1); simpl; auto|].
  destruct (flush_step s) as [s1|] eqn:E2; [apply (G MFlush s1); simpl; auto|].
  assert (D : (exists i s1, note_step i s = Some s1) \/ forall i, note_step i s = None).
  { assert (H : forall k, (exists i s1, note_step i s = Some s1) \/ forall i, i < k -> note_step i s = None).
    { induction k as [|k [H|H]]; [right; intros; lia|auto|].
      destruct (note_step k s) eqn:Nk; [left; eauto|]. right. intros i L. destruct (Nat.eq_dec i k); [congruence|apply H; lia]. }
    destruct (H (length (ns s))) as [X|X]; auto. right. intros i. destruct (lt_dec i (length (ns s))); auto.
    unfold note_step. replace (nth_error (ns s) i) with (@None npc); auto. symmetry. apply nth_error_None. lia. }
  destruct D as [(i & s1 & E3)|D]; [apply (G (MNote i) s1); simpl; auto|].
  exists [], s. split; auto. split; auto. split; auto.
Qed.

(** ** The store buffer: a wake-up that is never sent *)
Definition lost (e : nat) (s : st) : Prop :=
  (pc s = MSpin (Some e) \/ pc s = MLoad (Some e) \/ pc s = MLock (Some e) \/ pc s = MPred (Some e) \/ pc s = MBlock (Some e)
   \/ pc s = MAsleep (Some e) \/ pc s = MRelock (Some e)) /\ sw s = true /\ ctr s e = 0 /\
  (forall x, In x (buf s) -> x = e) /\ (forall x, wk s x = true -> x = e) /\
  forall p, In p (ns s) -> (exists x, p = NDec x) \/ (exists x, p = NWaker x /\ x <> e) \/ p = NDone.
(** new notifications of events may begin, but none of another waiting thread's or of the last task *)
Definition only_events (m : move) : Prop :=
  match m with MNew (NDec _) => True | MNew _ => False | _ => True end.
Lemma lost_step tso own e m s s' : lost e s -> only_events m -> step tso own m s = Some s' -> lost e s'.
Proof.
  intros (P & S & C & B & W & N) O E. destruct m as [c| | | |x|p|i]; simpl in E, O.
  - unfold call_step in E. decompose [or] P; rewrite H in E || rewrite H0 in E; discriminate.
  - assert (MS : exists p m, s' = at_cv s true m p /\ (p = MSpin (Some e) \/ p = MLoad (Some e) \/ p = MLock (Some e) \/ p = MPred (Some e) \/ p = MBlock (Some e)
       \/ p = MAsleep (Some e) \/ p = MRelock (Some e))).
    { unfold main_step in E. destruct P as [P|[P|[P|[P|[P|[P|P]]]]]]; rewrite P in E; rewrite ?S in E; try discriminate.
      - injection E as <-. exists (MLoad (Some e)), (mtx s). split; [unfold at_pc, at_cv; now rewrite S|tauto].
      - injection E as <-. exists (MLock (Some e)), (mtx s). split; [unfold at_pc, at_cv; now rewrite S|tauto].
      - destruct (mtx s); [discriminate|]. destruct (length (buf s) =? 0); [|discriminate]. injection E as <-. exists (MPred (Some e)), true. split; auto; tauto.
      - injection E as <-. exists (MBlock (Some e)), (mtx s). split; [unfold at_pc, at_cv; now rewrite S|tauto].
      - injection E as <-. exists (MAsleep (Some e)), false. split; auto; tauto.
      - destruct (mtx s); [discriminate|]. destruct (length (buf s) =? 0); [|discriminate]. injection E as <-. exists (MPred (Some e)), true. split; auto; tauto. }
    destruct MS as (p & mm & -> & Hp). unfold lost; simpl. auto 10.
  - unfold flush_step in E. destruct (buf s) as [|y l] eqn:BB; [discriminate|]. injection E as <-. unfold lost; simpl.
    repeat split; auto. 
    + intros x H. apply B. simpl; auto.
    + intros x H. unfold upd in H. destruct (x =? y) eqn:Q; auto. apply Nat.eqb_eq in Q. subst. apply B. simpl; auto.
  - assert (s' = at_pc s (MRelock (Some e))) as ->.
    { decompose [or] P; rewrite H in E || rewrite H0 in E; congruence. }
    unfold lost; simpl. repeat split; auto. tauto.
  - destruct (ctr s x) as [|k] eqn:Cx; [discriminate|]. injection E as <-. unfold lost; simpl. repeat split; auto.
    unfold upd. destruct (e =? x) eqn:Q; auto. apply Nat.eqb_eq in Q. subst. congruence.
  - destruct p; try contradiction. injection E as <-. unfold lost; simpl. repeat split; auto.
    intros p H. apply in_app_or in H as [H|[<-|[]]]; eauto.
  - unfold note_step in E. destruct (nth_error (ns s) i) as [p|] eqn:Ni; [|discriminate].
    assert (IN : In p (ns s)) by (eapply nth_error_In; eauto).
    destruct (N p IN) as [(x & ->)|[(x & -> & X)| ->]]; [| |discriminate].
    + destruct (ctr s x) as [|k] eqn:Cx; [discriminate|]. injection E as <-.
      assert (XE : x <> e) by congruence. unfold lost; simpl. repeat split; auto.
      * unfold upd. destruct (e =? x) eqn:Q; auto. apply Nat.eqb_eq in Q. congruence.
      * intros q H. apply put_inv in H as [->|H]; auto. destruct (k <=? 1); eauto.
    + injection E as <-. unfold lost; simpl. repeat split; auto.
      intros q H. apply put_inv in H as [->|H]; auto. destruct (wk s x) eqn:K; auto. exfalso. apply X. auto.
Qed.
Lemma lost_exec tso own e ms : forall s s', lost e s -> Forall only_events ms -> exec tso own ms s = Some s' -> lost e s'.
Proof.
  induction ms as [|m ms IH]; intros s s' L F E; simpl in E; [congruence|].
  destruct (step tso own m s) as [s1|] eqn:S1; [|discriminate]. inversion F; subst.
  eapply IH; [|eauto|eauto]. eapply lost_step; eauto.
Qed.
