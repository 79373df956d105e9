(** C12: access demotion releases followers. *)
From Coq Require Import List Arith Bool Lia.
From Verif Require Import DemoteModel DemoteProof DemoteThm.
Import ListNotations.

(** Vocabulary. [live s k = Some f]: the [k]-th entry of A's follower list is [f] and not removed.
    [serial s f]: A, with its current access list, conflicts with the task of [f].
    [calm] (DemoteProof.v): no entry of a task is removed while the task is between the push of an
    entry and the increment of its counter (event.cpp 74-75). *)
Section Ex.
Variables (ares : list nat) (res : nat -> list nat) (par : bool).
(** executable steps: A goes on; A demotes (the listed tasks still conflict); A's body ends; task b goes on *)
Inductive act := Go | Patch (kept : list nat) (kp : bool) | Stop | B (b : nat).
Definition exec (s : st) (a : act) : option st :=
  match a with
  | Go =>
      match ap s with
      | ARun | AOver => None
      | AWalk 0 => Some (set_a s ARun)
      | AWalk (S i) => Some (set_a s (match live s i with None => AWalk i | Some f => if serial s f then AWalk i else AErase f (length (items s)) i end))
      | AErase f (S j) i => Some (set_a (match live s j with Some g => if fol_eqb g f then set_items s (kill (items s) j) else s | None => s end) (AErase f j i))
      | AErase f 0 i => Some (set_a s (ANot f i))
      | ANot f i => Some (set_a (notify s f) (AWalk i))
      | ADel (r :: rs) => match lock s r with None => Some (mkS (ADel rs) (bp s) (items s) (ser s) (serp s) (post s) (upd (present s) r false) (lock s) (cnt s) (ready s) (pnot s)) | _ => None end
      | ADel [] => Some (set_a s (ANfy (length (items s))))
      | ANfy (S i) => Some (set_a (match live s i with Some f => notify s f | None => s end) (ANfy i))
      | ANfy 0 => Some (set_a s AOver)
      end
  | Patch kept kp =>
      match ap s with
      | ARun => Some (mkS (AWalk (length (items s))) (bp s) (items s) (fun b => mem b kept && ser s b) (kp && serp s) (post s) (present s) (lock s) (cnt s) (ready s) (pnot s))
      | _ => None
      end
  | Stop => match ap s with ARun => Some (mkS (ADel ares) (bp s) (items s) (ser s) (serp s) true (present s) (lock s) (cnt s) (ready s) (pnot s)) | _ => None end
  | B b =>
      match bp s b with
      | BIdle => Some (set_b (set_cnt s b (S (cnt s b))) b (BNext (res b)))
      | BNext (r :: rs) => match lock s r with None => Some (set_b (set_lock s r (Some b)) b (BCheck r rs)) | _ => None end
      | BCheck r rs => Some (if present s r && ser s b then set_b s b (BReach r rs) else set_b (set_lock s r None) b (BNext rs))
      | BReach r rs => Some (if post s then set_b (set_lock s r None) b (BNext rs) else set_b s b (BPush r rs))
      | BPush r rs => Some (set_b (set_items s (items s ++ [(Pre b, true)])) b (BInc r rs))
      | BInc r rs => Some (set_b (set_lock (set_cnt s b (S (cnt s b))) r None) b (BNext rs))
      | BNext [] => Some (set_b (notify_pre s b) b BEnd)
      | BEnd => None
      end
  end.
Lemma exec_step : forall s a s', exec s a = Some s' -> astep ares s s' \/ exists b, bstep res s b s'.
Proof.
  intros s a s' H. destruct a as [|kept kp| |b]; simpl in H.
  - left. destruct (ap s) as [|[|i]|f [|j] i|f i|[|r rs]|[|i]|] eqn:A; try discriminate.
    + injection H as <-. now apply a_walk_end.
    + injection H as <-. now apply a_walk.
    + injection H as <-. now apply a_erase_end.
    + injection H as <-. now apply a_erase.
    + injection H as <-. now apply a_not.
    + injection H as <-. now apply a_del_end.
    + destruct (lock s r) eqn:L; [discriminate|]. injection H as <-. now apply a_del.
    + injection H as <-. now apply a_nfy_end.
    + injection H as <-. now apply a_nfy.
  - left. destruct (ap s) eqn:A; try discriminate. injection H as <-. apply a_patch; [exact A| |].
    + intros b X. now apply andb_true_iff in X.
    + intros X. now apply andb_true_iff in X.
  - left. destruct (ap s) eqn:A; try discriminate. injection H as <-. now apply a_end.
  - right. exists b. destruct (bp s b) as [|[|r rs]|r rs|r rs|r rs|r rs|] eqn:E; try discriminate.
    + injection H as <-. now apply b_begin.
    + injection H as <-. now apply b_end.
    + destruct (lock s r) eqn:L; [discriminate|]. injection H as <-. now apply b_lock.
    + injection H as <-. now apply b_check.
    + injection H as <-. now apply b_reach.
    + injection H as <-. now apply b_push.
    + injection H as <-. now apply b_inc.
Qed.
Definition calmb (s : st) : bool := match ap s with AErase (Pre b) _ _ | ANot (Pre b) _ => Nat.eqb (incb (bp s b)) 0 | _ => true end.
Lemma calmb_ok : forall s, calmb s = true -> calm s.
Proof.
  intros s H b D. unfold calmb in H. destruct (ap s) as [| |[c|] j i|[c|] i| | |]; simpl in D; try discriminate; apply Nat.eqb_eq in D; subst c; now apply Nat.eqb_eq.
Qed.
Fixpoint run (okb : st -> bool) (s : st) (l : list act) : option st :=
  match l with [] => Some s | a :: l' => match exec s a with Some s' => if okb s' then run okb s' l' else None | None => None end end.
Lemma run_reach : forall okb (ok : st -> Prop), (forall s, okb s = true -> ok s) -> forall l s s', reach ares res par ok s -> run okb s l = Some s' -> reach ares res par ok s'.
Proof.
  intros okb ok OK. induction l as [|a l IH]; intros s s' R H; simpl in H; [congruence|]. destruct (exec s a) as [s1|] eqn:E; [|discriminate]. destruct (okb s1) eqn:O; [|discriminate].
  apply (IH s1 s'); [|exact H]. destruct (exec_step s a s1 E) as [X|(b & X)]; [eapply r_a; eauto|eapply r_b; eauto].
Qed.
Lemma run_some : forall okb (ok : st -> Prop) l (Q : st -> Prop), (forall s, okb s = true -> ok s) ->
  match run okb (init ares par) l with Some s => Q s | None => False end -> exists s, reach ares res par ok s /\ Q s.
Proof. intros okb ok l Q OK H. destruct (run okb (init ares par) l) as [s|] eqn:E; [|destruct H]. exists s. split; [|exact H]. eapply run_reach; eauto. constructor. Qed.
End Ex.
Definition any (_ : st) : Prop := True.
Definition bs (b n : nat) : list act := repeat (B b) n.
Definition gos (n : nat) : list act := repeat Go n.

(** ** What one undisturbed [update_graph] does, for every follower list *)
Theorem C12_update_alone : forall ares s, ap s = AWalk (length (items s)) -> exists s', alone ares s s' /\ ap s' = ARun /\
  (forall k, live s' k = match live s k with Some f => if serial s f then Some f else None | None => None end) /\
  (forall b, cnt s' b = cnt s b - (if negb (ser s b) && (0 <? lives (items s) (Pre b)) then 1 else 0)) /\
  pnot s' = pnot s + (if negb (serp s) && (0 <? lives (items s) Par) then 1 else 0).
Proof.
  intros ares s A. destruct (walk_alone ares _ s A (le_n _)) as (s' & R & Sm & A' & L & N & C & P). exists s'. split; [exact R|]. split; [exact A'|]. split; [|split].
  - intros k. unfold live. rewrite N. destruct (nth_error (items s) k) as [[f [|]]|] eqn:Nk; [|reflexivity..]. unfold hit. rewrite firstn_all.
    assert (X := lives_nth _ _ _ Nk). apply Nat.ltb_lt in X. simpl in X. rewrite X, andb_true_r, negb_involutive. simpl. now destruct (serial s f).
  - intros b. rewrite C. unfold hit. rewrite firstn_all. reflexivity.
  - rewrite P. unfold hit. rewrite firstn_all. reflexivity.
Qed.

(** ** With tasks being initialised beside it *)
(** each task shares at most one resource with A *)
Definition one_shared (ares : list nat) (res : nat -> list nat) : Prop := forall b, length (filter (fun r => mem r ares) (res b)) <= 1.

(** a task is handed to a worker at most once; exactly once when it is initialised and A is over *)
Theorem C12_ready_exactly_once_partial : forall ares res par s b, one_shared ares res -> reach ares res par calm s ->
  ready s b <= 1 /\ (bp s b = BEnd -> ap s = AOver -> ready s b = 1).
Proof.
  intros ares res par s b H R. assert (I := reach_inv ares res par H s R). rewrite (i_ready _ _ _ _ I). split.
  - destruct (bp s b); auto. destruct (_ =? _); auto.
  - intros -> A. unfold pend. rewrite A. reflexivity.
Qed.
(** a task that still conflicts is not handed to a worker before A ended *)
Theorem C12_conflicting_task_waits_partial : forall ares res par s b r, one_shared ares res -> reach ares res par calm s ->
  In r (res b) -> In r ares -> ser s b = true -> ready s b = 1 -> post s = true.
Proof.
  intros ares res par s b r H R I1 I2 S Y. assert (I := reach_inv ares res par H s R). destruct (post s) eqn:P; [reflexivity|exfalso].
  rewrite (i_ready _ _ _ _ I) in Y. destruct (bp s b) eqn:E; try discriminate. destruct (pend s (Pre b) =? 0) eqn:Z; [|discriminate]. apply Nat.eqb_eq in Z.
  assert (Sh : shared ares (res b) = 1).
  { assert (X := H b). unfold shared. assert (In r (filter (fun r => mem r ares) (res b))). { apply filter_In. split; [exact I1|]. unfold mem. apply existsb_exists. exists r. now rewrite Nat.eqb_refl. }
    destruct (filter (fun r => mem r ares) (res b)) as [|x [|y l]]; simpl in *; [contradiction|reflexivity|lia]. }
  destruct (i_cover _ _ _ _ I b) as (k & K); auto; try (rewrite E; try discriminate; reflexivity). apply live_nth in K. apply lives_nth in K.
  unfold pend in Z. assert (EP := i_post _ _ _ _ I). rewrite P in EP. destruct (ap s) as [| |f j i|f i| | |]; simpl in *; try discriminate; try lia; destruct (fol_eqb f (Pre b)); lia.
Qed.
Lemma alone_reach : forall ares res par u v, alone ares u v -> reach ares res par calm u -> (forall b, incb (bp u b) = 0) -> reach ares res par calm v.
Proof.
  intros ares res par u v Al. induction Al as [u|u u1 v S Al IH]; intros R N; [exact R|].
  assert (B1 : bp u1 = bp u).
  { destruct S; try reflexivity; cbn [bp set_a]; [destruct (live s j) as [g|]; [destruct (fol_eqb g f)|]; reflexivity|destruct f; reflexivity|destruct (live s i) as [[g|]|]; reflexivity]. }
  apply IH; [|now rewrite B1]. apply (r_a ares res par calm u u1 R S). intros b _. rewrite B1. apply N.
Qed.
(** after an update in which no task is between its push and its increment, everybody who is
    initialised and no longer conflicts has been handed to a worker *)
Theorem C12_released_by_update_partial : forall ares res par s, one_shared ares res -> reach ares res par calm s -> (forall b, incb (bp s b) = 0) -> ap s = AWalk (length (items s)) ->
  exists s', alone ares s s' /\ ap s' = ARun /\ reach ares res par calm s' /\ forall b, bp s' b = BEnd -> ser s' b = false -> ready s' b = 1.
Proof.
  intros ares res par s H R N A. destruct (walk_alone ares _ s A (le_n _)) as (s' & Al & Sm & A' & L & Nt & C & P). exists s'. split; [exact Al|]. split; [exact A'|].
  assert (R' : reach ares res par calm s').
  { apply (alone_reach ares res par s s'); auto. }
  split; [exact R'|]. intros b E S. assert (I := reach_inv ares res par H s' R'). rewrite (i_ready _ _ _ _ I), E. unfold pend. rewrite A'. simpl.
  rewrite lives_zero; [reflexivity|]. intros k X. rewrite Nt in X. destruct (nth_error (items s) k) as [[g x]|] eqn:Nk; [|discriminate]. injection X as -> X. apply andb_true_iff in X as (-> & X).
  apply negb_true_iff in X. unfold hit in X. rewrite firstn_all in X. assert (Z := lives_nth _ _ _ Nk). apply Nat.ltb_lt in Z. simpl in Z. rewrite Z, andb_true_r in X.
  apply negb_false_iff in X. simpl in X. assert (Y : ser s' = ser s) by apply Sm. rewrite Y in S. congruence.
Qed.
(** as long as A conflicts with its parent, the parent is notified when A ended, once *)
Theorem C12_parent_edge_kept_partial : forall ares res s, one_shared ares res -> reach ares res true calm s ->
  pnot s <= 1 /\ (serp s = true -> post s = false -> pnot s = 0) /\ (ap s = AOver -> pnot s = 1).
Proof.
  intros ares res s H R. assert (I := reach_inv ares res true H s R). assert (P := i_par _ _ _ _ I). simpl in P. split; [lia|]. split.
  - intros S Q. assert (K := i_par_kept _ _ _ _ I S eq_refl). assert (EP := i_post _ _ _ _ I). rewrite Q in EP.
    unfold pend in P. destruct (ap s) as [| |f j i|f i| | |]; simpl in *; try discriminate; try lia; destruct (fol_eqb f Par); lia.
  - intros A. unfold pend in P. rewrite A in P. lia.
Qed.
(** A has the resources 0 and 1; tasks 1 and 3 use 0, task 2 uses 1 and 5; A keeps conflicting with task 2 only.
    Task 3 is initialised while A walks. *)
Definition res1 (b : nat) : list nat := match b with 1 => [0] | 2 => [1; 5] | 3 => [0] | _ => [] end.
Example C12_ex : one_shared [0; 1] res1 /\ exists s, reach [0; 1] res1 true calm s /\
  (ready s 1, ready s 2, ready s 3, ser s 1, ser s 2, serp s, post s, bp s 2, pnot s, map (live s) [0; 1; 2; 3]) = (1, 0, 1, false, true, true, false, BEnd, 0, [Some Par; None; Some (Pre 2); None]).
Proof.
  split; [intros [|[|[|[|b]]]]; simpl; auto|]. apply (run_some [0; 1] res1 true calmb calm (bs 1 7 ++ bs 2 9 ++ bs 3 6 ++ [Patch [2] true] ++ gos 2 ++ [B 3] ++ gos 15)); [apply calmb_ok|vm_compute; reflexivity].
Qed.
Example C12_ex_over : exists s, reach [0; 1] res1 true calm s /\ (ap s, bp s 2, ready s 2, pnot s, post s) = (AOver, BEnd, 1, 1, true).
Proof.
  apply (run_some [0; 1] res1 true calmb calm (bs 1 7 ++ bs 2 9 ++ [Patch [2] true] ++ gos 9 ++ [Stop] ++ gos 7)); [apply calmb_ok|vm_compute; reflexivity].
Qed.
Example C12_ex_alone : exists s, reach [0; 1] res1 true calm s /\ (ap s, length (items s), incb (bp s 1), incb (bp s 2), ser s 1) = (AWalk 3, 3, 0, 0, false).
Proof. apply (run_some [0; 1] res1 true calmb calm (bs 1 7 ++ bs 2 9 ++ [Patch [2] true])); [apply calmb_ok|vm_compute; reflexivity]. Qed.

(** A task that shares two resources with A has two edges; [erase] removes both, one notification is
    sent: the task is never handed to a worker. No race is needed. *)
Theorem C12_every_follower_released_refuted : exists s, reach [0; 1] (fun _ => [0; 1]) false calm s /\
  ap s = AOver /\ bp s 0 = BEnd /\ ready s 0 = 0 /\ cnt s 0 = 2 /\ (forall s', ~ astep [0; 1] s s') /\ forall s', ~ bstep (fun _ => [0; 1]) s 0 s'.
Proof.
  destruct (run_some [0; 1] (fun _ => [0; 1]) false calmb calm (bs 0 12 ++ [Patch [] false] ++ gos 7 ++ [Stop] ++ gos 6)
    (fun s => (ap s, bp s 0, ready s 0, cnt s 0) = (AOver, BEnd, 0, 2))) as (s & R & E); [apply calmb_ok|vm_compute; reflexivity|].
  injection E as E1 E2 E3 E4. exists s. split; [exact R|]. split; [exact E1|]. split; [exact E2|]. split; [exact E3|]. split; [exact E4|].
  split; intros s' H; inversion H; subst; congruence.
Qed.
(** The entry is pushed before the counter is incremented: an update in between makes the task ready
    before it is initialised, and its initialisation makes it ready again: it is executed twice. *)
Theorem C12_ready_once_refuted : one_shared [0] (fun _ => [0]) /\ exists s, reach [0] (fun _ => [0]) false any s /\ ready s 0 = 2.
Proof.
  split; [intros b; simpl; auto|]. apply (run_some [0] (fun _ => [0]) false (fun _ => true) any (bs 0 5 ++ [Patch [] false] ++ gos 4 ++ bs 0 2)); [unfold any; auto|vm_compute; reflexivity].
Qed.
(** The edge to the parent is treated like the others: if A and its parent do not conflict (A uses only
    resources of its own, or both only read) any update of A releases the parent while A runs. *)
Theorem C12_parent_edge_kept_refuted : exists s, reach [0] (fun _ => []) true calm s /\ post s = false /\ ap s = ARun /\ pnot s = 1 /\ live s 0 = None.
Proof.
  destruct (run_some [0] (fun _ => []) true calmb calm ([Patch [] false] ++ gos 5) (fun s => (post s, ap s, pnot s, live s 0) = (false, ARun, 1, None))) as (s & R & E); [apply calmb_ok|vm_compute; reflexivity|].
  injection E as E1 E2 E3 E4. eauto 10.
Qed.

Definition all_demote := (C12_update_alone, C12_ready_exactly_once_partial, C12_conflicting_task_waits_partial, C12_released_by_update_partial, C12_parent_edge_kept_partial,
  C12_every_follower_released_refuted, C12_ready_once_refuted, C12_parent_edge_kept_refuted).
Print Assumptions all_demote.
