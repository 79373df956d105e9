(** Property C33: one element of the chunked list, any number of threads. *)
From Coq Require Import Bool List Arith ZArith NArith Lia.
From Verif Require Import ItemModel ItemProof ChunkEx.
Import ListNotations.
Open Scope Z_scope.
Definition no_stale : lab -> Prop := fun l => l = LOther.
Definition any : lab -> Prop := fun _ => True.
(** Any number of iterators acquiring and releasing an element and one remove, in any
    interleaving: the value is destructed at most once, only after the removal, and no
    iterator that acquired it is left or comes later; no release throws.
    Missing: runs in which acquire() reads the offset before and the count after a
    complete removal (below). *)
Theorem C33_destroyed_once_and_unheld_partial : forall s, ireach no_stale s ->
  (destr s <= 1)%nat /\ threw s = false /\
  (lf s = Dead -> destr s = 1%nat /\ taken s = true /\ forall t, thr s t <> Hold) /\
  (forall t, thr s t = Hold -> lf s = Live).
Proof.
  intros s H. destruct (ireach_inv s H) as [n I].
  assert (D : lf s = Dead -> destr s = 1%nat /\ taken s = true /\ forall t, thr s t <> Hold).
  { intros X. destruct (v_dead _ _ I X) as (a & b & c & _). auto. }
  split; [|split; [apply I|split; [exact D|]]].
  - destruct (lf s) eqn:L; [|rewrite (v_alive _ _ I) by congruence; lia|]; [rewrite (v_alive _ _ I) by congruence; lia|].
    destruct (D eq_refl) as [-> _]. lia.
  - intros t X. destruct (lf s) eqn:L; [|reflexivity|].
    + destruct (v_raw _ _ I L) as (_ & _ & _ & K). destruct (K t) as [Y|Y]; congruence.
    + destruct (D eq_refl) as (_ & _ & K). now apply K in X.
Qed.
(** the count stays between -1 and the number of iterators: below 2^15 - 1 iterators
    the 16 bit of refcount suffice *)
Theorem C33_refcount_bounded : forall s n, ireach no_stale s -> (forall t, (n <= t)%nat -> thr s t = Idle) ->
  -1 <= rc s <= Z.of_nat n.
Proof.
  intros s n H B. destruct (ireach_inv s H) as [m I]. destruct (v_rc _ _ I) as (d & E & _).
  assert (T : total (thr s) m <= Z.of_nat n).
  { destruct (Nat.le_gt_cases m n) as [L|L]; [assert (Q := total_le (thr s) m); lia|].
    rewrite (total_more (thr s) n m) by (auto; lia). apply total_le. }
  assert (P := total_nonneg (thr s) m). rewrite E. destruct d; lia.
Qed.
Definition okb (l : lab) : bool := match l with LOther => true | LStale => false end.
(** assigned, two iterators, removed while held, destructed by the last release *)
Definition normal : list (nat * iact) :=
  [(0, IAssign); (1, IBegin); (1, IGo); (2, IBegin); (1, IGo); (2, IGo); (2, IGo); (1, IGo); (2, IGo); (3, IRemove 1); (3, IGo); (4, IBegin); (4, IGo); (1, IGo)]%nat.
(** what the examples below look at: life, taken, destructions, count, thrown, threads 1 and 2 *)
Definition look (o : option ist) :=
  match o with Some s => Some (lf s, taken s, destr s, rc s, threw s, thr s 1%nat, thr s 2%nat) | None => None end.
Lemma run_look : forall okb (ok : lab -> Prop) l a b c d e f g, (forall x, okb x = true -> ok x) -> look (irun okb i_init l) = Some (a, b, c, d, e, f, g) ->
  exists s, ireach ok s /\ lf s = a /\ taken s = b /\ destr s = c /\ rc s = d /\ threw s = e /\ thr s 1%nat = f /\ thr s 2%nat = g.
Proof.
  intros okb ok l a b c d e f g K H. destruct (irun okb i_init l) as [s|] eqn:E; [|discriminate]. exists s.
  split; [apply (irun_reach okb ok l i_init); [assumption|constructor|exact E]|]. simpl in H. injection H as -> -> -> -> -> -> ->. repeat split.
Qed.
Ltac look_at okb ok l := edestruct (run_look okb ok l) as (s & R & L & T & D & C & W & T1 & T2);
  [intros []; easy | vm_compute; reflexivity | exists s; repeat split; assumption].
Example C33_ex_held : exists s, ireach no_stale s /\ thr s 2%nat = Hold /\ lf s = Live /\ taken s = true /\ rc s = 0.
Proof. look_at okb no_stale normal. Qed.
Example C33_ex_destroyed : exists s, ireach no_stale s /\ lf s = Dead /\ destr s = 1%nat /\ rc s = -1.
Proof. look_at okb no_stale (normal ++ [(2%nat, IGo)]). Qed.
Definition all (_ : lab) : bool := true.
(** acquire() loads offset 0; the element is removed and destructed; acquire() then
    loads the negative count, skips the increment and returns 0: success *)
Theorem C33_no_holder_of_destroyed_refuted : exists s, ireach any s /\ lf s = Dead /\ thr s 1%nat = Hold.
Proof. look_at all any [(0, IAssign); (1, IBegin); (2, IRemove 1); (2, IGo); (1, IGo)]%nat. Qed.
(** its release throws out of a destructor *)
Theorem C33_release_never_throws_refuted : exists s, ireach any s /\ threw s = true.
Proof. look_at all any [(0, IAssign); (1, IBegin); (2, IRemove 1); (2, IGo); (1, IGo); (1, IGo)]%nat. Qed.
(** with a third thread that increments in between it destructs the value again *)
Theorem C33_destroyed_once_refuted : exists s, ireach any s /\ destr s = 2%nat.
Proof. look_at all any [(0, IAssign); (3, IBegin); (3, IGo); (1, IBegin); (2, IRemove 1); (2, IGo); (1, IGo); (3, IGo); (1, IGo)]%nat. Qed.
(** an acquire that loses against a removal takes its increment back without looking at
    the result: the value is never destructed, though everyone is done *)
Theorem C33_removed_is_destroyed_refuted : exists s, ireach no_stale s /\ taken s = true /\ lf s = Live /\
  thr s 1%nat = Idle /\ thr s 2%nat = Idle /\ rc s = -1.
Proof. look_at okb no_stale [(0, IAssign); (1, IBegin); (1, IGo); (2, IRemove 1); (1, IGo); (1, IGo); (2, IGo); (1, IGo)]%nat. Qed.

Definition all_item := (C33_destroyed_once_and_unheld_partial, C33_refcount_bounded, C33_no_holder_of_destroyed_refuted,
  C33_release_never_throws_refuted, C33_destroyed_once_refuted, C33_removed_is_destroyed_refuted).
Print Assumptions all_item.
