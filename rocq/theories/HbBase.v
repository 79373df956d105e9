(** Facts about histories with labels: what threads and objects know. *)
From Coq Require Import Bool List Arith NArith ZArith Lia.
From Verif Require Import AccessModel UserModel SchedModel SchedSpec HbModel HbSpec.
Import ListNotations.

Section Hb.
  Context (tr : list rec).

  Lemma hb_lt m n : hb tr m n -> m < n.
  Proof. induction 1; lia. Qed.

  Lemma hb_len m n : hb tr m n -> n < length tr.
  Proof.
    induction 1 as [m n a b Ha Hb|m n a b x Ha Hb|]; auto; apply nth_error_Some; congruence.
  Qed.

  (** the step [m] is before or at step [n] *)
  Definition hbe (m n : nat) : Prop := m = n \/ hb tr m n.

  Lemma hbe_trans l m n : hbe l m -> hbe m n -> hbe l n.
  Proof. intros [->|A] [->|B]; [now left|now right|now right|right; eapply hb_trans; eauto]. Qed.

  (** thread [i] (object [x]) knows [l]: something that did [l] is before a step of the thread
      (a step that released the object) *)
  Definition K (i : nat) (l : lev) : Prop :=
    exists m m' a, does tr m l /\ nth_error tr m' = Some a /\ r_who a = i /\ hbe m m'.
  Definition O (x : obj) (l : lev) : Prop :=
    exists m m' a, does tr m l /\ nth_error tr m' = Some a /\ In x (r_rel a) /\ hbe m m'.

  (** step [n] comes after something that did [l] *)
  Definition to (n : nat) (l : lev) : Prop := exists m, does tr m l /\ hb tr m n.

  Lemma K_down i l l' : (forall n, does tr n l -> to n l') -> K i l -> K i l'.
  Proof.
    intros H (m & m' & a & D & E & W & B). destruct (H m D) as (k & D' & B'). exists k, m', a.
    repeat split; auto. eapply hbe_trans; [right; exact B'|exact B].
  Qed.
  Lemma O_down x l l' : (forall n, does tr n l -> to n l') -> O x l -> O x l'.
  Proof.
    intros H (m & m' & a & D & E & W & B). destruct (H m D) as (k & D' & B'). exists k, m', a.
    repeat split; auto. eapply hbe_trans; [right; exact B'|exact B].
  Qed.
  Lemma to_down n l l' : (forall m, does tr m l -> to m l') -> to n l -> to n l'.
  Proof.
    intros H (m & D & B). destruct (H m D) as (k & D' & B'). exists k. split; auto. eapply hb_trans; eauto.
  Qed.
End Hb.

Section App.
  Context (tr : list rec) (a : rec).
  Notation tr' := (tr ++ [a]).
  Notation N := (length tr).

  Lemma nth_old m b : nth_error tr m = Some b -> nth_error tr' m = Some b.
  Proof. intros H. rewrite nth_error_app1; auto. apply nth_error_Some. congruence. Qed.
  Lemma nth_new : nth_error tr' N = Some a.
  Proof. now rewrite nth_error_app2, Nat.sub_diag. Qed.
  Lemma nth_inv m b : nth_error tr' m = Some b -> nth_error tr m = Some b \/ (m = N /\ b = a).
  Proof.
    intros H. destruct (lt_dec m N) as [L|L]; [left; now rewrite nth_error_app1 in H|].
    right. rewrite nth_error_app2 in H by lia. destruct (m - N) as [|k] eqn:E; simpl in H.
    - injection H as <-. split; [lia|easy].
    - destruct k; discriminate.
  Qed.
  Lemma nth_bound {A} (l : list A) m b : nth_error l m = Some b -> m < length l.
  Proof. intros H. apply nth_error_Some. congruence. Qed.

  Lemma hb_old m n : hb tr m n -> hb tr' m n.
  Proof.
    induction 1; [eapply hb_po; eauto using nth_old|eapply hb_sw; eauto using nth_old|eapply hb_trans; eauto].
  Qed.
  Lemma hbe_old m n : hbe tr m n -> hbe tr' m n.
  Proof. intros [->|H]; [now left|right; now apply hb_old]. Qed.
  Lemma does_old m l : does tr m l -> does tr' m l.
  Proof. intros (b & E & H). exists b. auto using nth_old. Qed.
  Lemma does_new l : In l (r_log a) -> does tr' N l.
  Proof. intros H. exists a. split; auto using nth_new. Qed.
  Lemma does_inv m l : does tr' m l -> does tr m l \/ (m = N /\ In l (r_log a)).
  Proof.
    intros (b & E & H). destruct (nth_inv m b E) as [E'|[-> ->]]; [left; exists b; auto|auto].
  Qed.

  Lemma K_old i l : K tr i l -> K tr' i l.
  Proof. intros (m & m' & b & D & E & W & B). exists m, m', b. auto using does_old, nth_old, hbe_old. Qed.
  Lemma O_old x l : O tr x l -> O tr' x l.
  Proof. intros (m & m' & b & D & E & W & B). exists m, m', b. auto using does_old, nth_old, hbe_old. Qed.
  Lemma to_old n l : to tr n l -> to tr' n l.
  Proof. intros (m & D & B). exists m. auto using does_old, hb_old. Qed.

  (** what the thread knew, and what the objects it acquires know, is before its step *)
  Lemma to_K l : K tr (r_who a) l -> to tr' N l.
  Proof.
    intros (m & m' & b & D & E & W & B). exists m. split; [now apply does_old|].
    assert (P : hb tr' m' N).
    { eapply hb_po; [eapply nth_old; eauto|apply nth_new|eapply nth_bound; eauto|easy]. }
    destruct B as [->|B]; auto. eapply hb_trans; [apply hb_old; exact B|exact P].
  Qed.
  Lemma to_O x l : In x (r_acq a) -> O tr x l -> to tr' N l.
  Proof.
    intros Hx (m & m' & b & D & E & W & B). exists m. split; [now apply does_old|].
    assert (P : hb tr' m' N).
    { eapply hb_sw; [eapply nth_old; eauto|apply nth_new|eapply nth_bound; eauto|exact W|exact Hx]. }
    destruct B as [->|B]; auto. eapply hb_trans; [apply hb_old; exact B|exact P].
  Qed.
  Lemma K_to l : to tr' N l -> K tr' (r_who a) l.
  Proof. intros (m & D & B). exists m, N, a. repeat split; auto using nth_new. now right. Qed.
  Lemma K_acq x l : In x (r_acq a) -> O tr x l -> K tr' (r_who a) l.
  Proof. intros Hx H. apply K_to. eapply to_O; eauto. Qed.
  Lemma K_own l : In l (r_log a) -> K tr' (r_who a) l.
  Proof. intros H. exists N, N, a. repeat split; auto using nth_new, does_new. now left. Qed.
  Lemma O_K x l : In x (r_rel a) -> K tr' (r_who a) l -> O tr' x l.
  Proof.
    intros Hx (m & m' & b & D & E & W & B). exists m, N, a. repeat split; auto using nth_new.
    destruct (nth_inv m' b E) as [E'|[-> ->]]; [|exact B]. eapply hbe_trans; [exact B|]. right.
    eapply hb_po; [exact E|apply nth_new|eapply nth_bound; eauto|exact W].
  Qed.
  Lemma hb_back m n : hb tr' m n -> n < N -> hb tr m n.
  Proof.
    induction 1 as [m n b b' Hb Hb' L Wh|m n b b' x Hb Hb' L Hx Hy|l m n H1 IH1 H2 IH2]; intros Ln.
    - rewrite nth_error_app1 in Hb, Hb' by lia. eapply hb_po; eauto.
    - rewrite nth_error_app1 in Hb, Hb' by lia. eapply hb_sw; eauto.
    - assert (L := hb_lt _ _ _ H2). eapply hb_trans; [apply IH1; lia|auto].
  Qed.
  Lemma O_back x l : ~ In x (r_rel a) -> O tr' x l -> O tr x l.
  Proof.
    intros Hx (m & m' & b & (d & Ed & Hd) & E & Wh & B).
    destruct (nth_inv m' b E) as [E'|[-> ->]]; [|easy]. assert (L := nth_bound _ _ _ E').
    assert (B' : hbe tr m m') by (destruct B as [->|B]; [now left|right; now apply hb_back]).
    exists m, m', b. repeat split; auto. exists d. split; auto.
    destruct (nth_inv m d Ed) as [|[-> _]]; [easy|]. destruct B' as [B'|B']; [lia|]. apply hb_lt in B'. lia.
  Qed.
  Lemma K_O x l : In x (r_acq a) -> O tr' x l -> K tr' (r_who a) l.
  Proof.
    intros Hx (m & m' & b & D & E & Wh & B). exists m, N, a. repeat split; auto using nth_new.
    destruct (nth_inv m' b E) as [E'|[-> ->]]; [|exact B]. eapply hbe_trans; [exact B|]. right.
    eapply hb_sw; [exact E|apply nth_new|eapply nth_bound; eauto|exact Wh|exact Hx].
  Qed.
End App.

(** every logged event is done by a step *)
Lemma firstn_log {A} (l m : list A) : firstn (length (l ++ m) - length m) (l ++ m) = l.
Proof.
  rewrite app_length, Nat.add_sub. replace (length l) with (length l + 0) by lia.
  rewrite firstn_app_2. simpl. now rewrite app_nil_r.
Qed.
