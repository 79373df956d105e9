(** The pool of workers refines the machine of SchedModel. *)
From Coq Require Import Bool List Arith NArith ZArith Lia Permutation.
From Verif Require Import AccessModel AccessSpec UserModel SchedModel SchedSpec SchedBase SchedInv1 SchedInv2 SchedInv3 SchedInv4 SchedInv5 SchedInv6 SchedInv7 SchedInv8 SchedFront SchedThm SchedLive SchedTerm PoolModel.
Import ListNotations.
Open Scope nat_scope.

Definition all_of (n : nat) (q : nat -> list nat) : list nat := concat (map q (seq 1 n)).

(** the state of SchedModel that a state of the pool stands for *)
Definition sim (n : nat) (c : pool) (s : state) : Prop :=
  exists e r, s = with_queues (core c) e r /\ Permutation e (all_of n (nq c)) /\ Permutation r (all_of n (rq c)).

Lemma all_split (ws : list nat) (q : nat -> list nat) w : NoDup ws -> In w ws ->
  exists rest, Permutation (concat (map q ws)) (q w ++ rest) /\
               forall v, Permutation (concat (map (upd q w v) ws)) (v ++ rest).
Proof.
  induction ws as [|x ws IH]; intros N H; [easy|]. inversion N; subst. destruct H as [->|H].
  - exists (concat (map q ws)). split; [reflexivity|]. intros v. simpl. unfold upd at 1. rewrite Nat.eqb_refl.
    apply Permutation_app_head. erewrite map_ext_in; [reflexivity|]. intros a Ha. unfold upd.
    destruct (Nat.eqb_spec a w); [subst; easy|reflexivity].
  - destruct (IH H3 H) as (rest & A & B). exists (q x ++ rest). split.
    + simpl. rewrite A. rewrite !app_assoc. apply Permutation_app_tail, Permutation_app_comm.
    + intros v. simpl. rewrite B. unfold upd at 1. destruct (Nat.eqb_spec x w); [subst; easy|].
      rewrite !app_assoc. apply Permutation_app_tail, Permutation_app_comm.
Qed.

Lemma is_worker_In n w : is_worker n w = true -> In w (seq 1 n).
Proof. unfold is_worker. rewrite andb_true_iff, !Nat.leb_le, in_seq. lia. Qed.
Lemma In_is_worker n w : In w (seq 1 n) -> is_worker n w = true.
Proof. unfold is_worker. rewrite andb_true_iff, !Nat.leb_le, in_seq. lia. Qed.

Lemma all_push n q w v : is_worker n w = true -> Permutation (v ++ all_of n q) (all_of n (upd q w (v ++ q w))).
Proof.
  intros H. apply is_worker_In in H. destruct (all_split (seq 1 n) q w (seq_NoDup _ _) H) as (rest & A & B).
  unfold all_of. rewrite A, B. now rewrite app_assoc.
Qed.

Lemma remove_nth_perm {A} (l : list A) : forall k t, nth_error l k = Some t -> Permutation l (t :: remove_nth k l).
Proof.
  induction l as [|a l IH]; intros [|k] t H; simpl in *; try easy.
  - now injection H as ->.
  - rewrite (IH k t H) at 1. apply perm_swap.
Qed.

Lemma all_pop n q w k t : is_worker n w = true -> nth_error (q w) k = Some t ->
  Permutation (all_of n q) (t :: all_of n (upd q w (remove_nth k (q w)))).
Proof.
  intros H E. apply is_worker_In in H. destruct (all_split (seq 1 n) q w (seq_NoDup _ _) H) as (rest & A & B).
  unfold all_of. rewrite A, B. rewrite (remove_nth_perm _ _ _ E) at 1. reflexivity.
Qed.

Lemma bag_pop l (m : list nat) m' t : Permutation l m -> Permutation m (t :: m') ->
  exists k, nth_error l k = Some t /\ Permutation (remove_nth k l) m'.
Proof.
  intros A B. assert (In t l) by (rewrite A, B; simpl; auto).
  apply In_nth_error in H as [k E]. exists k. split; auto. apply (Permutation_cons_inv (a := t)).
  rewrite <- (remove_nth_perm _ _ _ E). now rewrite A.
Qed.

(** what is in the queues does not matter for the frames *)
Lemma fstep_queues P s f e r : emp s = [] -> rdy s = [] ->
  fstep P (with_queues s e r) f =
  match fstep P s f with
  | Some (s', fr) => Some (with_queues s' (emp s' ++ e) (rdy s' ++ r), fr)
  | None => None
  end.
Proof.
  intros E R. destruct s as [us lk ct fo em rd ex cd tc lo th]; simpl in E, R; subst em rd.
  destruct f as [o [|[]]|o c [|] is|t|t [|]|t r0 [|[p x] it] rs|t p r0 it rs|t p r0 it rs|t p r0 it rs|t p r0 it rs|t q|t q|t q|e0 k|e0 st k|t [|]|e0 st k|e0 [|]|t|t|t];
    cbn -[Z.eqb wrap]; unfold after_dep, inc; cbn -[Z.eqb wrap];
    repeat match goal with
    | |- context [if ?b then _ else _] => destruct b
    | |- context [match ?x with EPre _ => _ | _ => _ end] => destruct x
    | |- context [match ?x with NInit => _ | _ => _ end] => destruct x
    | |- context [match ?x with Some _ => _ | None => _ end] => is_var x; destruct x
    | |- context [match parent P ?x with Some _ => _ | None => _ end] => destruct (parent P x)
    end; reflexivity.
Qed.

Lemma fstep_pushes P s f s' fr : emp s = [] -> rdy s = [] -> fstep P s f = Some (s', fr) ->
  (emp s' = [] /\ rdy s' = []) \/ (exists t, emp s' = [t] /\ rdy s' = []) \/ (exists t, emp s' = [] /\ rdy s' = [t]).
Proof. intros E R H. cases_f H; simpl; rewrite ?E, ?R; eauto 6. Qed.

(** ** Invariant *)
Record pinv (n m : nat) (c : pool) : Prop := {
  pi_emp : emp (core c) = [];
  pi_rdy : rdy (core c) = [];
  pi_thr : length (thr (core c)) = 1 + n + m;
  pi_due : forall i, due c i <> [] -> i < 1 + n + m;
  (* no lost wakeups *)
  pi_rq : forall w, is_worker n w = true -> rq c w <> [] ->
          announced n m c w = true \/ flag c w = true \/ wp c w = WReady;
  pi_nq : forall w, is_worker n w = true -> nq c w <> [] ->
          announced n m c w = true \/ flag c w = true \/ wp c w = WReady \/ wp c w = WNew
}.

Lemma announced_iff n m c w : announced n m c w = true <-> exists i, i < 1 + n + m /\ In w (due c i).
Proof.
  unfold announced. rewrite existsb_exists. split.
  - intros (i & Hi & H). apply in_seq in Hi. apply existsb_exists in H as (x & Hx & E). apply Nat.eqb_eq in E. subst.
    exists i. split; auto; lia.
  - intros (i & Hi & H). exists i. split; [apply in_seq; lia|]. apply existsb_exists. exists w. split; auto. apply Nat.eqb_refl.
Qed.

Lemma pinv_init P n m : pinv n m (pinit P n m).
Proof.
  split; simpl; auto; try easy. now rewrite repeat_length.
Qed.

Lemma upd_eq {A} (g : nat -> A) i v : upd g i v i = v.
Proof. unfold upd. now rewrite Nat.eqb_refl. Qed.
Lemma upd_ne {A} (g : nat -> A) i j v : i <> j -> upd g i v j = g j.
Proof. unfold upd. destruct (Nat.eqb_spec j i); congruence. Qed.

Lemma remove_nth_nil {A} (l : list A) k : remove_nth k l <> [] -> l <> [].
Proof. destruct l, k; simpl; congruence. Qed.

(** dues are only added *)
Lemma announced_mono n m c c' i l w : due c i = [] -> due c' = upd (due c) i l ->
  announced n m c w = true -> announced n m c' w = true.
Proof.
  intros D D'. rewrite !announced_iff. intros (j & Hj & H). exists j. split; auto. rewrite D'.
  destruct (Nat.eq_dec i j) as [<-|N]; [rewrite D in H; easy|]. now rewrite upd_ne.
Qed.

Lemma nth_lt {A} (l : list A) i x : nth_error l i = Some x -> i < length l.
Proof. intros H. apply nth_error_Some. congruence. Qed.

Lemma pinv_step P n m c mv c' : pinv n m c -> pstep P n m c mv = Some c' -> pinv n m c'.
Proof.
  intros [E R T D RQ NQ] H. destruct mv as [i w|i|w k|w|w v k|i k]; unfold pstep in H.
  - (* MStep *)
    destruct (due c i) eqn:Di; [|discriminate].
    destruct (nth_error (thr (core c)) i) as [[|f fs]|] eqn:Ei; try discriminate.
    destruct (fstep P (core c) f) as [[s' fr]|] eqn:Ef; [|discriminate].
    destruct (is_worker n w) eqn:W; [|discriminate]. injection H as <-.
    assert (Hi : i < 1 + n + m) by (apply nth_lt in Ei; lia).
    assert (MON : forall x, announced n m c x = true -> announced n m (mkPool (with_queues (set_thr s' (set_nth i (fr ++ fs) (thr (core c)))) [] [])
                             (upd (rq c) w (rdy s' ++ rq c w)) (upd (nq c) w (emp s' ++ nq c w)) (flag c)
                             (upd (wp c) i (goes_on fr (wp c i)))
                             (upd (due c) i (wakes n (core c) f s' w))) x = true).
    { intros x. eapply announced_mono; [exact Di|reflexivity]. }
    assert (GO : forall p, goes_on fr p = p \/ goes_on fr p = WReady).
    { intros p. destruct fr as [|[] [|]]; simpl; auto. }
    split; auto.
    + simpl. now rewrite set_nth_length.
    + simpl. intros j. unfold upd. destruct (Nat.eqb_spec j i); [subst; auto|apply D].
    + simpl rq. simpl flag. simpl wp. intros x Hx. unfold upd at 1. destruct (Nat.eqb_spec x w) as [->|Nx].
      * intros Hq. destruct (rdy s') as [|t l] eqn:Er.
        -- simpl in Hq. destruct (RQ w W Hq) as [A|[A|A]]; auto. right. right.
           unfold upd. destruct (Nat.eqb_spec w i); auto. subst. destruct (GO (wp c i)) as [->| ->]; auto.
        -- left. apply announced_iff. exists i. split; auto. simpl. rewrite upd_eq. unfold wakes. rewrite Er.
           destruct (emp s'); simpl; auto.
      * intros Hq. destruct (RQ x Hx Hq) as [A|[A|A]]; auto. right. right.
        unfold upd. destruct (Nat.eqb_spec x i); auto. subst. destruct (GO (wp c i)) as [->| ->]; auto.
    + simpl nq. simpl flag. simpl wp. intros x Hx. unfold upd at 1. destruct (Nat.eqb_spec x w) as [->|Nx].
      * intros Hq. destruct (emp s') as [|t l] eqn:Er.
        -- simpl in Hq. destruct (NQ w W Hq) as [A|[A|A]]; auto. right. right.
           unfold upd. destruct (Nat.eqb_spec w i); auto. subst. destruct (GO (wp c i)) as [->| ->]; auto.
        -- left. apply announced_iff. exists i. split; auto. simpl. rewrite upd_eq. unfold wakes. rewrite Er.
           simpl; auto.
      * intros Hq. destruct (NQ x Hx Hq) as [A|[A|A]]; auto. right. right.
        unfold upd. destruct (Nat.eqb_spec x i); auto. subst. destruct (GO (wp c i)) as [->| ->]; auto.
  - (* MWake *)
    destruct (due c i) as [|w l] eqn:Di; [discriminate|]. injection H as <-.
    assert (X : forall x, announced n m c x = true ->
              announced n m (mkPool (core c) (rq c) (nq c) (upd (flag c) w true) (wp c) (upd (due c) i l)) x = true \/ x = w).
    { intros x. rewrite !announced_iff. intros (j & Hj & Hx). simpl. destruct (Nat.eq_dec i j) as [<-|Nj].
      - rewrite Di in Hx. destruct Hx as [->|Hx]; auto. left. exists i. split; auto. now rewrite upd_eq.
      - left. exists j. split; auto. now rewrite upd_ne. }
    assert (Y : forall x, flag c x = true -> upd (flag c) w true x = true).
    { intros x Hx. unfold upd. destruct (Nat.eqb x w); auto. }
    split; auto.
    + simpl. intros j. unfold upd. destruct (Nat.eqb_spec j i); [subst; intros _; apply D; congruence|apply D].
    + simpl rq. simpl flag. simpl wp. intros x Hx Hq. destruct (RQ x Hx Hq) as [A|[A|A]]; auto.
      destruct (X x A) as [B|B]; auto. subst. right. left. apply upd_eq.
    + simpl nq. simpl flag. simpl wp. intros x Hx Hq. destruct (NQ x Hx Hq) as [A|[A|A]]; auto.
      destruct (X x A) as [B|B]; auto. subst. right. left. apply upd_eq.
  - (* MTake *)
    destruct (is_worker n w) eqn:W; [|discriminate]. destruct (due c w) eqn:Di; [|discriminate].
    destruct (nth_error (thr (core c)) w) as [[|f fs]|] eqn:Ei; try discriminate.
    destruct (wp c w) eqn:Ew; try discriminate.
    + destruct (flag c w) eqn:Fw; [|discriminate]. injection H as <-. split; auto.
      * simpl rq. simpl flag. simpl wp. intros x Hx Hq. unfold upd. destruct (Nat.eqb_spec x w); [auto|now apply RQ].
      * simpl nq. simpl flag. simpl wp. intros x Hx Hq. unfold upd. destruct (Nat.eqb_spec x w); [auto|now apply NQ].
    + destruct (nth_error (rq c w) k) as [t|] eqn:Ek; [|discriminate]. injection H as <-.
      split; auto.
      * simpl. now rewrite set_nth_length.
      * simpl rq. simpl flag. simpl wp. intros x Hx. unfold upd. destruct (Nat.eqb_spec x w); [subst; auto|now apply RQ].
    + destruct (nth_error (nq c w) k) as [t|] eqn:Ek; [|discriminate]. injection H as <-.
      split; auto.
      * simpl. now rewrite set_nth_length.
      * simpl nq. simpl flag. simpl wp. intros x Hx. unfold upd. destruct (Nat.eqb_spec x w); [subst; auto|now apply NQ].
  - (* MMiss *)
    destruct (is_worker n w) eqn:W; [|discriminate]. destruct (due c w) eqn:Di; [|discriminate].
    destruct (nth_error (thr (core c)) w) as [[|f fs]|] eqn:Ei; try discriminate.
    assert (GEN : forall p, c' = mkPool (core c) (rq c) (nq c) (flag c) (upd (wp c) w p) (due c) ->
      (rq c w <> [] -> announced n m c w = true \/ flag c w = true \/ p = WReady) ->
      (nq c w <> [] -> announced n m c w = true \/ flag c w = true \/ p = WReady \/ p = WNew) -> pinv n m c').
    { intros p -> Q1 Q2. split; auto.
      - simpl rq. simpl flag. simpl wp. intros x Hx Hq. unfold upd. destruct (Nat.eqb_spec x w); [subst; now apply Q1|now apply RQ].
      - simpl nq. simpl flag. simpl wp. intros x Hx Hq. unfold upd. destruct (Nat.eqb_spec x w); [subst; now apply Q2|now apply NQ]. }
    specialize (RQ w W). specialize (NQ w W).
    destruct (wp c w) as [| | |[|k]|[|k]] eqn:Ew; try discriminate.
    + destruct (rq c w) eqn:Er.
      * injection H as <-. apply (GEN WNew); auto; easy.
      * destruct (announced n m c w) eqn:A; [|discriminate]. injection H as <-. apply (GEN WNew); auto.
    + assert (Hr : rq c w <> [] -> announced n m c w = true \/ flag c w = true \/ WStealReady n = WReady).
      { intros Q. destruct (RQ Q) as [?|[?|?]]; auto. discriminate. }
      destruct (nq c w) eqn:Er.
      * injection H as <-. apply (GEN (WStealReady n)); auto; easy.
      * destruct (announced n m c w) eqn:A; [|discriminate]. injection H as <-. apply (GEN (WStealReady n)); auto.
    + injection H as <-. apply (GEN (WStealNew n)); auto; intros Q; [destruct (RQ Q) as [?|[?|?]]|destruct (NQ Q) as [?|[?|[?|?]]]]; auto; discriminate.
    + injection H as <-. apply (GEN (WStealReady k)); auto; intros Q; [destruct (RQ Q) as [?|[?|?]]|destruct (NQ Q) as [?|[?|[?|?]]]]; auto; discriminate.
    + injection H as <-. apply (GEN WWait); auto; intros Q; [destruct (RQ Q) as [?|[?|?]]|destruct (NQ Q) as [?|[?|[?|?]]]]; auto; discriminate.
    + injection H as <-. apply (GEN (WStealNew k)); auto; intros Q; [destruct (RQ Q) as [?|[?|?]]|destruct (NQ Q) as [?|[?|[?|?]]]]; auto; discriminate.
  - (* MSteal *)
    destruct (is_worker n w) eqn:W; [|discriminate]. destruct (is_worker n v) eqn:V; [|discriminate].
    destruct (due c w) eqn:Di; [|discriminate].
    destruct (nth_error (thr (core c)) w) as [[|f fs]|] eqn:Ei; try discriminate.
    destruct (wp c w) as [| | |[|j]|[|j]] eqn:Ew; try discriminate.
    + destruct (nth_error (rq c v) k) as [t|] eqn:Ek; [|discriminate]. injection H as <-. split; auto.
      * simpl. now rewrite set_nth_length.
      * simpl rq. simpl flag. simpl wp. intros x Hx Hq.
        assert (rq c x <> []) as Hq'.
        { revert Hq. unfold upd. destruct (Nat.eqb_spec x v); auto. subst. apply remove_nth_nil. }
        unfold upd. destruct (Nat.eqb_spec x w); [auto|now apply RQ].
      * simpl nq. simpl flag. simpl wp. intros x Hx Hq. unfold upd. destruct (Nat.eqb_spec x w); [auto|now apply NQ].
    + destruct (nth_error (nq c v) k) as [t|] eqn:Ek; [|discriminate]. injection H as <-. split; auto.
      * simpl. now rewrite set_nth_length.
      * simpl rq. simpl flag. simpl wp. intros x Hx Hq. unfold upd. destruct (Nat.eqb_spec x w); [|now apply RQ].
        subst. destruct (RQ w W Hq) as [?|[?|?]]; auto. congruence.
      * simpl nq. simpl flag. simpl wp. intros x Hx Hq.
        assert (nq c x <> []) as Hq'.
        { revert Hq. unfold upd. destruct (Nat.eqb_spec x v); auto. subst. apply remove_nth_nil. }
        unfold upd. destruct (Nat.eqb_spec x w); [|now apply NQ].
        subst. destruct (NQ w W Hq') as [?|[?|[?|?]]]; auto; congruence.
  - (* MFire *)
    destruct (n <? i) eqn:V; [|discriminate]. destruct (due c i) eqn:Di; [|discriminate].
    destruct (nth_error (thr (core c)) i) as [[|f fs]|] eqn:Ei; try discriminate.
    simpl in H. destruct (nth_error (ext (core c)) k) as [[t e]|] eqn:Ek; [|discriminate]. injection H as <-.
    split; auto. simpl. now rewrite set_nth_length.
Qed.

(** ** Every step of the pool is a step of SchedModel or makes a measure smaller *)
Definition pw (n : nat) (p : wpc) : nat :=
  match p with WWait => 0 | WStealNew k => 1 + k | WStealReady k => 2 + n + k | WNew => 3 + 2 * n | WReady => 4 + 2 * n end.
Definition total {A} (g : A -> nat) (h : nat -> A) (l : list nat) : nat := list_sum (map (fun i => g (h i)) l).
Definition gd (n : nat) (l : list nat) : nat := length l * (6 + 2 * n).
Definition gf (n : nat) (b : bool) : nat := if b then 5 + 2 * n else 0.
Definition pot (n m : nat) (c : pool) : nat :=
  let l := seq 0 (1 + n + m) in
  total (gd n) (due c) l + total (gf n) (flag c) l + total (pw n) (wp c) l.
Definition gain (n : nat) : nat := (1 + n) * (6 + 2 * n) + (4 + 2 * n).

Lemma total_upd {A} (g : A -> nat) h i v l : NoDup l -> In i l ->
  total g (upd h i v) l + g (h i) = total g h l + g v.
Proof.
  unfold total. induction l as [|x l IH]; intros N H; [easy|]. inversion N; subst. simpl. destruct H as [->|H].
  - rewrite upd_eq. replace (map (fun j => g (upd h i v j)) l) with (map (fun j => g (h j)) l); [lia|].
    apply map_ext_in. intros a Ha. rewrite upd_ne; [auto|congruence].
  - specialize (IH H3 H). rewrite (upd_ne h i x) by congruence. lia.
Qed.
Lemma total_upd_le {A} (g : A -> nat) h i v l : NoDup l -> total g (upd h i v) l <= total g h l + g v.
Proof.
  unfold total. induction l as [|x l IH]; intros N; [simpl; lia|]. inversion N; subst. specialize (IH H2). simpl.
  destruct (Nat.eq_dec x i) as [->|Nx].
  - rewrite upd_eq. replace (map (fun j => g (upd h i v j)) l) with (map (fun j => g (h j)) l); [lia|].
    apply map_ext_in. intros a Ha. rewrite upd_ne; [auto|congruence].
  - rewrite upd_ne by congruence. lia.
Qed.

Lemma worker_range n m w : is_worker n w = true -> In w (seq 0 (1 + n + m)).
Proof. intros H. apply is_worker_In in H. apply in_seq in H. apply in_seq. lia. Qed.

Lemma wakes_length P n s f s' fr w : emp s = [] -> rdy s = [] -> fstep P s f = Some (s', fr) -> length (wakes n s f s' w) <= 1 + n.
Proof.
  intros E R H. unfold wakes. destruct (fstep_pushes P s f s' fr E R H) as [[A B]|[(t & A & B)|(t & A & B)]]; rewrite A, ?B; simpl; try lia.
  destruct f; simpl; try lia. destruct (_ =? _)%Z; simpl; rewrite ?seq_length; lia.
Qed.

Definition same_guard (P : prog) (c : pool) (mv : move) (s : state) (i : nat) : Prop :=
  children_first P c mv -> end_ok P s i.

Lemma pool_step P n m c mv c' s : pinv n m c -> sim n c s -> pstep P n m c mv = Some c' ->
  (sim n c' s /\ pot n m c' + 1 <= pot n m c) \/
  (exists i pk s', step P s i pk = Some s' /\ sim n c' s' /\ same_guard P c mv s i /\ pot n m c' <= pot n m c + gain n).
Proof.
  intros I (e & r & -> & Pe & Pr) H. assert (I' := I). destruct I' as [E R T D _ _].
  destruct mv as [i w|i|w k|w|w v k|i k]; unfold pstep in H.
  - destruct (due c i) eqn:Di; [|discriminate].
    destruct (nth_error (thr (core c)) i) as [[|f fs]|] eqn:Ei; try discriminate.
    destruct (fstep P (core c) f) as [[s' fr]|] eqn:Ef; [|discriminate].
    destruct (is_worker n w) eqn:W; [|discriminate]. injection H as <-.
    right. exists i, (PReady 0), (with_queues (set_thr s' (set_nth i (fr ++ fs) (thr (core c)))) (emp s' ++ e) (rdy s' ++ r)).
    split; [|split; [|split]].
    + unfold step. simpl thr. rewrite Ei, fstep_queues, Ef by auto. reflexivity.
    + exists (emp s' ++ e), (rdy s' ++ r). split; [reflexivity|]. simpl nq. simpl rq. split.
      * rewrite <- all_push by auto. now rewrite Pe.
      * rewrite <- all_push by auto. now rewrite Pr.
    + intros G q fs' Q. simpl in Q. exact (G q fs' Q).
    + unfold pot. cbn [due flag wp].
      assert (Hi : In i (seq 0 (1 + n + m))) by (apply nth_lt in Ei; apply in_seq; lia).
      pose proof (total_upd (gd n) (due c) i (wakes n (core c) f s' w) _ (seq_NoDup _ _) Hi) as A.
      pose proof (total_upd_le (pw n) (wp c) i (goes_on fr (wp c i)) _ (seq_NoDup (1 + n + m) 0)) as B.
      pose proof (total_upd (pw n) (wp c) i (goes_on fr (wp c i)) _ (seq_NoDup _ _) Hi) as B'.
      pose proof (wakes_length P n (core c) f s' fr w E R Ef) as L.
      assert (gd n (wakes n (core c) f s' w) <= (1 + n) * (6 + 2 * n)) by (unfold gd; now apply Nat.mul_le_mono_r).
      assert (pw n (goes_on fr (wp c i)) <= pw n (wp c i) + (4 + 2 * n)).
      { assert (goes_on fr (wp c i) = wp c i \/ goes_on fr (wp c i) = WReady) as [->| ->] by (destruct fr as [|[] [|]]; simpl; auto); simpl; lia. }
      unfold gain. lia.
  - destruct (due c i) as [|w l] eqn:Di; [discriminate|]. injection H as <-. left. split.
    + exists e, r. auto.
    + unfold pot. cbn [due flag wp].
      assert (Hi : In i (seq 0 (1 + n + m))) by (apply in_seq; split; [lia|]; simpl; apply D; congruence).
      pose proof (total_upd (gd n) (due c) i l _ (seq_NoDup _ _) Hi) as A. rewrite Di in A.
      pose proof (total_upd_le (gf n) (flag c) w true _ (seq_NoDup (1 + n + m) 0)) as B. simpl gf in B.
      unfold gd in *. simpl length in A. lia.
  - destruct (is_worker n w) eqn:W; [|discriminate]. destruct (due c w) eqn:Di; [|discriminate].
    destruct (nth_error (thr (core c)) w) as [[|f fs]|] eqn:Ei; try discriminate.
    assert (Hw := worker_range n m w W).
    destruct (wp c w) eqn:Ew; try discriminate.
    + destruct (flag c w) eqn:Fw; [|discriminate]. injection H as <-. left. split; [exists e, r; auto|].
      unfold pot. cbn [due flag wp].
      pose proof (total_upd (gf n) (flag c) w false _ (seq_NoDup _ _) Hw) as A.
      pose proof (total_upd (pw n) (wp c) w WReady _ (seq_NoDup _ _) Hw) as B.
      rewrite Fw in A. rewrite Ew in B. simpl gf in A. simpl pw in B. lia.
    + destruct (nth_error (rq c w) k) as [t|] eqn:Ek; [|discriminate]. injection H as <-. right.
      destruct (bag_pop _ _ _ t Pr (all_pop n (rq c) w k t W Ek)) as (k' & Ek' & Pk).
      exists w, (PReady k'), (with_queues (start c w [FExec t]) e (remove_nth k' r)).
      split; [|split; [|split]].
      * unfold step. simpl thr. rewrite Ei. simpl. now rewrite Ek'.
      * exists e, (remove_nth k' r). auto.
      * intros _ q fs Q. simpl in Q. rewrite Ei in Q. discriminate.
      * unfold pot. cbn [due flag wp]. lia.
    + destruct (nth_error (nq c w) k) as [t|] eqn:Ek; [|discriminate]. injection H as <-. right.
      destruct (bag_pop _ _ _ t Pe (all_pop n (nq c) w k t W Ek)) as (k' & Ek' & Pk).
      exists w, (PNew k'), (with_queues (start c w [FInitUp t]) (remove_nth k' e) r).
      split; [|split; [|split]].
      * unfold step. simpl thr. rewrite Ei. simpl. now rewrite Ek'.
      * exists (remove_nth k' e), r. auto.
      * intros _ q fs Q. simpl in Q. rewrite Ei in Q. discriminate.
      * unfold pot. cbn [due flag wp]. lia.
  - destruct (is_worker n w) eqn:W; [|discriminate]. destruct (due c w) eqn:Di; [|discriminate].
    destruct (nth_error (thr (core c)) w) as [[|f fs]|] eqn:Ei; try discriminate.
    assert (Hw := worker_range n m w W).
    assert (GEN : forall p, c' = mkPool (core c) (rq c) (nq c) (flag c) (upd (wp c) w p) (due c) ->
       pw n p + 1 <= pw n (wp c w) -> sim n c' (with_queues (core c) e r) /\ pot n m c' + 1 <= pot n m c).
    { intros p -> Hp. split; [exists e, r; auto|]. unfold pot. cbn [due flag wp].
      pose proof (total_upd (pw n) (wp c) w p _ (seq_NoDup _ _) Hw) as B. lia. }
    left. destruct (wp c w) as [| | |[|k]|[|k]] eqn:Ew; try discriminate.
    + destruct (rq c w); [|destruct (announced n m c w); [|discriminate]]; injection H as <-; apply (GEN WNew); auto; simpl; lia.
    + destruct (nq c w); [|destruct (announced n m c w); [|discriminate]]; injection H as <-; apply (GEN (WStealReady n)); auto; simpl; lia.
    + injection H as <-; apply (GEN (WStealNew n)); auto; simpl; lia.
    + injection H as <-; apply (GEN (WStealReady k)); auto; simpl; lia.
    + injection H as <-; apply (GEN WWait); auto; simpl; lia.
    + injection H as <-; apply (GEN (WStealNew k)); auto; simpl; lia.
  - destruct (is_worker n w) eqn:W; [|discriminate]. destruct (is_worker n v) eqn:V; [|discriminate].
    destruct (due c w) eqn:Di; [|discriminate].
    destruct (nth_error (thr (core c)) w) as [[|f fs]|] eqn:Ei; try discriminate.
    assert (Hw := worker_range n m w W). right.
    destruct (wp c w) as [| | |[|j]|[|j]] eqn:Ew; try discriminate.
    + destruct (nth_error (rq c v) k) as [t|] eqn:Ek; [|discriminate]. injection H as <-.
      destruct (bag_pop _ _ _ t Pr (all_pop n (rq c) v k t V Ek)) as (k' & Ek' & Pk).
      exists w, (PReady k'), (with_queues (start c w [FExec t]) e (remove_nth k' r)).
      split; [|split; [|split]].
      * unfold step. simpl thr. rewrite Ei. simpl. now rewrite Ek'.
      * exists e, (remove_nth k' r). auto.
      * intros _ q fs Q. simpl in Q. rewrite Ei in Q. discriminate.
      * unfold pot, gain. cbn [due flag wp].
        pose proof (total_upd (pw n) (wp c) w WReady _ (seq_NoDup _ _) Hw) as B. simpl pw in B. lia.
    + destruct (nth_error (nq c v) k) as [t|] eqn:Ek; [|discriminate]. injection H as <-.
      destruct (bag_pop _ _ _ t Pe (all_pop n (nq c) v k t V Ek)) as (k' & Ek' & Pk).
      exists w, (PNew k'), (with_queues (start c w [FInitUp t]) (remove_nth k' e) r).
      split; [|split; [|split]].
      * unfold step. simpl thr. rewrite Ei. simpl. now rewrite Ek'.
      * exists (remove_nth k' e), r. auto.
      * intros _ q fs Q. simpl in Q. rewrite Ei in Q. discriminate.
      * unfold pot, gain. cbn [due flag wp].
        pose proof (total_upd (pw n) (wp c) w WWait _ (seq_NoDup _ _) Hw) as B. simpl pw in B. lia.
  - destruct (n <? i) eqn:V; [|discriminate]. destruct (due c i) eqn:Di; [|discriminate].
    destruct (nth_error (thr (core c)) i) as [[|f fs]|] eqn:Ei; try discriminate.
    simpl in H. destruct (nth_error (ext (core c)) k) as [[t x]|] eqn:Ek; [|discriminate]. injection H as <-. right.
    exists i, (PExt k). eexists. split; [|split; [|split]].
    + unfold step. simpl thr. rewrite Ei. simpl. rewrite Ek. reflexivity.
    + exists e, r. auto.
    + intros _ q fs Q. simpl in Q. rewrite Ei in Q. discriminate.
    + unfold pot. cbn [due flag wp]. lia.
Qed.

Lemma pool_run P n m g k c : psteps P n m g k c ->
  pinv n m c /\ exists a s, asteps P (n + m) g a s /\ sim n c s /\ k + pot n m c <= a * (1 + gain n).
Proof.
  induction 1 as [|k c mv c' _ [I (a & s & A & S & B)] G H].
  - split; [apply pinv_init|]. exists 0, (init P (n + m)). split; [constructor|]. split.
    + exists [], []. split; [reflexivity|].
      assert (X : forall l : list nat, concat (map (fun _ => @nil nat) l) = []) by (induction l; auto).
      unfold all_of. simpl. now rewrite X.
    + unfold pot, total. assert (X : forall l : list nat, list_sum (map (fun _ => 0) l) = 0) by (induction l; auto).
      unfold pinit. cbn [due flag wp gd gf pw length Nat.mul]. unfold gd. cbn [length Nat.mul]. rewrite !X. lia.
  - split; [exact (pinv_step P n m c mv c' I H)|].
    destruct (pool_step P n m c mv c' s I S H) as [[S' L]|(i & pk & s' & E & S' & G' & L)].
    + exists a, s. split; auto. split; auto. lia.
    + exists (Datatypes.S a), s'. split; [|split; auto].
      * econstructor; [exact A| |exact E]. intros Q. exact (G' (G Q)).
      * cbn [Nat.mul]. lia.
Qed.

Lemma asteps_reach P n g k s : asteps P n g k s -> reach P n s.
Proof. induction 1; econstructor; eauto. Qed.

Lemma asteps_gsteps P n g k s : wfa P -> p_wrap P = false -> (g = true \/ flat P) -> asteps P n g k s -> gsteps P n k s.
Proof.
  intros W NW F. induction 1 as [|k s i c s' A IH G H]; [constructor|]. econstructor; eauto.
  destruct F as [->|F]; auto. intros q fs _ x Hx Hs. exfalso.
  assert (I := greach_Inv P W NW n s (flat_greach P W NW n s F (asteps_reach _ _ _ _ _ A))).
  apply in_spawn in Hs. apply (sp_body P W s I) in Hs. rewrite Hx, F in Hs. easy.
Qed.

Lemma gsteps_greach P n k s : gsteps P n k s -> greach P n s.
Proof. induction 1; econstructor; eauto. Qed.

(** ** Only thread 0 runs the code of the main thread *)
Definition mainly (f : frame) : bool := match f with FBody None _ | FSub None _ _ _ => true | _ => false end.

Lemma fstep_mainly P s f s' fr : fstep P s f = Some (s', fr) -> forall g, In g fr -> mainly g = true -> mainly f = true.
Proof.
  intros H. cases_f H; simpl; intros g Hg M; repeat destruct Hg as [<-|Hg]; try easy; simpl in *; auto.
Qed.

Lemma reach_mainly P n s : reach P n s -> forall i st f, nth_error (thr s) i = Some st -> In f st -> mainly f = true -> i = 0.
Proof.
  induction 1 as [|s i c s' _ IH H]; intros j st f E Hf M.
  - destruct j; auto. simpl in E. exfalso. revert j E. induction n as [|n IHn]; intros [|j] E; simpl in E; try easy.
    + now injection E as <-.
    + eauto.
  - unfold step in H. destruct (nth_error (thr s) i) as [[|g fs]|] eqn:Ei; [| |discriminate].
    + destruct (istep s c) as [[s1 fr]|] eqn:Ef; [|discriminate]. injection H as <-. simpl in E.
      rewrite nth_set_nth in E. destruct (Nat.eqb_spec i j) as [<-|N]; [|eauto].
      rewrite Ei in E. injection E as <-. exfalso.
      destruct c as [k|k|k]; simpl in Ef; destruct (nth_error _ k) as [x|]; try discriminate; try destruct x; injection Ef as <- <-;
        destruct Hf as [<-|[]]; discriminate.
    + destruct (fstep P s g) as [[s1 fr]|] eqn:Ef; [|discriminate]. injection H as <-. simpl in E.
      rewrite nth_set_nth in E. destruct (Nat.eqb_spec i j) as [<-|N]; [|eauto].
      rewrite Ei in E. injection E as <-. apply in_app_or in Hf as [Hf|Hf].
      * apply (IH i _ g Ei); [simpl; auto|]. exact (fstep_mainly P s g s1 fr Ef f Hf M).
      * apply (IH i _ f Ei); simpl; auto.
Qed.

(** ** A pool that does not move *)
Lemma pstuck_due P n m c : pstuck P n m c -> forall i, due c i = [].
Proof. intros K i. specialize (K (MWake i)). simpl in K. now destruct (due c i). Qed.

Lemma pstuck_waits P n m c w : pinv n m c -> pstuck P n m c -> is_worker n w = true ->
  nth_error (thr (core c)) w = Some [] -> wp c w = WWait /\ flag c w = false /\ rq c w = [] /\ nq c w = [].
Proof.
  intros I K W E. assert (D := pstuck_due P n m c K).
  assert (A : announced n m c w = false).
  { apply not_true_iff_false. rewrite announced_iff. intros (i & _ & Hi). rewrite D in Hi. easy. }
  assert (M := K (MMiss w)). assert (T0 := K (MTake w 0)). unfold pstep in M, T0. rewrite W, D, E in M, T0.
  assert (wp c w = WWait /\ flag c w = false) as [Ew Ef].
  { destruct (wp c w) as [| | |[|k]|[|k]]; try discriminate.
    - destruct (flag c w); [discriminate|auto].
    - destruct (rq c w); discriminate.
    - destruct (nq c w); discriminate. }
  split; auto. split; auto. split.
  - destruct (rq c w) as [|x l] eqn:Q; auto. exfalso.
    destruct (pi_rq n m c I w W) as [X|[X|X]]; congruence.
  - destruct (nq c w) as [|x l] eqn:Q; auto. exfalso.
    destruct (pi_nq n m c I w W) as [X|[X|[X|X]]]; congruence.
Qed.

Lemma pstuck_stuck P n m c s : wf P -> p_wrap P = false -> 1 <= n -> 1 <= m ->
  pinv n m c -> greach P (n + m) s -> sim n c s -> pstuck P n m c -> stuck P s.
Proof.
  intros W NW Hn Hm I G S K. assert (R : reach P (n + m) s) by (clear -G; induction G; econstructor; eauto).
  destruct S as (e & r & -> & Pe & Pr). set (s := with_queues (core c) e r) in *.
  assert (D := pstuck_due P n m c K).
  assert (AB : all_blocked P s).
  { intros i st E. destruct st as [|f fs]; auto. simpl in E.
    unfold s. rewrite fstep_queues by apply I.
    specialize (K (MStep i 1)). unfold pstep in K. rewrite D, E in K.
    destruct (fstep P (core c) f) as [[? ?]|]; auto.
    assert (is_worker n 1 = true) as Q by (apply In_is_worker, in_seq; lia). now rewrite Q in K. }
  assert (TOP := blocked_top P W (n + m) s R (greach_Inv P W NW (n + m) s G) AB).
  assert (IDLE : forall i, 1 <= i <= n + m -> nth_error (thr (core c)) i = Some []).
  { intros i Hi. destruct (nth_error (thr (core c)) i) as [[|f fs]|] eqn:E; auto.
    - exfalso. destruct (TOP i f fs E) as (_ & is & -> & _).
      assert (i = 0); [|lia]. apply (reach_mainly P (n + m) s R i _ (FBody None is) E); simpl; auto.
    - apply nth_error_None in E. rewrite (pi_thr n m c I) in E. lia. }
  assert (Q : forall q, (forall w, is_worker n w = true -> q w = []) -> all_of n q = []).
  { intros q Hq. unfold all_of. assert (forall l, (forall w, In w l -> q w = []) -> concat (map q l) = []) as X.
    { induction l as [|x l IH]; intros Hl; auto. simpl. rewrite Hl by (simpl; auto). apply IH. intros; apply Hl; simpl; auto. }
    apply X. intros w Hw. apply Hq. now apply In_is_worker. }
  assert (e = []).
  { apply Permutation_nil. rewrite Pe. rewrite Q; auto. intros w Hw.
    assert (Hi := is_worker_In n w Hw). apply in_seq in Hi.
    apply (pstuck_waits P n m c w I K Hw (IDLE w ltac:(lia))). }
  assert (r = []).
  { apply Permutation_nil. rewrite Pr. rewrite Q; auto. intros w Hw.
    assert (Hi := is_worker_In n w Hw). apply in_seq in Hi.
    apply (pstuck_waits P n m c w I K Hw (IDLE w ltac:(lia))). }
  assert (X : ext (core c) = []).
  { assert (Kx := K (MFire (n + m) 0)). unfold pstep in Kx. rewrite D, (IDLE (n + m) ltac:(lia)) in Kx.
    replace (n <? n + m) with true in Kx by (symmetry; apply Nat.ltb_lt; lia). simpl in Kx.
    destruct (ext (core c)) as [|[? ?] ?]; simpl in Kx; easy. }
  intros i pk. unfold step. destruct (nth_error (thr s) i) as [[|f fs]|] eqn:E; auto.
  - unfold s. subst e r. destruct pk as [[|k]|[|k]|[|k]]; simpl; rewrite ?X; auto.
  - specialize (AB i _ E). simpl in AB. now rewrite AB.
Qed.
