(** examples/mpi.cpp (C72): with an MPI that delivers what was sent, the values go round the ring
    of ranks, one cell per turn, for every number of ranks, cells and turns and every schedule on every rank;
    which source rank 0 asks for; and that messages with one tag keep their order. *)
From Coq Require Import Bool List Arith NArith ZArith Lia Sorted.
From Verif Require Import AccessModel AccessSpec UserModel SchedModel SchedSpec SchedBase SchedInv1 SchedInv2 SchedInv3 SchedInv8 SchedFront SchedThm SchedLive SchedTerm SchedSeq SchedMore SchedEx PropertiesSched
  PoolModel PoolProof PropertiesPool AppModel AppSpec AppProof AppMore PropertiesChol RingModel RingProof.
Import ListNotations.
Open Scope nat_scope.

(** ** What is meant (mpi.cpp:11-28): the numbers 1 .. w * N in a ring, w of them with each rank; in
    every turn each one moves one place to the right.  Cell 0 of a rank is a copy of the last
    cell of its left neighbour. *)
Definition ring_value (w N k r i : nat) : Z := ((Z.of_nat w * Z.of_nat r + Z.of_nat i - 1 - Z.of_nat k) mod (Z.of_nat w * Z.of_nat N) + 1)%Z.

(** What becomes of it when rank 0 receives nothing and its cell stays 0: the numbers move along a
    line, and zeros follow. *)
Definition line_value (w k r i : nat) : Z := Z.max 0 (Z.of_nat w * Z.of_nat r + Z.of_nat i - Z.of_nat k).

(** ** One rank *)
Definition ring (w n : nat) (b : bool) : prog := AppModel.app (ring_jobs w n) b.
(** indices of 64 bits; with 16-bit counters, not too many tasks *)
Definition ring_fits (w n : nat) (b : bool) : Prop :=
  1 <= w /\ (N.of_nat (w + 1) <= size_max)%N /\ (b = true -> (6 + Z.of_nat n * (6 + 2 * Z.of_nat w) <= 65535)%Z).
(** both fields have w + 1 cells *)
Definition two_fields (w : nat) (m : cells) : Prop := length (snd m) = 2 /\ forall b, b < 2 -> length (nth b (snd m) []) = w + 1.
Lemma ring_fits_few w n b : ring_fits w n b -> b = true -> few (ring_jobs w n).
Proof. intros (_ & _ & F) E. apply ring_few. specialize (F E). replace (Z.of_nat (n * (6 + 2 * w))) with (Z.of_nat n * (6 + 2 * Z.of_nat w))%Z by lia. exact F. Qed.
Lemma ring_fits_sound w n b : ring_fits w n b -> sound_app (ring_jobs w n).
Proof. intros (_ & F & _). now apply ring_sound. Qed.

(** When nothing can move any more, main is behind the barrier of finalize() (183) and all tasks are
    done. *)
Theorem C72_everything_is_done :
  forall w n b q s, ring_fits w n b -> 1 <= q -> reach (ring w n b) q s -> stuck (ring w n b) s ->
  all_frames s = [FBody None []] /\ forall t, t < 3 + n * (w + 3) -> completed s t /\ In (LFree t) (log s).
Proof.
  intros w n b q s F Q R K. assert (OK := ring_fits_sound w n b F). destruct (app_ideal _ b q s OK (ring_fits_few w n b F) R K) as [R' K'].
  destruct (app_finished _ q s OK Q R' K') as [X Y]. split; [exact X|]. intros t Ht. apply Y. unfold ring_jobs. rewrite !app_length, turns_len. simpl. lia.
Qed.
Theorem C72_executions_are_bounded :
  forall w n b q, ring_fits w n b -> exists B, forall l s, run (ring w n b) (init (ring w n b) q) l = Some s -> length l <= B.
Proof.
  intros w n b q F. assert (OK := ring_fits_sound w n b F).
  destruct (C17_executions_are_bounded (ring w n false) q (app_wf _ false OK) eq_refl (app_flat _ false)) as (B & HB).
  exists B. intros l s H. exact (HB l s (app_run _ b q l s OK (ring_fits_few w n b F) H)).
Qed.

(** ** All ranks *)
(** a rank has come to its end with the history [h], on any number of workers *)
Definition has_run (w n : nat) (b : bool) (h : list lev) : Prop :=
  exists q s, 1 <= q /\ reach (ring w n b) q s /\ stuck (ring w n b) s /\ log s = h.
Section World.
  (** cells per rank, ranks, history and memory of each rank, and what its receives deliver *)
  Context (w N : nat) (hist : nat -> list lev) (mem : nat -> cells) (inp : nat -> Z -> nat -> option Z).
  (** what the body of task [t] of rank [r] has read *)
  Definition heard (r t : nat) : list Z :=
    fst (exec (ring_sem w (Z.of_nat r) (Z.of_nat N) (inp r)) (performed (hist r)) (fun _ => []) (mem r)) t.
  (** the message of turn [k] of rank [r]: the cell and the destination it gives to MPI_Isend (mpi.cpp:124-127) *)
  Definition sent (r k : nat) : Z := nth 0 (heard r (turn_at w k)) 0%Z.
  Definition sent_to (r k : nat) : Z := target (nth 1 (heard r (turn_at w k)) 0%Z) (nth 2 (heard r (turn_at w k)) 0%Z).
  (** what it shows in turn [k] (mpi.cpp:167-176): size, rank, cells 0 .. w *)
  Definition shown (r k : nat) : list Z := rev (heard r (turn_at w k + w + 2)).
  (** MPI delivers: a receive from a rank that has sent to this one in that turn delivers what
      it sent.  Source -1 is no rank: it stands for any source ([any], as in Open MPI) or for no
      process at all, with which nothing is delivered (as in MPICH). *)
  Definition delivers (n : nat) (any : bool) : Prop :=
    forall r k, r < N -> k < n ->
    (forall q, q < N -> sent_to q k = Z.of_nat r -> inp r (Z.of_nat q) k = Some (sent q k)) /\
    (if any then (exists q, q < N /\ sent_to q k = Z.of_nat r) -> exists q, q < N /\ sent_to q k = Z.of_nat r /\ inp r (-1)%Z k = Some (sent q k)
     else inp r (-1)%Z k = None).
End World.

(** ** The source *)
Theorem C72_the_source_is_the_sender :
  forall N r, 1 <= r < N -> source (Z.of_nat r) (Z.of_nat N) = Z.of_nat (r - 1) /\ target (Z.of_nat (r - 1)) (Z.of_nat N) = Z.of_nat r.
Proof. intros N r H. unfold source, target. split; rewrite Z.rem_small by lia; lia. Qed.
Theorem C72_rank_0_asks_for_source_minus_1 :
  forall N, 2 <= N -> source 0 (Z.of_nat N) = (-1)%Z.
Proof. intros N H. unfold source. change (0 - 1)%Z with (- (1))%Z. rewrite Z.rem_opp_l by lia. rewrite Z.rem_small by lia. reflexivity. Qed.
Theorem C72_the_source_is_a_rank_refuted :
  exists N r, r < N /\ ~ (0 <= source (Z.of_nat r) (Z.of_nat N) < Z.of_nat N)%Z.
Proof. exists 2, 0. split; [lia|]. vm_compute. intros [H _]. now apply H. Qed.
Lemma target_mod r N : (0 < N)%Z -> (0 <= r)%Z -> target r N = ((r + 1) mod N)%Z.
Proof. intros. unfold target. apply Z.rem_mod_nonneg; lia. Qed.

(** ** The values of the ring *)
Lemma ring_next w N k r i : 1 <= i -> ring_value w N (S k) r (S i) = ring_value w N k r i.
Proof. intros H. unfold ring_value. do 2 f_equal. lia. Qed.
Lemma ring_first w N r i : r < N -> 1 <= i <= w -> ring_value w N 0 r i = (Z.of_nat w * Z.of_nat r + Z.of_nat i)%Z.
Proof.
  intros Hr Hi. unfold ring_value. rewrite Z.mod_small; [lia|]. split; [lia|].
  assert (Z.of_nat w * Z.of_nat r <= Z.of_nat w * (Z.of_nat N - 1))%Z by (apply Z.mul_le_mono_nonneg_l; lia). lia.
Qed.
(** the left neighbour's last cell *)
Lemma ring_left w N k r q : 1 <= w -> r < N -> q < N -> target (Z.of_nat q) (Z.of_nat N) = Z.of_nat r -> ring_value w N k q w = ring_value w N k r 0.
Proof.
  intros Hw Hr Hq E. rewrite target_mod in E by lia. unfold ring_value. f_equal.
  destruct (Nat.eq_dec (q + 1) N) as [Q|Q].
  - replace (Z.of_nat q + 1)%Z with (Z.of_nat N) in E by lia. rewrite Z_mod_same_full in E. assert (r = 0) by lia. subst r.
    replace (Z.of_nat w * Z.of_nat q + Z.of_nat w - 1 - Z.of_nat k)%Z with (Z.of_nat w * Z.of_nat 0 + Z.of_nat 0 - 1 - Z.of_nat k + 1 * (Z.of_nat w * Z.of_nat N))%Z by lia.
    apply Z_mod_plus_full.
  - rewrite Z.mod_small in E by lia. f_equal. replace (Z.of_nat r) with (Z.of_nat q + 1)%Z by lia. lia.
Qed.
Lemma line_left w k r q N : r < N -> r <> 0 -> q < N -> target (Z.of_nat q) (Z.of_nat N) = Z.of_nat r -> line_value w k q w = line_value w k r 0.
Proof.
  intros Hr R0 Hq E. rewrite target_mod in E by lia. destruct (Nat.eq_dec (q + 1) N) as [Q|Q].
  - replace (Z.of_nat q + 1)%Z with (Z.of_nat N) in E by lia. rewrite Z_mod_same_full in E. lia.
  - rewrite Z.mod_small in E by lia. unfold line_value. f_equal. replace (Z.of_nat r) with (Z.of_nat q + 1)%Z by lia. lia.
Qed.
Definition value (any : bool) (w N k r i : nat) : Z := if any then ring_value w N k r i else line_value w k r i.
Lemma value_own any w N r k : r < N -> forall i, 1 <= i <= w -> own w (Z.of_nat r) (fun j => value any w N j r 0) k i = value any w N k r i.
Proof.
  intros Hr. induction k as [|k IH]; intros i Hi.
  - destruct any; simpl; [symmetry; now apply ring_first|]. unfold line_value. lia.
  - cbn [own]. destruct (Nat.eqb_spec i 1) as [->|NE].
    + destruct any; simpl; [|unfold line_value; lia]. unfold ring_value. do 2 f_equal. lia.
    + rewrite IH by lia. destruct i as [|[|i]]; [lia|lia|]. replace (S (S i) - 1) with (S i) by lia. destruct any; simpl; [symmetry; apply ring_next; lia|]. unfold line_value. lia.
Qed.
Lemma value_left any w N k r q : 1 <= w -> r < N -> any = true \/ r <> 0 -> q < N -> target (Z.of_nat q) (Z.of_nat N) = Z.of_nat r -> value any w N k q w = value any w N k r 0.
Proof. intros Hw Hr A Hq E. destruct any; simpl; [now apply ring_left|]. apply (line_left w k r q N); auto. now destruct A. Qed.

Section Turning.
  Context (w N n : nat) (b any : bool) (hist : nat -> list lev) (mem : nat -> cells) (inp : nat -> Z -> nat -> option Z).
  Context (F : ring_fits w n b) (A : forall r, r < N -> has_run w n b (hist r)) (M : forall r, r < N -> two_fields w (mem r)).
  Context (O : any = false -> 2 <= N /\ nth 0 (nth 1 (snd (mem 0)) []) 0%Z = 0%Z).
  Notation sem r := (ring_sem w (Z.of_nat r) (Z.of_nat N) (inp r)).
  Lemma heard_is r t j : r < N -> nth_error (ring_jobs w n) t = Some j ->
    heard w N hist mem inp r t = fst (run_acts (sem r) (j_acts j) [] (memory_after (sem r) [] (firstn t (ring_jobs w n)) (mem r))).
  Proof.
    intros Hr E. destruct (A r Hr) as (q & s & Q & R & K & L). assert (OK := ring_fits_sound w n b F).
    destruct (app_ideal _ b q s OK (ring_fits_few w n b F) R K) as [R' K']. unfold heard. rewrite <- L.
    exact (proj2 (app_result _ q s (sem r) [] (mem r) OK Q (ring_sensible w _ _ (inp r)) R' K') t j E).
  Qed.
  Definition nothing (r : nat) : bool := negb any && (r =? 0).
  (** received before turn [k] *)
  Definition got (k : nat) : Prop := forall r j, r < N -> j < k ->
    inp r (source (Z.of_nat r) (Z.of_nat N)) j = if nothing r then None else Some (value any w N j r 0).
  Lemma nothing_zero r : nothing r = true -> Z.of_nat r = 0%Z /\ forall k, value any w N k r 0 = 0%Z.
  Proof.
    unfold nothing. intros H. apply andb_true_iff in H as [H1 H2]. apply Nat.eqb_eq in H2. apply negb_true_iff in H1. subst r. split; [reflexivity|].
    intros k. rewrite H1. simpl. unfold line_value. lia.
  Qed.
  Lemma nothing_mem r : nothing r = true -> slot_of (mem r) 1 0 = 0%Z.
  Proof. unfold nothing. intros H. apply andb_true_iff in H as [H1 H2]. apply Nat.eqb_eq in H2. apply negb_true_iff in H1. subst r. now apply O. Qed.
  Lemma heard_send r k : r < N -> k < n -> got k -> heard w N hist mem inp r (turn_at w k) = [value any w N k r w; Z.of_nat r; Z.of_nat N].
  Proof.
    intros Hr Hk G.
    destruct (ring_send w (Z.of_nat r) (Z.of_nat N) (inp r) (fun j => value any w N j r 0) k (nothing r) (fun j H => G r j Hr H) (nothing_zero r) (proj1 F) n k (mem r) Hk (le_n k) (M r Hr) (nothing_mem r)) as [E V].
    rewrite (heard_is r _ _ Hr E), V, value_own; auto. destruct F. lia.
  Qed.
  Lemma heard_out r k : r < N -> k < n -> got (S k) ->
    heard w N hist mem inp r (turn_at w k + w + 2) = rev (map (value any w N k r) (seq 0 (w + 1))) ++ [Z.of_nat r; Z.of_nat N].
  Proof.
    intros Hr Hk G.
    destruct (ring_out w (Z.of_nat r) (Z.of_nat N) (inp r) (fun j => value any w N j r 0) (S k) (nothing r) (fun j H => G r j Hr H) (nothing_zero r) (proj1 F) n k (mem r) Hk (le_n (S k)) (M r Hr) (nothing_mem r)) as [E V].
    rewrite (heard_is r _ _ Hr E), V. rewrite Nat.add_1_r. cbn [seq map rev]. rewrite <- app_assoc. cbn [Datatypes.app]. do 2 f_equal. apply map_ext_in. intros i Hi. apply in_seq in Hi. apply value_own; lia.
  Qed.
  Lemma got_all : delivers w N hist mem inp n any -> forall k, k <= n -> got k.
  Proof.
    intros D. induction k as [|k IH]; intros Hk; [intros r j _ H; lia|]. assert (G := IH ltac:(lia)).
    assert (TO : forall q, q < N -> sent_to w N hist mem inp q k = target (Z.of_nat q) (Z.of_nat N)) by (intros q Hq; unfold sent_to; now rewrite (heard_send q k Hq ltac:(lia) G)).
    assert (VA : forall q, q < N -> sent w N hist mem inp q k = value any w N k q w) by (intros q Hq; unfold sent; now rewrite (heard_send q k Hq ltac:(lia) G)).
    intros r j Hr Hj. destruct (Nat.eq_dec j k) as [->|NE]; [|apply G; [exact Hr|lia]].
    destruct (D r k Hr ltac:(lia)) as [D1 D2].
    assert (FROM : forall q, q < N -> target (Z.of_nat q) (Z.of_nat N) = Z.of_nat r -> any = true \/ r <> 0 -> inp r (Z.of_nat q) k = Some (value any w N k r 0)).
    { intros q Hq E AR. rewrite (D1 q Hq) by now rewrite TO. rewrite VA by exact Hq. f_equal. apply value_left; auto. apply F. }
    destruct r as [|r].
    - unfold nothing. rewrite Nat.eqb_refl, andb_true_r. change (Z.of_nat 0) with 0%Z at 1. destruct any eqn:AN; cbn [negb].
      + destruct (Nat.eq_dec N 1) as [N1|N1]; [replace (source 0 (Z.of_nat N)) with (Z.of_nat 0) by (rewrite N1; reflexivity); apply (FROM 0); [lia|now rewrite N1|auto]|].
        rewrite C72_rank_0_asks_for_source_minus_1 by lia.
        assert (LAST : target (Z.of_nat (N - 1)) (Z.of_nat N) = Z.of_nat 0).
        { rewrite target_mod by lia. replace (Z.of_nat (N - 1) + 1)%Z with (Z.of_nat N) by lia. now rewrite Z_mod_same_full. }
        destruct D2 as (q & Hq & E & V); [exists (N - 1); split; [lia|]; now rewrite TO by lia|].
        rewrite V, VA by exact Hq. f_equal. rewrite TO in E by exact Hq. apply value_left; auto. apply F.
      + rewrite C72_rank_0_asks_for_source_minus_1 by (apply O; reflexivity). exact D2.
    - unfold nothing. cbn [Nat.eqb]. rewrite andb_false_r. destruct (C72_the_source_is_the_sender N (S r) ltac:(lia)) as [S1 S2]. rewrite S1. apply FROM; [lia|exact S2|auto].
  Qed.
End Turning.

(** In every turn every rank shows the ring turned by as many places, *)
Theorem C72_the_ring_turns :
  forall w N n b hist mem inp, ring_fits w n b -> (forall r, r < N -> has_run w n b (hist r)) -> (forall r, r < N -> two_fields w (mem r)) ->
  delivers w N hist mem inp n true ->
  forall r k, r < N -> k < n -> shown w N hist mem inp r k = [Z.of_nat N; Z.of_nat r] ++ map (ring_value w N k r) (seq 0 (w + 1)).
Proof.
  intros w N n b hist mem inp F A M D r k Hr Hk. unfold shown.
  assert (O : true = false -> 2 <= N /\ nth 0 (nth 1 (snd (mem 0)) []) 0%Z = 0%Z) by discriminate.
  rewrite (heard_out w N n b true hist mem inp F A M O r k Hr Hk (got_all w N n b true hist mem inp F A M O D (S k) Hk)). rewrite rev_app_distr, rev_involutive. reflexivity.
Qed.
(** and sends to the right the last of its cells. *)
Theorem C72_the_messages :
  forall w N n b hist mem inp, ring_fits w n b -> (forall r, r < N -> has_run w n b (hist r)) -> (forall r, r < N -> two_fields w (mem r)) ->
  delivers w N hist mem inp n true ->
  forall r k, r < N -> k < n ->
  sent w N hist mem inp r k = ring_value w N k r w /\ sent_to w N hist mem inp r k = Z.of_nat (if r + 1 =? N then 0 else r + 1).
Proof.
  intros w N n b hist mem inp F A M D r k Hr Hk. unfold sent, sent_to.
  assert (O : true = false -> 2 <= N /\ nth 0 (nth 1 (snd (mem 0)) []) 0%Z = 0%Z) by discriminate.
  rewrite (heard_send w N n b true hist mem inp F A M O r k Hr Hk (got_all w N n b true hist mem inp F A M O D k ltac:(lia))). split; [reflexivity|].
  cbn [nth]. rewrite target_mod by lia. destruct (Nat.eqb_spec (r + 1) N) as [<-|NE].
  - replace (Z.of_nat r + 1)%Z with (Z.of_nat (r + 1)) by lia. now rewrite Z_mod_same_full.
  - rewrite Z.mod_small by lia. lia.
Qed.
(** With an MPI for which source -1 is no process (MPI_PROC_NULL), rank 0 never receives, and the ring
    is a line into which zeros move. *)
Theorem C72_without_any_source_zeros_move_in :
  forall w N n b hist mem inp, ring_fits w n b -> (forall r, r < N -> has_run w n b (hist r)) -> (forall r, r < N -> two_fields w (mem r)) ->
  2 <= N -> nth 0 (nth 1 (snd (mem 0)) []) 0%Z = 0%Z ->
  delivers w N hist mem inp n false ->
  forall r k, r < N -> k < n -> shown w N hist mem inp r k = [Z.of_nat N; Z.of_nat r] ++ map (line_value w k r) (seq 0 (w + 1)).
Proof.
  intros w N n b hist mem inp F A M N2 M0 D r k Hr Hk. unfold shown.
  assert (O : false = false -> 2 <= N /\ nth 0 (nth 1 (snd (mem 0)) []) 0%Z = 0%Z) by auto.
  rewrite (heard_out w N n b false hist mem inp F A M O r k Hr Hk (got_all w N n b false hist mem inp F A M O D (S k) Hk)). rewrite rev_app_distr, rev_involutive. reflexivity.
Qed.
(** The picture in the file (mpi.cpp:17-24): three cells per rank, one turn, 16-bit counters. *)
Theorem C72_the_example_as_it_is :
  forall N hist mem inp, (forall r, r < N -> has_run 3 1 true (hist r)) -> (forall r, r < N -> two_fields 3 (mem r)) ->
  delivers 3 N hist mem inp 1 true ->
  forall r, r < N -> shown 3 N hist mem inp r 0 =
    [Z.of_nat N; Z.of_nat r; 3 * Z.of_nat (if (r =? 0)%nat then N else r); 3 * Z.of_nat r + 1; 3 * Z.of_nat r + 2; 3 * Z.of_nat r + 3]%Z.
Proof.
  intros N hist mem inp A M D r Hr.
  assert (F : ring_fits 3 1 true) by (split; [lia|]; split; [vm_compute; discriminate|intros _; vm_compute; discriminate]).
  rewrite (C72_the_ring_turns 3 N 1 true hist mem inp F A M D r 0 Hr ltac:(lia)). cbn [Nat.add seq map Datatypes.app].
  rewrite (ring_first 3 N r 1), (ring_first 3 N r 2), (ring_first 3 N r 3) by lia. do 2 f_equal. apply (f_equal (fun z => z :: [3 * Z.of_nat r + 1; 3 * Z.of_nat r + 2; 3 * Z.of_nat r + 3]%Z)). unfold ring_value. destruct (Nat.eqb_spec r 0) as [->|].
  - replace (Z.of_nat 3 * Z.of_nat 0 + Z.of_nat 0 - 1 - Z.of_nat 0)%Z with (Z.of_nat 3 * Z.of_nat N - 1 + (-1) * (Z.of_nat 3 * Z.of_nat N))%Z by lia.
    rewrite Z_mod_plus_full, Z.mod_small by lia. lia.
  - rewrite Z.mod_small by lia. lia.
Qed.
(** The same when the ranks run in the pool of workers with their own queues, stealing and
    sleeping. *)
Theorem C72_in_the_pool :
  forall w n q m k c, ring_fits w n false -> 1 <= q -> 1 <= m -> psteps (ring w n false) q m false k c -> pstuck (ring w n false) q m c ->
  all_frames (core c) = [FBody None []] /\ has_run w n false (log (core c)).
Proof.
  intros w n q m k c F Q Hm H ST. destruct (app_pool _ q m k c (ring_fits_sound w n false F) Q Hm H ST) as (s & R & S & EL & EF).
  rewrite <- EL, <- EF. split; [exact (proj1 (C72_everything_is_done w n false (q + m) s F ltac:(lia) R S))|].
  exists (q + m), s. split; [lia|]. auto.
Qed.

(** ** Messages with one tag (mpi.cpp:127, 143: the tag is [current]) are posted in the order of the
    turns: a send or receive does not start before the last one with its tag has ended. *)
Lemma app_submitted js n s p t : sound_app js -> reach (AppModel.app js false) n s -> p < t -> submitted s t -> submitted s p.
Proof.
  intros OK R L St. assert (W := app_wf js false OK). assert (G := flat_greach _ W eq_refl n s (app_flat js false) R).
  assert (I := greach_Inv _ W eq_refl n s G). assert (CN := app_counts js false s I).
  apply in_spawn in St. destruct (CN t) as [_ Ct]. destruct (CN p) as [_ Cp].
  assert (NT : (0 <= zsum (n_spawn t) (frames s))%Z).
  { apply zsum_nonneg. intros g _. unfold n_spawn. apply zsum_nonneg. intros x _. unfold ni. destruct (x =? t); simpl; lia. }
  destruct (Nat.ltb_spec t (length js)) as [Lt|Lt]; [|lia].
  destruct (Nat.ltb_spec p (length js)) as [Lp|Lp]; [|lia].
  apply in_spawn. destruct (Z_lt_le_dec (zsum (v_spawn p) (log s)) 1) as [Q|Q]; [exfalso|exact Q].
  assert (L0 : (0 < zsum (n_spawn p) (frames s))%Z) by lia. apply zsum_pos_ex in L0 as (g & Hg & Lg).
  assert (Hq : exists o' is', piece (AppModel.app js false) (single (AppModel.app js false)) o' is' /\ left_of g = is').
  { assert (SF := law_suffix _ s (i_laws _ s I) _ Hg). unfold n_spawn in Lg. destruct g; simpl in Lg; try lia.
    - exists o, s0. auto.
    - exists o, s0. split; [eapply piece_cons; eauto|reflexivity]. }
  destruct Hq as (o' & is' & PI & El). unfold n_spawn in Lg. rewrite El in Lg. apply ni_pos in Lg.
  destruct (piece_body _ _ _ PI) as [pre Eb]. destruct o' as [u|].
  - assert (Z0 := app_flat js false u). unfold flat in Z0. rewrite Eb, spawns_app in Z0. apply app_eq_nil in Z0 as [_ Z0]. rewrite Z0 in Lg. destruct Lg.
  - assert (MS := main_spawns js false). change (body (AppModel.app js false) None) with (p_main (AppModel.app js false)) in Eb. rewrite Eb, spawns_app in MS.
    assert (IT : In t (spawns pre ++ spawns is')) by (rewrite MS; apply in_seq; lia).
    assert (HT : In t (spawns is')).
    { apply in_app_iff in IT as [IT|IT]; [exfalso|exact IT]. assert (SS := wf_sorted _ W None). unfold body in SS. rewrite Eb, spawns_app in SS.
      clear - SS IT Lg L. induction (spawns pre) as [|a l IH]; [easy|]. simpl in SS. apply StronglySorted_inv in SS as [SS FF]. destruct IT as [->|IT]; [|auto].
      rewrite Forall_forall in FF. specialize (FF p ltac:(apply in_or_app; auto)). lia. }
    apply ni_pos in HT. assert (GE := zsum_ge (n_spawn t) (frames s) g). unfold n_spawn in GE at 2. rewrite El in GE.
    assert (NN : forall f, (0 <= n_spawn t f)%Z) by (intros f; unfold n_spawn; apply zsum_nonneg; intros x _; unfold ni; destruct (x =? t); simpl; lia).
    specialize (GE (fun f _ => NN f) Hg). lia.
Qed.
Lemma app_order js n s p t jp jt : sound_app js -> reach (AppModel.app js false) n s -> p < t -> nth_error js p = Some jp -> nth_error js t = Some jt ->
  (exists a b (T : ty) (va vb : val T) (x y : touch T), In a (j_acc jp) /\ In b (j_acc jt) /\ r_id (a_res a) = r_id (a_res b) /\
    a = mkAcc (a_res a) T va /\ b = mkAcc (a_res b) T vb /\ permits T va x /\ permits T vb y /\ conflict T x y) ->
  started s t -> ended s p /\ started s p.
Proof.
  intros OK R L Ep Et (a & b & T & va & vb & x & y & Ha & Hb & H) ST. assert (W := app_wf js false OK).
  assert (G := flat_greach _ W eq_refl n s (app_flat js false) R). assert (I := greach_Inv _ W eq_refl n s G).
  assert (TC : tasks_conflict (AppModel.app js false) p t).
  { exists a, b, T, va, vb, x, y. unfold user. simpl. rewrite Ep, Et, !task_acc. split; [now apply in_rev in Ha|]. split; [now apply in_rev in Hb|]. exact H. }
  assert (SP : submitted s t).
  { apply in_exec in ST. apply in_spawn. pose proof (f_exec_init _ s I t). pose proof (f_phase _ s I t). lia. }
  assert (BF := lt_before _ W eq_refl n s p t G ltac:(now rewrite !app_parent) L (app_submitted js n s p t OK R L SP) SP).
  assert (ED := proj2 (C13_conflicting_tasks_run_in_submission_order _ n s p t W eq_refl (or_intror G) ltac:(now rewrite !app_parent) TC BF ST)).
  split; [exact ED|]. apply in_end in ED. apply in_exec. pose proof (f_end _ s I p). pose proof (f_start _ s I p). lia.
Qed.
Lemma ring_nth w n k i j : k < n -> i < w + 3 -> nth_error (turn w k (k mod 2)) i = Some j -> nth_error (ring_jobs w n) (turn_at w k + i) = Some j.
Proof.
  intros Hk Hi E. destruct (ring_split w n k Hk) as (post & Q). rewrite Q, <- (upto_len w k). rewrite nth_error_app2 by lia.
  replace (length (upto w k) + i - length (upto w k)) with i by lia. rewrite nth_error_app1; [exact E|]. rewrite turn_len. exact Hi.
Qed.
Lemma shift_nth w n k : 1 <= w -> k < n -> nth_error (ring_jobs w n) (turn_at w k + (w + 1)) = Some (shift_task (k mod 2) (others k) w).
Proof.
  intros Hw Hk. apply ring_nth; [exact Hk|lia|]. unfold turn. fold (others k). rewrite Nat.add_1_r. destruct w as [|w]; [lia|]. cbn [Datatypes.app nth_error].
  rewrite nth_error_app1 by (rewrite map_length; unfold range; rewrite seq_length; lia). apply map_nth_error.
  unfold range. rewrite (nth_error_nth' _ 0) by (rewrite seq_length; lia). rewrite seq_nth by lia. reflexivity.
Qed.
Theorem C72_messages_with_one_tag_keep_their_order :
  forall w n b q s, ring_fits w n b -> reach (ring w n b) q s ->
  (forall k, k < n -> nth_error (ring_jobs w n) (turn_at w k) = Some (send_task w (k mod 2)) /\ nth_error (ring_jobs w n) (turn_at w k + 1) = Some (recv_task (k mod 2) k)) /\
  (forall k j, k < j < n -> k mod 2 = j mod 2 ->
    (started s (turn_at w j) -> ended s (turn_at w k)) /\ (started s (turn_at w j + 1) -> ended s (turn_at w k + 1))).
Proof.
  intros w n b q s F R. assert (OK := ring_fits_sound w n b F).
  assert (R' : reach (ring w n false) q s).
  { destruct b; [|exact R]. apply (app_narrow (ring_jobs w n) q s OK (ring_fits_few w n true F eq_refl)). exact R. }
  assert (SN : forall k, k < n -> nth_error (ring_jobs w n) (turn_at w k) = Some (send_task w (k mod 2))).
  { intros k Hk. rewrite <- (Nat.add_0_r (turn_at w k)). apply ring_nth; [exact Hk|lia|reflexivity]. }
  assert (RN : forall k, k < n -> nth_error (ring_jobs w n) (turn_at w k + 1) = Some (recv_task (k mod 2) k)).
  { intros k Hk. apply ring_nth; [exact Hk|lia|reflexivity]. }
  split; [intros k Hk; split; auto|]. intros k j Hkj E. split; intros ST.
  - assert (J2 : k + 2 <= j).
    { destruct (Nat.eq_dec j (S k)) as [->|]; [|lia]. exfalso. pose proof (Nat.div_mod_eq k 2). pose proof (Nat.div_mod_eq (S k) 2). lia. }
    assert (OT : others (j - 1) = k mod 2). { unfold others. rewrite Nat.add_mod_idemp_l by lia. rewrite E. f_equal. lia. }
    assert (T1 : turn_at w (j - 1) + (w + 1) < turn_at w j) by (unfold turn_at; replace j with (S (j - 1)) at 2 by lia; lia).
    assert (T2 : turn_at w k < turn_at w (j - 1) + (w + 1)).
    { unfold turn_at. assert (k * (w + 3) <= (j - 1) * (w + 3)) by (apply Nat.mul_le_mono_r; lia). lia. }
    destruct (app_order _ q s (turn_at w (j - 1) + (w + 1)) (turn_at w j) _ _ OK R' T1 (shift_nth w n (j - 1) (proj1 F) ltac:(lia)) (SN j ltac:(lia))) as [_ S1]; [|exact ST|].
    + exists (slot (others (j - 1)) MWrite w), (slot (j mod 2) MRead w), (field_ty 1), (MWrite, ((N.of_nat w, N.of_nat (w + 1)), tt)), (MRead, ((N.of_nat w, N.of_nat (w + 1)), tt)), (KWrite, (N.of_nat w, tt)), (KRead, (N.of_nat w, tt)).
      split; [now left|]. split; [now left|]. split; [cbn [slot a_res r_id]; congruence|]. split; [reflexivity|]. split; [reflexivity|]. simpl. repeat split; auto; lia.
    + apply (app_order _ q s (turn_at w k) (turn_at w (j - 1) + (w + 1)) _ _ OK R' T2 (SN k ltac:(lia)) (shift_nth w n (j - 1) (proj1 F) ltac:(lia))); [|exact S1].
      exists (slot (k mod 2) MRead w), (slot (others (j - 1)) MWrite w), (field_ty 1), (MRead, ((N.of_nat w, N.of_nat (w + 1)), tt)), (MWrite, ((N.of_nat w, N.of_nat (w + 1)), tt)), (KRead, (N.of_nat w, tt)), (KWrite, (N.of_nat w, tt)).
      split; [now left|]. split; [now left|]. split; [cbn [slot a_res r_id]; congruence|]. split; [reflexivity|]. split; [reflexivity|]. simpl. repeat split; auto; lia.
  - assert (T1 : turn_at w k + 1 < turn_at w j + 1).
    { unfold turn_at. assert (k * (w + 3) < j * (w + 3)) by (apply Nat.mul_lt_mono_pos_r; lia). lia. }
    apply (app_order _ q s (turn_at w k + 1) (turn_at w j + 1) _ _ OK R' T1 (RN k ltac:(lia)) (RN j ltac:(lia))); [|exact ST].
    exists (slot (k mod 2) MWrite 0), (slot (j mod 2) MWrite 0), (field_ty 1), (MWrite, ((0%N, 1%N), tt)), (MWrite, ((0%N, 1%N), tt)), (KWrite, (0%N, tt)), (KWrite, (0%N, tt)).
    split; [now left|]. split; [now left|]. split; [cbn [slot a_res r_id]; congruence|]. split; [reflexivity|]. split; [reflexivity|]. simpl. repeat split; auto; lia.
Qed.

(** ** Examples: two ranks with three cells each, two turns *)
Definition ring_end (b : bool) : state := auto_run (ring 3 2 b) (moves_of 2 ++ moves_of 1 ++ moves_of 0) 5000 (init (ring 3 2 b) 2).
Lemma ring_end_reach b : reach (ring 3 2 b) 2 (ring_end b).
Proof. exact (auto_reach (ring 3 2 b) 2 (moves_of 2 ++ moves_of 1 ++ moves_of 0) 5000 (init _ 2) (reach_init _ _)). Qed.
Lemma ring_end_stuck b : stuck (ring 3 2 b) (ring_end b).
Proof. apply stuckb_ok. destruct b; vm_compute; reflexivity. Qed.
Definition zeros : cells := ([0; 0]%Z, [[0; 0; 0; 0]; [0; 0; 0; 0]]%Z).
(** what rank [r] gets in turn [k] from its left neighbour, also under the name -1 if [any] *)
Definition ring_inp (any : bool) (r : nat) (a : Z) (k : nat) : option Z :=
  if (a =? -1)%Z && negb any then None
  else Some (match r, k with O, O => 6 | O, _ => 5 | _, O => 3 | _, _ => 2 end)%Z.
Lemma ring_ex_delivers any hist mem :
  map (fun p => sent 3 2 hist mem (ring_inp any) (fst p) (snd p)) [(0, 0); (1, 0); (0, 1); (1, 1)] = [3; 6; 2; 5]%Z ->
  map (fun p => sent_to 3 2 hist mem (ring_inp any) (fst p) (snd p)) [(0, 0); (1, 0); (0, 1); (1, 1)] = [1; 0; 1; 0]%Z ->
  delivers 3 2 hist mem (ring_inp any) 2 any.
Proof.
  unfold delivers. generalize (sent 3 2 hist mem (ring_inp any)) (sent_to 3 2 hist mem (ring_inp any)). intros f g S T. cbn [map fst snd] in S, T.
  injection S as A1 B1 C1 D1. injection T as A2 B2 C2 D2. intros r k Hr Hk.
  assert (X : forall q, q < 2 -> g q k = Z.of_nat r -> ring_inp any r (Z.of_nat q) k = Some (f q k) /\ (any = true -> ring_inp any r (-1) k = Some (f q k))).
  { intros q Hq E. destruct r as [|[|r]]; [| |lia]; (destruct k as [|[|k]]; [| |lia]); (destruct q as [|[|q]]; [| |lia]);
      rewrite ?A2, ?B2, ?C2, ?D2 in E; try discriminate E; rewrite ?A1, ?B1, ?C1, ?D1; (split; [now destruct any|intros ->; reflexivity]). }
  split; [intros q Hq E; now apply X|]. destruct any; [|reflexivity]. intros (q & Hq & E). exists q. split; [exact Hq|]. split; [exact E|]. now apply X.
Qed.
Lemma ring_end_run b : has_run 3 2 b (log (ring_end b)).
Proof. exists 2, (ring_end b). split; [lia|]. split; [apply ring_end_reach|]. split; [apply ring_end_stuck|reflexivity]. Qed.
Lemma zeros_fields : two_fields 3 zeros.
Proof. split; [reflexivity|]. intros [|[|x]] Hx; [reflexivity|reflexivity|lia]. Qed.
Lemma ring_ex_fits b : ring_fits 3 2 b.
Proof. split; [lia|]. split; [vm_compute; discriminate|intros _; vm_compute; discriminate]. Qed.
Example C72_ex : forall b, ring_fits 3 2 b /\ has_run 3 2 b (log (ring_end b)) /\ two_fields 3 zeros /\
  delivers 3 2 (fun _ => log (ring_end b)) (fun _ => zeros) (ring_inp true) 2 true /\
  map (fun p => shown 3 2 (fun _ => log (ring_end b)) (fun _ => zeros) (ring_inp true) (fst p) (snd p)) [(0, 0); (1, 0); (0, 1); (1, 1)]
  = [[2; 0; 6; 1; 2; 3]; [2; 1; 3; 4; 5; 6]; [2; 0; 5; 6; 1; 2]; [2; 1; 2; 3; 4; 5]]%Z.
Proof.
  intros b. split; [apply ring_ex_fits|]. split; [apply ring_end_run|]. split; [apply zeros_fields|]. split.
  - apply ring_ex_delivers; destruct b; vm_compute; reflexivity.
  - destruct b; vm_compute; reflexivity.
Qed.
(** The same two ranks where source -1 is no process. *)
Example C72_ex_line :
  delivers 3 2 (fun _ => log (ring_end true)) (fun _ => zeros) (ring_inp false) 2 false /\
  map (fun p => shown 3 2 (fun _ => log (ring_end true)) (fun _ => zeros) (ring_inp false) (fst p) (snd p)) [(0, 0); (1, 0); (0, 1); (1, 1)]
  = [[2; 0; 0; 1; 2; 3]; [2; 1; 3; 4; 5; 6]; [2; 0; 0; 0; 1; 2]; [2; 1; 2; 3; 4; 5]]%Z.
Proof. split; [apply ring_ex_delivers; vm_compute; reflexivity|vm_compute; reflexivity]. Qed.
(** So the ring turns only where -1 means any source. *)
Theorem C72_the_ring_turns_with_every_mpi_refuted :
  exists w N n b hist mem inp, ring_fits w n b /\ (forall r, r < N -> has_run w n b (hist r)) /\ (forall r, r < N -> two_fields w (mem r)) /\
  delivers w N hist mem inp n false /\
  exists r k, r < N /\ k < n /\ shown w N hist mem inp r k <> [Z.of_nat N; Z.of_nat r] ++ map (ring_value w N k r) (seq 0 (w + 1)).
Proof.
  exists 3, 2, 2, true, (fun _ => log (ring_end true)), (fun _ => zeros), (ring_inp false). split; [apply ring_ex_fits|]. split; [intros r _; apply ring_end_run|].
  split; [intros r _; apply zeros_fields|]. split; [exact (proj1 C72_ex_line)|]. exists 0, 0. split; [lia|]. split; [lia|].
  rewrite (C72_without_any_source_zeros_move_in 3 2 2 true _ _ _ (ring_ex_fits true) (fun r _ => ring_end_run true) (fun r _ => zeros_fields) ltac:(lia) eq_refl (proj1 C72_ex_line) 0 0 ltac:(lia) ltac:(lia)).
  vm_compute. discriminate.
Qed.
(** three turns, so that the tags come twice; the first send has ended and the third has started *)
Definition ring_mid : state := auto_run (ring 1 3 true) (moves_of 2 ++ moves_of 1 ++ moves_of 0) 5000 (init (ring 1 3 true) 2).
Lemma ring_mid_reach : reach (ring 1 3 true) 2 ring_mid.
Proof. exact (auto_reach (ring 1 3 true) 2 (moves_of 2 ++ moves_of 1 ++ moves_of 0) 5000 (init _ 2) (reach_init _ _)). Qed.
Example C72_ex_tags : ring_fits 1 3 true /\ reach (ring 1 3 true) 2 ring_mid /\ 0 mod 2 = 2 mod 2 /\
  started ring_mid (turn_at 1 2) /\ ended ring_mid (turn_at 1 0) /\ started ring_mid (turn_at 1 2 + 1) /\ ended ring_mid (turn_at 1 0 + 1).
Proof.
  assert (F : ring_fits 1 3 true) by (split; [lia|]; split; [vm_compute; discriminate|intros _; vm_compute; discriminate]).
  assert (S1 : started ring_mid (turn_at 1 2)) by inlog. assert (S2 : started ring_mid (turn_at 1 2 + 1)) by inlog.
  destruct (C72_messages_with_one_tag_keep_their_order 1 3 true 2 ring_mid F ring_mid_reach) as [_ H].
  destruct (H 0 2 ltac:(lia) eq_refl) as [H1 H2]. split; [exact F|]. split; [exact ring_mid_reach|]. split; [reflexivity|]. exact (conj S1 (conj (H1 S1) (conj S2 (H2 S2)))).
Qed.
Definition ring_drive : list move * pool := drive (ring 3 1 false) 2 1 chol_moves 6000 (pinit (ring 3 1 false) 2 1).
Example C72_ex_pool : (exists k, psteps (ring 3 1 false) 2 1 false k (snd ring_drive)) /\ pstuck (ring 3 1 false) 2 1 (snd ring_drive).
Proof.
  assert (H := drive_pool (ring 3 1 false) 2 1 chol_moves 6000). split; [exact H|].
  destruct H as [k H]. apply pstuckb_ok; [exact (proj1 (pool_run _ _ _ _ _ _ H))|]. vm_compute. reflexivity.
Qed.
Example C72_ex_source : source 1 2 = 0%Z /\ target 0 2 = 1%Z /\ source 0 2 = (-1)%Z /\ source 0 1 = 0%Z.
Proof. repeat split. Qed.

Definition all_ring := (@C72_everything_is_done, @C72_executions_are_bounded, @C72_the_ring_turns, @C72_the_messages, @C72_without_any_source_zeros_move_in,
  @C72_the_example_as_it_is, @C72_in_the_pool, @C72_messages_with_one_tag_keep_their_order, @C72_the_source_is_the_sender, @C72_rank_0_asks_for_source_minus_1,
  @C72_the_source_is_a_rank_refuted, @C72_the_ring_turns_with_every_mpi_refuted, @C72_ex, @C72_ex_line, @C72_ex_tags, @C72_ex_pool, @C72_ex_source).
Print Assumptions all_ring.
