(** C66: examples/cholesky.cpp factorises its matrix, for every number of tiles, every number
    of workers and every schedule. *)
From Coq Require Import Bool List Arith NArith ZArith Lia.
From Verif Require Import AccessModel AccessSpec UserModel SchedModel SchedSpec SchedBase SchedInv8 SchedThm SchedLive SchedTerm SchedSeq SchedMore SchedEx PropertiesSched
  PoolModel PoolProof PropertiesPool AppModel AppSpec AppProof AppChol AppMore AppCount.
Import ListNotations.
Open Scope nat_scope.

(** with [w] the counters have 16 bits *)
Definition chol (nb : nat) (w : bool) : prog := app (chol_jobs nb) w.
(** the matrix after the history [h], [A] before *)
Definition matrix (K : kernels) (h : list lev) (A : list (tile K)) : list (tile K) :=
  snd (exec (blas K) (performed h) (fun _ => []) A).

(** ** When nothing can move any more, main has come to its end behind the barrier of
    finalize(), every call has been executed and its task released. *)
Theorem C66_everything_is_done :
  forall nb w n s, 1 <= n -> (w = true -> (Z.of_nat nb <= 21844)%Z) -> reach (chol nb w) n s -> stuck (chol nb w) s ->
  all_frames s = [FBody None []] /\ forall t, t < length (chol_jobs nb) -> completed s t /\ In (LFree t) (log s).
Proof.
  intros nb w n s N F R K. destruct (app_ideal _ w n s (chol_sound nb) (fun E => chol_few nb (F E)) R K) as [R' K'].
  exact (app_finished _ n s (chol_sound nb) N R' K').
Qed.

(** ** and the matrix is that of the same loops with calls instead of tasks. *)
Theorem C66_result_of_the_loops :
  forall K nb w n s A, 1 <= n -> (w = true -> (Z.of_nat nb <= 21844)%Z) -> reach (chol nb w) n s -> stuck (chol nb w) s ->
  matrix K (log s) A = chol_seq K nb A.
Proof.
  intros K nb w n s A N F R ST. destruct (app_ideal _ w n s (chol_sound nb) (fun E => chol_few nb (F E)) R ST) as [R' K'].
  rewrite <- chol_calls. exact (proj1 (app_result _ n s (blas K) [] A (chol_sound nb) N (blas_sensible K) R' K')).
Qed.

(** ** It is a Cholesky factorisation: with kernels that do their job on what they are given
    -- dpotrf and dtrsm, see LAPACK -- the lower part times its transpose gives the
    matrix back; the tiles above the diagonal are as before. *)
Definition kernels_work (K : kernels) (G : algebra K) (nb : nat) (A L : list (tile K)) : Prop :=
  (forall j, j < nb -> let p := remainder K G nb A L j j in mul G (potrf K p) (potrf K p) = p) /\
  (forall i j, j < i < nb -> let p := remainder K G nb A L i j in mul G (trsm K (at_ K nb L j j) p) (at_ K nb L j j) = p).
Theorem C66_factorisation :
  forall K (G : algebra K) nb w n s A, 1 <= n -> (w = true -> (Z.of_nat nb <= 21844)%Z) -> length A = nb * nb ->
  reach (chol nb w) n s -> stuck (chol nb w) s ->
  let L := matrix K (log s) A in
  kernels_work K G nb A L ->
  (forall i j, j <= i < nb -> dot K G nb L i j (S j) = at_ K nb A i j) /\
  (forall i j, i < j < nb -> at_ K nb L i j = at_ K nb A i j).
Proof.
  intros K G nb w n s A N F LA R ST. cbv zeta. rewrite (C66_result_of_the_loops K nb w n s A N F R ST). intros [H1 H2]. split.
  - exact (chol_product K nb G A LA H1 H2).
  - exact (proj1 (proj2 (chol_factor K nb G A LA))).
Qed.

(** ** Every execution comes to such an end. *)
Theorem C66_executions_are_bounded :
  forall nb w n, (w = true -> (Z.of_nat nb <= 21844)%Z) ->
  exists B, forall l s, run (chol nb w) (init (chol nb w) n) l = Some s -> length l <= B.
Proof.
  intros nb w n F. destruct (C17_executions_are_bounded (chol nb false) n (app_wf _ false (chol_sound nb)) eq_refl (app_flat _ false)) as (B & HB).
  exists B. intros l s H. exact (HB l s (app_run _ w n l s (chol_sound nb) (fun E => chol_few nb (F E)) H)).
Qed.

(** ** The same in the pool of workers with their own queues, stealing and sleeping. *)
Theorem C66_in_the_pool :
  forall K nb n m k c A, 1 <= n -> 1 <= m -> psteps (chol nb false) n m false k c -> pstuck (chol nb false) n m c ->
  all_frames (core c) = [FBody None []] /\ (forall t, t < length (chol_jobs nb) -> completed (core c) t) /\
  matrix K (log (core c)) A = chol_seq K nb A.
Proof.
  intros K nb n m k c A Hn Hm H ST. destruct (app_pool _ n m k c (chol_sound nb) Hn Hm H ST) as (s & R & S & EL & EF).
  rewrite <- EL, <- EF. destruct (C66_everything_is_done nb false (n + m) s ltac:(lia) ltac:(discriminate) R S) as [X Y]. split; [exact X|]. split.
  - intros t Ht. destruct (Y t Ht) as [Q _]. unfold completed in *. now rewrite <- EL.
  - exact (C66_result_of_the_loops K nb false (n + m) s A ltac:(lia) ltac:(discriminate) R S).
Qed.
Theorem C66_pool_executions_are_bounded :
  forall nb n m, exists B, forall k c, psteps (chol nb false) n m false k c -> k <= B.
Proof.
  intros nb n m. destruct (C58_executions_are_bounded (chol nb false) n m false _ (app_wf _ false (chol_sound nb)) eq_refl (app_bounded _ false)) as (B & HB).
  exists B. intros k c H. apply (HB k c). split; [exact H|]. right. apply app_flat.
Qed.

(** ** Each tile on or below the diagonal is named by nb of the calls. *)
Theorem C66_calls_per_tile :
  forall nb i j, i < nb -> j < nb ->
  list_sum (map (fun t => count_occ Nat.eq_dec (map (fun a => r_id (a_res a)) (j_acc t)) (j * nb + i)) (chol_jobs nb)) = if j <=? i then nb else 0.
Proof. intros nb i j Hi Hj. exact (chol_count nb j i Hj Hi). Qed.

(** ** Example: three rows of tiles, which are numbers. *)
Definition numbers : kernels := mkKern Z 0%Z (fun a b c => c - a * b)%Z (fun a c => c - a * a)%Z Z.sqrt (fun l b => b / l)%Z.
Definition integers : algebra numbers.
Proof.
  refine (mkAlg numbers 0%Z Z.add Z.opp Z.mul Z.add_assoc Z.add_comm Z.add_0_r Z.add_opp_diag_r _ _); reflexivity.
Defined.
Definition spd : list Z := [4; 2; 8;  -1; 10; 19;  -1; -1; 77]%Z.
Definition root : list Z := [2; 1; 4;  -1; 3; 5;  -1; -1; 6]%Z.
Definition chol_end (w : bool) : state := auto_run (chol 3 w) (moves_of 2 ++ moves_of 1 ++ moves_of 0) 2000 (init (chol 3 w) 2).
Lemma chol_end_reach w : reach (chol 3 w) 2 (chol_end w).
Proof. exact (auto_reach (chol 3 w) 2 (moves_of 2 ++ moves_of 1 ++ moves_of 0) 2000 (init (chol 3 w) 2) (reach_init _ _)). Qed.
Lemma chol_end_matrix w : matrix numbers (log (chol_end w)) spd = root.
Proof. destruct w; vm_compute; reflexivity. Qed.
Example C66_ex : forall w, (w = true -> (Z.of_nat 3 <= 21844)%Z) /\ reach (chol 3 w) 2 (chol_end w) /\ stuck (chol 3 w) (chol_end w) /\
  length spd = 3 * 3 /\ matrix numbers (log (chol_end w)) spd = root /\ kernels_work numbers integers 3 spd (matrix numbers (log (chol_end w)) spd) /\
  length (chol_jobs 3) = 10.
Proof.
  intros w. split; [intros _; vm_compute; discriminate|]. split; [apply chol_end_reach|]. split; [apply stuckb_ok; destruct w; vm_compute; reflexivity|].
  split; [reflexivity|]. split; [apply chol_end_matrix|]. split; [|reflexivity]. rewrite chol_end_matrix. split.
  - intros j Hj. do 3 (destruct j as [|j]; [vm_compute; reflexivity|]). lia.
  - intros i j Hi. do 3 (destruct i as [|i]; [do 3 (destruct j as [|j]; [try lia; vm_compute; reflexivity|]); lia|]). lia.
Qed.
Definition chol_moves : list move :=
  [MWake 1; MSteal 1 2 0; MStep 1 2; MTake 1 0; MStep 0 2; MWake 0; MMiss 1; MStep 2 2; MTake 2 0; MMiss 2; MWake 2; MStep 3 2; MWake 3].
Definition chol_drive : list move * pool := drive (chol 3 false) 2 1 chol_moves 3000 (pinit (chol 3 false) 2 1).
Lemma drive_pool P n m o fuel : exists k, psteps P n m false k (snd (drive P n m o fuel (pinit P n m))).
Proof. eexists. apply drive_steps. constructor. Qed.
Example C66_ex_pool : (exists k, psteps (chol 3 false) 2 1 false k (snd chol_drive)) /\ pstuck (chol 3 false) 2 1 (snd chol_drive) /\
  In (MSteal 1 2 0) (fst chol_drive) /\ matrix numbers (log (core (snd chol_drive))) spd = root.
Proof.
  assert (H := drive_pool (chol 3 false) 2 1 chol_moves 3000). split; [exact H|]. split; [|split].
  - destruct H as [k H]. apply pstuckb_ok; [exact (proj1 (pool_run _ _ _ _ _ _ H))|]. vm_compute. reflexivity.
  - assert (X : existsb (fun m => match m with MSteal 1 2 0 => true | _ => false end) (fst chol_drive) = true) by (vm_compute; reflexivity).
    apply existsb_exists in X as (x & Hx & E). destruct x as [| | | |[|[|?]] [|[|[|?]]] [|?]|]; try discriminate E. exact Hx.
  - vm_compute. reflexivity.
Qed.

Definition all_chol := (@C66_everything_is_done, @C66_result_of_the_loops, @C66_factorisation, @C66_executions_are_bounded, @C66_in_the_pool,
  @C66_pool_executions_are_bounded, @C66_calls_per_tile, @C66_ex, @C66_ex_pool).
Print Assumptions all_chol.
