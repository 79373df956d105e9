(** C67: examples/game_of_life.cpp computes the generations on a torus, for every size of field
    and chunks, every number of generations and workers, and every schedule. *)
From Coq Require Import Bool List Arith NArith ZArith Lia.
From Verif Require Import AccessModel AccessSpec UserModel SchedModel SchedSpec SchedBase SchedInv8 SchedThm SchedLive SchedTerm SchedSeq SchedMore SchedEx PropertiesSched
  PoolModel PoolProof PropertiesPool AppModel AppSpec AppProof AppMore AppLife.
Import ListNotations.
Open Scope nat_scope.

(** a field of sx times sy cells, cut into px times py chunks of cx times cy cells, with indices
    of 64 bits *)
Definition cut (sx sy cx cy px py : nat) : Prop :=
  1 <= sx /\ 1 <= sy /\ sx = px * cx /\ sy = py * cy /\ (N.of_nat (sx + cx + 2) <= size_max)%N /\ (N.of_nat (sy + cy + 2) <= size_max)%N.
(** four buffers with a border *)
Definition buffers (sx sy : nat) (m : board) : Prop :=
  length m = 4 /\ forall b, b < 4 -> length (nth b m []) = sx + 2 /\ forall x, x < sx + 2 -> length (nth x (nth b m []) []) = sy + 2.
(** 16-bit counters suffice *)
Definition small (n px py : nat) : Prop := (3 + Z.of_nat n * (2 + 2 * (Z.of_nat px * Z.of_nat py)) <= 65535)%Z.

Section Game.
  Context (sx sy cx cy px py : nat) (seed : nat -> nat -> bool).
  (** with [w] the counters have 16 bits *)
  Definition game (n : nat) (w : bool) : prog := app (life_jobs sx sy cx cy seed n) w.
  (** what the body of task [t] has read at the end, and the buffers *)
  Definition seen (h : list lev) (m : board) : nat -> list bool := fst (exec life (performed h) (fun _ => []) m).
  Definition left (h : list lev) (m : board) : board := snd (exec life (performed h) (fun _ => []) m).
End Game.

Lemma game_sound sx sy cx cy px py seed n : cut sx sy cx cy px py -> sound_app (life_jobs sx sy cx cy seed n).
Proof. intros (A & B & C & D & E & F). exact (life_sound sx sy cx cy seed A B px py C D E F n). Qed.
Lemma game_few sx sy cx cy px py seed n : cut sx sy cx cy px py -> small n px py -> few (life_jobs sx sy cx cy seed n).
Proof.
  intros (A & B & C & D & E & F) S. apply (life_few sx sy cx cy seed A B px py C D E F). unfold small in S. replace (Z.of_nat (n * (2 + 2 * (px * py)))) with (Z.of_nat n * (2 + 2 * (Z.of_nat px * Z.of_nat py)))%Z by lia. exact S.
Qed.

(** ** When nothing can move any more, main has come to its end behind the barrier of
    finalize(), every call has been executed and its task released, *)
Theorem C67_everything_is_done :
  forall sx sy cx cy px py seed n w k s, cut sx sy cx cy px py -> 1 <= k -> (w = true -> small n px py) ->
  reach (game sx sy cx cy seed n w) k s -> stuck (game sx sy cx cy seed n w) s ->
  all_frames s = [FBody None []] /\ forall t, t < length (life_jobs sx sy cx cy seed n) -> completed s t /\ In (LFree t) (log s).
Proof.
  intros sx sy cx cy px py seed n w k s CT N F R K. assert (OK := game_sound _ _ _ _ _ _ seed n CT).
  destruct (app_ideal _ w k s OK (fun E => game_few _ _ _ _ _ _ seed n CT (F E)) R K) as [R' K']. exact (app_finished _ k s OK N R' K').
Qed.

(** ** buffer n mod 4 holds generation n, *)
Theorem C67_last_generation :
  forall sx sy cx cy px py seed n w k s m, cut sx sy cx cy px py -> 1 <= k -> (w = true -> small n px py) -> buffers sx sy m ->
  reach (game sx sy cx cy seed n w) k s -> stuck (game sx sy cx cy seed n w) s ->
  forall x y, 1 <= x <= sx -> 1 <= y <= sy -> cell (left (log s) m) (n mod 4) x y = evolve sx sy n seed x y.
Proof.
  intros sx sy cx cy px py seed n w k s m CT N F S R K x y Hx Hy. assert (OK := game_sound _ _ _ _ _ _ seed n CT).
  destruct (app_ideal _ w k s OK (fun E => game_few _ _ _ _ _ _ seed n CT (F E)) R K) as [R' K'].
  unfold left. rewrite (proj1 (app_result _ k s life [] m OK N life_sensible R' K')). destruct CT as (A & B & C & D & _).
  exact (proj2 (life_calls sx sy cx cy seed A B px py C D n m S) x y Hx Hy).
Qed.

(** ** and the output of turn g showed generation g (all but the last row and column). *)
Theorem C67_output :
  forall sx sy cx cy px py seed n w k s m g, cut sx sy cx cy px py -> 1 <= k -> (w = true -> small n px py) -> buffers sx sy m ->
  reach (game sx sy cx cy seed n w) k s -> stuck (game sx sy cx cy seed n w) s -> g < n ->
  let t := 2 + g * (2 + px * py) in
  nth_error (life_jobs sx sy cx cy seed n) t = Some (print_task sx sy (g mod 4)) /\
  rev (seen (log s) m t) = flat_map (fun x => map (fun y => evolve sx sy g seed x y) (seq 1 (sy - 1))) (seq 1 (sx - 1)).
Proof.
  intros sx sy cx cy px py seed n w k s m g CT N F S R K Hg. cbv zeta. assert (OK := game_sound _ _ _ _ _ _ seed n CT).
  destruct (app_ideal _ w k s OK (fun E => game_few _ _ _ _ _ _ seed n CT (F E)) R K) as [R' K'].
  destruct CT as (A & B & C & D & _). destruct (life_output sx sy cx cy seed A B px py C D n g m Hg S) as [T V]. cbv zeta in *. split; [exact T|].
  unfold seen. rewrite (proj2 (app_result _ k s life [] m OK N life_sensible R' K') _ _ T), V, rev_involutive.
  rewrite <- (map_prod (fun x y => evolve sx sy g seed x y)). reflexivity.
Qed.

(** ** Every execution comes to such an end. *)
Theorem C67_executions_are_bounded :
  forall sx sy cx cy px py seed n w k, cut sx sy cx cy px py -> (w = true -> small n px py) ->
  exists B, forall l s, run (game sx sy cx cy seed n w) (init (game sx sy cx cy seed n w) k) l = Some s -> length l <= B.
Proof.
  intros sx sy cx cy px py seed n w k CT F. assert (OK := game_sound _ _ _ _ _ _ seed n CT).
  destruct (C17_executions_are_bounded (game sx sy cx cy seed n false) k (app_wf _ false OK) eq_refl (app_flat _ false)) as (B & HB).
  exists B. intros l s H. exact (HB l s (app_run _ w k l s OK (fun E => game_few _ _ _ _ _ _ seed n CT (F E)) H)).
Qed.

(** ** The same in the pool of workers with their own queues, stealing and sleeping. *)
Theorem C67_in_the_pool :
  forall sx sy cx cy px py seed n k h a c m, cut sx sy cx cy px py -> 1 <= k -> 1 <= h -> buffers sx sy m ->
  psteps (game sx sy cx cy seed n false) k h false a c -> pstuck (game sx sy cx cy seed n false) k h c ->
  all_frames (core c) = [FBody None []] /\
  (forall x y, 1 <= x <= sx -> 1 <= y <= sy -> cell (left (log (core c)) m) (n mod 4) x y = evolve sx sy n seed x y) /\
  (forall g, g < n -> rev (seen (log (core c)) m (2 + g * (2 + px * py))) = flat_map (fun x => map (fun y => evolve sx sy g seed x y) (seq 1 (sy - 1))) (seq 1 (sx - 1))).
Proof.
  intros sx sy cx cy px py seed n k h a c m CT Hk Hh S H K. destruct (app_pool _ k h a c (game_sound _ _ _ _ _ _ seed n CT) Hk Hh H K) as (s & R & ST & EL & EF).
  rewrite <- EL, <- EF. split; [|split].
  - exact (proj1 (C67_everything_is_done sx sy cx cy px py seed n false (k + h) s CT ltac:(lia) ltac:(discriminate) R ST)).
  - exact (C67_last_generation sx sy cx cy px py seed n false (k + h) s m CT ltac:(lia) ltac:(discriminate) S R ST).
  - intros g Hg. exact (proj2 (C67_output sx sy cx cy px py seed n false (k + h) s m g CT ltac:(lia) ltac:(discriminate) S R ST Hg)).
Qed.

(** ** The example with the numbers of the file: 32 times 32 cells in chunks of 4 times 4, 500
    generations, 4 workers, 16-bit counters. *)
Theorem C67_the_example_as_it_is :
  forall seed s m, buffers 32 32 m -> reach (game 32 32 4 4 seed 500 true) 4 s -> stuck (game 32 32 4 4 seed 500 true) s ->
  all_frames s = [FBody None []] /\
  (forall x y, 1 <= x <= 32 -> 1 <= y <= 32 -> cell (left (log s) m) 0 x y = evolve 32 32 500 seed x y) /\
  (forall g, g < 500 -> rev (seen (log s) m (2 + g * 66)) = flat_map (fun x => map (fun y => evolve 32 32 g seed x y) (seq 1 31)) (seq 1 31)).
Proof.
  intros seed s m S R K.
  assert (CT : cut 32 32 4 4 8 8) by (repeat split; try lia; vm_compute; discriminate).
  assert (SM : true = true -> small 500 8 8) by (intros _; unfold small; lia).
  split; [|split].
  - exact (proj1 (C67_everything_is_done 32 32 4 4 8 8 seed 500 true 4 s CT ltac:(lia) SM R K)).
  - exact (C67_last_generation 32 32 4 4 8 8 seed 500 true 4 s m CT ltac:(lia) SM S R K).
  - intros g Hg. exact (proj2 (C67_output 32 32 4 4 8 8 seed 500 true 4 s m g CT ltac:(lia) SM S R K Hg)).
Qed.

(** ** Example: a glider on 4 times 4 cells in chunks of 2 times 4, two generations, two workers. *)
Definition some_cells (x y : nat) : bool := existsb (fun p => (fst p =? x) && (snd p =? y)) [(2, 1); (3, 2); (1, 3); (2, 3); (3, 3); (0, 0)].
Definition blanks : board := repeat (repeat (repeat false 6) 6) 4.
Definition life_end (w : bool) : state := auto_run (game 4 4 2 4 some_cells 2 w) (moves_of 2 ++ moves_of 1 ++ moves_of 0) 5000 (init (game 4 4 2 4 some_cells 2 w) 2).
Lemma life_end_reach w : reach (game 4 4 2 4 some_cells 2 w) 2 (life_end w).
Proof. exact (auto_reach (game 4 4 2 4 some_cells 2 w) 2 (moves_of 2 ++ moves_of 1 ++ moves_of 0) 5000 (init _ 2) (reach_init _ _)). Qed.
Example C67_ex : forall w, cut 4 4 2 4 2 1 /\ (w = true -> small 2 2 1) /\ buffers 4 4 blanks /\
  reach (game 4 4 2 4 some_cells 2 w) 2 (life_end w) /\ stuck (game 4 4 2 4 some_cells 2 w) (life_end w) /\
  map (fun x => map (fun y => cell (left (log (life_end w)) blanks) 2 x y) [1; 2; 3; 4]) [1; 2; 3; 4] =
  map (fun x => map (fun y => evolve 4 4 2 some_cells x y) [1; 2; 3; 4]) [1; 2; 3; 4] /\
  map (fun n => map (fun x => map (fun y => evolve 4 4 n some_cells x y) [1; 2; 3; 4]) [1; 2; 3; 4]) [0; 1; 2] =
    [[[false; false; true; false]; [true; false; true; false]; [false; true; true; false]; [false; false; false; false]];
     [[false; true; false; true]; [false; false; true; false]; [false; true; true; true]; [false; true; true; false]];
     [[true; true; false; true]; [false; false; false; false]; [true; false; false; true]; [false; false; false; false]]] /\
  seen (log (life_end w)) blanks 2 = [true; true; false; true; false; true; true; false; false] /\ seen (log (life_end w)) blanks 6 = [true; true; false; true; false; false; false; true; false].
Proof.
  intros w. split; [repeat split; try lia; vm_compute; discriminate|]. split; [intros _; vm_compute; discriminate|].
  split. { split; [reflexivity|]. intros b Hb. do 4 (destruct b as [|b]; [split; [reflexivity|]; intros x Hx; do 6 (destruct x as [|x]; [reflexivity|]); lia|]). lia. }
  split; [apply life_end_reach|]. split; [apply stuckb_ok; destruct w; vm_compute; reflexivity|].
  split; [destruct w; vm_compute; reflexivity|]. split; [vm_compute; reflexivity|]. split; destruct w; vm_compute; reflexivity.
Qed.
Definition life_moves : list move :=
  [MWake 1; MSteal 1 2 0; MStep 1 2; MTake 1 0; MStep 0 2; MWake 0; MMiss 1; MStep 2 2; MTake 2 0; MMiss 2; MWake 2; MStep 3 2; MWake 3].
Definition life_drive : list move * pool := drive (game 4 4 2 4 some_cells 1 false) 2 1 life_moves 3000 (pinit (game 4 4 2 4 some_cells 1 false) 2 1).
Lemma life_drive_steps : exists k, psteps (game 4 4 2 4 some_cells 1 false) 2 1 false k (snd life_drive).
Proof. eexists. apply drive_steps. constructor. Qed.
Example C67_ex_pool : (exists k, psteps (game 4 4 2 4 some_cells 1 false) 2 1 false k (snd life_drive)) /\ pstuck (game 4 4 2 4 some_cells 1 false) 2 1 (snd life_drive) /\
  map (fun x => map (fun y => cell (left (log (core (snd life_drive))) blanks) 1 x y) [1; 2; 3; 4]) [1; 2; 3; 4] = [[false; true; false; true]; [false; false; true; false]; [false; true; true; true]; [false; true; true; false]].
Proof.
  split; [exact life_drive_steps|]. split; [|vm_compute; reflexivity].
  destruct life_drive_steps as [k H]. apply pstuckb_ok; [exact (proj1 (pool_run _ _ _ _ _ _ H))|]. vm_compute. reflexivity.
Qed.

Definition all_life := (@C67_everything_is_done, @C67_last_generation, @C67_output, @C67_executions_are_bounded, @C67_in_the_pool, @C67_the_example_as_it_is, @C67_ex, @C67_ex_pool).
Print Assumptions all_life.
