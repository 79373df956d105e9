(** Applications: programs of root tasks emplaced by the main thread, and two of the
    examples of the library with any sizes.  Definitions only. *)
From Coq Require Import Bool List Arith NArith ZArith.
From Verif Require Import AccessModel AccessSpec UserModel SchedModel SchedSpec.
Import ListNotations.

(** One call of emplace_task (redGrapes.hpp:82-194, task_builder.hpp:50-138): the accesses of
    its arguments in order, the memory operations of the body in order, and whether the
    future is waited for at once ([.get()]) or dropped with the builder. *)
Record job := mkJob { j_acc : list raccess; j_acts : list act; j_get : bool }.

(** the resources of the arguments are added one by one (task_builder.hpp:83-86), the caller is
    the main thread, depth 0 *)
Definition task_of (j : job) : tdef := mkTdef None (declare 0 (j_acc j) []) (map IAct (j_acts j)).

Fixpoint calls (t : nat) (js : list job) : list instr :=
  match js with
  | [] => []
  | j :: js => ISpawn t :: (if j_get j then IGet t else IDrop t) :: calls (S t) js
  end.

(** main: the calls, then finalize(), which begins with barrier() (redGrapes.cpp:144-146) *)
Definition app (js : list job) (w : bool) : prog :=
  mkProg (calls 0 js ++ [IBarrier])
         (fun t => match nth_error js t with Some j => task_of j | None => mkTdef None (new_user 0) [] end) w.

(** memory as nested lists: change element [i]
    (the assignments to elements in examples/cholesky.cpp:91-160, game_of_life.cpp:54-133). *)
Fixpoint alter {A} (i : nat) (f : A -> A) (l : list A) : list A :=
  match l, i with
  | [], _ => []
  | x :: l, O => f x :: l
  | x :: l, S i => x :: alter i f l
  end.

(** ** examples/cholesky.cpp
    Tile (row i, column j) of the matrix is the resource j * nb + i (68, 110-113); its
    resources are numbered accordingly. *)
Definition tile_read (x : nat) : raccess := mkAcc (mkRes x 0) TIO MRead.
Definition tile_write (x : nat) : raccess := mkAcc (mkRes x 0) TIO MWrite.
(** body: reads its read-only tiles, then changes the last one by a kernel (examples/cholesky.cpp:93-158) *)
Definition get_tile (x : nat) : act := mkAct x TIO KRead 0.
Definition set_tile (x : nat) (k : Z) : act := mkAct x TIO KWrite k.

(** examples/cholesky.cpp:91-113 *)
Definition gemm_task (nb i j k : nat) : job :=
  mkJob [tile_read (k * nb + i); tile_read (k * nb + j); tile_write (j * nb + i)]
        [get_tile (k * nb + i); get_tile (k * nb + j); set_tile (j * nb + i) 0] false.
(** examples/cholesky.cpp:121-138 *)
Definition syrk_task (nb i j : nat) : job :=
  mkJob [tile_read (i * nb + j); tile_write (j * nb + j)] [get_tile (i * nb + j); set_tile (j * nb + j) 1] false.
(** examples/cholesky.cpp:142-148 *)
Definition potrf_task (nb j : nat) : job := mkJob [tile_write (j * nb + j)] [set_tile (j * nb + j) 2] false.
(** examples/cholesky.cpp:153-172 *)
Definition trsm_task (nb i j : nat) : job :=
  mkJob [tile_read (j * nb + j); tile_write (j * nb + i)] [get_tile (j * nb + j); set_tile (j * nb + i) 3] false.

(** for(i = a; i < b; ++i) (examples/cholesky.cpp:84-116) *)
Definition range (a b : nat) : list nat := seq a (b - a).

(** examples/cholesky.cpp:84-174 *)
Definition chol_jobs (nb : nat) : list job :=
  flat_map (fun j =>
    flat_map (fun k => map (fun i => gemm_task nb i j k) (range (S j) nb)) (range 0 j)
    ++ map (fun i => syrk_task nb i j) (range 0 j)
    ++ [potrf_task nb j]
    ++ map (fun i => trsm_task nb i j) (range (S j) nb)) (range 0 nb).

(** the kernels: cblas_dgemm a b c, cblas_dsyrk a c, LAPACKE_dpotrf a, cblas_dtrsm a b as
    functions of their arguments to the new value of the last one (examples/cholesky.cpp:93-158) *)
Record kernels := mkKern {
  tile : Type; blank : tile;
  gemm : tile -> tile -> tile -> tile; syrk : tile -> tile -> tile; potrf : tile -> tile; trsm : tile -> tile -> tile
}.
Section Blas.
  Context (K : kernels).
  (** [l]: tiles read, latest first (the four calls in examples/cholesky.cpp:93-158) *)
  Definition apply_kernel (code : Z) (l : list (tile K)) (c : tile K) : tile K :=
    if (code =? 0)%Z then gemm K (nth 1 l (blank K)) (nth 0 l (blank K)) c
    else if (code =? 1)%Z then syrk K (nth 0 l (blank K)) c
    else if (code =? 2)%Z then potrf K c
    else trsm K (nth 0 l (blank K)) c.
  (** one memory operation of a body of examples/cholesky.cpp:91-160 *)
  Definition blas_op (a : act) (l m : list (tile K)) : list (tile K) * list (tile K) :=
    match a with
    | mkAct r T x c =>
        match T return touch T -> _ with
        | TIO => fun k => match k with
                          | KRead => (nth r m (blank K) :: l, m)
                          | KWrite => (l, alter r (apply_kernel c l) m)
                          | _ => (l, m)
                          end
        | _ => fun _ => (l, m)
        end x
    end.
  (** examples/cholesky.cpp:91-160: all of them *)
  Definition blas : semantics := mkSem (list (tile K)) (list (tile K)) blas_op.
End Blas.

(** ** examples/game_of_life.cpp
    Sizes: sx, sy (34), cx, cy (35), number of generations (79); the buffers are the
    resources 0..3 (61-62), all tasks use FieldAccess<2>. *)
Definition cell_touch (k : kind) (x y : nat) : touch (field_ty 2) := (k, (N.of_nat x, (N.of_nat y, tt))).
Definition look (b x y : nat) : act := mkAct b (field_ty 2) (cell_touch KRead x y) 0.
Definition put (b x y : nat) (c : Z) : act := mkAct b (field_ty 2) (cell_touch KWrite x y) c.
(** an area of buffer [b] (fieldresource.hpp:92-95, 108-118), and all of it: the default area *)
Definition part (b : nat) (m : iomode) (x0 x1 y0 y1 : nat) : raccess :=
  mkAcc (mkRes b 0) (field_ty 2) (m, ((N.of_nat x0, N.of_nat x1), ((N.of_nat y0, N.of_nat y1), tt))).
Definition whole (b : nat) (m : iomode) : raccess := mkAcc (mkRes b 0) (field_ty 2) (m, ((0%N, size_max), ((0%N, size_max), tt))).

Definition life_rule (count : nat) (me : bool) : bool :=
  if (count <? 2) || (3 <? count) then false else if count =? 3 then true else me.

Section Life.
  Context (sx sy cx cy : nat) (seed : nat -> nat -> bool).
  (** game_of_life.cpp:67-77; the random values are [seed] *)
  Definition seed_task : job :=
    mkJob [whole 0 MWrite]
          (flat_map (fun x => map (fun y => put 0 x y (if seed x y then 3 else 2)%Z) (range 0 (sy + 2))) (range 0 (sx + 2))) false.
  (** game_of_life.cpp:84-99 *)
  Definition border_task (b : nat) : job :=
    mkJob [whole b MWrite]
          (flat_map (fun x => [look b x sy; put b x 0 1%Z; look b x 1; put b x (sy + 1) 1%Z]) (range 0 (sx + 2))
           ++ flat_map (fun y => [look b sx y; put b 0 y 1%Z; look b 1 y; put b (sx + 1) y 1%Z]) (range 0 (sy + 2))) false.
  (** game_of_life.cpp:102-116: the loops leave out the last row and column *)
  Definition print_task (b : nat) : job :=
    mkJob [whole b MRead] (flat_map (fun x => map (fun y => look b x y) (range 1 sy)) (range 1 sx)) true.
  (** next_state, game_of_life.cpp:37-47: neighbours[dy][dx], then the cell itself
      (read there only if needed), then the store of line 126 *)
  Definition cell_acts (src dst x y : nat) : list act :=
    [look src (x - 1) (y - 1); look src x (y - 1); look src (x + 1) (y - 1);
     look src (x - 1) y; look src (x + 1) y;
     look src (x - 1) (y + 1); look src x (y + 1); look src (x + 1) (y + 1);
     look src x y; put dst x y 0%Z].
  (** game_of_life.cpp:121-130 *)
  Definition chunk_task (src dst x y : nat) : job :=
    mkJob [part dst MWrite x (x + cx) y (y + cy); part src MRead (x - 1) (x + cx + 2) (y - 1) (y + cy + 2)]
          (flat_map (fun xi => flat_map (fun yi => cell_acts src dst (x + xi) (y + yi)) (range 0 cy)) (range 0 cx)) false.
  (** for(x = 1; x <= s; x += c) *)
  Fixpoint strides (fuel c s x : nat) : list nat :=
    match fuel with O => [] | S f => if x <=? s then x :: strides f c s (x + c) else [] end.
  (** game_of_life.cpp:81-133, one turn of the loop; next = (current + 1) % 4 *)
  Definition generation (cur : nat) : list job :=
    let nxt := (cur + 1) mod 4 in
    [border_task cur; print_task cur]
    ++ flat_map (fun x => map (fun y => chunk_task cur nxt x y) (strides sy cy sy 1)) (strides sx cx sx 1).
  Fixpoint generations (n cur : nat) : list job :=
    match n with O => [] | S n => generation cur ++ generations n ((cur + 1) mod 4) end.
  Definition life_jobs (n : nat) : list job := seed_task :: generations n 0.
End Life.

(** buffers, columns, cells (examples/game_of_life.cpp:29-36, 56-58) *)
Definition board := list (list (list bool)).
Definition cell (m : board) (b x y : nat) : bool := nth y (nth x (nth b m []) []) false.
Definition set_cell (b x y : nat) (v : bool) (m : board) : board := alter b (alter x (alter y (fun _ => v))) m.
Definition alive (v : bool) : nat := if v then 1 else 0.
(** [l]: cells read, latest first
    (the new cell, examples/game_of_life.cpp:38-48 (rule), 60-133 (the other assignments)). *)
Definition life_value (code : Z) (l : list bool) : bool :=
  if (code =? 0)%Z then life_rule (list_sum (map (fun i => alive (nth i l false)) (range 1 9))) (nth 0 l false)
  else if (code =? 1)%Z then nth 0 l false
  else (code =? 3)%Z.
(** one memory operation of a body of examples/game_of_life.cpp:50-133 *)
Definition life_op (a : act) (l : list bool) (m : board) : list bool * board :=
  match a with
  | mkAct r T x c =>
      match T return touch T -> _ with
      | TComb TIO (TArr TArea 2 CAnd) CAnd =>
          fun t => let '(k, (x, (y, _))) := t in
                   match k with
                   | KRead => (cell m r (N.to_nat x) (N.to_nat y) :: l, m)
                   | KWrite => (l, set_cell r (N.to_nat x) (N.to_nat y) (life_value c l) m)
                   | _ => (l, m)
                   end
      | _ => fun _ => (l, m)
      end x
  end.
(** examples/game_of_life.cpp:50-133: all of them *)
Definition life : semantics := mkSem (list bool) board life_op.
