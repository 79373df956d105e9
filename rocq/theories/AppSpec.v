(** What the two examples are meant to compute, without tasks. *)
From Coq Require Import Bool List Arith NArith ZArith.
From Verif Require Import AppModel.
Import ListNotations.

(** ** Loops *)
Definition loop {A} (a b : nat) (f : nat -> A -> A) (m : A) : A := fold_left (fun m i => f i m) (range a b) m.

(** ** Tiled Cholesky decomposition: the loops of the example, with calls instead of tasks *)
Section Chol.
  Context (K : kernels) (nb : nat).
  (** tile in row [i], column [j] *)
  Definition at_ (m : list (tile K)) (i j : nat) : tile K := nth (j * nb + i) m (blank K).
  Definition chol_seq (m : list (tile K)) : list (tile K) :=
    loop 0 nb (fun j m =>
      let m := loop 0 j (fun k m => loop (S j) nb (fun i m => alter (j * nb + i) (gemm K (at_ m i k) (at_ m j k)) m) m) m in
      let m := loop 0 j (fun i m => alter (j * nb + j) (syrk K (at_ m j i)) m) m in
      let m := alter (j * nb + j) (potrf K) m in
      loop (S j) nb (fun i m => alter (j * nb + i) (trsm K (at_ m j j)) m) m) m.
End Chol.

(** Tiles as matrices: [mul a b] stands for a * transpose b. *)
Record algebra (K : kernels) := mkAlg {
  zero : tile K; add : tile K -> tile K -> tile K; opp : tile K -> tile K; mul : tile K -> tile K -> tile K;
  add_assoc : forall a b c, add a (add b c) = add (add a b) c;
  add_comm : forall a b, add a b = add b a;
  add_zero : forall a, add a zero = a;
  add_opp : forall a, add a (opp a) = zero;
  gemm_is : forall a b c, gemm K a b c = add c (opp (mul a b));
  syrk_is : forall a c, syrk K a c = add c (opp (mul a a))
}.
Arguments zero {K}. Arguments add {K}. Arguments opp {K}. Arguments mul {K}.
Arguments add_assoc {K}. Arguments add_comm {K}. Arguments add_zero {K}. Arguments add_opp {K}. Arguments gemm_is {K}. Arguments syrk_is {K}.
Section Factor.
  Context (K : kernels) (G : algebra K) (nb : nat).
  (** sum of f k for k < n *)
  Fixpoint sum (f : nat -> tile K) (n : nat) : tile K := match n with O => zero G | S n => add G (sum f n) (f n) end.
  (** row i of [l] times row j of [l], columns below n: element of l * transpose l *)
  Definition dot (l : list (tile K)) (i j n : nat) : tile K := sum (fun k => mul G (at_ K nb l i k) (at_ K nb l j k)) n.
  (** what is left of tile (i,j) of [a] when the columns of [l] below j are taken away *)
  Definition remainder (a l : list (tile K)) (i j : nat) : tile K := add G (at_ K nb a i j) (opp G (dot l i j j)).
End Factor.

(** ** Game of life on a torus with cells 1..sx times 1..sy *)
Section Torus.
  Context (sx sy : nat).
  Definition before (s x : nat) : nat := if x =? 1 then s else x - 1.
  Definition after (s x : nat) : nat := if x =? s then 1 else x + 1.
  Definition neighbours (c : nat -> nat -> bool) (x y : nat) : list bool :=
    [c (before sx x) (before sy y); c x (before sy y); c (after sx x) (before sy y); c (before sx x) y; c (after sx x) y;
     c (before sx x) (after sy y); c x (after sy y); c (after sx x) (after sy y)].
  (** survives with two or three living neighbours, is born with three *)
  Definition next (c : nat -> nat -> bool) (x y : nat) : bool :=
    let n := length (filter (fun b => b) (neighbours c x y)) in (n =? 3) || (n =? 2) && c x y.
  Fixpoint evolve (n : nat) (c : nat -> nat -> bool) : nat -> nat -> bool := match n with O => c | S n => next (evolve n c) end.
End Torus.
