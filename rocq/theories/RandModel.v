(** test/random_graph.cpp: tasks that hash their number into the resources they name (C71).
    Definitions only. *)
From Coq Require Import Bool List Arith NArith ZArith.
From Verif Require Import AccessModel AccessSpec UserModel SchedModel SchedSpec AppModel.
Import ListNotations.

(** One task of the test (random_graph.cpp:105-180): it names the resources [rs], all for writing, and calls
    hash(i, .) on each.  The code has one case for each of the sizes 0 to 5 of [rs]; here [rs]
    has any size.  The body first sleeps for a while, which is left out. *)
Definition rand_task (i : nat) (rs : list nat) : job :=
  mkJob (map (fun r => mkAcc (mkRes r 0) TIO MWrite) rs) (map (fun r => mkAct r TIO KWrite (Z.of_nat i)) rs) false.
(** the loop over the tasks (104-180); [pat]: access_pattern (45) *)
Fixpoint rand_from (i : nat) (pat : list (list nat)) : list job :=
  match pat with [] => [] | rs :: pat => rand_task i rs :: rand_from (S i) pat end.
Definition rand_jobs (pat : list (list nat)) : list job := rand_from 0 pat.

(** expected_hash (46), filled while the pattern is generated (57-83): hash(i, .) on each resource
    in the order in which they are drawn *)
Section Hash.
  Context {V : Type} (h : nat -> V -> V).
  Fixpoint expect_from (i : nat) (pat : list (list nat)) (m : list V) : list V :=
    match pat with
    | [] => m
    | rs :: pat => expect_from (S i) pat (fold_left (fun m r => alter r (h i) m) rs m)
    end.
  Definition expected (pat : list (list nat)) (m : list V) : list V := expect_from 0 pat m.

  (** a memory operation of a body (116-172): the only ones are calls of hash *)
  Definition hash_op (a : act) (l : unit) (m : list V) : unit * list V :=
    match a with
    | mkAct r T x c =>
        match T return touch T -> _ with
        | TIO => fun k => match k with KWrite => (l, alter r (h (Z.to_nat c)) m) | _ => (l, m) end
        | _ => fun _ => (l, m)
        end x
    end.
  Definition hashing : semantics := mkSem unit (list V) hash_op.
End Hash.

(** The hash of the test (27-35) on the eight words of a resource.  The number of the task is
    added to the first word; [sha256_process] (sha256.c:39) reads the words and changes only the
    local [state], which is thrown away. *)
Definition word : Z := 18446744073709551616.
Definition test_hash (i : nat) (v : list Z) : list Z :=
  match v with [] => [] | x :: v => (((x + Z.of_nat i) mod word)%Z) :: v end.

(** The resources before the first task, value-initialised (102, ioresource.hpp:98-100,
    memory/allocator.hpp:114-117: allocate_shared) *)
Definition blank_words (k : nat) : list (list Z) := repeat (repeat 0%Z 8) k.
(** any calls of hash (27-35), in order: number of the task, resource *)
Definition hash_calls {V} (h : nat -> V -> V) (cs : list (nat * nat)) (m : list V) : list V :=
  fold_left (fun m c => alter (snd c) (h (fst c)) m) cs m.
(** the calls the tasks of a pattern make (104-180) *)
Fixpoint calls_from (i : nat) (pat : list (list nat)) : list (nat * nat) :=
  match pat with [] => [] | rs :: pat => map (pair i) rs ++ calls_from (S i) pat end.
