(** Happens-before (C61).  Specification only. *)
From Coq Require Import List Arith.
From Verif Require Import SchedModel SchedSpec SchedMany HbModel.
Import ListNotations.

(** Happens-before: the steps of one thread are ordered; a step that releases an object is
    before every later step that acquires it; and so on transitively. *)
Inductive hb (tr : list rec) : nat -> nat -> Prop :=
| hb_po m n a b : nth_error tr m = Some a -> nth_error tr n = Some b -> m < n -> r_who a = r_who b -> hb tr m n
| hb_sw m n a b x : nth_error tr m = Some a -> nth_error tr n = Some b -> m < n ->
    In x (r_rel a) -> In x (r_acq b) -> hb tr m n
| hb_trans l m n : hb tr l m -> hb tr m n -> hb tr l n.

(** step [m] of the history does [l] *)
Definition does (tr : list rec) (m : nat) (l : lev) : Prop :=
  exists a, nth_error tr m = Some a /\ In l (r_log a).

(** everything that did [l] is before step [n] *)
Definition after (tr : list rec) (n : nat) (l : lev) : Prop :=
  (exists m, does tr m l) /\ forall m, does tr m l -> hb tr m n.

(** Histories of the executions of SchedSpec ([reach], [greach]) and SchedMany ([creach]). *)
Inductive hist (P : prog) (n : nat) : state -> list rec -> Prop :=
| hist_init : hist P n (init P n) []
| hist_step s tr i c s' : hist P n s tr -> step P s i c = Some s' -> hist P n s' (tr ++ [mkrec P s i c s']).

Inductive ghist (P : prog) (n : nat) : state -> list rec -> Prop :=
| ghist_init : ghist P n (init P n) []
| ghist_step s tr i c s' : ghist P n s tr -> end_ok P s i -> step P s i c = Some s' ->
    ghist P n s' (tr ++ [mkrec P s i c s']).

(** one thread of the user: programs without nested tasks under every interleaving, others as in [greach] *)
Definition recorded (P : prog) (n : nat) (s : state) (tr : list rec) : Prop :=
  (flat P /\ hist P n s tr) \/ ghist P n s tr.

(** several threads of the user *)
Inductive chist (P : prog) (ms : list (list instr)) (n : nat) : state -> list rec -> Prop :=
| chist_init : chist P ms n (init_many P ms n) []
| chist_step s tr i c s' : chist P ms n s tr -> end_ok P s i -> begin_ok P s i -> step P s i c = Some s' ->
    chist P ms n s' (tr ++ [mkrec P s i c s']).

(** the task whose body does [l] *)
Definition made_by (P : prog) (l : lev) : option nat :=
  match l with
  | LStart t | LEnd t => Some t
  | LAct o _ => o
  | LSpawn c => parent P c
  | _ => None
  end.
