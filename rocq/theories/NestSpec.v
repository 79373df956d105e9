(** Nested tasks: what the result of a program should be (C59).  Specification only. *)
From Coq Require Import Bool List Arith NArith ZArith Lia.
From Verif Require Import AccessModel AccessSpec UserModel SchedModel SchedSpec.
Import ListNotations.

(** [t] is [q], or was emplaced by [q] directly or through other tasks *)
Inductive within (P : prog) (q : nat) : nat -> Prop :=
| within_self : within P q q
| within_step b c : within P q b -> In (ISpawn c) (body P (Some b)) -> within P q c.

(** [l] lists the operations of the instructions [b] of [o], every emplaced task
    being run on the spot, to its end, where it is emplaced. *)
Inductive on_the_spot (P : prog) : option nat -> list instr -> list (nat * act) -> Prop :=
| spot_nil o : on_the_spot P o [] []
| spot_main a b l : on_the_spot P None b l -> on_the_spot P None (IAct a :: b) l
| spot_act t a b l : on_the_spot P (Some t) b l -> on_the_spot P (Some t) (IAct a :: b) ((t, a) :: l)
| spot_spawn o c b l1 l2 : on_the_spot P (Some c) (body P (Some c)) l1 -> on_the_spot P o b l2 ->
    on_the_spot P o (ISpawn c :: b) (l1 ++ l2)
| spot_other o i b l : (forall a, i <> IAct a) -> (forall c, i <> ISpawn c) ->
    on_the_spot P o b l -> on_the_spot P o (i :: b) l.

(** What [TaskSpace::submit] asserts (task_space.cpp:78-79): the accesses of a
    child are covered by those of its parent, unless they are to resources of an
    inner scope (resource_user.cpp:84-104). *)
Definition children_covered (P : prog) : Prop :=
  forall q c, In (ISpawn c) (body P (Some q)) -> user_is_superset_of (user P q) (user P c) = true.

(** Resources of an inner scope stay inside the task that created them. *)
Definition inner_private (P : prog) : Prop :=
  forall q c a, In (ISpawn c) (body P (Some q)) -> In a (u_acc (user P c)) ->
  u_scope (user P q) < r_scope (a_res a) ->
  forall t a', In a' (u_acc (user P t)) -> r_id (a_res a') = r_id (a_res a) -> within P q t.

(** After a body has emplaced a task it does nothing that conflicts with what
    that task and its descendants do. *)
Definition keeps_off (P : prog) : Prop :=
  forall q pre c post a t b, body P (Some q) = pre ++ ISpawn c :: post -> In (IAct a) post ->
  within P c t -> In (IAct b) (body P (Some t)) -> ~ acts_conflict a b.

(** What is over once the instructions [b] are done: the tasks waited for there, and the tasks
    these waited for in their bodies. *)
Inductive joined (P : prog) (b : list instr) : nat -> Prop :=
| joined_get c : In (IGet c) b -> joined P b c
| joined_step c d : joined P b c -> In (IGet d) (body P (Some c)) -> joined P b d.

(** Between emplacing a task and the end of waiting for it, a body does nothing that conflicts
    with what that task and its descendants do. *)
Definition keeps_clear (P : prog) : Prop :=
  forall q pre c mid a post t b, body P (Some q) = pre ++ ISpawn c :: mid ++ IAct a :: post ->
  within P c t -> In (IAct b) (body P (Some t)) -> joined P mid t \/ ~ acts_conflict a b.
