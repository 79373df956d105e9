(** How the arguments of a task become its accesses, and what the guards of IOResource let a
    body do.  Definitions only. *)
From Coq Require Import Bool List Arith NArith.
From Verif Require Import AccessModel UserModel.
Import ListNotations.

(** ** Guards (resource/ioresource.hpp:24-106) *)
(** the object a guard refers to; its type: ReadGuard, WriteGuard, or IOResource, which derives from WriteGuard
    (resource/ioresource.hpp:24-106) *)
Inductive gkind := GRead | GWrite | GRes.
Record guard := mkGuard { g_kind : gkind; g_res : resource }.
(** ReadGuard::read, inherited by the others: a copy of the ReadGuard part (resource/ioresource.hpp:32-35) *)
Definition g_read (g : guard) : option guard := Some (mkGuard GRead (g_res g)).
(** WriteGuard::write (resource/ioresource.hpp:66-69); a ReadGuard has no such member *)
Definition g_write (g : guard) : option guard :=
  match g_kind g with GRead => None | _ => Some (mkGuard GWrite (g_res g)) end.
(** operator ResourceAccess (resource/ioresource.hpp:27-30, 61-64) *)
Definition g_access (g : guard) : raccess :=
  mkAcc (g_res g) TIO (match g_kind g with GRead => MRead | _ => MWrite end).
(** what get(), operator* and operator-> return: a reference to T that is not const (resource/ioresource.hpp:37-50, 71-84) *)
Definition g_mutable (g : guard) : bool := match g_kind g with GRead => false | _ => true end.
(** the member obj, a shared_ptr to T, public in all of them (resource/resource.hpp:331-345, where the
    word protected is commented out) *)
Definition obj_mutable (g : guard) : bool := true.

(** ** Arguments (task/property/trait.hpp:15-75, resource/resource.hpp:196-204) *)
(** int and unsigned; a type convertible to ResourceAccess; std::reference_wrapper; anything else, with the
    accesses of the guards it contains (task/property/trait.hpp:15-75) *)
Inductive arg := ANum | AAcc (ra : raccess) | ARef (a : arg) | AObj (inside : list raccess).
(** trait::BuildProperties<T>::build: what is added to the access list, and whether a warning is given
    (task/property/trait.hpp:15-24, 26-34, 56-75; resource/resource.hpp:196-204).  The specialisations for
    references only call add again. *)
Fixpoint build (a : arg) : list raccess * bool :=
  match a with
  | ANum => ([], false)
  | AAcc ra => ([ra], false)
  | ARef a => build a
  | AObj _ => ([], true)
  end.
(** TaskBuilder's constructor: pass(build_helper.build(args)...) evaluates the calls in an order the compiler
    chooses, here the order of the list (task/task_builder.hpp:83-86, 25-38); then resources() *)
Definition emplace_user (depth : nat) (args : list arg) (calls : list (list raccess)) : ruser :=
  declare depth (flat_map (fun a => fst (build a)) args) calls.
(** whether any argument gives a warning (task/property/trait.hpp:20-22) *)
Definition warned (args : list arg) : bool := existsb (fun a => snd (build a)) args.
