(** Access lists of tasks ([ResourceUser]), property patches and field guards:
    model.  Definitions only.  A [ChunkedList] is represented by the list of its
    live elements in iteration order, newest first (justified by C32). *)
From Coq Require Import Bool List Arith NArith Lia.
From Verif Require Import AccessModel.
Import ListNotations.

(** resource/resource_user.hpp:39-58.  [unique_resources] entries are the
    resources; the iterator stored beside each is part of the scheduler model.
    [scope_level] is a [uint8_t]; see [new_user]. *)
Record ruser := mkUser {
  u_scope : nat;
  u_acc : list raccess;
  u_uniq : list resource
}.

(** resource_user.cpp:15-20: the depth is truncated to 8 bits. *)
Definition new_user (depth : nat) : ruser := mkUser (depth mod 256) [] [].

(** resource_user.cpp:22-27 with util/chunked_list.hpp:504-507: the list copy
    constructor copies no elements. *)
Definition copy_user (u : ruser) : ruser := mkUser (u_scope u) [] [].

(** resource_user.cpp:38-44 *)
Definition add_resource_access (u : ruser) (ra : raccess) : ruser :=
  mkUser (u_scope u) (ra :: u_acc u) (a_res ra :: u_uniq u).

(** resource_user.cpp:46-49 with chunked_list.hpp:604-609: erases every equal
    element. *)
Definition rm_resource_access (u : ruser) (ra : raccess) : ruser :=
  mkUser (u_scope u) (filter (fun x => negb (ra_eqb x ra)) (u_acc u)) (u_uniq u).

(** resource_user.cpp:56: [unique_resources.erase], entry equality is resource
    identity (resource_user.cpp:10-13) *)
Definition uniq_erase (r : resource) (l : list resource) : list resource :=
  filter (fun x => negb (same_resource x r)) l.

(** resource_user.cpp:51-59 *)
Definition build_unique_resource_list (u : ruser) : ruser :=
  mkUser (u_scope u) (u_acc u)
         (fold_left (fun l ra => a_res ra :: uniq_erase (a_res ra) l) (u_acc u) (u_uniq u)).

(** task/property/resource.hpp:37-44 [resources()] *)
Definition resources (u : ruser) (l : list raccess) : ruser :=
  build_unique_resource_list
    (mkUser (u_scope u) (fold_left (fun acc ra => ra :: acc) l (u_acc u)) (u_uniq u)).

(** How a task's accesses are declared: task_builder.hpp:83-86 calls
    [add_resource] (resource.hpp:46-50) for each argument convertible to an
    access, later [.resources({...})] may be called any number of times. *)
Definition declare (depth : nat) (args : list raccess) (calls : list (list raccess)) : ruser :=
  fold_left resources calls (fold_left add_resource_access args (new_user depth)).

(** resource_user.cpp:61-69 *)
Definition has_sync_access (u : ruser) (r : resource) : bool :=
  existsb (fun ra => same_resource (a_res ra) r && ra_is_sync ra) (u_acc u).

(** resource_user.cpp:71-82 *)
Definition user_is_serial (a b : ruser) : bool :=
  existsb (fun ra => existsb (fun rb => ra_is_serial ra rb) (u_acc b)) (u_acc a).

(** resource_user.cpp:84-99 *)
Definition user_is_superset_of (u a : ruser) : bool :=
  forallb (fun ra => existsb (fun r => ra_is_superset r ra) (u_acc u)
                     || negb (r_scope (a_res ra) <=? u_scope u)) (u_acc a).

(** ** Patches: task/property/resource.hpp:53-103 *)
Inductive diff := DAdd (ra : raccess) | DRemove (ra : raccess).

(** resource.hpp:115-134.  Second component: [false] if it throws. *)
Definition apply_diff (u : ruser) (d : diff) : ruser :=
  match d with
  | DAdd ra => add_resource_access u ra
  | DRemove ra => rm_resource_access u ra
  end.

Definition apply_patch (u : ruser) (p : list diff) : ruser * bool :=
  let before := copy_user u in
  let u' := fold_left apply_diff p u in
  (u', user_is_superset_of before u').

(** ** Field guards: resource/fieldresource.hpp *)
Section Guard.
  Context (d : nat).   (* dimension, a template parameter *)

  (** fieldresource.hpp:26-73: std::array<size_t, dim> *)
  Definition index := arr N d.

  (** [m_area] (fieldresource.hpp:126) and whether this is a [ReadGuard]
      (129-177) or a [WriteGuard] (179-227). *)
  Record guard := mkGuard { g_write : bool; g_area : arr (N * N) d }.
End Guard.
Arguments mkGuard {d}. Arguments g_write {d}. Arguments g_area {d}.

Fixpoint arr_map2 {A B C} (f : A -> B -> C) (n : nat) : arr A n -> arr B n -> arr C n :=
  match n with
  | O => fun _ _ => tt
  | S m => fun x y => (f (fst x) (fst y), arr_map2 f m (snd x) (snd y))
  end.

Fixpoint arr_const {A} (a : A) (n : nat) : arr A n :=
  match n with O => tt | S m => (a, arr_const a m) end.

Fixpoint arr_map {A B} (f : A -> B) (n : nat) : arr A n -> arr B n :=
  match n with
  | O => fun _ => tt
  | S m => fun x => (f (fst x), arr_map f m (snd x))
  end.

(** fieldresource.hpp:96-98, 236-244 with area.hpp:26-30: a fresh field
    resource covers everything and may write. *)
Definition full_guard (d : nat) : guard d := mkGuard true (arr_const (0%N, size_max) d).

Fixpoint arr_contains (n : nat) : arr (N * N) n -> arr N n -> bool :=
  match n with
  | O => fun _ _ => true
  | S m => fun a i =>
      negb ((fst i <? fst (fst a))%N || (snd (fst a) <=? fst i)%N) && arr_contains m (snd a) (snd i)
  end.

(** fieldresource.hpp:85-93 [contains] *)
Definition contains {d} (g : guard d) (i : index d) : bool := arr_contains d (g_area g) i.

(** fieldresource.hpp:106-112 [get]: [false] if it throws. *)
Definition get_ok {d} (g : guard d) (i : index d) : bool := contains g i.

(** fieldresource.hpp:114-124 [make_area], 141-144 and 191-194 [area]; [None]
    if it throws. *)
Definition g_sub {d} (g : guard d) (b e : index d) : option (guard d) :=
  let sub := arr_map2 pair d b e in
  if arr_all2 area_is_superset d (g_area g) sub then Some (mkGuard (g_write g) sub) else None.

(** fieldresource.hpp:146-152, 196-202 [at]: [end[d]++] wraps at 2^64. *)
Definition g_at {d} (g : guard d) (p : index d) : option (guard d) :=
  g_sub g p (arr_map (fun x => ((x + 1) mod 18446744073709551616)%N) d p).

(** fieldresource.hpp:136-139 [read] (a slicing copy) *)
Definition g_read {d} (g : guard d) : guard d := mkGuard false (g_area g).

(** fieldresource.hpp:164-167, 214-217: the access a guard registers *)
Definition g_access {d} (g : guard d) : val (field_ty d) :=
  (if g_write g then MWrite else MRead, g_area g).

(** fieldresource.hpp:159-162, 209-212 [operator->] returns the whole container
    whatever the area: every index can be reached through it. *)
Definition arrow_reaches {d} (g : guard d) (i : index d) : bool := true.

(** a chain of calls on a field resource (fieldresource.hpp:78-245) *)
Inductive gcall (d : nat) := GArea (b e : index d) | GAt (p : index d) | GRead.
Arguments GArea {d}. Arguments GAt {d}. Arguments GRead {d}.

(** fieldresource.hpp:78-245: one call; read() makes a ReadGuard *)
Definition g_call {d} (g : guard d) (c : gcall d) : option (guard d) :=
  match c with
  | GArea b e => g_sub g b e
  | GAt p => g_at g p
  | GRead => Some (g_read g)
  end.

(** fieldresource.hpp:78-245: the calls of a chain *)
Fixpoint g_calls {d} (g : guard d) (cs : list (gcall d)) : option (guard d) :=
  match cs with
  | [] => Some g
  | c :: cs => match g_call g c with Some g' => g_calls g' cs | None => None end
  end.
