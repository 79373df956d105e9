(** Patches as users build them, update_properties, and examples/5_access_demotion.cpp.
    Definitions only. *)
From Coq Require Import Bool List Arith NArith.
From Verif Require Import AccessModel UserModel ArgModel.
Import ListNotations.

(** ** TaskProperties::Patch::Builder (task/property/inherit.hpp:112-137) *)
(** The builder objects made so far, each with the patch it holds.  A member function of builder [i] appends to the
    patch of [i] and returns a copy: a new builder, with a copy of that patch and a reference to itself
    (task/property/resource.hpp:58-79, task/property/inherit.hpp:122-126) *)
Definition heap := list (list diff).
(** add_resources and remove_resources (task/property/resource.hpp:64-78) *)
Inductive bcall := BAdd (l : list raccess) | BRemove (l : list raccess).
(** operator+= and -= for each access (task/property/resource.hpp:94-102) *)
Definition diffs (c : bcall) : list diff := match c with BAdd l => map DAdd l | BRemove l => map DRemove l end.
(** replace the patch of builder [i] (task/property/resource.hpp:66-69) *)
Fixpoint set_nth (i : nat) (p : list diff) (h : heap) : heap :=
  match h, i with [], _ => [] | _ :: h, O => p :: h | q :: h, S i => q :: set_nth i p h end.
(** one call on builder [i]; the result is the number of the builder returned (task/property/resource.hpp:64-78) *)
Definition bstep (h : heap) (i : nat) (c : bcall) : heap * nat :=
  let p := nth i h [] ++ diffs c in (set_nth i p h ++ [p], length h).
(** a chain Builder().f(..).g(..): each call on the builder the one before returned (examples/5_access_demotion.cpp:31-32) *)
Fixpoint chain (h : heap) (i : nat) (cs : list bcall) : heap * nat :=
  match cs with [] => (h, i) | c :: cs => let (h1, j) := bstep h i c in chain h1 j cs end.
(** Builder() and its conversion to a Patch (task/property/inherit.hpp:118-120, 128-131) *)
Definition patch_of (cs : list bcall) : list diff := let (h, i) := chain [[]] 0 cs in nth i h [].

(** ** update_properties (redGrapes.cpp:172-182) *)
(** redGrapes.cpp:172-182.  [None]: no task is running: throws.  Otherwise the task, and whether the function returns: if apply_patch throws,
    update_graph is not reached.  Of the properties only the resources are modelled (the others follow them in
    task/property/inherit.hpp:57-61) *)
Definition update_properties (t : option ruser) (p : list diff) : option (ruser * bool) :=
  match t with None => None | Some u => Some (apply_patch u p) end.

(** ** examples/5_access_demotion.cpp: the tasks at depth [d] with a resource [r] *)
(** f1 is emplaced with a.write() (examples/5_access_demotion.cpp:24-37) *)
Definition f1 (d : nat) (r : resource) : ruser := emplace_user d [AAcc (g_access (mkGuard GWrite r))] [].
(** f2 with a.read() (examples/5_access_demotion.cpp:39-45) *)
Definition f2 (d : nat) (r : resource) : ruser := emplace_user d [AAcc (g_access (mkGuard GRead r))] [].
(** what f1 does (examples/5_access_demotion.cpp:31-32): a is a WriteGuard there *)
Definition demote (r : resource) : list bcall := [BRemove [g_access (mkGuard GWrite r)]; BAdd [g_access (mkGuard GRead r)]].
