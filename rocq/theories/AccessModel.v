(** Access policies of redGrapes: model.  Definitions only.

    A C++ access policy type is a term of [ty]; a policy object of that type is
    a value of [val t].  C++ dispatches statically on the type, the functions
    below recurse on it.  [size_t] bounds are binary naturals; [wf_val] says
    that they fit in 64 bits. *)
From Coq Require Import Bool List Arith NArith ZArith Lia.
Import ListNotations.

(** resource/access/io.hpp:26-32 [IOAccess::Mode] *)
Inductive iomode := MWrite | MRead | MAadd | MAmul.

(** resource/access/combine.hpp:26-32 [And_t], [Or_t] *)
Inductive cop := CAnd | COr.

(** The policy types: [IOAccess] (io.hpp:24), [AreaAccess] (area.hpp:24),
    [ArrayAccess<Access,N,Op>] (combine.hpp:34-35),
    [CombineAccess<Acc1,Acc2,Op>] (combine.hpp:95-96). *)
Inductive ty :=
| TIO
| TArea
| TArr (t : ty) (n : nat) (op : cop)
| TComb (t u : ty) (op : cop).

(** [std::array<A,n>] (combine.hpp:34-93) *)
Fixpoint arr (A : Type) (n : nat) : Type :=
  match n with O => unit | S m => (A * arr A m)%type end.

(** all of an array, no function of the code; for conditions on the areas (area.hpp:24-57) of a policy *)
Fixpoint arr_all {A} (f : A -> bool) (n : nat) : arr A n -> bool :=
  match n with
  | O => fun _ => true
  | S m => fun x => f (fst x) && arr_all f m (snd x)
  end.

(** the loops of combine.hpp:67-92: all pairs *)
Fixpoint arr_all2 {A} (f : A -> A -> bool) (n : nat) : arr A n -> arr A n -> bool :=
  match n with
  | O => fun _ _ => true
  | S m => fun x y => f (fst x) (fst y) && arr_all2 f m (snd x) (snd y)
  end.

(** the loop of combine.hpp:57-64: some pair *)
Fixpoint arr_ex2 {A} (f : A -> A -> bool) (n : nat) : arr A n -> arr A n -> bool :=
  match n with
  | O => fun _ _ => false
  | S m => fun x y => f (fst x) (fst y) || arr_ex2 f m (snd x) (snd y)
  end.

(** Policy objects.  [AreaAccess] is [std::array<size_t,2>] (area.hpp:24). *)
Fixpoint val (t : ty) : Type :=
  match t with
  | TIO => iomode
  | TArea => (N * N)%type
  | TArr t n _ => arr (val t) n
  | TComb t u _ => (val t * val u)%type
  end.

(** [std::numeric_limits<size_t>::max()], 64-bit *)
Definition size_max : N := 18446744073709551615%N.

Definition iomode_eqb (a b : iomode) : bool :=
  match a, b with
  | MWrite, MWrite | MRead, MRead | MAadd, MAadd | MAmul, MAmul => true
  | _, _ => false
  end.

(** io.hpp:52-57 [IOAccess::is_serial] *)
Definition io_is_serial (a b : iomode) : bool :=
  negb ((iomode_eqb a MRead && iomode_eqb b MRead)
        || (iomode_eqb a MAadd && iomode_eqb b MAadd)
        || (iomode_eqb a MAmul && iomode_eqb b MAmul)).

(** io.hpp:42-45 [IOAccess::is_synchronizing] *)
Definition io_is_sync (a : iomode) : bool := iomode_eqb a MWrite.

(** io.hpp:59-62 [IOAccess::is_superset_of] *)
Definition io_is_superset (a b : iomode) : bool :=
  iomode_eqb a MWrite || iomode_eqb a b.

(** area.hpp:42-45 [AreaAccess::is_serial] *)
Definition area_is_serial (a b : N * N) : bool :=
  negb ((snd a <=? fst b)%N || (snd b <=? fst a)%N).

(** area.hpp:36-40 [AreaAccess::is_synchronizing] *)
Definition area_is_sync (a : N * N) : bool :=
  (fst a =? 0)%N && (snd a =? size_max)%N.

(** area.hpp:47-50 [AreaAccess::is_superset_of] *)
Definition area_is_superset (a b : N * N) : bool :=
  (fst a <=? fst b)%N && (snd b <=? snd a)%N.

(** area.hpp:52-55 [AreaAccess::operator==] *)
Definition area_eqb (a b : N * N) : bool :=
  (fst a =? fst b)%N && (snd a =? snd b)%N.

(** combine.hpp:57-64 (array, Or), 67-74 (array, And), 110-113 (combine, And),
    120-123 (combine, Or), io.hpp:52, area.hpp:42 [is_serial] *)
Fixpoint is_serial (t : ty) : val t -> val t -> bool :=
  match t with
  | TIO => io_is_serial
  | TArea => area_is_serial
  | TArr t n COr => arr_ex2 (is_serial t) n
  | TArr t n CAnd => arr_all2 (is_serial t) n
  | TComb t u CAnd => fun a b => is_serial t (fst a) (fst b) && is_serial u (snd a) (snd b)
  | TComb t u COr => fun a b => is_serial t (fst a) (fst b) || is_serial u (snd a) (snd b)
  end.

(** combine.hpp:47-54, 115-118, io.hpp:42, area.hpp:36 [is_synchronizing]
    (does not depend on the And/Or tag) *)
Fixpoint is_sync (t : ty) : val t -> bool :=
  match t with
  | TIO => io_is_sync
  | TArea => area_is_sync
  | TArr t n _ => arr_all (is_sync t) n
  | TComb t u _ => fun a => is_sync t (fst a) && is_sync u (snd a)
  end.

(** combine.hpp:76-83, 125-128, io.hpp:59, area.hpp:47 [is_superset_of] *)
Fixpoint is_superset (t : ty) : val t -> val t -> bool :=
  match t with
  | TIO => io_is_superset
  | TArea => area_is_superset
  | TArr t n _ => arr_all2 (is_superset t) n
  | TComb t u _ => fun a b => is_superset t (fst a) (fst b) && is_superset u (snd a) (snd b)
  end.

(** combine.hpp:85-92, 130-133, io.hpp:47, area.hpp:52 [operator==] *)
Fixpoint val_eqb (t : ty) : val t -> val t -> bool :=
  match t with
  | TIO => iomode_eqb
  | TArea => area_eqb
  | TArr t n _ => arr_all2 (val_eqb t) n
  | TComb t u _ => fun a b => val_eqb t (fst a) (fst b) && val_eqb u (snd a) (snd b)
  end.

(** field.hpp:23-24 [FieldAccess<d>] *)
Definition field_ty (d : nat) : ty := TComb TIO (TArr TArea d CAnd) CAnd.

(** bounds are 64-bit words *)
Fixpoint wf_val (t : ty) : val t -> bool :=
  match t with
  | TIO => fun _ => true
  | TArea => fun a => (fst a <=? size_max)%N && (snd a <=? size_max)%N
  | TArr t n _ => arr_all (wf_val t) n
  | TComb t u _ => fun a => wf_val t (fst a) && wf_val u (snd a)
  end.

(** all areas in the policy contain at least one index
    (a condition of theorems on area.hpp:24-57, no function of the code). *)
Fixpoint nonempty (t : ty) : val t -> bool :=
  match t with
  | TIO => fun _ => true
  | TArea => fun a => (fst a <? snd a)%N
  | TArr t n _ => arr_all (nonempty t) n
  | TComb t u _ => fun a => nonempty t (fst a) && nonempty u (snd a)
  end.

(** ** ResourceAccess *)

(** resource.hpp:98, 125-130 compares the types of two accesses *)
Fixpoint ty_eq_dec (a b : ty) : {a = b} + {a <> b}.
Proof. decide equality; try (decide equality; fail); apply Nat.eq_dec. Defined.

(** resource/resource.hpp:44-62 [ResourceBase]: identity (the address of the
    object, compared in [is_same_resource], resource.hpp:88-91) and
    [scope_level] (resource.hpp:51).  The user list lives in the scheduler
    model. *)
Record resource := mkRes { r_id : nat; r_scope : nat }.

(** resource.hpp:88-91: [shared_ptr] equality.  Two resources with equal id are
    the same object, so the scope level is not compared. *)
Definition same_resource (a b : resource) : bool := Nat.eqb (r_id a) (r_id b).

(** resource.hpp:67-187 [ResourceAccess] with the erased policy object of
    resource.hpp:246-295 *)
Record raccess := mkAcc { a_res : resource; a_ty : ty; a_val : val a_ty }.

Definition cast_val {t u : ty} (e : t = u) (v : val t) : val u :=
  match e in _ = u return val u with eq_refl => v end.

(** resource.hpp:125-131 with 267-272 *)
Definition ra_is_serial (a b : raccess) : bool :=
  match ty_eq_dec (a_ty b) (a_ty a) with
  | left e => same_resource (a_res a) (a_res b)
              && is_serial (a_ty a) (a_val a) (cast_val e (a_val b))
  | right _ => false
  end.

(** resource.hpp:133-141 with 274-279 *)
Definition ra_is_superset (a b : raccess) : bool :=
  match ty_eq_dec (a_ty b) (a_ty a) with
  | left e => same_resource (a_res a) (a_res b)
              && is_superset (a_ty a) (a_val a) (cast_val e (a_val b))
  | right _ => false
  end.

(** resource.hpp:181-186 with 281-287 *)
Definition ra_eqb (a b : raccess) : bool :=
  match ty_eq_dec (a_ty b) (a_ty a) with
  | left e => same_resource (a_res a) (a_res b)
              && val_eqb (a_ty a) (a_val a) (cast_val e (a_val b))
  | right _ => false
  end.

(** resource.hpp:143-146 with 262-265 *)
Definition ra_is_sync (a : raccess) : bool := is_sync (a_ty a) (a_val a).
