(** One element of a ChunkedList (util/chunked_list.hpp:84-235), any number of
    iterators and one remove.  Definitions only; lines refer to that file. *)
From Coq Require Import Bool List Arith ZArith Lia.
Import ListNotations.
Open Scope Z_scope.

(** the storage: never assigned, holding a value, destructed (chunked_list.hpp:90-111) *)
Inductive life := Raw | Live | Dead.
(** what an iterator (or a remover) is doing with this element (chunked_list.hpp:146-240, lines at the constructors) *)
Inductive ipc :=
| Idle
| Acq1 (off : nat)             (* 181 done *)
| Acq2                         (* 182-184 done, about to increment *)
| Acq3 (old : Z)               (* 186 done *)
| Acq4 (off : nat)             (* 187-209: about to undo *)
| Hold                         (* acquire() returned 0: the iterator has the element *)
| Rem1                         (* 581-586 done, about to release *).
(** [off]: iter_offset; [rc]: refcount (int16 in the code; see C33_refcount_bounded);
    [life]: the storage; [destr]: destructor calls; [taken]: remove() was called;
    [threw]: release() threw.  [thr]: iterators and removers *)
Record ist := mkI { off : nat; rc : Z; lf : life; destr : nat; taken : bool; threw : bool; thr : nat -> ipc }.
Definition upd (f : nat -> ipc) (t : nat) (p : ipc) : nat -> ipc := fun u => if (u =? t)%nat then p else f u.
Definition at_pc (s : ist) (t : nat) (p : ipc) : ist := mkI (off s) (rc s) (lf s) (destr s) (taken s) (threw s) (upd (thr s) t p).
(** 138-144 *)
Definition i_init : ist := mkI 1 0 Raw 0 false false (fun _ => Idle).
(** release(), 221-234: one fetch_sub and what follows from the old value *)
Definition rel (s : ist) (t : nat) : ist :=
  mkI (off s) (rc s - 1) (if rc s =? 0 then Dead else lf s) (if rc s =? 0 then S (destr s) else destr s)
      (taken s) (threw s || (rc s <? 0))%bool (upd (thr s) t Idle).

Inductive lab := LOther | LStale.
Inductive istep : ist -> lab -> ist -> Prop :=
(** operator=, 157-170: value and offset, once *)
| s_assign : forall s, lf s = Raw ->
    istep s LOther (mkI 0 (rc s) Live (destr s) (taken s) (threw s) (thr s))
(** 181 *)
| s_load_off : forall s t, thr s t = Idle -> istep s LOther (at_pc s t (Acq1 (off s)))
(** 182-184, 212 *)
| s_load_rc : forall s t o, thr s t = Acq1 o -> (o <> 0%nat \/ 0 <= rc s) ->
    istep s LOther (at_pc s t (if (o =? 0)%nat then Acq2 else Idle))
(** the same with offset 0 read before and a negative refcount read after the
    removal: acquire() returns 0 *)
| s_load_rc_stale : forall s t, thr s t = Acq1 0 -> rc s < 0 -> istep s LStale (at_pc s t Hold)
(** 186 *)
| s_add : forall s t, thr s t = Acq2 ->
    istep s LOther (mkI (off s) (rc s + 1) (lf s) (destr s) (taken s) (threw s) (upd (thr s) t (Acq3 (rc s))))
(** 187-204 *)
| s_check : forall s t old, thr s t = Acq3 old ->
    istep s LOther (at_pc s t (if (0 <=? old) && (off s =? 0)%nat then Hold else Acq4 (off s)))
(** 202, 209, 212 *)
| s_undo : forall s t o, thr s t = Acq4 o ->
    istep s LOther (mkI (off s) (rc s - 1) (lf s) (destr s) (taken s) (threw s) (upd (thr s) t (if (o =? 0)%nat then Hold else Idle)))
(** 354-361: the iterator moves on or is destroyed *)
| s_release : forall s t, thr s t = Hold -> istep s LOther (rel s t)
(** remove(), 572-586: any offset but 0; called once, for an assigned element *)
| s_remove : forall s t o, thr s t = Idle -> lf s <> Raw -> taken s = false -> o <> 0%nat ->
    istep s LOther (mkI o (rc s) (lf s) (destr s) true (threw s) (upd (thr s) t Rem1))
(** 596 *)
| s_remove_release : forall s t, thr s t = Rem1 -> istep s LOther (rel s t).

Inductive ireach (ok : lab -> Prop) : ist -> Prop :=
| ir_init : ireach ok i_init
| ir_step : forall s l s', ireach ok s -> istep s l s' -> ok l -> ireach ok s'.
