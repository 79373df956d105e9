(** What a ChunkedList is for one thread: a sequence of elements with handles.
    Independent of chunks, offsets and reference counts. *)
From Coq Require Import Bool List Arith.
Import ListNotations.

Section Spec.
Context {A : Type} (eqb : A -> A -> bool).
(** elements in the order of their insertion, whether removed, and how many
    iterators hold them *)
Record elem := mkElem { value : A; gone : bool; holders : nat }.
Definition spec := list elem.
Definition is_live (sp : spec) (g : nat) : bool := match nth_error sp g with Some e => negb (gone e) | None => false end.
(** the newest element before position [n] that was not removed *)
Fixpoint newest (sp : spec) (n : nat) : option nat :=
  match n with O => None | S m => if is_live sp m then Some m else newest sp m end.
Fixpoint upd (sp : spec) (g : nat) (f : elem -> elem) : spec :=
  match sp, g with
  | [], _ => []
  | e :: sp, O => f e :: sp
  | e :: sp, S g => e :: upd sp g f
  end.
Definition hold (sp : spec) (g : option nat) : spec :=
  match g with Some g => upd sp g (fun e => mkElem (value e) (gone e) (S (holders e))) | None => sp end.
Definition drop (sp : spec) (g : nat) : spec := upd sp g (fun e => mkElem (value e) (gone e) (pred (holders e))).
Definition take_out (sp : spec) (g : nat) : spec := upd sp g (fun e => mkElem (value e) true (holders e)).
(** live values, newest first *)
Definition live_values (sp : spec) : list A := map value (filter (fun e => negb (gone e)) (rev sp)).
Definition mark (v : A) (e : elem) : elem := if eqb (value e) v then mkElem (value e) true (holders e) else e.

(** operations; elements and handles are named by the position of the element *)
Inductive lop := LPush (v : A) | LBegin | LNext (g : nat) | LCopy (g : nat) | LDrop (g : nat) | LRemove (g : nat) | LErase (v : A) | LIter.
(** what an operation answers: a handle, the values seen, nothing; [OBad]: an exception,
    the destruction of what is no value, or a loop that does not end *)
Inductive lout := OHandle (g : option nat) | OValues (l : list A) | ODone | OBad.
(** handles are numbered in the order of insertion *)
Definition spec_step (sp : spec) (o : lop) : spec * lout :=
  match o with
  | LPush v => (sp ++ [mkElem v false 1], OHandle (Some (length sp)))
  | LBegin => (hold sp (newest sp (length sp)), OHandle (newest sp (length sp)))
  | LNext g => (hold (drop sp g) (newest sp g), OHandle (newest sp g))
  | LCopy g => (hold sp (newest sp (S g)), OHandle (newest sp (S g)))
  | LDrop g => (drop sp g, ODone)
  | LRemove g => (take_out sp g, ODone)
  | LErase v => (map (mark v) sp, ODone)
  | LIter => (sp, OValues (live_values sp))
  end.
(** handles are dropped, copied and advanced only while held; an element is removed once *)
Definition lvalid (sp : spec) (o : lop) : Prop :=
  match o with
  | LNext g | LDrop g | LCopy g => exists e, nth_error sp g = Some e /\ 0 < holders e
  | LRemove g => is_live sp g = true
  | _ => True
  end.
Fixpoint spec_run (sp : spec) (os : list lop) : spec * list lout :=
  match os with [] => (sp, []) | o :: os => let '(sp, x) := spec_step sp o in let '(sp, xs) := spec_run sp os in (sp, x :: xs) end.
Fixpoint lvalid_all (sp : spec) (os : list lop) : Prop :=
  match os with [] => True | o :: os => lvalid sp o /\ lvalid_all (fst (spec_step sp o)) os end.
End Spec.
Arguments elem : clear implicits.
Arguments spec : clear implicits.
Arguments lop : clear implicits.
Arguments lout : clear implicits.
