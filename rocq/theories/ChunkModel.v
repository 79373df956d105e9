(** ChunkedList used by one thread at a time (util/chunked_list.hpp).  Definitions
    only; lines refer to that file.  The list of chunks is an AtomicList; here it is
    the list of all chunks ever appended, oldest first, with their deleted flags
    (justified by C36).  Interleavings are treated in ItemModel and ChunkConModel. *)
From Coq Require Import Bool List Arith ZArith Lia.
Import ListNotations.

Section Chunked.
Context {A : Type} (eqb : A -> A -> bool).
(** T_chunk_size (78) *)
Context (size : nat).

Definition u16 : nat -> nat := fun x => N.to_nat (N.of_nat x mod 65536).

(** storage: never assigned, a value, a destructed value (chunked_list.hpp:90-107) *)
Inductive cell := Raw | Val (v : A) | Gone (v : A).
(** 84-144 *)
Record item := mkItem { off : nat; rc : Z; sto : cell }.
Definition new_item : item := mkItem 1 0 Raw.
(** 237-254 *)
Record chunk := mkChunk { items : list item; next : nat; freed : nat; deleted : bool }.
Definition new_chunk : chunk := mkChunk (repeat new_item size) 0 0 false.

Definition clist := list chunk.
(** a storage location: number of the chunk, index in it (chunked_list.hpp:282-330: what an iterator points to) *)
Definition pos : Type := nat * nat.

(** the next three only read and write locations of chunked_list.hpp:84-280 *)
Definition set_nth {B} (l : list B) (i : nat) (x : B) : list B := firstn i l ++ x :: skipn (S i) l.
Definition get (cs : clist) (p : pos) : option item :=
  match nth_error cs (fst p) with Some ch => nth_error (items ch) (snd p) | None => None end.
Definition put (cs : clist) (p : pos) (it : item) : clist :=
  match nth_error cs (fst p) with
  | Some ch => set_nth cs (fst p) (mkChunk (set_nth (items ch) (snd p) it) (next ch) (freed ch) (deleted ch))
  | None => cs
  end.

(** 157-170.  Assigning is not defined for a location that holds no raw storage *)
Definition assign (it : item) (v : A) : item := mkItem 0 (rc it) (Val v).
(** 179-213 without interference: offset, and the item with a reference more *)
Definition acquire (it : item) : nat * item :=
  if (off it =? 0) && (0 <=? rc it)%Z then (0, mkItem (off it) (rc it + 1) (sto it)) else (off it, it).
(** 220-234; second component: false if it throws or destructs what is no value *)
Definition release (it : item) : item * bool :=
  let it' := mkItem (off it) (rc it - 1) (sto it) in
  if (rc it =? 0)%Z
  then match sto it with
       | Val v => (mkItem (off it) (rc it - 1) (Gone v), true)
       | _ => (it', false)
       end
  else (it', (0 <? rc it)%Z).

(** 269-278; [None]: the location before the first one *)
Definition last_item (ch : chunk) : option nat :=
  match Nat.min (next ch) size with O => None | S i => Some i end.
(** atomic_list.hpp:77-84, 238-247: the next older chunk that is not deleted *)
Fixpoint older (cs : clist) (c : nat) : option nat :=
  match c with
  | O => None
  | S c => match nth_error cs c with
           | Some ch => if deleted ch then older cs c else Some c
           | None => None
           end
  end.
(** 387-394, 479-484: the last location of the next older chunk.  A chunk without any
    location in use ends the iteration (is_valid_idx, 323-327) *)
Definition older_pos (cs : clist) (c : nat) : option pos :=
  match older cs c with
  | Some c' => match nth_error cs c' with
               | Some ch => match last_item ch with Some i => Some (c', i) | None => None end
               | None => None
               end
  | None => None
  end.
(** 367-400.  The result: the location acquired.  [fuel] bounds the loop *)
Fixpoint acquire_next (fuel : nat) (cs : clist) (p : option pos) : option pos * clist :=
  match fuel, p with
  | S fuel, Some (c, i) =>
      match get cs (c, i) with
      | None => (None, cs)
      | Some it =>
          let '(step, it') := acquire it in
          if step =? 0 then (Some (c, i), put cs (c, i) it')
          else acquire_next fuel cs (if step <=? i then Some (c, i - step) else older_pos cs c)
      end
  | _, _ => (None, cs)
  end.
(** enough for every location of the list
    (a bound on the steps of the loops of chunked_list.hpp:367-486, no function of the code). *)
Definition enough (cs : clist) : nat := S (length cs * size).
(** 354-361 *)
Definition release_at (cs : clist) (p : pos) : clist * bool :=
  match get cs p with
  | Some it => let '(it', ok) := release it in (put cs p it', ok)
  | None => (cs, false)
  end.

(** 611-615, 407-412 *)
Definition rbegin (cs : clist) : option pos * clist :=
  match rev cs with
  | [] => (None, cs)
  | ch :: _ => acquire_next (enough cs) cs (match last_item ch with Some i => Some (length cs - 1, i) | None => None end)
  end.
(** 471-488 *)
Definition next_it (cs : clist) (p : pos) : option pos * clist * bool :=
  let '(cs, ok) := release_at cs p in
  let '(q, cs) := acquire_next (enough cs) cs (match snd p with O => older_pos cs (fst p) | S i => Some (fst p, i) end) in
  (q, cs, ok).
(** 403-412: copying an iterator *)
Definition copy_it (cs : clist) (p : pos) : option pos * clist := acquire_next (enough cs) cs (Some p).

(** 518-570 without interference: at most one new chunk is needed.  The iterator
    that push returns holds the element *)
Definition push_slot (cs : clist) : clist * option pos :=
  match rev cs with
  | [] => (cs, None)
  | ch :: _ =>
      let c := length cs - 1 in
      if next ch <=? size then
        let cs' := set_nth cs c (mkChunk (items ch) (S (next ch)) (freed ch) (deleted ch)) in
        if next ch <? size then (cs', Some (c, next ch)) else (cs' ++ [new_chunk], None)
      else (cs, None)
  end.
Definition push_at (cs : clist) (p : pos) (v : A) : option pos * clist :=
  match get cs p with
  | Some it => acquire_next (enough cs) (put cs p (assign it v)) (Some p)
  | None => (None, cs)
  end.
Fixpoint push (fuel : nat) (cs : clist) (v : A) : option (option pos * clist) :=
  match fuel with
  | O => None
  | S fuel =>
      match cs with
      | [] => push fuel [new_chunk] v
      | _ => match push_slot cs with
             | (cs, Some p) => Some (push_at cs p v)
             | (cs, None) => push fuel cs v
             end
      end
  end.

(** 572-602 with 512-516; false: it throws *)
Definition remove (cs : clist) (p : pos) : clist * bool :=
  match get cs p with
  | None => (cs, false)
  | Some it =>
      let o := match snd p with
               | O => 1
               | S i => match get cs (fst p, i) with Some pr => u16 (off pr + 1) | None => 1 end
               end in
      let cs := put cs p (mkItem o (rc it) (sto it)) in
      let '(cs, ok) := release_at cs p in
      match nth_error cs (fst p) with
      | Some ch => (set_nth cs (fst p) (mkChunk (items ch) (next ch) (S (freed ch)) (deleted ch || (freed ch =? size - 1))), ok)
      | None => (cs, false)
      end
  end.

(** an iteration: the elements visited (chunked_list.hpp:354-486, 611-620) *)
Fixpoint iterate (fuel : nat) (cs : clist) (p : option pos) : list A * clist * bool :=
  match fuel, p with
  | S fuel, Some p =>
      match get cs p with
      | Some (mkItem _ _ (Val v)) =>
          let '(q, cs, ok) := next_it cs p in
          let '(l, cs, ok') := iterate fuel cs q in (v :: l, cs, ok && ok')
      | _ => ([], cs, false)
      end
  | _, None => ([], cs, true)
  | O, _ => ([], cs, false)
  end.
(** all elements, chunked_list.hpp:611-620 *)
Definition contents (cs : clist) : list A * clist * bool := let '(p, cs) := rbegin cs in iterate (enough cs) cs p.

(** 604-609 *)
Fixpoint erase_loop (fuel : nat) (cs : clist) (p : option pos) (v : A) : clist * bool :=
  match fuel, p with
  | S fuel, Some p =>
      match get cs p with
      | Some (mkItem _ _ (Val w)) =>
          let '(cs, ok1) := if eqb w v then remove cs p else (cs, true) in
          let '(q, cs, ok2) := next_it cs p in
          let '(cs, ok3) := erase_loop fuel cs q v in (cs, ok1 && ok2 && ok3)
      | _ => (cs, false)
      end
  | _, None => (cs, true)
  | O, _ => (cs, false)
  end.
Definition erase (cs : clist) (v : A) : clist * bool := let '(p, cs) := rbegin cs in erase_loop (enough cs) cs p v.
End Chunked.
