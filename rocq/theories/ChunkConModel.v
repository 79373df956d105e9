(** ChunkedList used by any number of threads (util/chunked_list.hpp): pushing,
    removing, iterating, one step per access to shared memory.  Definitions only;
    lines refer to that file.  Locations are numbered [c * size + i] (chunk, index).
    Simplifications: appending a chunk to the AtomicList is one step (C36); acquiring
    an element is the one read of iter_offset that decides (C33 has the details). *)
From Coq Require Import Bool List Arith Lia.
Import ListNotations.

Section Con.
Context {A : Type} (size : nat).

(** [bn]: history variable, the locations assigned when the iteration began;
    [seen]: the locations the iteration visited, latest first (chunked_list.hpp:282-635, lines at the constructors) *)
Inductive cpc :=
| CIdle
| PHead (v : A)                                    (* 524 *)
| PFirst (v : A)                                   (* 566 *)
| PLoad (v : A) (c : nat)                          (* 532 *)
| PAdd (v : A) (c : nat)                           (* 534 *)
| PSet (v : A) (g : nat)                           (* 540 *)
| PGrow (v : A) (c : nat)                          (* 548 *)
| RRead (g : nat)                                  (* 581-586, the read *)
| RStore (g : nat) (o : nat)                       (* 581-586, the write *)
| RFree (g : nat)                                  (* 514 *)
| RErase (c : nat)                                 (* 515 *)
| IHead                                            (* 613 *)
| ILast (bn : nat -> bool) (c : nat) (seen : list nat)            (* 269-278 *)
| IAt (bn : nat -> bool) (c i : nat) (seen : list nat)            (* 371 *)
| IOlder (bn : nat -> bool) (c : nat) (seen : list nat)           (* 387, 479: chunks older than c *)
| IDone (bn : nat -> bool) (seen : list nat).

(** chunks appended; next_item, freed_items and deleted of each chunk; iter_offset of
    each location; the value assigned to it; whether remove() was called for it (chunked_list.hpp:84-280) *)
Record cst := mkC {
  chunks : nat; nxt : nat -> nat; freed : nat -> nat; del : nat -> bool;
  off : nat -> nat; val : nat -> option A; taken : nat -> bool; pcs : nat -> cpc }.
(** an empty list, chunked_list.hpp:498-500 *)
Definition c_init : cst := mkC 0 (fun _ => 0) (fun _ => 0) (fun _ => false) (fun _ => 1) (fun _ => None) (fun _ => false) (fun _ => CIdle).

(** the next four only build and inspect states, they have no counterpart in chunked_list.hpp:282-635 *)
Definition upd {B} (f : nat -> B) (i : nat) (x : B) : nat -> B := fun j => if j =? i then x else f j.
Definition at_pc (s : cst) (t : nat) (p : cpc) : cst :=
  mkC (chunks s) (nxt s) (freed s) (del s) (off s) (val s) (taken s) (upd (pcs s) t p).
Definition assigned (s : cst) (g : nat) : bool := match val s g with Some _ => true | None => false end.
Definition pushing (p : cpc) : bool :=
  match p with PHead _ | PFirst _ | PLoad _ _ | PAdd _ _ | PSet _ _ | PGrow _ _ => true | _ => false end.

(** after location [i] of chunk [c], going back by [step]: 383-394, 475-484 *)
Definition back (bn : nat -> bool) (c i step : nat) (seen : list nat) : cpc :=
  if step <=? i then IAt bn c (i - step) seen else IOlder bn c seen.

(** what happened in a step, as far as the theorems need it (chunked_list.hpp:512-635: the calls) *)
Inductive clab :=
| CStep
| CPush              (* a push begins *)
| CGap               (* remove() reads the offset of a location that is not assigned yet *)
| CEmptyHead         (* an iteration begins at a chunk without any location in use, though there are older chunks *).

(** chunked_list.hpp:282-635, lines at the cases *)
Inductive cstep : cst -> nat -> clab -> cst -> Prop :=
| c_push : forall s t v, pcs s t = CIdle -> cstep s t CPush (at_pc s t (PHead v))
(** 524-525 *)
| c_head : forall s t v, pcs s t = PHead v ->
    cstep s t CStep (at_pc s t (match chunks s with O => PFirst v | S c => PLoad v c end))
(** 566; atomic_list.hpp:309-316: only if the list is still empty *)
| c_first : forall s t v, pcs s t = PFirst v ->
    cstep s t CStep (mkC (match chunks s with O => 1 | n => n end) (nxt s) (freed s) (del s) (off s) (val s) (taken s) (upd (pcs s) t (PHead v)))
(** 532 *)
| c_load : forall s t v c, pcs s t = PLoad v c ->
    cstep s t CStep (at_pc s t (if nxt s c <=? size then PAdd v c else PHead v))
(** 534-557 *)
| c_add : forall s t v c, pcs s t = PAdd v c ->
    cstep s t CStep (mkC (chunks s) (upd (nxt s) c (S (nxt s c))) (freed s) (del s) (off s) (val s) (taken s)
      (upd (pcs s) t (if nxt s c <? size then PSet v (c * size + nxt s c) else if nxt s c =? size then PGrow v c else PHead v)))
(** 540, 157-170: the value, then iter_offset *)
| c_set : forall s t v g, pcs s t = PSet v g ->
    cstep s t CStep (mkC (chunks s) (nxt s) (freed s) (del s) (upd (off s) g 0) (upd (val s) g (Some v)) (taken s) (upd (pcs s) t CIdle))
(** 548 *)
| c_grow : forall s t v c, pcs s t = PGrow v c ->
    cstep s t CStep (mkC (S (chunks s)) (nxt s) (freed s) (del s) (off s) (val s) (taken s) (upd (pcs s) t (PHead v)))
(** remove() of an assigned element, once *)
| c_remove : forall s t g, pcs s t = CIdle -> assigned s g = true -> taken s g = false ->
    cstep s t CStep (mkC (chunks s) (nxt s) (freed s) (del s) (off s) (val s) (upd (taken s) g true) (upd (pcs s) t (RRead g)))
(** 581-586 *)
| c_read_first : forall s t g, pcs s t = RRead g -> g mod size = 0 ->
    cstep s t CStep (at_pc s t (RStore g 1))
| c_read : forall s t g, pcs s t = RRead g -> g mod size <> 0 -> assigned s (g - 1) = true ->
    cstep s t CStep (at_pc s t (RStore g (off s (g - 1) + 1)))
| c_read_gap : forall s t g, pcs s t = RRead g -> g mod size <> 0 -> assigned s (g - 1) = false ->
    cstep s t CGap (at_pc s t (RStore g (off s (g - 1) + 1)))
| c_store : forall s t g o, pcs s t = RStore g o ->
    cstep s t CStep (mkC (chunks s) (nxt s) (freed s) (del s) (upd (off s) g o) (val s) (taken s) (upd (pcs s) t (RFree g)))
(** 514-515 *)
| c_free : forall s t g, pcs s t = RFree g ->
    cstep s t CStep (mkC (chunks s) (nxt s) (upd (freed s) (g / size) (S (freed s (g / size)))) (del s) (off s) (val s) (taken s)
      (upd (pcs s) t (if freed s (g / size) =? size - 1 then RErase (g / size) else CIdle)))
| c_erase : forall s t c, pcs s t = RErase c ->
    cstep s t CStep (mkC (chunks s) (nxt s) (freed s) (upd (del s) c true) (off s) (val s) (taken s) (upd (pcs s) t CIdle))
(** an iteration: 613-614 *)
| c_iter : forall s t, pcs s t = CIdle -> cstep s t CStep (at_pc s t IHead)
| c_ihead : forall s t, pcs s t = IHead ->
    cstep s t CStep (at_pc s t (match chunks s with O => IDone (assigned s) [] | S c => ILast (assigned s) c [] end))
(** 269-278, 387-394 *)
| c_ilast : forall s t bn c seen, pcs s t = ILast bn c seen -> nxt s c <> 0 ->
    cstep s t CStep (at_pc s t (IAt bn c (Nat.min (nxt s c) size - 1) seen))
| c_ilast_none : forall s t bn seen, pcs s t = ILast bn 0 seen -> nxt s 0 = 0 ->
    cstep s t CStep (at_pc s t (IDone bn seen))
| c_ilast_empty : forall s t bn c seen, pcs s t = ILast bn (S c) seen -> nxt s (S c) = 0 ->
    cstep s t CEmptyHead (at_pc s t (IDone bn seen))
(** 371-384 and 471-487: visit and go on, or jump *)
| c_visit : forall s t bn c i seen, pcs s t = IAt bn c i seen -> off s (c * size + i) = 0 ->
    cstep s t CStep (at_pc s t (back bn c i 1 (c * size + i :: seen)))
| c_skip : forall s t bn c i seen, pcs s t = IAt bn c i seen -> off s (c * size + i) <> 0 ->
    cstep s t CStep (at_pc s t (back bn c i (off s (c * size + i)) seen))
(** atomic_list.hpp:77-84, 238-247 *)
| c_older : forall s t bn c seen, pcs s t = IOlder bn c seen ->
    cstep s t CStep (at_pc s t (match c with O => IDone bn seen | S c => if del s c then IOlder bn c seen else ILast bn c seen end)).

Inductive creach (ok : cst -> clab -> Prop) : cst -> Prop :=
| cr_init : creach ok c_init
| cr_step : forall s t l s', creach ok s -> cstep s t l s' -> ok s l -> creach ok s'.
End Con.
