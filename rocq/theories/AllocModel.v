(** The bump allocator (memory/bump_allocator.cpp), the chunked bump allocator
    (memory/chunked_bump_alloc.hpp) on it, and the sizes of the chunks
    (util/atomic_list.hpp).  Definitions only.  Addresses, sizes and counters are
    numbers of 64 resp. 16 bit with the wrap-around written out. *)
From Coq Require Import Bool List Arith NArith Lia.
Import ListNotations.
Open Scope N_scope.

Definition W64 : N := 2 ^ 64.
Definition W16 : N := 2 ^ 16.
(** unsigned subtraction of 64-bit numbers below 2^64 *)
Definition sub64 (a b : N) : N := (a + W64 - b) mod W64.

(** ** BumpAllocator (memory/bump_allocator.cpp 25-79) *)
(** the members, bump_allocator.hpp 143-151 *)
Record bump := mkB { b_lo : N; b_up : N; b_next : N; b_count : N }.
(** 25-32 *)
Definition bump_new (lo up : N) : bump := mkB lo up up 0.
(** 42-45 *)
Definition bump_empty (b : bump) : bool := b_count b =? 0.
(** 47-50 *)
Definition bump_full (b : bump) : bool := b_next b <=? b_lo b.
(** 52-56 *)
Definition bump_reset (b : bump) : bump := mkB (b_lo b) (b_up b) (b_up b) 0.
(** 60: the fetch_sub, the only access of allocate() to next_addr *)
Definition bump_take (b : bump) (n : N) : N * bump :=
  let a := sub64 (b_next b) n in (a, mkB (b_lo b) (b_up b) a (b_count b)).
(** 63 *)
Definition bump_inc (b : bump) : bump := mkB (b_lo b) (b_up b) (b_next b) ((b_count b + 1) mod W16).
(** 73: the count before *)
Definition bump_dec (b : bump) : N * bump := (b_count b, mkB (b_lo b) (b_up b) (b_next b) ((b_count b + W16 - 1) mod W16)).
(** 58-68 in one piece *)
Definition bump_allocate (b : bump) (n : N) : option (N * N) * bump :=
  let '(a, b1) := bump_take b n in if b_lo b <=? a then (Some (a, n), bump_inc b1) else (None, b1).
(** 76-79 *)
Definition bump_owns (b : bump) (ptr : N) : bool := (b_lo b <=? ptr) && (ptr <? b_up b).

(** Use of one allocator by any number of threads: the order of the atomic accesses of
    all of them.  A request accesses next_addr once (60), and the count later or not at
    all; [log]: the answers to the requests since the last reset, latest first *)
Inductive access := ATake (n : N) | ACount | AFree | AReset.
Definition access_step (st : bump * list (option (N * N))) (x : access) : bump * list (option (N * N)) :=
  let (b, log) := st in
  match x with
  | ATake n => let '(a, b') := bump_take b n in (b', (if b_lo b <=? a then Some (a, n) else None) :: log)
  | ACount => (bump_inc b, log)
  | AFree => (snd (bump_dec b), log)
  | AReset => (bump_reset b, [])
  end.
Definition access_run (lo up : N) (xs : list access) : bump * list (option (N * N)) :=
  fold_left access_step xs (bump_new lo up, []).

(** ** roundup_to_poweroftwo (chunked_bump_alloc.hpp 69-80) *)
Definition smear (k s : N) : N := N.lor s (N.shiftr s k).
Definition roundup (s : N) : N :=
  (smear 32 (smear 16 (smear 8 (smear 4 (smear 2 (smear 1 (sub64 s 1)))))) + 1) mod W64.

Section Chunked.
(** [cap]: chunk_size, [ctrl]: get_controlblock_size() (atomic_list.hpp 137-143),
    [isz]: sizeof(BumpAllocator), [T]: number of threads *)
Variables (cap ctrl isz : N) (T : nat).

(** A chunk: its allocator, the address the block of the chunk starts at, the flag
    [deleted] (atomic_list.hpp 47), and whether the memory has been given back *)
Record chunk := mkC { c_base : N; c_bump : bump; c_del : bool; c_rec : bool }.
(** atomic_list.hpp 51-58, 137-143, 175-177 and bump_allocator.cpp 21: the region of the bump allocator *)
Definition new_chunk (p : N) : chunk :=
  mkC p (bump_new (p + ctrl + isz) (p + ctrl + isz + (cap - ctrl - isz))) false false.

(** a block handed out and the chunk it comes from (memory/block.hpp:24-48) *)
Definition blk : Type := nat * (N * N).
(** threads in allocate() (chunked_bump_alloc.hpp 82-122) and deallocate() (124-165) *)
Inductive pc :=
| Idle
| AHead (n : N)                    (* 96: size rounded up *)
| ASub (c : nat) (n : N)           (* bump_allocator.cpp 60 *)
| AInc (c : nat) (a n : N)         (* bump_allocator.cpp 63 *)
| AApp (n : N)                     (* 104, 108 *)
| FDec (c : nat) (b : blk)         (* bump_allocator.cpp 73 *)
| FFull (c : nat).                 (* 145 *)

(** [held]: blocks returned and not yet subtracted from the count of their chunk (chunked_bump_alloc.hpp:46-51) *)
Record st := mkS { nch : nat; chk : nat -> chunk; held : list blk; pcs : nat -> pc }.
(** chunked_bump_alloc.hpp:53-57; the next four only build states, they have no counterpart in the code *)
Definition init : st := mkS 0 (fun _ => new_chunk 0) [] (fun _ => Idle).
Definition upd {B} (f : nat -> B) (i : nat) (x : B) : nat -> B := fun j => if Nat.eqb j i then x else f j.
Definition at_pc (s : st) (t : nat) (p : pc) : st := mkS (nch s) (chk s) (held s) (upd (pcs s) t p).
Definition with_bump (s : st) (c : nat) (b : bump) (h : list blk) (t : nat) (p : pc) : st :=
  mkS (nch s) (upd (chk s) c (mkC (c_base (chk s c)) b (c_del (chk s c)) (c_rec (chk s c)))) h (upd (pcs s) t p).
Definition bump_of (s : st) (c : nat) : bump := c_bump (chk s c).
(** the memory of two chunks does not overlap: both blocks have chunk_capacity +
    controlblock size bytes (atomic_list.hpp 150-153) *)
Definition apart (p q : N) : Prop := p + (cap + ctrl) <= q \/ q + (cap + ctrl) <= p.
(** threads that refer to a chunk; they hold a shared_ptr (chunked_bump_alloc.hpp:96, 134) *)
Definition uses (p : pc) (c : nat) : Prop :=
  match p with ASub d _ | AInc d _ _ | FDec d _ | FFull d => d = c | _ => False end.
(** the bookkeeping of [held], no function of the code; a block is what chunked_bump_alloc.hpp:82 returned *)
Definition blk_eqb (b d : blk) : bool :=
  Nat.eqb (fst b) (fst d) && (fst (snd b) =? fst (snd d)) && (snd (snd b) =? snd (snd d)).
Fixpoint remove_blk (b : blk) (l : list blk) : list blk :=
  match l with [] => [] | d :: l => if blk_eqb b d then l else d :: remove_blk b l end.

(** what a step is, for conditions on executions: call of allocate (chunked_bump_alloc.hpp:82), of deallocate (124), new memory (104, 108) *)
Inductive lab := LOther | LAlloc (n : N) | LFree (b : blk) | LMem (p : N).
(** chunked_bump_alloc.hpp:82-155, lines of bump_allocator.hpp and atomic_list.hpp where named *)
Inductive step : st -> nat -> lab -> st -> Prop :=
(** 85-89: a request that exceeds the capacity is answered with null *)
| s_alloc : forall s t n, pcs s t = Idle -> roundup n <= cap -> step s t (LAlloc n) (at_pc s t (AHead (roundup n)))
| s_alloc_null : forall s t n, pcs s t = Idle -> cap < roundup n -> step s t (LAlloc n) s
(** 96-98 *)
| s_head : forall s t n, pcs s t = AHead n ->
    step s t LOther (at_pc s t (match nch s with O => AApp n | S c => ASub c n end))
(** 100, bump_allocator.cpp 60-61 *)
| s_sub : forall s t c n, pcs s t = ASub c n ->
    let a := fst (bump_take (bump_of s c) n) in
    step s t LOther (with_bump s c (snd (bump_take (bump_of s c) n)) (held s) t
                       (if b_lo (bump_of s c) <=? a then AInc c a n else AApp n))
(** bump_allocator.cpp 63-64; Block::operator bool (block.hpp 39-42), 93, 103 *)
| s_inc : forall s t c a n, pcs s t = AInc c a n ->
    step s t LOther (with_bump s c (bump_inc (bump_of s c)) ((c, (a, n)) :: held s) t (if a =? 0 then AApp n else Idle))
(** 104, 108; atomic_list.hpp 159-180, append_item as one step (see C36).  The memory
    comes from hwloc_alloc_membind (hwloc_alloc.hpp 54-75): anywhere, not overlapping
    the memory of other chunks not given back *)
| s_app : forall s t n p, pcs s t = AApp n -> 0 < p -> p + (cap + ctrl) < W64 ->
    (forall c, (c < nch s)%nat -> c_rec (chk s c) = false -> apart p (c_base (chk s c))) ->
    step s t (LMem p) (mkS (S (nch s)) (upd (chk s) (nch s) (new_chunk p)) (held s) (upd (pcs s) t (AHead n)))
(** 133-136: the walk finds a chunk that owns the block (iteration: see C36) *)
| s_free : forall s t b c, pcs s t = Idle -> In b (held s) -> (forall u d, pcs s u <> FDec d b) ->
    (c < nch s)%nat -> c_rec (chk s c) = false -> bump_owns (bump_of s c) (fst (snd b)) = true ->
    step s t (LFree b) (at_pc s t (FDec c b))
(** 157: none does; the block stays counted *)
| s_free_lost : forall s t b, pcs s t = Idle -> In b (held s) -> (forall u d, pcs s u <> FDec d b) ->
    (forall c, (c < nch s)%nat -> c_rec (chk s c) = false -> bump_owns (bump_of s c) (fst (snd b)) = false) ->
    step s t (LFree b) s
(** 142, bump_allocator.cpp 73 *)
| s_dec : forall s t c b, pcs s t = FDec c b ->
    step s t LOther (with_bump s c (snd (bump_dec (bump_of s c))) (remove_blk b (held s)) t
                       (if fst (bump_dec (bump_of s c)) =? 1 then FFull c else Idle))
(** 145-149 *)
| s_full : forall s t c, pcs s t = FFull c ->
    step s t LOther (mkS (nch s)
      (if bump_full (bump_of s c) then upd (chk s) c (mkC (c_base (chk s c)) (bump_of s c) true (c_rec (chk s c))) else chk s)
      (held s) (upd (pcs s) t Idle))
(** atomic_list.hpp 77-84, 123-126: a deleted chunk that is not the head is skipped and
    given back when no iterator refers to it.  (More often than in the code: there the
    chunk before it must have been passed by an iteration.) *)
| s_reclaim : forall s t c, (S c < nch s)%nat -> c_del (chk s c) = true -> c_rec (chk s c) = false -> (forall u, ~ uses (pcs s u) c) ->
    step s t LOther (mkS (nch s) (upd (chk s) c (mkC (c_base (chk s c)) (bump_of s c) true true)) (held s) (pcs s)).

(** runs of [T] threads whose labels are allowed (the calls are those of chunked_bump_alloc.hpp:82-155) *)
Inductive reach (ok : st -> lab -> Prop) : st -> Prop :=
| r_init : reach ok init
| r_step : forall s t l s', reach ok s -> (t < T)%nat -> step s t l s' -> ok s l -> reach ok s'.
End Chunked.
