(** The memory of the chunks: how AtomicList obtains it from HwlocAlloc and gives it
    back.  Definitions only.  Memory is counted in pages; a page has a number.
    hwloc_alloc_membind maps whole pages and hwloc_free unmaps the pages that the range
    of addresses it is given touches (on Linux: mmap and munmap).  A failing
    hwloc_alloc_membind is not modelled here. *)
From Coq Require Import Bool List Arith NArith.
Import ListNotations.

Section Hw.
(** [pg]: size of a page; [asz]: get_chunk_allocsize() (util/atomic_list.hpp:150-153);
    [sz]: sizeof(T) of StaticAlloc<T>::deallocate, T being the object std::allocate_shared
    makes of the control block (util/atomic_list.hpp:163-179) *)
Context (pg asz sz : N).

(** pages of [len] bytes from the start of a page (memory/hwloc_alloc.hpp:58-63, 100) *)
Definition pages (len : N) : nat := N.to_nat ((len + pg - 1) / pg).
(** the mapped pages, and the first pages of the chunks in use; in the order of their creation, latest first (util/atomic_list.hpp:49-60) *)
Record hst := mkH { mapped : list nat; live : list nat }.
(** nothing is mapped at first: AtomicList() allocates nothing (util/atomic_list.hpp:130-135) *)
Definition hinit : hst := mkH [] [].
(** HwlocAlloc::allocate (memory/hwloc_alloc.hpp:54-68), called by StaticAlloc's constructor with
    get_chunk_allocsize() bytes (util/atomic_list.hpp:108, 172): pages not mapped before.
    StaticAlloc<T>::deallocate (util/atomic_list.hpp:123-126), when the last shared_ptr to the
    chunk is gone: a block of sizeof(T) * 1 bytes is passed to HwlocAlloc::deallocate
    (memory/hwloc_alloc.hpp:95-101) *)
Inductive hop := New (b : nat) | Back (b : nat).
Definition hstep (s : hst) (o : hop) : option hst :=
  match o with
  | New b => if existsb (fun x => existsb (Nat.eqb x) (mapped s)) (seq b (pages asz)) then None
             else Some (mkH (seq b (pages asz) ++ mapped s) (b :: live s))
  | Back b => if existsb (Nat.eqb b) (live s)
              then Some (mkH (filter (fun x => negb (existsb (Nat.eqb x) (seq b (pages (sz * 1))))) (mapped s)) (remove Nat.eq_dec b (live s)))
              else None
  end.
(** calls one after another; how they interleave does not matter, mmap and munmap are atomic (memory/hwloc_alloc.hpp:54-101) *)
Fixpoint hrun (s : hst) (os : list hop) : option hst :=
  match os with [] => Some s | o :: os => match hstep s o with Some s' => hrun s' os | None => None end end.
End Hw.
