(** Requests that StdAllocator (memory/allocator.hpp) passes to the allocator of a worker.
    Definitions only. *)
From Coq Require Import List NArith.
From Verif Require Import AllocModel.
Import ListNotations.
Open Scope N_scope.

(** StdAllocator<T>::allocate (memory/allocator.hpp:61-71): [sz] is sizeof(T), the product
    of two 64-bit numbers wraps around; alignof(T) is not passed on.  With
    std::allocate_shared (memory/allocator.hpp:103-117) T is the control block that holds the object, n = 1. *)
Definition std_request (sz n : N) : N := (sz * n) mod W64.
