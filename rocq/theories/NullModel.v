(** Null requests in the MPI request pool.  Definitions only; the pool itself is in MiscModel. *)
From Coq Require Import Bool List Arith NArith.
From Verif Require Import MiscModel MiscProof.
Import ListNotations.
Open Scope N_scope.

(** MPI_REQUEST_NULL; other handles have other numbers (dispatch/mpi/request_pool.hpp:32, 87) *)
Definition null : N := 0.
(** What MPI_Testsome may report for the requests of the pool (dispatch/mpi/request_pool.hpp:54): distinct positions of
    active requests; null handles are ignored.  If there is no other request outcount is MPI_UNDEFINED, a negative
    number, and the loop (56) does nothing: the empty report *)
Definition report (out : list (nat * N)) (reqs : list N) : Prop :=
  NoDup (map fst out) /\ forall j s, In (j, s) out -> exists r, nth_error reqs j = Some r /\ r <> null.
(** a history of get_status and poll in which MPI answers so (dispatch/mpi/request_pool.hpp:44-76, 85-103) *)
Fixpoint answered (ops : list mop) (p : mpool) : Prop :=
  match ops with
  | [] => True
  | MAdd r e c :: ops => answered ops (mp_add r e c p)
  | MPoll out :: ops => report out (m_req p) /\ match mp_poll out p with Some p => answered ops p | None => True end
  end.
