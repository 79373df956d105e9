(** AtomicList: appending, erasing and iterating by any number of threads
    (util/atomic_list.hpp).  Definitions only; lines refer to that file.  Nodes are
    numbered as they are allocated.  Simplifications: std::shared_ptr is a pointer
    that is never reused (nodes are not reclaimed); the unsynchronised read of [prev]
    in line 243 is one atomic read. *)
From Coq Require Import Bool List Arith Lia.
Import ListNotations.

Definition node := nat.
(** [bn]: history variable, the nodes in the list when the iteration began;
    [seen]: the nodes visited, latest first (atomic_list.hpp:77-316, lines at the constructors) *)
Inductive apc :=
| AIdle
| NLoad (n : node)                                  (* 299 *)
| NStore (n : node) (old : option node)             (* 300 *)
| NCas (n : node) (old : option node)               (* 301-302 *)
| FCas (n : node)                                   (* 315 *)
| K0 (bn : node -> bool) (n : node) (seen : list node)                       (* 79: at node n *)
| K1 (bn : node -> bool) (n : node) (p : option node) (seen : list node)     (* 80-81 *)
| K2 (bn : node -> bool) (n : node) (p : option node) (seen : list node)     (* 83 *)
| K3 (bn : node -> bool) (n : node) (seen : list node)                       (* 243 *)
| KDone (bn : node -> bool) (seen : list node).

(** [fr]: nodes allocated; [cnt], [rk], [app]: history variables, the number of nodes
    that became part of the list, the place of a node in that order, and which did;
    [firsts]: successful try_append_first_item calls (atomic_list.hpp:45-90) *)
Record ast := mkA {
  head : option node; prev : node -> option node; deleted : node -> bool; fr : nat;
  cnt : nat; rk : node -> nat; app : node -> bool; firsts : nat; pcs : nat -> apc }.
(** an empty list (atomic_list.hpp:130-135); the next two only build states *)
Definition a_init : ast := mkA None (fun _ => None) (fun _ => false) 0 0 (fun _ => 0) (fun _ => false) 0 (fun _ => AIdle).
Definition upd {B} (f : nat -> B) (i : nat) (x : B) : nat -> B := fun j => if j =? i then x else f j.
Definition at_pc (s : ast) (t : nat) (p : apc) : ast :=
  mkA (head s) (prev s) (deleted s) (fr s) (cnt s) (rk s) (app s) (firsts s) (upd (pcs s) t p).
(** [n] becomes the head (atomic_list.hpp:297-305, 313-315) *)
Definition link (s : ast) (n : node) (f : nat) (t : nat) : ast :=
  mkA (Some n) (prev s) (deleted s) (fr s) (S (cnt s)) (upd (rk s) n (cnt s)) (upd (app s) n true) f (upd (pcs s) t AIdle).

(** atomic_list.hpp:77-84, 159-316, lines at the cases *)
Inductive astep : ast -> nat -> ast -> Prop :=
(** 159-180, 186-198: allocation of the node, then append_item or try_append_first_item *)
| a_new : forall s t (first : bool), pcs s t = AIdle ->
    astep s t (mkA (head s) (prev s) (deleted s) (S (fr s)) (cnt s) (rk s) (app s) (firsts s)
                   (upd (pcs s) t (if first then FCas (fr s) else NLoad (fr s))))
(** 291-306 *)
| a_load : forall s t n, pcs s t = NLoad n -> astep s t (at_pc s t (NStore n (head s)))
| a_store : forall s t n old, pcs s t = NStore n old ->
    astep s t (mkA (head s) (upd (prev s) n old) (deleted s) (fr s) (cnt s) (rk s) (app s) (firsts s) (upd (pcs s) t (NCas n old)))
| a_cas : forall s t n old, pcs s t = NCas n old -> head s = old -> astep s t (link s n (firsts s) t)
| a_cas_fail : forall s t n old, pcs s t = NCas n old -> head s <> old -> astep s t (at_pc s t (NLoad n))
(** 309-316 *)
| a_first : forall s t n, pcs s t = FCas n -> head s = None -> astep s t (link s n (S (firsts s)) t)
| a_first_fail : forall s t n, pcs s t = FCas n -> head s <> None -> astep s t (at_pc s t AIdle)
(** 66-69, 282-285 *)
| a_erase : forall s t n, pcs s t = AIdle -> app s n = true ->
    astep s t (mkA (head s) (prev s) (upd (deleted s) n true) (fr s) (cnt s) (rk s) (app s) (firsts s) (pcs s))
(** 256-259 *)
| a_begin : forall s t, pcs s t = AIdle ->
    astep s t (at_pc s t (match head s with Some n => K0 (app s) n [n] | None => KDone (app s) [] end))
(** 77-84, 238-247 *)
| a_k0 : forall s t bn n seen, pcs s t = K0 bn n seen -> astep s t (at_pc s t (K1 bn n (prev s n) seen))
| a_k1_next : forall s t bn n q seen, pcs s t = K1 bn n (Some q) seen -> deleted s q = true ->
    astep s t (at_pc s t (K1 bn n (prev s q) seen))
| a_k1_stop : forall s t bn n p seen, pcs s t = K1 bn n p seen -> (forall q, p = Some q -> deleted s q = false) ->
    astep s t (at_pc s t (K2 bn n p seen))
| a_k2 : forall s t bn n p seen, pcs s t = K2 bn n p seen ->
    astep s t (mkA (head s) (upd (prev s) n p) (deleted s) (fr s) (cnt s) (rk s) (app s) (firsts s) (upd (pcs s) t (K3 bn n seen)))
| a_k3 : forall s t bn n seen, pcs s t = K3 bn n seen ->
    astep s t (at_pc s t (match prev s n with Some q => K0 bn q (q :: seen) | None => KDone bn seen end)).

Inductive areach : ast -> Prop :=
| ar_init : areach a_init
| ar_step : forall s t s', areach s -> astep s t s' -> areach s'.
