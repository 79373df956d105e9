(** AtomicBitfield and the claiming of workers: model.  Definitions only.

    Words are [N] below 2^64.  Simplifications: every atomic operation is one step
    (sequential consistency); indices are unbounded, the code keeps them in
    [unsigned] (bitfield.hpp:29-30, 181), so sizes up to 2^32 are meant. *)
From Coq Require Import Bool List Arith NArith ZArith Lia.
Import ListNotations.
Open Scope N_scope.

(** bitfield.hpp:124 *)
Definition len64 : N := 64.
Definition ones64 : N := N.ones 64.
(** [~x] on uint64_t *)
Definition not64 (x : N) : N := N.lxor x ones64.
(** [x << k] on uint64_t, k < 64 *)
Definition shl64 (x k : N) : N := N.land (N.shiftl x k) ones64.
(** conversion of a uint64_t to [unsigned] (32 bit) *)
Definition low32 (x : N) : N := N.land x (N.ones 32).

(** bitfield.hpp:131-134 *)
Definition ceil_div (a b : N) : N := (a + b - 1) / b.

(** [v & -int64_t(v)] (bitfield.hpp:141).  [None]: negating INT64_MIN is
    undefined. *)
Definition isolate (v : N) : option N :=
  if v =? 2 ^ 63 then None else Some (N.land v ((2 ^ 64 - v) mod 2 ^ 64)).
(** bitfield.hpp:142-157 *)
Definition count_zeros (v : N) : N :=
  let c := 64 in
  let c := if v =? 0 then c else c - 1 in
  let t m c d := if N.land v m =? 0 then c else c - d in
  let c := t 0x00000000FFFFFFFF c 32 in
  let c := t 0x0000FFFF0000FFFF c 16 in
  let c := t 0x00FF00FF00FF00FF c 8 in
  let c := t 0x0F0F0F0F0F0F0F0F c 4 in
  let c := t 0x3333333333333333 c 2 in
  t 0x5555555555555555 c 1.
(** bitfield.hpp:138-158 *)
Definition first_one_idx (v : N) : option N :=
  match isolate v with Some w => Some (count_zeros w) | None => None end.

(** ** Probing, with arbitrary interference

    [World] is the rest of the program: [rd j] is an atomic load of [state[j]],
    [f] the acceptor; both may be accompanied by any actions of other threads.
    [wsize]: the number of indices (the accesses of bitfield.hpp:75-193: a word is read, the callback is called) *)
Inductive pev := ERead (j w : N) | ECall (i : N) (accepted : bool).
(** the result of bitfield.hpp:75-193; a shift by 64 and more is undefined *)
Inductive answer (T : Type) := Found (x : T) | NotFound | Undefined | Looping.
Arguments Found {T}. Arguments NotFound {T}. Arguments Undefined {T}. Arguments Looping {T}.

Section Probe.
  Context {World T : Type}.
  Variable rd : N -> World -> N * World.
  Variable f : N -> World -> option T * World.

  (** bitfield.hpp:166-193; [fuel] bounds the iterations of [while(true)] *)
  Fixpoint probe_chunk (fuel : nat) (j mask : N) (expected : bool) (w : World) (tr : list pev)
    : answer T * World * list pev :=
    match fuel with
    | O => (Looping, w, tr)
    | S fuel =>
        let '(x, w) := rd j w in
        let tr := tr ++ [ERead j x] in
        let field := if expected then x else not64 x in
        let masked := N.land field mask in
        if masked =? 0 then (NotFound, w, tr)
        else match first_one_idx masked with
             | None => (Undefined, w, tr)
             | Some k =>
                 if k <? len64 then
                   let idx := j * len64 + k in
                   let '(r, w) := f idx w in
                   let tr := tr ++ [ECall idx (match r with Some _ => true | None => false end)] in
                   match r with
                   | Some x => (Found x, w, tr)
                   | None => probe_chunk fuel j (N.land mask (not64 (shl64 1 k))) expected w tr
                   end
                 else probe_chunk fuel j mask expected w tr
             end
    end.

  (** the mask of the last chunk (bitfield.hpp:87-88, 98-99, 110-111) *)
  Definition limit (size j mask : N) : N :=
    if (j =? ceil_div size len64 - 1) && negb (size mod len64 =? 0)
    then N.land mask (shl64 1 (size mod len64) - 1) else mask.

  (** bitfield.hpp:105-115 *)
  Fixpoint probe_rest (fuel : nat) (n : nat) (size start_field b : N) (expected : bool) (w : World) (tr : list pev)
    : answer T * World * list pev :=
    match n with
    | O => (NotFound, w, tr)
    | S n =>
        let j := (start_field + b) mod ceil_div size len64 in
        match probe_chunk fuel j (limit size j ones64) expected w tr with
        | (NotFound, w, tr) => probe_rest fuel n size start_field (b + 1) expected w tr
        | r => r
        end
    end.

  (** bitfield.hpp:74-118 *)
  Definition probe (fuel : nat) (size start : N) (expected exclude_start : bool) (w : World)
    : answer T * World * list pev :=
    let start_field := start / len64 in
    let first_mask := shl64 ones64 (start mod len64) in
    let second_mask := limit size start_field (not64 first_mask) in
    let second_mask := if exclude_start then N.land second_mask (not64 (shl64 1 (start mod len64))) else second_mask in
    match probe_chunk fuel start_field second_mask expected w [] with
    | (NotFound, w, tr) =>
        match probe_chunk fuel start_field (limit size start_field first_mask) expected w tr with
        | (NotFound, w, tr) => probe_rest fuel (N.to_nat (ceil_div size len64 - 1)) size start_field 1 expected w tr
        | r => r
        end
    | r => r
    end.
End Probe.

(** ** Setting and getting bits ([state], bitfield.hpp:127) *)
Definition words := N -> N.
Definition wput (s : words) (j v : N) : words := fun i => if i =? j then v else s i.
(** bitfield.hpp:58-62 *)
Definition bf_get (idx : N) (s : words) : bool := negb (N.land (s (idx / len64)) (shl64 1 (idx mod len64)) =? 0).
(** bitfield.hpp:37-54: the old word goes through a 32-bit variable *)
Definition bf_set (idx : N) (v : bool) (s : words) : bool * words :=
  let j := idx / len64 in
  let mask := shl64 1 (idx mod len64) in
  let old := s j in
  let s' := wput s j (if v then N.lor old mask else N.land old (not64 mask)) in
  (negb (N.land (low32 old) mask =? 0), s').

(** worker_pool.hpp:26-30, 75-78; [true]: AVAILABLE *)
Definition set_worker_state (idx : N) (available : bool) (s : words) : bool * words :=
  let '(old, s') := bf_set idx available s in (xorb old available, s').

(** worker_pool.cpp:74-101 with worker_pool.hpp:80-91, which drops the argument
    [exclude_start]: the default [true] is used.  [None]: -1. *)
Definition find_free_worker (size start : N) (s : words) : answer N * words * list pev :=
  probe (fun j s => (s j, s))
        (fun idx s => let '(ok, s') := set_worker_state idx false s in (if ok then Some idx else None, s'))
        65 size start true true s.
