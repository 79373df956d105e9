(** examples/mpi.cpp: the ranks of an MPI program pass the last cell of their field to the right
    (C72).  Definitions only. *)
From Coq Require Import Bool List Arith NArith ZArith.
From Verif Require Import AccessModel AccessSpec UserModel SchedModel SchedSpec AppModel.
Import ListNotations.

(** The resources: 0 and 1 are field[0] and field[1] (mpi.cpp:94-97), of w + 1 cells (w = 3 there), 2 is
    mpi_config (83).  An operation on one cell; [c] says which value is stored. *)
Definition slot_touch (k : kind) (x : nat) : touch (field_ty 1) := (k, (N.of_nat x, tt)).
Definition slot_get (b x : nat) : act := mkAct b (field_ty 1) (slot_touch KRead x) 0.
Definition slot_put (b x : nat) (c : Z) : act := mkAct b (field_ty 1) (slot_touch KWrite x) c.
(** field.at({x}) and field itself (fieldresource.hpp:146-152, 195-201, 78-125) *)
Definition slot (b : nat) (m : iomode) (x : nat) : raccess := mkAcc (mkRes b 0) (field_ty 1) (m, ((N.of_nat x, N.of_nat (x + 1)), tt)).
Definition field (b : nat) (m : iomode) : raccess := mkAcc (mkRes b 0) (field_ty 1) (m, ((0%N, size_max), tt)).
(** mpi_config.read(), mpi_config.write() and what the bodies do with it (83-91, 105, 124, 140, 170) *)
Definition conf (m : iomode) : raccess := mkAcc (mkRes 2 0) TIO m.
Definition conf_get : act := mkAct 2 TIO KRead 0.
Definition conf_put : act := mkAct 2 TIO KWrite 0.

Section Ring.
  Context (w : nat).
  (** mpi.cpp:84-91: MPI_Comm_rank, MPI_Comm_size *)
  Definition comm_task : job := mkJob [conf MWrite] [conf_put] false.
  (** mpi.cpp:102-110: buf[i] = offset + i *)
  Definition fill_task : job :=
    mkJob [field 0 MWrite; conf MRead] (conf_get :: map (fun i => slot_put 0 i (Z.of_nat (S i))) (range 0 (w + 1))) false.
  (** mpi.cpp:121-134.  What the body has read is what it gives to MPI_Isend: the cell, and rank and
      size, from which it computes the destination.  That the body waits for its request
      (get_status, request_pool.hpp:86-105) is left out, here and in the next task. *)
  Definition send_task (cur : nat) : job := mkJob [slot cur MRead w; conf MRead] [conf_get; slot_get cur w] false.
  (** mpi.cpp:137-153: the message of turn [k] is stored in cell 0 *)
  Definition recv_task (cur k : nat) : job := mkJob [slot cur MWrite 0; conf MRead] [conf_get; slot_put cur 0 (- Z.of_nat (S k))] false.
  (** mpi.cpp:159-162: dst[i] = src[i - 1] *)
  Definition shift_task (cur nxt i : nat) : job := mkJob [slot nxt MWrite i; slot cur MRead (i - 1)] [slot_get cur (i - 1); slot_put nxt i 0] false.
  (** mpi.cpp:167-176 *)
  Definition out_task (cur : nat) : job := mkJob [field cur MRead; conf MRead] (conf_get :: map (slot_get cur) (range 0 (w + 1))) false.
  (** mpi.cpp:181: MPI_Finalize *)
  Definition fin_task : job := mkJob [conf MWrite] [] false.
  (** one turn of the loop (mpi.cpp:112-179) *)
  Definition turn (k cur : nat) : list job :=
    let nxt := (cur + 1) mod 2 in
    [send_task cur; recv_task cur k] ++ map (shift_task cur nxt) (range 1 (w + 1)) ++ [out_task cur].
  Fixpoint turns (n k cur : nat) : list job :=
    match n with O => [] | S n => turn k cur ++ turns n (S k) ((cur + 1) mod 2) end.
  (** main (mpi.cpp:83-183); the file has n = 1 (112) *)
  Definition ring_jobs (n : nat) : list job := [comm_task; fill_task] ++ turns n 0 0 ++ [fin_task].

  (** MPI as seen by one rank: its rank, the number of ranks, and what a receive from the
      source [a] (the argument of MPI_Irecv) in turn [k] delivers: a value, or nothing, with
      which the cell stays as it is.
      A message is one int (127, 143: sizeof(int) times MPI_CHAR); int does not overflow. *)
  Context (rank size : Z) (inp : Z -> nat -> option Z).
  (** mpi.cpp:140: the source of the message; C++ rounds towards zero *)
  Definition source (r s : Z) : Z := Z.rem (r - 1) s.
  (** mpi.cpp:124: the destination *)
  Definition target (r s : Z) : Z := Z.rem (r + 1) s.
  (** the new value of a cell (mpi.cpp:108, 143, 160); [l]: values read, latest first (rank before size) *)
  Definition slot_value (code : Z) (l : list Z) (old : Z) : Z :=
    if (code =? 0)%Z then nth 0 l 0%Z
    else if (0 <? code)%Z then (Z.of_nat w * nth 0 l 0 + (code - 1))%Z
    else match inp (source (nth 0 l 0%Z) (nth 1 l 0%Z)) (Z.to_nat (- code - 1)) with Some v => v | None => old end.
  (** mpi_config and the two fields (mpi.cpp:83, 94-97) *)
  Definition cells := (list Z * list (list Z))%type.
  (** one memory operation of a body (mpi.cpp:84-181) *)
  Definition ring_op (a : act) (l : list Z) (m : cells) : list Z * cells :=
    match a with
    | mkAct r T x c =>
        match T return touch T -> _ with
        | TIO => fun k => match k, r =? 2 with
                          | KRead, true => (nth 0 (fst m) 0%Z :: nth 1 (fst m) 0%Z :: l, m)
                          | KWrite, true => (l, ([rank; size], snd m))
                          | _, _ => (l, m)
                          end
        | TComb TIO (TArr TArea 1 CAnd) CAnd =>
            fun t => let '(k, (x, _)) := t in
                     match k with
                     | KRead => (nth (N.to_nat x) (nth r (snd m) []) 0%Z :: l, m)
                     | KWrite => (l, (fst m, alter r (alter (N.to_nat x) (slot_value c l)) (snd m)))
                     | _ => (l, m)
                     end
        | _ => fun _ => (l, m)
        end x
    end.
  Definition ring_sem : semantics := mkSem (list Z) cells ring_op.
End Ring.

(** The number of the first task of turn [k] (mpi.cpp:84-179): two tasks, then w + 3 per turn *)
Definition turn_at (w k : nat) : nat := 2 + k * (w + 3).
