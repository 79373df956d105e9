(** Property C32: the chunked list in one thread. *)
From Coq Require Import Bool List Arith ZArith NArith Lia.
From Verif Require Import ChunkModel ChunkSpec ChunkProof.
Import ListNotations.

(** For every chunk size below 2^16 and every history of pushes, iterations,
    iterator copies, increments and drops, removals and erases by value, used as the
    interface asks, the list answers what the plain sequence of elements answers: in
    particular iteration gives the live elements, each once, newest first, across any
    number of chunks.  No exception, no destruction of what is no value. *)
Theorem C32_behaves_as_a_list : forall A (eqb : A -> A -> bool) size os,
  0 < size -> (N.of_nat size < 65536)%N -> lvalid_all eqb [] os ->
  snd (model_run eqb size [] os) = snd (spec_run eqb [] os).
Proof. intros A eqb size os P S V. apply (run_refines eqb size P S os [] []); [now apply R_init|assumption]. Qed.
Theorem C32_iteration_gives_live_elements : forall A (eqb : A -> A -> bool) size os,
  0 < size -> (N.of_nat size < 65536)%N -> lvalid_all eqb [] os ->
  exists cs, contents size (fst (model_run eqb size [] os)) = (live_values (fst (spec_run eqb [] os)), cs, true).
Proof.
  intros A eqb size os P S V. destruct (run_refines eqb size P S os [] []) as [_ H]; [now apply R_init|assumption|].
  destruct (contents_spec size P S _ _ H) as (cs & E & _). eauto.
Qed.
(** the value of an element is destructed exactly when it was removed and no iterator
    holds it any more *)
Theorem C32_destroyed_when_removed_and_released : forall A (eqb : A -> A -> bool) size os g e,
  0 < size -> (N.of_nat size < 65536)%N -> lvalid_all eqb [] os -> nth_error (fst (spec_run eqb [] os)) g = Some e ->
  exists it, get (fst (model_run eqb size [] os)) (g / size, g mod size) = Some it /\
    sto it = if gone e && (holders e =? 0) then Gone (value e) else Val (value e).
Proof.
  intros A eqb size os g e P S V E. destruct (run_refines eqb size P S os [] []) as [_ H]; [now apply R_init|assumption|].
  destruct (slot_exists size P S _ _ g H) as [it G]; [apply nth_error_Some; congruence|]. exists it. split; [exact G|].
  assert (I := r_item _ _ _ H g it G). unfold item_ok in I. rewrite E in I. destruct (gone e); [|apply I].
  destruct I as (_ & _ & _ & _ & I). exact I.
Qed.
(** five elements in chunks of two; the second and third removed, a handle kept *)
Definition hist : list (lop nat) :=
  [LPush 10; LPush 11; LPush 12; LPush 11; LPush 14; LDrop 0; LRemove 1; LIter; LCopy 1; LDrop 1; LRemove 2; LErase 11; LIter; LNext 4; LBegin].
Example C32_ex_valid : lvalid_all Nat.eqb [] hist.
Proof. vm_compute. repeat split; eauto; eexists; (split; [reflexivity|lia]). Qed.
Example C32_ex_answers : snd (model_run Nat.eqb 2 [] hist) =
  [OHandle (Some 0); OHandle (Some 1); OHandle (Some 2); OHandle (Some 3); OHandle (Some 4); ODone; ODone;
   OValues [14; 11; 12; 10]; OHandle (Some 0); ODone; ODone; ODone; OValues [14; 10]; OHandle (Some 0); OHandle (Some 4)].
Proof. vm_compute. reflexivity. Qed.

Definition all_list := (C32_behaves_as_a_list, C32_iteration_gives_live_elements, C32_destroyed_when_removed_and_released).
Print Assumptions all_list.
