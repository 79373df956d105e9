(** Property C36: the list of chunks used by any number of threads. *)
From Coq Require Import Bool List Arith Lia.
From Verif Require Import AtomModel AtomProof ChunkEx.
Import ListNotations.

(** In every interleaving of appends, erases, iterations and the compactions they
    make: an iteration that is done visited every chunk that was in the list when it
    began and is not erased; each at most once, newest first; only chunks of the list *)
Theorem C36_iteration_complete : forall s t bn seen, areach s -> pcs s t = KDone bn seen ->
  (forall n, bn n = true -> deleted s n = false -> In n seen) /\ NoDup seen /\ newer s seen /\ (forall n, In n seen -> app s n = true).
Proof.
  intros s t bn seen H E. assert (I := i_pc _ (areach_inv s H) t). rewrite E in I. simpl in I. destruct I as [a b c d e].
  split; [intros n X D; apply a; [assumption|assumption|lia]|]. split; [|auto]. clear - c.
  induction seen as [|x l IH]; [constructor|]. destruct c as [c1 c2]. constructor; [|auto]. intros X. apply c1 in X. lia.
Qed.
(** while it is under way, too: what it has still to visit is older *)
Theorem C36_iteration_goes_back : forall s t bn n seen, areach s -> pcs s t = K0 bn n seen ->
  (forall m, bn m = true -> deleted s m = false -> rk s n <= rk s m -> In m seen) /\ newer s seen /\ app s n = true.
Proof.
  intros s t bn n seen H E. assert (I := i_pc _ (areach_inv s H) t). rewrite E in I. simpl in I. destruct I as [a [b c d e f]]. auto.
Qed.
(** prev pointers go back in the order of appending and skip erased chunks only *)
Theorem C36_prev_skips_erased_only : forall s n, areach s -> app s n = true ->
  match prev s n with
  | Some p => app s p = true /\ rk s p < rk s n /\ forall m, app s m = true -> rk s p < rk s m -> rk s m < rk s n -> deleted s m = true
  | None => forall m, app s m = true -> rk s m < rk s n -> deleted s m = true
  end.
Proof. intros s n H A. exact (i_prev _ (areach_inv s H) n A). Qed.
(** no chunk is appended twice, the head is the last one appended *)
Theorem C36_appended_in_order : forall s, areach s ->
  (forall n m, app s n = true -> app s m = true -> rk s n = rk s m -> n = m) /\
  (forall n, head s = Some n -> app s n = true /\ forall m, app s m = true -> rk s m <= rk s n) /\
  (head s = None -> forall m, app s m = false).
Proof.
  intros s H. assert (I := areach_inv s H). split; [apply I|]. assert (Hh := i_head _ I). split.
  - intros n E. rewrite E in Hh. destruct Hh as [A R]. split; [assumption|]. intros m M. apply (i_rk _ I) in M. lia.
  - intros E m. rewrite E in Hh. destruct (app s m) eqn:M; [|reflexivity]. apply (i_rk _ I) in M. lia.
Qed.
(** of concurrent first-chunk allocations one succeeds at most *)
Theorem C36_one_first_chunk : forall s, areach s -> firsts s <= 1.
Proof. intros s H. assert (F := i_first _ (areach_inv s H)). destruct (head s); lia. Qed.

Definition many (t n : nat) : list (nat * aact) := repeat (t, AGo) n.
(** two threads allocate the first chunk, two append with one CAS failing, one chunk is
    erased while an iteration is under way that compacts *)
Definition story : list (nat * aact) :=
  [(1, ANew true); (2, ANew true); (1, AGo); (2, AGo); (1, ANew false); (2, ANew false)] ++ many 1 2 ++ many 2 3 ++ many 1 4 ++
  [(3, AIt); (4, AIt)] ++ many 3 1 ++ [(1, AErase 3)] ++ many 4 4 ++ many 3 7 ++ many 4 5.
Lemma arun_some : forall l (Q : ast -> Prop), match arun a_init l with Some s => Q s | None => False end -> exists s, areach s /\ Q s.
Proof. intros l Q H. destruct (arun a_init l) as [s|] eqn:E; [|easy]. exists s. split; [apply (arun_reach l a_init); [constructor|exact E]|exact H]. Qed.
Example C36_ex_story : exists s, areach s /\ firsts s = 1 /\ head s = Some 2 /\ prev s 2 = Some 0 /\ deleted s 3 = true /\
  exists bn, pcs s 4 = KDone bn [0; 2] /\ bn 3 = true /\ bn 0 = true.
Proof.
  destruct (arun_some story (fun s => (firsts s, head s, prev s 2, deleted s 3, match pcs s 4 with KDone bn l => Some (l, bn 3, bn 0) | _ => None end)
    = (1, Some 2, Some 0, true, Some ([0; 2], true, true)))) as (s & R & E); [vm_compute; reflexivity|].
  exists s. split; [exact R|]. clear R. injection E as E1 E2 E3 E4 E5. repeat split; try assumption. destruct (pcs s 4); try discriminate. injection E5 as -> X Y. eauto.
Qed.
Definition all_atom := (C36_iteration_complete, C36_iteration_goes_back, C36_prev_skips_erased_only, C36_appended_in_order, C36_one_first_chunk).
Print Assumptions all_atom.
