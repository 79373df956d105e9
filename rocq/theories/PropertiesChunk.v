(** Properties C34 and C35: the chunked list used by any number of threads. *)
From Coq Require Import Bool List Arith ZArith NArith Lia.
From Verif Require Import ChunkConModel ChunkConProof ChunkEx.
Import ListNotations.

Definition any {A} : @cst A -> clab -> Prop := fun _ _ => True.
(** Any number of threads pushing, removing and iterating: no two pushes ever have the
    same location, nor one that was used before *)
Theorem C34_distinct_locations : forall A size (s : @cst A) t v g, 0 < size -> creach size any s -> pcs s t = PSet v g ->
  val s g = None /\ g < chunks s * size /\ forall t' v', pcs s t' = PSet v' g -> t' = t.
Proof.
  intros A size s t v g P H E. assert (I := creach_A size P _ _ H). destruct (a_set _ _ I _ _ _ E) as [B V].
  split; [assumption|]. split.
  - destruct (Nat.le_gt_cases (chunks s) (g / size)) as [L|L]; [rewrite (a_new _ _ I) in B by assumption; lia|].
    destruct (loc_split size P g) as [G1 G2]. nia.
  - intros t' v' E'. eapply a_set1; eauto.
Qed.
(** what was pushed stays *)
Theorem C34_values_stay : forall A size (s : @cst A) t l s' g v, 0 < size -> creach size any s -> cstep size s t l s' ->
  val s g = Some v -> val s' g = Some v.
Proof.
  intros A size s t l s' g v P H ST V. assert (I := creach_A size P _ _ H). inversion ST; subst; simpl; auto.
  rewrite upd_ne; [assumption|]. intros ->. destruct (a_set _ _ I _ _ _ H0). congruence.
Qed.
(** Each overflow appends one chunk: a new chunk is appended only after all locations
    of the one before were handed out, and at most one thread is about to append *)
Theorem C34_one_chunk_per_overflow : forall A size (s : @cst A), 0 < size -> creach size any s ->
  (forall c, S c < chunks s -> size < nxt s c) /\
  (forall c, chunks s <= c -> nxt s c = 0) /\
  (forall t v c t' v' c', pcs s t = PGrow v c -> pcs s t' = PGrow v' c' -> t = t' /\ S c = chunks s) /\
  (forall c, S c = chunks s -> size < nxt s c -> exists t v, pcs s t = PGrow v c).
Proof.
  intros A size s P H. assert (I := creach_A size P _ _ H). split; [apply I|]. split; [apply I|]. split; [|apply I].
  intros t v c t' v' c' X Y. split; [eapply a_grow1; eauto|]. eapply a_grow; eauto.
Qed.
(** When no push is under way, all locations of all older chunks and a non-empty
    initial part of the newest chunk are assigned: nothing is lost *)
Theorem C34_nothing_lost : forall A size (s : @cst A), 0 < size -> creach size any s -> (forall t, pushing (pcs s t) = false) ->
  forall c i, i < size -> (S c < chunks s \/ (S c = chunks s /\ i < nxt s c) <-> val s (c * size + i) <> None) /\
  (S c = chunks s -> 0 < nxt s c <= size).
Proof.
  intros A size s P H Q c i Hi. assert (I := creach_A size P _ _ H).
  assert (EQ : c * size + i = c * size + i) by reflexivity. split; [split|].
  - intros X V. destruct (a_all _ _ I (c * size + i)) as (t & v & E); [|assumption|specialize (Q t); rewrite E in Q; discriminate].
    rewrite (div_loc size P), (mod_loc size P) by assumption. destruct X as [X|[_ X]]; [apply (a_old _ _ I) in X; lia|assumption].
  - intros V. apply (a_val _ _ I) in V. rewrite (div_loc size P), (mod_loc size P) in V by assumption.
    destruct (Nat.le_gt_cases (chunks s) c); [rewrite (a_new _ _ I) in V by assumption; lia|]. destruct (Nat.eq_dec (S c) (chunks s)); [right; auto|left; lia].
  - intros X. split.
    + destruct (nxt s c) eqn:N; [|lia]. destruct (a_fresh _ _ I c X N) as [t S]. specialize (Q t). destruct (pcs s t); discriminate.
    + destruct (Nat.le_gt_cases (nxt s c) size); [assumption|]. destruct (a_full _ _ I c X) as (t & v & E); [assumption|]. specialize (Q t). rewrite E in Q. discriminate.
Qed.
(** no removal beside an unassigned location, no iteration beginning at an empty chunk *)
Definition calm {A} (s : @cst A) (l : clab) : Prop := l <> CGap /\ l <> CEmptyHead.
(** An iteration visits every element that was there when it began and is not removed,
    each at most once, newest first.  Missing: see the two refutations *)
Theorem C34_iteration_complete_partial : forall A size (s : @cst A) t bn seen, 0 < size -> creach size calm s -> pcs s t = IDone bn seen ->
  (forall g, bn g = true -> taken s g = false -> In g seen) /\ asc seen /\ (forall g, In g seen -> val s g <> None).
Proof.
  intros A size s t bn seen P H E. destruct (creach_I size P _ _ H) as [_ I]; [auto|]. specialize (I t). rewrite E in I. destruct I as [a b c d e].
  split; [|split; [assumption|]].
  - intros g B T. apply a; [assumption|assumption|lia].
  - intros g X. apply d in X. now apply assigned_val.
Qed.
(** the empty newest chunk is seen only while a push is under way *)
Theorem C34_empty_head_only_during_push : forall A size (s : @cst A) t s', 0 < size -> creach size any s -> cstep size s t CEmptyHead s' ->
  (forall bn c seen, pcs s t = ILast bn c seen -> S c = chunks s) -> exists t', pushing (pcs s t') = true.
Proof.
  intros A size s t s' P H ST Hd. assert (I := creach_A size P _ _ H). inversion ST; subst.
  destruct (a_fresh _ _ I (S c) (Hd _ _ _ H0) H1) as [u U]. exists u. now destruct (pcs s u).
Qed.

Lemma crun_some : forall A size okb (ok : @cst A -> clab -> Prop) l (Q : cst -> Prop), (forall s b, okb b = true -> ok s b) ->
  match crun size okb c_init l with Some s => Q s | None => False end -> exists s, creach size ok s /\ Q s.
Proof.
  intros A size okb ok l Q K H. destruct (crun size okb c_init l) as [s|] eqn:E; [|easy]. exists s.
  split; [apply (crun_reach size okb ok l c_init); [assumption|constructor|exact E]|exact H].
Qed.
Definition allb (_ : clab) : bool := true.
Definition calmb (l : clab) : bool := match l with CGap | CEmptyHead => false | _ => true end.
Lemma calm_ok : forall A (s : @cst A) b, calmb b = true -> calm s b.
Proof. intros A s []; simpl; split; discriminate. Qed.
(** three threads push four values into chunks of two, one overflow contended; an
    iteration and a removal run through *)
Definition contended : list (nat * cact nat) :=
  [(1, CPushV 11); (2, CPushV 12)] ++ steps 1 1 ++ steps 2 1 ++ steps 1 4 ++ steps 2 4 ++ steps 1 1 ++ steps 2 1 ++
  [(1, CPushV 13); (2, CPushV 14)] ++ steps 1 3 ++ steps 2 3 ++ steps 1 1 ++ steps 2 2 ++ steps 1 4 ++ steps 2 3 ++
  [(3, CIt)] ++ steps 3 3 ++ [(1, CRem 1)] ++ steps 1 3 ++ steps 3 6.
Example C34_ex_contended : exists s, creach 2 calm s /\ chunks s = 2 /\ map (val s) [0; 1; 2; 3] = [Some 11; Some 12; Some 13; Some 14] /\
  (exists bn, pcs s 3 = IDone bn [0; 2; 3] /\ bn 0 = true /\ bn 1 = true) /\ taken s 1 = true.
Proof.
  destruct (crun_some nat 2 calmb calm contended (fun s => (chunks s, (val s 0, val s 1, val s 2, val s 3), taken s 1,
     match pcs s 3 with IDone bn l => Some (l, bn 0, bn 1) | _ => None end) =
     (2, (Some 11, Some 12, Some 13, Some 14), true, Some ([0; 2; 3], true, true)))) as (s & R & E); [apply calm_ok|vm_compute; reflexivity|].
  exists s. split; [exact R|]. clear R. injection E as E1 F0 F1 F2 F3 E3 E4. split; [exact E1|]. split; [simpl; congruence|]. split; [|exact E3].
  destruct (pcs s 3); try discriminate. injection E4 as -> X Y. eauto.
Qed.
Example C34_ex_two_locations : exists s : @cst nat, creach 2 any s /\ pcs s 1 = PSet 11 0 /\ pcs s 2 = PSet 12 1.
Proof.
  destruct (crun_some nat 2 allb any ([(1, CPushV 11); (2, CPushV 12)] ++ steps 1 1 ++ steps 2 1 ++ steps 1 4 ++ steps 2 4)
    (fun s => (pcs s 1, pcs s 2) = (PSet 11 0, PSet 12 1))) as (s & R & E); [easy|vm_compute; reflexivity|].
  exists s. split; [exact R|]. clear R. injection E as E1 E2. auto.
Qed.
(** A push that found the chunk full appends an empty chunk and then takes a location in
    it.  An iteration that begins in between sees an empty list *)
Definition fresh : list (nat * cact nat) :=
  [(1, CPushV 11)] ++ steps 1 6 ++ [(1, CPushV 12)] ++ steps 1 4 ++ [(2, CIt)] ++ steps 2 2.
Theorem C34_iteration_complete_refuted : exists s : @cst nat, creach 1 any s /\
  exists bn, pcs s 2 = IDone bn [] /\ bn 0 = true /\ taken s 0 = false /\ val s 0 = Some 11.
Proof.
  destruct (crun_some nat 1 allb any fresh (fun s => (val s 0, taken s 0, match pcs s 2 with IDone bn l => Some (l, bn 0) | _ => None end) =
     (Some 11, false, Some ([], true)))) as (s & R & E); [easy|vm_compute; reflexivity|].
  exists s. split; [exact R|]. clear R. injection E as E1 E2 E3. destruct (pcs s 2); try discriminate. injection E3 as -> X. eauto.
Qed.

(** ** C35 *)
(** pushes do not overlap, iterations do not begin at an empty chunk *)
Definition serial {A} (s : @cst A) (l : clab) : Prop := serial_push s l /\ l <> CEmptyHead.
Lemma serial_calm : forall A size (s : @cst A), 0 < size -> creach size serial s -> creach size calm s.
Proof.
  intros A size s P H. induction H as [|s t l s' R IH ST [O1 O2]]; [constructor|]. eapply cr_step; eauto. split; [|assumption]. intros ->.
  eapply (serial_no_gap size P); eauto; [eapply creach_A; eauto|eapply creach_B; eauto|]. eapply (creach_S size P); [exact R|]. now intros ? ? [].
Qed.
(** When pushes are serialised (as the users mutex does for the user lists), an offset
    leads over removed elements only, and iterations are complete.
    Missing: overlapping pushes *)
Theorem C35_offsets_hide_nothing_partial : forall A size (s : @cst A) g j, 0 < size -> creach size serial s ->
  val s g <> None -> 1 <= j -> j < off s g -> j <= g mod size /\ taken s (g - j) = true.
Proof.
  intros A size s g j P H V J1 J2. apply (serial_calm A size s P) in H. destruct (creach_I size P _ _ H) as [I _]; [auto|].
  destruct (g_off _ _ I g V) as [L1 L2]; [lia|]. split; [lia|auto].
Qed.
Theorem C35_iteration_complete_partial : forall A size (s : @cst A) t bn seen, 0 < size -> creach size serial s -> pcs s t = IDone bn seen ->
  forall g, bn g = true -> taken s g = false -> In g seen.
Proof. intros A size s t bn seen P H E. apply (serial_calm A size s P) in H. now apply (C34_iteration_complete_partial A size s t bn seen). Qed.

(** runs with serialised pushes of threads below [n] *)
Fixpoint srun {A} (size n : nat) (s : @cst A) (l : list (nat * cact A)) : option cst :=
  match l with
  | [] => Some s
  | (t, a) :: l =>
      match cexec size s t a with
      | Some (b, s') =>
          if (t <? n) && match b with CEmptyHead => false | CPush => forallb (fun u => negb (pushing (pcs s u))) (seq 0 n) | _ => true end
          then srun size n s' l else None
      | None => None
      end
  end.
Lemma srun_reach : forall A size n l (s s' : @cst A), (forall t, n <= t -> pcs s t = CIdle) -> creach size serial s -> srun size n s l = Some s' -> creach size serial s'.
Proof.
  intros A size n. induction l as [|[t a] l IH]; intros s s' Q R H; [now injection H as <-|]. simpl in H.
  destruct (cexec size s t a) as [[b s1]|] eqn:E; [|discriminate]. destruct (Nat.ltb_spec t n) as [L|L]; [|discriminate].
  assert (ST := cexec_step size _ _ _ _ _ E). simpl in H.
  destruct (match b with CEmptyHead => false | CPush => forallb (fun u => negb (pushing (pcs s u))) (seq 0 n) | _ => true end) eqn:B; [|discriminate].
  apply (IH s1 s'); [|eapply cr_step; eauto|assumption].
  - intros u U. assert (N : u <> t) by lia. assert (X : pcs s1 u = pcs s u) by (inversion ST; subst; simpl; now apply upd_ne). rewrite X. auto.
  - split; [|intros ->; discriminate]. intros ->. intros u. destruct (Nat.le_gt_cases n u) as [U|U]; [now rewrite (Q u U)|].
    rewrite forallb_forall in B. specialize (B u). rewrite in_seq in B. specialize (B ltac:(lia)). now destruct (pushing (pcs s u)).
Qed.
Lemma srun_some : forall A size n l (Q : @cst A -> Prop),
  match srun size n c_init l with Some s => Q s | None => False end -> exists s, creach size serial s /\ Q s.
Proof.
  intros A size n l Q H. destruct (srun size n c_init l) as [s|] eqn:E; [|easy]. exists s.
  split; [apply (srun_reach A size n l c_init); [reflexivity|constructor|exact E]|exact H].
Qed.
(** two threads push by turns, both first elements are removed in order: the offsets of
    the second chunk lead to its beginning *)
Definition turns : list (nat * cact nat) :=
  [(1, CPushV 11)] ++ steps 1 6 ++ [(2, CPushV 12)] ++ steps 2 4 ++ [(1, CPushV 13)] ++ steps 1 4 ++
  [(3, CRem 0)] ++ steps 3 3 ++ [(3, CRem 1)] ++ steps 3 3 ++ [(3, CIt)] ++ steps 3 5.
Example C35_ex_serial : exists s : @cst nat, creach 3 serial s /\ off s 1 = 2 /\ taken s 0 = true /\ taken s 1 = true /\
  exists bn, pcs s 3 = IDone bn [2] /\ bn 2 = true.
Proof.
  destruct (srun_some nat 3 4 turns (fun s => (off s 1, taken s 0, taken s 1, match pcs s 3 with IDone bn l => Some (l, bn 2) | _ => None end)
    = (2, true, true, Some ([2], true)))) as (s & R & E); [vm_compute; reflexivity|].
  exists s. split; [exact R|]. clear R. injection E as E1 E2 E3 E4. repeat split; try assumption. destruct (pcs s 3); try discriminate. injection E4 as -> X. eauto.
Qed.
(** Two threads push; the second assigns its element and removes it while the first has
    its location but has not assigned it.  The offset 2 leads over the first location
    for ever: its element is in the list and no iteration sees it *)
Definition gap : list (nat * cact nat) :=
  [(1, CPushV 11)] ++ steps 1 5 ++ [(2, CPushV 12)] ++ steps 2 4 ++ [(2, CRem 1)] ++ steps 2 3 ++ steps 1 1 ++ [(3, CIt)] ++ steps 3 4.
Theorem C35_removal_hides_nothing_refuted : exists s : @cst nat, creach 2 any s /\
  val s 0 = Some 11 /\ taken s 0 = false /\ (forall t, pushing (pcs s t) = false) /\ off s 1 = 2 /\
  exists bn, pcs s 3 = IDone bn [] /\ bn 0 = true.
Proof.
  destruct (crun_some nat 2 allb any gap (fun s => (val s 0, taken s 0, off s 1, match pcs s 3 with IDone bn l => Some (l, bn 0) | _ => None end)
    = (Some 11, false, 2, Some ([], true)) /\ forall t, pushing (pcs s t) = false)) as (s & R & E & P);
    [easy|vm_compute; split; [reflexivity|intros [|[|[|[|t]]]]; reflexivity]|].
  exists s. split; [exact R|]. clear R. injection E as E1 E2 E3 E4. split; [assumption|]. split; [assumption|]. split; [assumption|]. split; [assumption|].
  destruct (pcs s 3); try discriminate. injection E4 as -> X. eauto.
Qed.
Definition all_chunk := (@C34_distinct_locations, @C34_values_stay, @C34_one_chunk_per_overflow, @C34_nothing_lost, @C34_iteration_complete_partial,
  @C34_empty_head_only_during_push, C34_iteration_complete_refuted, @C35_offsets_hide_nothing_partial, @C35_iteration_complete_partial, C35_removal_hides_nothing_refuted).
Print Assumptions all_chunk.
