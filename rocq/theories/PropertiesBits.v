(** The worker bitfield: properties C40 and C41. *)
From Coq Require Import Bool List Arith NArith ZArith Lia.
From Verif Require Import BitsModel BitsProof.
Import ListNotations.
Open Scope N_scope.

(** ** C40: bit search is exact *)

(** the lowest set bit, for every word but the one with only bit 63 set *)
Theorem C40_first_one_partial : forall v, v < 2 ^ 64 -> v <> 0 -> v <> 2 ^ 63 ->
  exists k, first_one_idx v = Some k /\ k < 64 /\ N.testbit v k = true /\ forall i, i < k -> N.testbit v i = false.
Proof.
  intros v H Z D. destruct (first_one v H D) as [[Q _]|Q]; [now contradiction Z|exact Q].
Qed.
Theorem C40_first_one_zero : first_one_idx 0 = Some 64.
Proof. reflexivity. Qed.
Example C40_ex_first_one : first_one_idx 2306969458876350464 = Some 39 /\ 2306969458876350464 < 2 ^ 64 /\ 2306969458876350464 <> 2 ^ 63.
Proof. repeat split; vm_compute; congruence. Qed.

(** the word with only bit 63 set: the negation of the most negative number *)
Theorem C40_first_one_refuted : exists v, v < 2 ^ 64 /\ N.testbit v 63 = true /\ first_one_idx v = None.
Proof. exists (2 ^ 63). now vm_compute. Qed.

Section Search.
  Context {World T : Type}.
  Variable rd : N -> World -> N * World.
  Variable f : N -> World -> option T * World.

  Lemma probe_result fuel size start e ex w : (forall j w, fst (rd j w) < 2 ^ 64) -> start < size -> (65 <= fuel)%nat ->
    result_ok f (fun _ (_ : World) _ => True) size e (fun i => i < size) (probe rd f fuel size start e ex w).
  Proof. intros RW St Fu. apply probe_ok; auto. Qed.

  Lemma lastr_end tr : forall l j x, lastr l tr = Some (j, x) -> (tr = [] /\ l = Some (j, x)) \/ exists tr0, tr = tr0 ++ [ERead j x].
  Proof.
    induction tr as [|ev tr IH]; intros l j x H; [now left|right].
    destruct ev as [j' x'|i b]; simpl in H; apply IH in H as [[-> Q]|(tr0 & ->)].
    - injection Q as <- <-. now exists [].
    - now exists (ERead j' x' :: tr0).
    - discriminate.
    - now exists (ECall i b :: tr0).
  Qed.
End Search.

(** Whatever the other threads do to the words and the acceptor to the world: an
    index handed to the acceptor is below the size and its bit had the wanted
    value in the read just before. *)
Theorem C40_probe_safe : forall (World T : Type) rd (f : N -> World -> option T * World) size start e ex w a w' tr,
  (forall j w, fst (rd j w) < 2 ^ 64) -> start < size ->
  probe rd f 65 size start e ex w = (a, w', tr) ->
  forall tr1 i ok tr2, tr = tr1 ++ ECall i ok :: tr2 ->
  i < size /\ exists tr0 x, tr1 = tr0 ++ [ERead (i / 64) x] /\ N.testbit x (i mod 64) = e.
Proof.
  intros World T rd f size start e ex w a w' tr RW St E tr1 i ok tr2 ->.
  assert (R := probe_result rd f 65 size start e ex w RW St (le_n _)). rewrite E in R. destruct R as (G & _).
  apply well_app in G as (_ & G). destruct G as (Hi & G & _). split; auto.
  destruct (lastr None tr1) as [[j x]|] eqn:L; [|easy]. destruct G as [-> G].
  apply lastr_end in L as [[_ Q]|(tr0 & ->)]; [discriminate|]. eauto.
Qed.

(** It gives up only after every index below the size was either refused by the
    acceptor or seen with the other value. *)
Theorem C40_probe_complete : forall (World T : Type) rd (f : N -> World -> option T * World) size start e ex w w' tr,
  (forall j w, fst (rd j w) < 2 ^ 64) -> start < size ->
  probe rd f 65 size start e ex w = (NotFound, w', tr) ->
  forall i, i < size ->
  In (ECall i false) tr \/ exists x, In (ERead (i / 64) x) tr /\ N.testbit x (i mod 64) = negb e.
Proof.
  intros World T rd f size start e ex w w' tr RW St E i Hi.
  assert (R := probe_result rd f 65 size start e ex w RW St (le_n _)). rewrite E in R. destruct R as (_ & _ & M & _).
  destruct (proj2 M i Hi) as [Q|(x & Q & D)]; auto. right. exists x. split; auto. destruct (N.testbit x (i mod 64)), e; auto; now contradiction D.
Qed.

(** It stops at the first acceptance, and reports it. *)
Theorem C40_probe_answer : forall (World T : Type) rd (f : N -> World -> option T * World) size start e ex w a w' tr,
  (forall j w, fst (rd j w) < 2 ^ 64) -> start < size ->
  probe rd f 65 size start e ex w = (a, w', tr) ->
  (a = NotFound -> forall i, ~ In (ECall i true) tr) /\
  (forall x, a = Found x -> exists tr' i w0, tr = tr' ++ [ECall i true] /\ fst (f i w0) = Some x /\ forall i', ~ In (ECall i' true) tr').
Proof.
  intros World T rd f size start e ex w a w' tr RW St E.
  assert (R := probe_result rd f 65 size start e ex w RW St (le_n _)). rewrite E in R. destruct R as (_ & _ & M & _). split.
  - intros ->. apply M.
  - intros x ->. apply M.
Qed.

(** It ends: no chunk is looked at more than 65 times, whatever other threads
    do; and with fewer than 64 indices nothing is undefined. *)
Theorem C40_probe_total : forall (World T : Type) rd (f : N -> World -> option T * World) size start e ex w,
  (forall j w, fst (rd j w) < 2 ^ 64) -> start < size ->
  fst (fst (probe rd f 65 size start e ex w)) <> Looping /\
  (size < 64 -> fst (fst (probe rd f 65 size start e ex w)) <> Undefined).
Proof.
  intros World T rd f size start e ex w RW St. assert (R := probe_result rd f 65 size start e ex w RW St (le_n _)).
  destruct (probe rd f 65 size start e ex w) as [[a w'] tr]. destruct R as (_ & _ & M & U). simpl. split.
  - intros ->. exact M.
  - intros S ->. specialize (U eq_refl). lia.
Qed.

(** the acceptor that refuses everything, a world that does not change *)
Definition pair_rd (x y : N) (j : N) (w : unit) : N * unit := (if j =? 0 then x else y, w).
Definition refuse (i : N) (w : unit) : option N * unit := (None, w).
Definition calls (tr : list pev) : list N := flat_map (fun ev => match ev with ECall i _ => [i] | _ => [] end) tr.
Example C40_ex_probe : (forall j w, fst (pair_rd 4398046511172 4611686018427387907 j w) < 2 ^ 64) /\ 70 < 130 /\
  fst (fst (probe (pair_rd 4398046511172 4611686018427387907) refuse 65 128 70 true true tt)) = NotFound /\
  calls (snd (probe (pair_rd 4398046511172 4611686018427387907) refuse 65 128 70 true true tt)) = [64; 65; 126; 2; 6; 42].
Proof. split; [intros j w; unfold pair_rd; simpl; now destruct (j =? 0)|]. now vm_compute. Qed.

(** "elements following start_idx are preferred over preceding ones" *)
Theorem C40_order_refuted : exists size start x, start < size /\ x < 2 ^ 64 /\
  N.testbit x (start + 1) = true /\ N.testbit x 0 = true /\ 0 < start /\
  exists tr, calls (snd (probe (pair_rd x 0) refuse 65 size start true true tt)) = 0 :: tr.
Proof. exists 8, 4, 255. repeat split; try reflexivity. vm_compute. eauto. Qed.

(** [exclude_start] does not keep the start index from being tried *)
Theorem C40_exclude_refuted : exists size start x, start < size /\ x < 2 ^ 64 /\
  In start (calls (snd (probe (pair_rd x 0) refuse 65 size start true true tt))).
Proof. exists 8, 4, 255. split; [reflexivity|]. split; [reflexivity|]. vm_compute. tauto. Qed.

(** with 64 indices or more the search may be undefined *)
Theorem C40_probe_undefined_refuted : exists size start x, start < size /\ x < 2 ^ 64 /\
  fst (fst (probe (pair_rd x 0) refuse 65 size start true true tt)) = Undefined.
Proof. exists 64, 0, (2 ^ 63). now vm_compute. Qed.

(** ** C41: claiming a free worker *)

(** setting and reading single bits: independent cells *)
Theorem C41_cells : forall i v s i', bf_get i' (snd (bf_set i v s)) = if i' =? i then v else bf_get i' s.
Proof. exact bf_set_new. Qed.

(** the answer of [set]: the previous value, for the indices in the lower half of
    their chunk *)
Theorem C41_set_old_partial : forall i v s, i mod 64 < 32 -> fst (bf_set i v s) = bf_get i s.
Proof. intros i v s H. rewrite bf_set_old. apply N.ltb_lt in H. now rewrite H. Qed.
Theorem C41_set_old_refuted : forall i v s, 32 <= i mod 64 -> bf_get i s = true -> fst (bf_set i v s) = false.
Proof. intros i v s H _. rewrite bf_set_old. apply N.ltb_ge in H. now rewrite H. Qed.
Example C41_ex_set : fst (bf_set 93 false (fun _ => 2 ^ 29)) = true /\ fst (bf_set 103 false (fun _ => 2 ^ 39)) = false /\
  bf_get 103 (fun _ => 2 ^ 39) = true.
Proof. now vm_compute. Qed.

(** Any number of threads changing states: the atomic operations form a sequence.
    [claims ops s]: the answers. *)
Fixpoint states (ops : list (N * bool)) (s : words) : list bool :=
  match ops with
  | [] => []
  | (i, v) :: ops => fst (set_worker_state i v s) :: states ops (snd (set_worker_state i v s))
  end.

Lemma sws_claim i s : fst (set_worker_state i false s) = (i mod 64 <? 32) && bf_get i s.
Proof. unfold set_worker_state. rewrite <- (bf_set_old i false s). destruct (bf_set i false s) as [[] s']; reflexivity. Qed.
Lemma sws_new i v s i' : bf_get i' (snd (set_worker_state i v s)) = if i' =? i then v else bf_get i' s.
Proof. unfold set_worker_state. rewrite <- (bf_set_new i v s). now destruct (bf_set i v s) as [old s']. Qed.

(** exclusive: between two successful claims of a worker it was set available *)
Lemma claims_exclusive ops : forall s i k1 k2,
  nth_error ops k2 = Some (i, false) -> nth_error (states ops s) k2 = Some true -> (k1 < k2)%nat ->
  nth_error ops k1 = Some (i, false) ->
  exists k, (k1 < k < k2)%nat /\ nth_error ops k = Some (i, true).
Proof.
  assert (A : forall ops s i k2, bf_get i s = false -> nth_error ops k2 = Some (i, false) -> nth_error (states ops s) k2 = Some true ->
    exists k, (k < k2)%nat /\ nth_error ops k = Some (i, true)).
  { induction ops0 as [|[i' v] ops0 IH]; intros s i k2 G O C; [now destruct k2|].
    destruct k2 as [|k2]; cbn [states nth_error] in O, C.
    - injection O as -> ->. rewrite sws_claim, G, andb_false_r in C. discriminate.
    - destruct (Bool.bool_dec (v && (i' =? i)) true) as [Q|Q].
      + apply andb_true_iff in Q as [-> Q]. apply N.eqb_eq in Q as ->. exists 0%nat. split; [lia|reflexivity].
      + destruct (IH (snd (set_worker_state i' v s)) i k2) as (k & K & Ok); auto.
        * rewrite sws_new, G.
          rewrite N.eqb_sym in Q. destruct (i =? i'), v; auto. now contradiction Q.
        * exists (S k). split; [lia|exact Ok]. }
  induction ops as [|[i' v] ops IH]; intros s i k1 k2 O C L O1; [now destruct k2|].
  destruct k2 as [|k2]; [lia|]. cbn [states nth_error] in O, C. destruct k1 as [|k1]; cbn [nth_error] in O1.
  - injection O1 as -> ->. destruct (A ops (snd (set_worker_state i false s)) i k2) as (k & K & Ok); auto.
    + now rewrite sws_new, N.eqb_refl.
    + exists (S k). split; [lia|exact Ok].
  - destruct (IH (snd (set_worker_state i' v s)) i k1 k2) as (k & K & Ok); auto; [lia|]. exists (S k). split; [lia|exact Ok].
Qed.
Theorem C41_exclusive : forall ops s i k1 k2,
  nth_error ops k1 = Some (i, false) -> nth_error (states ops s) k1 = Some true ->
  nth_error ops k2 = Some (i, false) -> nth_error (states ops s) k2 = Some true -> (k1 < k2)%nat ->
  exists k, (k1 < k < k2)%nat /\ nth_error ops k = Some (i, true).
Proof. intros ops s i k1 k2 O1 _ O2 C2 L. exact (claims_exclusive ops s i k1 k2 O2 C2 L O1). Qed.

(** and of several claims of a free worker, one succeeds (lower half of a chunk) *)
Theorem C41_one_wins_partial : forall ops s i, i mod 64 < 32 -> bf_get i s = true ->
  In (i, false) ops -> (forall v, In (i, v) ops -> v = false) ->
  exists k, nth_error ops k = Some (i, false) /\ nth_error (states ops s) k = Some true /\
  forall k', nth_error ops k' = Some (i, false) -> nth_error (states ops s) k' = Some true -> k' = k.
Proof.
  intros ops s i H G I O.
  assert (E : exists k, nth_error ops k = Some (i, false) /\ nth_error (states ops s) k = Some true).
  { clear O. revert s G. induction ops as [|[i' v] ops IH]; intros s G; [easy|].
    destruct (N.eq_dec i' i) as [->|D].
    - destruct v.
      + destruct I as [I|I]; [discriminate|]. destruct (IH I (snd (set_worker_state i true s))) as (k & K).
        * now rewrite sws_new, N.eqb_refl.
        * exists (S k). exact K.
      + exists 0%nat. split; auto. cbn [states nth_error]. apply N.ltb_lt in H. now rewrite sws_claim, H, G.
    - destruct I as [I|I]; [congruence|]. destruct (IH I (snd (set_worker_state i' v s))) as (k & K).
      + rewrite sws_new.
        apply not_eq_sym, N.eqb_neq in D. now rewrite D.
      + exists (S k). exact K. }
  destruct E as (k & O1 & C1). exists k. split; auto. split; auto. intros k' O2 C2.
  assert (NR : forall j, nth_error ops j <> Some (i, true)).
  { intros j Q. apply nth_error_In in Q. specialize (O true Q). discriminate. }
  destruct (Nat.lt_total k' k) as [L|[L|L]]; auto; exfalso.
  - destruct (C41_exclusive ops s i k' k O2 C2 O1 C1 L) as (j & _ & Q). now apply NR in Q.
  - destruct (C41_exclusive ops s i k k' O1 C1 O2 C2 L) as (j & _ & Q). now apply NR in Q.
Qed.
Example C41_ex_claims : states [(3, false); (5, false); (3, false); (3, true); (3, false)] (fun _ => 40) = [true; true; false; true; true].
Proof. now vm_compute. Qed.

(** the answer of [set_worker_state]: whether the state was changed (lower half) *)
Theorem C41_state_answer_partial : forall i v s, i mod 64 < 32 -> fst (set_worker_state i v s) = negb (Bool.eqb (bf_get i s) v).
Proof.
  intros i v s H. unfold set_worker_state. destruct (bf_set i v s) as (o & s') eqn:E. assert (X := C41_set_old_partial i v s H). rewrite E in X. simpl in *. subst o.
  now destruct (bf_get i s), v.
Qed.

(** claims of a worker in the upper half never succeed, but make it busy *)
Theorem C41_upper_half_refuted : forall i s, 32 <= i mod 64 -> bf_get i s = true ->
  fst (set_worker_state i false s) = false /\ bf_get i (snd (set_worker_state i false s)) = false.
Proof.
  intros i s H G. rewrite sws_claim, sws_new, N.eqb_refl. apply N.ltb_ge in H. now rewrite H.
Qed.

(** [find_free_worker] with the other threads silent: what it reports *)
Theorem C41_found : forall size start s i s' tr, (forall j, s j < 2 ^ 64) -> start < size ->
  find_free_worker size start s = (Found i, s', tr) ->
  i < size /\ bf_get i s = true /\ i mod 64 < 32 /\ bf_get i s' = false.
Proof.
  intros size start s i s' tr W St E. assert (R := find_free_ok size start s W St). rewrite E in R.
  destruct R as (G & (_ & _ & V & _ & C & _) & (tr' & i' & w0 & -> & F & _) & _).
  assert (i' = i) as ->. { destruct (set_worker_state i' false w0) as [[] ?]; simpl in F; congruence. }
  assert (I : In (ECall i true) (tr' ++ [ECall i true])) by (apply in_app_iff; right; now left).
  destruct (C _ _ I) as [C1 C2]. apply well_app in G as [_ G]. destruct G as [G _]. split; auto. split; auto.
  split; [now apply N.ltb_lt|]. rewrite V. apply andb_false_iff. right. apply negb_false_iff, called_true. eauto.
Qed.
(** Finding none means that every free worker is in the upper half of its chunk ... *)
Theorem C41_not_found_partial : forall size start s s' tr, (forall j, s j < 2 ^ 64) -> start < size ->
  find_free_worker size start s = (NotFound, s', tr) ->
  forall i, i < size -> bf_get i s = true -> 32 <= i mod 64.
Proof.
  intros size start s s' tr W St E i Hi G. assert (R := find_free_ok size start s W St). rewrite E in R.
  destruct R as (_ & (_ & _ & V & _ & C & RD) & (M1 & M2) & _).
  assert (A : forall b, In (ECall i b) tr -> 32 <= i mod 64).
  { intros b Q. destruct b; [now apply M1 in Q|]. destruct (C _ _ Q) as [_ Q2]. symmetry in Q2. now apply N.ltb_ge in Q2. }
  destruct (M2 i Hi) as [Q|(x & Q & D)]; [now apply A in Q|].
  destruct (RD _ _ i Q eq_refl) as [Q2|(b & Q2)]; [now destruct (N.testbit x (i mod 64))|congruence|now apply A in Q2].
Qed.
(** ... so with at most 32 workers a free worker is always found, and claimed *)
Theorem C41_claimable_32 : forall size start s i, (forall j, s j < 2 ^ 64) -> start < size -> size <= 32 ->
  i < size -> bf_get i s = true -> exists k s' tr, find_free_worker size start s = (Found k, s', tr).
Proof.
  intros size start s i W St S Hi G. destruct (find_free_worker size start s) as [[a s'] tr] eqn:E.
  assert (R := find_free_ok size start s W St). rewrite E in R. destruct R as (_ & _ & M & U). destruct a.
  - eauto.
  - assert (Q := C41_not_found_partial size start s s' tr W St E i Hi G). rewrite N.mod_small in Q by lia. lia.
  - specialize (U eq_refl). lia.
  - destruct M.
Qed.
(** but with 40 workers a free one may not be found, and is then busy for ever *)
Theorem C41_claimable_refuted : exists size start s i s' tr, (forall j, s j < 2 ^ 64) /\ start < size /\ i < size /\ bf_get i s = true /\
  find_free_worker size start s = (NotFound, s', tr) /\ bf_get i s' = false.
Proof.
  set (r := find_free_worker 40 3 (fun _ => 2 ^ 35)).
  assert (A : fst (fst r) = NotFound) by (vm_compute; reflexivity).
  assert (B : bf_get 35 (snd (fst r)) = false) by (vm_compute; reflexivity).
  exists 40, 3, (fun _ => 2 ^ 35), 35, (snd (fst r)), (snd r). split; [intros; reflexivity|]. split; [reflexivity|]. split; [reflexivity|].
  split; [reflexivity|]. split; [|exact B]. fold r. rewrite <- A. now destruct r as [[? ?] ?].
Qed.
Example C41_ex_find : fst (fst (find_free_worker 20 3 (fun _ => 2 ^ 35 + 2 ^ 9))) = Found 9.
Proof. now vm_compute. Qed.

Definition all_bits := (C40_first_one_partial, C40_first_one_zero, C40_first_one_refuted, @C40_probe_safe, @C40_probe_complete,
  @C40_probe_answer, @C40_probe_total, C40_order_refuted, C40_exclude_refuted, C40_probe_undefined_refuted, C41_cells,
  C41_set_old_partial, C41_set_old_refuted, C41_exclusive, C41_one_wins_partial, C41_state_answer_partial, C41_upper_half_refuted, C41_found,
  C41_not_found_partial, C41_claimable_32, C41_claimable_refuted).
Print Assumptions all_bits.
