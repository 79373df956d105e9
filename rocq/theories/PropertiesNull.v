(** Property C82: null requests in the MPI request pool. *)
From Coq Require Import Bool List Arith NArith Lia Permutation.
From Verif Require Import MiscModel MiscProof PropertiesMisc NullModel.
Import ListNotations.
Open Scope N_scope.

Definition ev (t : N * N * N) : N := snd (fst t).
Definition req (t : N * N * N) : N := fst (fst t).
Definition logw (log : list (N * N * N * N)) := map (fun '(_, _, c, s) => (c, s)) log.
Definition logn (log : list (N * N * N * N)) := map (fun '(_, e, _, _) => e) log.

Lemma run_null : forall ops l log, answered ops (pool_of l (logw log) (logn log)) ->
  exists l' more, mp_run ops (pool_of l (logw log) (logn log)) = Some (pool_of l' (logw (log ++ more)) (logn (log ++ more))) /\
    Permutation (l ++ added ops) (l' ++ map fst more) /\ forall x, In x more -> req (fst x) <> null.
Proof.
  induction ops as [|[r e c|out] ops IH]; intros l log A.
  - exists l, []. rewrite app_nil_r. cbn. rewrite !app_nil_r. split; [reflexivity|]. split; [reflexivity|easy].
  - assert (P : mp_add r e c (pool_of l (logw log) (logn log)) = pool_of (l ++ [(r, e, c)]) (logw log) (logn log)) by (unfold mp_add, pool_of; cbn; now rewrite !map_app).
    cbn [answered] in A. rewrite P in A. destruct (IH _ _ A) as (l' & more & E & Q & Z). exists l', more. cbn [mp_run mp_step]. rewrite P. split; [exact E|]. split; [|exact Z].
    rewrite <- Q, <- app_assoc. reflexivity.
  - cbn [answered] in A. destruct A as [[ND R] A].
    assert (V : testsome out (length l)).
    { split; [exact ND|]. intros j s H. destruct (R j s H) as (x & X & _). cbn [pool_of m_req] in X. assert (B : (j < length (map (fun t => fst (fst t)) l))%nat) by (apply nth_error_Some; now rewrite X). now rewrite map_length in B. }
    destruct (C47_poll_notifies_exactly_the_reported l out (logw log) (logn log) V) as (kept & rep & E & Len & At & Perm & _).
    rewrite E in A. replace (logw log ++ map (fun '(_, _, c, s) => (c, s)) rep) with (logw (log ++ rep)) in * by (unfold logw; now rewrite map_app).
    replace (logn log ++ map (fun '(_, e, _, _) => e) rep) with (logn (log ++ rep)) in * by (unfold logn; now rewrite map_app).
    destruct (IH _ _ A) as (l' & more & E' & Q & Z). exists l', (rep ++ more). cbn [mp_run mp_step]. rewrite E, app_assoc. split; [exact E'|]. split.
    + cbn [added flat_map app]. fold (added ops). rewrite Perm, map_app, <- app_assoc. rewrite (Permutation_app_comm (map fst rep) (added ops)), app_assoc, Q, <- app_assoc. apply Permutation_app_head, Permutation_app_comm.
    + intros x X. apply in_app_or in X as [X|X]; [|now apply Z]. apply In_nth_error in X as [i X].
      assert (B : (i < length out)%nat) by (rewrite <- Len; apply nth_error_Some; now rewrite X).
      destruct (nth_error out i) as [[j s]|] eqn:O; [|apply nth_error_None in O; lia]. destruct (At i j s O) as (t & T & U). rewrite U in X. injection X as <-. cbn [fst].
      destruct (R j s (nth_error_In _ _ O)) as (q & Q1 & Q2). cbn [pool_of m_req] in Q1. rewrite nth_error_map, T in Q1. injection Q1 as <-. exact Q2.
Qed.

(** In every history the pool is well, the requests are those pending and those completed, each once, and no null
    request is among the completed. *)
Theorem C82_no_null_request_completes : forall ops, answered ops mp_init -> exists pending log,
  mp_run ops mp_init = Some (pool_of pending (map (fun '(_, _, c, s) => (c, s)) log) (map (fun '(_, e, _, _) => e) log)) /\
  Permutation (added ops) (pending ++ map fst log) /\ forall r e c s, In (r, e, c, s) log -> r <> null.
Proof.
  intros ops A. destruct (run_null ops [] [] A) as (l & more & E & P & Z). exists l, more. split; [exact E|]. split; [exact P|]. intros r e c s H. exact (Z _ H).
Qed.
(** So the event of a get_status with a null request is never notified: it never returns, and what it put into the
    pool stays there. *)
Theorem C82_null_requests_wait_forever : forall ops p e c, answered ops mp_init -> NoDup (map ev (added ops)) -> mp_run ops mp_init = Some p ->
  In (null, e, c) (added ops) -> ~ In e (notified p) /\ In e (m_ev p) /\ In null (m_req p).
Proof.
  intros ops p e c A D E I. destruct (C82_no_null_request_completes ops A) as (pend & log & E' & P & Z). rewrite E' in E. injection E as <-. cbn [pool_of notified m_ev m_req].
  assert (J : In (null, e, c) pend).
  { apply (Permutation_in _ P) in I. apply in_app_or in I as [I|I]; [exact I|]. apply in_map_iff in I as ([[[r e1] c1] s] & X & Y). injection X as -> -> ->. now destruct (Z _ _ _ _ Y). }
  split; [|split]; [|apply in_map_iff; now exists (null, e, c)|apply in_map_iff; now exists (null, e, c)].
  intros N. apply in_map_iff in N as ([[[r e1] c1] s] & X & Y). subst e1.
  apply (Permutation_map ev), (Permutation_NoDup) in P; [|exact D]. rewrite map_app in P.
  apply in_split in J as (a & b & ->). rewrite map_app, <- app_assoc in P. cbn [map app] in P. apply NoDup_remove_2 in P. apply P.
  rewrite !in_app_iff. right. right. apply in_map_iff. exists (r, e, c1). split; [reflexivity|]. apply in_map_iff. now exists (r, e, c1, s).
Qed.
(** Null requests are no obstacle to the others: whatever is pending and not null may be completed by the next poll. *)
Theorem C82_others_can_complete : forall l w n r e c s, In (r, e, c) l -> r <> null ->
  exists j p, report [(j, s)] (m_req (pool_of l w n)) /\ mp_poll [(j, s)] (pool_of l w n) = Some p /\ notified p = n ++ [e] /\ written p = w ++ [(c, s)].
Proof.
  intros l w n r e c s I NZ. apply In_nth_error in I as [j J]. exists j.
  assert (V : testsome [(j, s)] (length l)).
  { split; [constructor; [easy|constructor]|]. intros j1 s1 [[= <- <-]|[]]. apply nth_error_Some. now rewrite J. }
  destruct (C47_poll_notifies_exactly_the_reported l [(j, s)] w n V) as (kept & rep & E & Len & At & _ & _).
  destruct (At 0%nat j s eq_refl) as (t & T & R). rewrite J in T. injection T as <-. destruct rep as [|x [|y rep]]; try discriminate. injection R as ->.
  eexists. split; [|split; [exact E|split; reflexivity]]. split; [constructor; [easy|constructor]|]. intros j1 s1 [[= <- <-]|[]]. exists r. split; [|exact NZ]. cbn [pool_of m_req]. now rewrite nth_error_map, J.
Qed.
Definition h_ex : list mop := [MAdd 5 11 21; MAdd null 12 22; MAdd 7 13 23; MPoll [(2%nat, 9)]; MPoll [(0%nat, 8)]; MPoll []].
Example C82_ex : answered h_ex mp_init /\ NoDup (map ev (added h_ex)) /\ In (null, 12, 22) (added h_ex) /\
  mp_run h_ex mp_init = Some (mkPool [null] [12] [22] [(23, 9); (21, 8)] [13; 11]).
Proof.
  split; [|split; [|split; [right; now left|reflexivity]]].
  - cbn. assert (S1 : forall a, NoDup [a : nat]) by (intros; constructor; [easy|constructor]). repeat split; try apply S1; try constructor; try easy.
    + intros j s [[= <- <-]|[]]. now exists 7.
    + intros j s [[= <- <-]|[]]. now exists 5.
  - cbn. repeat constructor; cbn; intros H; repeat destruct H as [H|H]; try discriminate; easy.
Qed.
(** Unlike MPI_Wait, which returns at once for a null request, get_status does not give a status for every request. *)
Theorem C82_every_get_status_may_return_refuted :
  ~ (forall ops r e c, answered ops mp_init -> NoDup (map ev (added ops)) -> In (r, e, c) (added ops) ->
     exists polls p, added polls = [] /\ answered (ops ++ polls) mp_init /\ mp_run (ops ++ polls) mp_init = Some p /\ In e (notified p)).
Proof.
  intros H. destruct C82_ex as (A & D & I & _). destruct (H h_ex _ _ _ A D I) as (polls & p & N & A2 & E & X).
  assert (F : added (h_ex ++ polls) = added h_ex) by (unfold added in *; rewrite flat_map_app, N; apply app_nil_r).
  destruct (C82_null_requests_wait_forever (h_ex ++ polls) p 12 22 A2) as (Y & _); [now rewrite F|exact E|now rewrite F|]. now apply Y.
Qed.

Definition all_null := (@C82_no_null_request_completes, @C82_null_requests_wait_forever, @C82_others_can_complete, @C82_ex, @C82_every_get_status_may_return_refuted).
Print Assumptions all_null.
