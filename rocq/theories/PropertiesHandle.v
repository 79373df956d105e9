(** C27, C28: futures and task builders. *)
From Coq Require Import List Arith Bool Lia.
From Verif Require Import HandleModel HandleProof.
Import ListNotations.

(** Vocabulary (HandleProof.v): [nsub t], [nnot t]: how often a task was handed to a space, its
    result-get event notified; [spaces l]: the spaces that were current at the creations of a history;
    [disciplined l]: a handle that was moved from, copied from, submitted or asked for its result is
    afterwards only destroyed; [vrun l s]: the weaker condition that no future is asked that gave its
    task away (moving such futures around is allowed). *)

(** ** C28 *)
(** at every moment of every history a task was submitted at most once, and then in the space that was
    current at its creation *)
Theorem C28_submitted_at_most_once_in_its_space : forall l s, run init l = Some (Ok s) ->
  forall t, nsub t (log s) <= 1 /\ forall p, In (ESubmit t p) (log s) -> nth_error (spaces l) t = Some p.
Proof.
  intros l s R t. assert (B := binv_run l s R). split; [rewrite (bi_cnt _ _ B); destruct (subm s t); simpl; lia|apply (bi_log _ _ B)].
Qed.
(** a task that was not submitted is held by exactly one builder, and that one is alive *)
Theorem C28_pending_task_has_one_builder : forall l s, run init l = Some (Ok s) ->
  forall t, t < length (spaces l) -> nsub t (log s) = 0 -> exists b, b_live (blds s b) = true /\ b_task (blds s b) = Some t /\ forall c, b_task (blds s c) = Some t -> c = b.
Proof.
  intros l s R t T N. assert (B := binv_run l s R). rewrite (bi_cnt _ _ B) in N. rewrite (bi_n _ _ B) in T.
  destruct (bi_held _ _ B t T) as (b & Hb); [destruct (subm s t); [discriminate|reflexivity]|].
  exists b. split; [apply (bi_holds _ _ B b t Hb)|]. split; [exact Hb|]. intros c Hc. apply (bi_one _ _ B c b t Hc Hb).
Qed.
(** when all builders are gone every task was submitted exactly once *)
Theorem C28_submitted_exactly_once : forall l s, run init l = Some (Ok s) -> (forall b, b_live (blds s b) = false) ->
  forall t, t < length (spaces l) -> nsub t (log s) = 1.
Proof.
  intros l s R D t T. destruct (C28_submitted_at_most_once_in_its_space l s R t) as (M & _). destruct (nsub t (log s)) as [|[|n]] eqn:N; [|reflexivity|lia].
  destruct (C28_pending_task_has_one_builder l s R t T N) as (b & L & _). rewrite D in L. discriminate.
Qed.
Theorem C28_never_undefined_partial : forall l, disciplined l -> run init l <> Some UB.
Proof. intros l D H. destruct (disciplined_ok l D) as [E|(s & E & _)]; congruence. Qed.

(** what emplace_task(f).enable_stack_switching() does before it returns a builder by value, then two
    more tasks, one submitted and one dropped *)
Definition h1 : list op :=
  [Create 7; MoveB 0; DropB 0; MoveB 1; DropB 1; SetB 2; CopyB 2; DropB 2; Create 8; SubmitB 4; DropB 4; Create 7; MoveB 5; DropB 5; DropB 6; DropB 3; MoveF 1; DropF 1; Run 1 42; GetF 6; DropF 6].
Lemma split_in : forall (A : Type) (l l1 : list A) o l2, l = l1 ++ o :: l2 -> exists n, nth_error l n = Some o /\ firstn n l = l1.
Proof. intros A l l1 o l2 ->. exists (length l1). split; [rewrite nth_error_app2 by lia; now rewrite Nat.sub_diag|]. rewrite firstn_app, Nat.sub_diag, firstn_all. apply app_nil_r. Qed.
(** decidable form of the discipline *)
Definition key (o : op) : option (bool * nat) := match o with SetB b | SubmitB b | CopyB b | MoveB b => Some (true, b) | ReadyF f | GetF f | MoveF f => Some (false, f) | _ => None end.
Definition spent (o : op) : option (bool * nat) := match o with SubmitB b | CopyB b | MoveB b => Some (true, b) | GetF f | MoveF f => Some (false, f) | _ => None end.
Definition keqb (a b : option (bool * nat)) : bool := match a, b with Some (x, i), Some (y, j) => Bool.eqb x y && Nat.eqb i j | _, _ => false end.
Definition disciplinedb (l : list op) : bool :=
  forallb (fun n => match nth_error l n with Some o => forallb (fun o' => negb (keqb (key o) (spent o'))) (firstn n l) | None => true end) (seq 0 (length l)).
Lemma disciplinedb_ok : forall l, disciplinedb l = true -> disciplined l.
Proof.
  intros l H l1 o l2 E. destruct (split_in _ l l1 o l2 E) as (n & N & F). unfold disciplinedb in H. rewrite forallb_forall in H.
  assert (L : n < length l) by (apply nth_error_Some; congruence). specialize (H n). rewrite N, F in H. rewrite in_seq in H. assert (K := H (conj (Nat.le_0_l n) L)). rewrite forallb_forall in K.
  split; intros x o' U I S; specialize (K o' I); apply negb_true_iff in K; cut (keqb (key o) (spent o') = true); [congruence|..|congruence|].
  - destruct U as [->|[->|[->| ->]]], S as [->|[->| ->]]; simpl; apply Nat.eqb_refl.
  - destruct U as [->|[->| ->]], S as [->| ->]; simpl; apply Nat.eqb_refl.
Qed.
Lemma run_get : forall l (Q : st -> Prop), match run init l with Some (Ok s) => Q s | _ => False end -> exists s, run init l = Some (Ok s) /\ Q s.
Proof. intros l Q H. destruct (run init l) as [[s|]|]; [eauto|destruct H..]. Qed.
Example C28_ex : disciplined h1 /\ length (spaces h1) = 3 /\ exists s, run init h1 = Some (Ok s) /\
  (map (fun b => b_live (blds s b)) (seq 0 (nb s)), rev (log s)) =
  (repeat false 7, [ESubmit 1 8; ESubmit 2 7; ENotify 2; ESubmit 0 7; ENotify 0; EGot 1 (Val 42); ENotify 1]).
Proof. split; [apply disciplinedb_ok; reflexivity|]. split; [reflexivity|]. apply run_get. vm_compute. reflexivity. Qed.
Example C28_ex_all_gone : exists s, run init h1 = Some (Ok s) /\ forall b, b_live (blds s b) = false.
Proof.
  destruct C28_ex as (_ & _ & s & R & E). exists s. split; [exact R|]. intros b. assert (N : nb s = 7). { assert (X := f_equal (fun p => length (fst p)) E). simpl in X. rewrite map_length, seq_length in X. exact X. }
  destruct (le_lt_dec 7 b) as [G|G]; [apply (bi_fresh _ _ (binv_run _ _ R)); lia|]. assert (X := f_equal fst E). simpl in X. rewrite N in X.
  do 7 (destruct b as [|b]; [injection X; auto|]). lia.
Qed.
(** the "copy" is a move: using the original afterwards dereferences a null pointer; so does submitting twice *)
Theorem C28_copied_builder_usable_refuted :
  run init [Create 0; CopyB 0; SubmitB 1; SubmitB 0] = Some UB /\ run init [Create 0; CopyB 0; SetB 0] = Some UB /\ run init [Create 0; SubmitB 0; SubmitB 0] = Some UB.
Proof. repeat split; reflexivity. Qed.

(** ** C27 *)
Theorem C27_released_at_most_once : forall l s, vrun l s -> forall t, nnot t (log s) <= 1.
Proof. intros l s V t. rewrite (fi_cnt _ _ (finv_run l s V)). destruct (rget s t); simpl; lia. Qed.
(** when the futures of a submitted task are gone it was released exactly once *)
Theorem C27_released_exactly_once : forall l s, vrun l s -> forall t, nsub t (log s) = 1 -> (forall f, f_task (futs s f) = t -> f_live (futs s f) = false) -> nnot t (log s) = 1.
Proof.
  intros l s V t N D. assert (F := finv_run l s V). assert (B := binv_run l s (vrun_run l s V)). rewrite (bi_cnt _ _ B) in N. rewrite (fi_cnt _ _ F).
  destruct (rget s t) eqn:G; [reflexivity|exfalso]. destruct (fi_held _ _ F t) as (f & L & _ & T); [destruct (subm s t); [reflexivity|discriminate]|exact G|].
  rewrite (D f T) in L. discriminate.
Qed.
(** and by get(), at once *)
Theorem C27_released_by_get : forall l f s, vrun (l ++ [GetF f]) s -> nnot (f_task (futs s f)) (log s) = 1.
Proof.
  intros l f s V. inversion V as [H|l0 s0 o s' V0 U S H]; [destruct l; discriminate|]. apply app_inj_tail in H as (-> & ->). subst s'. simpl in S. unfold live_f in S.
  destruct (f_live (futs s0 f)); [|discriminate]. destruct (get_fut_ok s0 f s S) as (_ & _ & _ & _ & _ & _ & G & _ & _ & F & _). rewrite F, upd_eq. simpl.
  rewrite (fi_cnt _ _ (finv_run _ _ V)), G, upd_eq. reflexivity.
Qed.
(** never before: a living future that was neither moved from nor asked keeps its task, and is the only one *)
Theorem C27_not_released_early : forall l s f, disciplined l -> run init l = Some (Ok s) -> f_live (futs s f) = true -> (forall o, In o l -> ~ spends_f o f) ->
  nnot (f_task (futs s f)) (log s) = 0 /\ nsub (f_task (futs s f)) (log s) = 1 /\
  forall g, f_live (futs s g) = true -> (forall o, In o l -> ~ spends_f o g) -> f_task (futs s g) = f_task (futs s f) -> g = f.
Proof.
  intros l s f D R L N. destruct (disciplined_ok l D) as [E|(s' & E & V & H)]; [congruence|]. assert (s' = s) by congruence. subst s'. assert (F := finv_run l s V). assert (B := binv_run l s R).
  assert (T : forall g, f_live (futs s g) = true -> (forall o, In o l -> ~ spends_f o g) -> f_taken (futs s g) = false).
  { intros g Lg Ng. destruct (f_taken (futs s g)) eqn:Z; [|reflexivity]. destruct (hi_f _ _ H g Lg Z) as (o & Io & So). destruct (Ng o Io So). }
  assert (O : open s f (f_task (futs s f))) by (split; [|split]; auto). destruct (fi_open _ _ F _ _ O) as (S1 & S2).
  rewrite (fi_cnt _ _ F), S2, (bi_cnt _ _ B), S1. split; [reflexivity|]. split; [reflexivity|]. intros g Lg Ng Eg. apply (fi_one _ _ F g f (f_task (futs s f))); auto. split; [|split]; auto.
Qed.
(** get() returns the value the body computed; the body computed one value *)
Theorem C27_get_returns_the_value : forall l s t c, vrun l s -> In (EGot t c) (log s) -> exists v, c = Val v /\ In (Run t v) l /\ forall w, In (Run t w) l -> w = v.
Proof.
  intros l s t c V H. assert (F := finv_run l s V). destruct (fi_got _ _ F t c H) as (v & E & I). exists v. split; [exact E|]. split; [exact I|].
  destruct (fi_res _ _ F t) as [[_ Z]|(x & _ & U & _)]; [destruct (Z v I)|]. intros w W. rewrite (U v I). auto.
Qed.
(** the discipline is enough *)
Theorem C27_disciplined_is_valid : forall l s, disciplined l -> run init l = Some (Ok s) -> vrun l s.
Proof. intros l s D R. destruct (disciplined_ok l D) as [E|(s' & E & V & _)]; [congruence|]. assert (s' = s) by congruence. now subst. Qed.
(** moved through a function and a container, asked, destroyed *)
Definition h2 : list op := [Create 0; SubmitB 0; DropB 0; MoveF 1; DropF 1; MoveF 2; DropF 2; MoveF 3; Create 0; SubmitB 1; Run 0 5; GetF 4].
Example C27_ex : disciplined h2 /\ exists s, run init h2 = Some (Ok s) /\
  (f_live (futs s 4), f_live (futs s 6), f_task (futs s 6), rev (log s)) = (true, true, 1, [ESubmit 0 0; ESubmit 1 0; EGot 0 (Val 5); ENotify 0]).
Proof. split; [apply disciplinedb_ok; reflexivity|]. apply run_get. vm_compute. reflexivity. Qed.
Example C27_ex_gone : exists s, vrun h1 s /\ nsub 1 (log s) = 1 /\ forall f, f_task (futs s f) = 1 -> f_live (futs s f) = false.
Proof.
  destruct (run_get h1 (fun s => (nsub 1 (log s), nf s, map (fun f => f_live (futs s f)) (seq 0 7)) = (1, 7, repeat false 7))) as (s & R & E); [vm_compute; reflexivity|].
  injection E as E1 E2 E3. exists s. assert (V := C27_disciplined_is_valid _ _ (proj1 C28_ex) R). split; [exact V|]. split; [exact E1|]. intros f _.
  destruct (le_lt_dec 7 f) as [G|G]; [apply (fi_fresh _ _ (finv_run _ _ V)); lia|]. do 7 (destruct f as [|f]; [auto|]). lia.
Qed.
(** a moved-from future may be moved and destroyed, not asked *)
Definition h3 : list op := [Create 0; SubmitB 0; MoveF 1; MoveF 1; DropF 3; DropF 1; DropF 2].
Example C27_ex_moved : exists s, vrun h3 s /\ nnot 0 (log s) = 1.
Proof.
  destruct (run_get h3 (fun s => nnot 0 (log s) = 1)) as (s & R & E); [vm_compute; reflexivity|]. exists s. split; [|exact E].
  assert (G : forall l1 l2 s1, vrun l1 s1 -> forallb (fun o => match o with GetF _ | ReadyF _ => false | _ => true end) l2 = true -> forall s2, run s1 l2 = Some (Ok s2) -> vrun (l1 ++ l2) s2).
  { clear. intros l1 l2. revert l1. induction l2 as [|o l2 IH]; intros l1 s1 V F s2 R; [injection R as <-; now rewrite app_nil_r|].
    simpl in R, F. apply andb_true_iff in F as (F1 & F2). destruct (step s1 o) as [[s3|]|] eqn:S; try discriminate. replace (l1 ++ o :: l2) with ((l1 ++ [o]) ++ l2) by now rewrite <- app_assoc.
    apply (IH _ s3); auto. econstructor; eauto. destruct o; simpl; auto; discriminate. }
  apply (G [] h3 init); auto. constructor.
Qed.
(** a second get(), a get() on a moved-from future, is_ready() after get(): the task may be destroyed already *)
Theorem C27_any_use_refuted :
  run init [Create 0; SubmitB 0; Run 0 5; GetF 1; GetF 1] = Some UB /\
  run init [Create 0; SubmitB 0; Run 0 5; MoveF 1; GetF 1; DropF 2] = Some UB /\
  run init [Create 0; SubmitB 0; Run 0 5; GetF 1; ReadyF 1] = Some UB.
Proof. repeat split; reflexivity. Qed.

Definition all_handle := (C28_submitted_at_most_once_in_its_space, C28_pending_task_has_one_builder, C28_submitted_exactly_once, C28_never_undefined_partial, C28_copied_builder_usable_refuted,
  C27_released_at_most_once, C27_released_exactly_once, C27_released_by_get, C27_not_released_early, C27_get_returns_the_value, C27_disciplined_is_valid, C27_any_use_refuted).
Print Assumptions all_handle.
