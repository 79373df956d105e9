(** Property C80: callables and arguments of tasks. *)
From Coq Require Import Bool List Arith Lia.
From Verif Require Import BindModel.
Import ListNotations.
Open Scope nat_scope.

Section B.
Context {V : Type} (trivial : nat -> bool) (af : bool).
Notation run := (@exec V trivial af).

(** Specification: what the caller means.  The value of an expression when the call is made, with the
    variables as the assignments alone have left them. *)
Definition set (s : nat -> option V) (o : op V) : nat -> option V :=
  match o with Assign x v => fun y => if y =? x then Some v else s y | Emplace _ _ => s end.
Definition meant (s : nat -> option V) (e : expr V) : option V := match e with LV x | Ref x => s x | RV v => Some v end.
Definition is_ref (e : expr V) : bool := match e with Ref _ => true | _ => false end.

Lemma exec_app : forall s os os', run s (os ++ os') = fold_left (step trivial af) os' (run s os).
Proof. intros s os os'. unfold exec. apply fold_left_app. Qed.
Lemma tasks_stay : forall (os : list (op V)) (st : store V * list (task V)) t n, nth_error (snd st) n = Some t -> nth_error (snd (fold_left (step trivial af) os st)) n = Some t.
Proof.
  induction os as [|o os IH]; intros st t n H; [exact H|]. cbn [fold_left]. apply IH. destruct o as [x v|f args]; cbn [step]; [exact H|].
  destruct (emplace trivial af (fst st) f args) as [u s1]. cbn [snd]. rewrite nth_error_app1; [exact H|]. apply nth_error_Some. congruence.
Qed.
Lemma new_task : forall s os f args os', let t := fst (emplace trivial af (fst (run s os)) f args) in
  nth_error (snd (run s (os ++ Emplace f args :: os'))) (length (snd (run s os))) = Some t.
Proof.
  intros s os f args os' t. rewrite exec_app. cbn [fold_left]. apply tasks_stay. cbn [step]. subst t.
  destruct (emplace trivial af (fst (run s os)) f args) as [u s1]. cbn [snd fst]. rewrite nth_error_app2, Nat.sub_diag by apply le_n. reflexivity.
Qed.
End B.

(** The task emplaced after [os] sees, whenever its body begins and whatever the caller does in between, the
    callable as it was at the call; and each argument other than a std::ref as it was then, unless the
    argument is the variable of the callable itself, which has been moved from. *)
Theorem C80_task_keeps_what_it_was_given : forall V trivial af (s : nat -> option V) os f args os' later,
  is_ref f = false ->
  exists t, nth_error (snd (exec trivial af s (os ++ Emplace f args :: os'))) (length (snd (exec trivial af s os))) = Some t /\
  fst (sees later t) = meant (fst (exec trivial af s os)) f /\
  forall i e, nth_error args i = Some e -> is_ref e = false -> (forall x, e = LV x -> f = LV x -> trivial x = true) ->
    nth_error (snd (sees later t)) i = Some (meant (fst (exec trivial af s os)) e).
Proof.
  intros V trivial af s os f args os' later F. eexists. split; [apply new_task|]. set (s0 := fst (exec trivial af s os)).
  unfold emplace, sees. destruct f as [x|v|x]; cbn [is_ref take_fun] in *; [| |discriminate]; cbn [fst snd t_fun t_args look]; (split; [reflexivity|]);
    intros i e E R NX; rewrite map_map; rewrite (map_nth_error _ _ _ E); f_equal; destruct e as [y|w|y]; cbn [is_ref capture look meant] in *; try reflexivity; try discriminate; destruct af; try reflexivity.
  destruct (trivial x) eqn:Tx; [reflexivity|]. unfold upd. destruct (Nat.eqb_spec y x) as [->|N]; [|reflexivity].
  rewrite (NX x eq_refl eq_refl) in Tx. discriminate.
Qed.
(** An argument std::ref(x) gives the variable as it is when the body begins. *)
Theorem C80_references_follow : forall V trivial af (s : nat -> option V) f args i x later, nth_error args i = Some (Ref x) ->
  nth_error (snd (sees later (fst (emplace trivial af s f args)))) i = Some (later x).
Proof.
  intros V trivial af s f args i x later E. unfold emplace. destruct (take_fun trivial s f) as [ft s1]. unfold sees. cbn [fst snd t_args].
  rewrite map_map. now rewrite (map_nth_error _ _ _ E).
Qed.
(** Arguments are not taken from the caller: emplacing changes no variable but that of a callable. *)
Theorem C80_arguments_stay_with_the_caller : forall V trivial af (s : nat -> option V) f args y,
  (f = LV y -> trivial y = true) -> snd (emplace trivial af s f args) y = s y.
Proof.
  intros V trivial af s f args y H. unfold emplace. destruct f as [x|v|x]; cbn [take_fun snd]; try reflexivity.
  destruct (trivial x) eqn:Tx; [reflexivity|]. unfold upd. destruct (Nat.eqb_spec y x) as [->|N]; [|reflexivity]. rewrite (H eq_refl) in Tx. discriminate.
Qed.

(** Programs that do not use a variable after it was emplaced as a callable, unless its type is trivial
    or it got a new value: [gone] are the variables that must not be used. *)
Definition without (g : nat -> bool) (x : nat) : nat -> bool := fun y => if y =? x then false else g y.
Definition plus (g : nat -> bool) (x : nat) : nat -> bool := fun y => if y =? x then true else g y.
Definition uses {V} (e : expr V) (g : nat -> bool) : bool := match e with LV x => g x | _ => false end.
Definition lost {V} (trivial : nat -> bool) (f : expr V) (g : nat -> bool) : nat -> bool :=
  match f with LV x => if trivial x then g else plus g x | _ => g end.
Fixpoint fine {V} (trivial : nat -> bool) (gone : nat -> bool) (os : list (op V)) : Prop :=
  match os with
  | [] => True
  | Assign x v :: os => fine trivial (without gone x) os
  | Emplace f args :: os => uses f gone = false /\ (forall e, In e args -> uses e (lost trivial f gone) = false) /\ fine trivial (lost trivial f gone) os
  end.
Lemma agree : forall V trivial af os (m : store V) (s : nat -> option V) ts g os', (forall x, g x = false -> m x = s x) -> fine trivial g (os ++ os') ->
  exists g', (forall x, g' x = false -> fst (fold_left (step trivial af) os (m, ts)) x = fold_left set os s x) /\ fine trivial g' os'.
Proof.
  intros V trivial af. induction os as [|o os IH]; intros m s ts g os' A F; [exists g; split; [exact A|exact F]|].
  destruct o as [x v|f args]; cbn [app fine fold_left step set fst snd] in *.
  - apply (IH _ _ _ (without g x)); [|exact F]. intros y Y. unfold upd, without in *. destruct (y =? x); [reflexivity|auto].
  - destruct F as (_ & _ & F). unfold emplace. destruct f as [x|v|x]; cbn [take_fun lost] in *; try (apply (IH _ _ _ g); [exact A|exact F]).
    destruct (trivial x); [apply (IH _ _ _ g); [exact A|exact F]|]. apply (IH _ _ _ (plus g x)); [|exact F].
    intros y Y. unfold upd, plus in *. destruct (y =? x); [discriminate|auto].
Qed.
(** In such programs every task sees its callable and its arguments as the caller meant them. *)
Theorem C80_tasks_see_what_is_meant : forall V trivial af (s : nat -> option V) os f args os' later,
  fine trivial (fun _ => false) (os ++ Emplace f args :: os') -> is_ref f = false ->
  exists t, nth_error (snd (exec trivial af s (os ++ Emplace f args :: os'))) (length (snd (exec trivial af s os))) = Some t /\
  fst (sees later t) = meant (fold_left set os s) f /\
  forall i e, nth_error args i = Some e -> is_ref e = false -> nth_error (snd (sees later t)) i = Some (meant (fold_left set os s) e).
Proof.
  intros V trivial af s os f args os' later F R. destruct (C80_task_keeps_what_it_was_given V trivial af s os f args os' later R) as (t & T & S & A).
  exists t. split; [exact T|]. destruct (agree V trivial af os s s [] (fun _ => false) (Emplace f args :: os')) as (g & G & H); [auto|exact F|].
  cbn [fine] in H. destruct H as (H1 & H2 & _). change (fold_left (step trivial af) os (s, [])) with (exec trivial af s os) in G.
  split; [rewrite S; destruct f as [x|v|x]; cbn [meant uses] in *; [now apply G|reflexivity|discriminate]|].
  intros i e E Re. assert (Ie := nth_error_In _ _ E). specialize (H2 e Ie).
  rewrite (A i e E Re).
  - f_equal. destruct e as [y|w|y]; cbn [meant uses] in *; [|reflexivity|discriminate]. apply G. destruct f as [x|v|x]; cbn [lost] in H2; try exact H2.
    destruct (trivial x); [exact H2|]. unfold plus in H2. destruct (y =? x); [discriminate|exact H2].
  - intros x -> ->. cbn [uses lost] in H2. destruct (trivial x); [reflexivity|]. unfold plus in H2. rewrite Nat.eqb_refl in H2. discriminate.
Qed.
(** variables 0 and 1: callables that own something; 2: a number *)
Definition tr (x : nat) : bool := 2 <=? x.
Definition st0 : nat -> option nat := fun x => Some (10 + x).
Example C80_ex : forall af, let os := [Emplace (LV 0) [LV 2; RV 7; LV 1]; Assign 0 20; Assign 2 30; Emplace (LV 0) [LV 2; LV 2]; Emplace (LV 2) [LV 2]; Emplace (RV 9) [Ref 2]; Assign 2 31] in
  fine tr (fun _ => false) os /\
  map (sees (fst (exec tr af st0 os))) (snd (exec tr af st0 os)) =
  [(Some 10, [Some 12; Some 7; Some 11]); (Some 20, [Some 30; Some 30]); (Some 30, [Some 30]); (Some 9, [Some 31])].
Proof.
  intros af. cbn zeta. split; [|now destruct af]. cbn. repeat split; intros e H; repeat (destruct H as [<-|H]; [reflexivity|]); destruct H.
Qed.
(** emplace_task moves from a callable given as a variable: emplacing it a second time gives a task with
    a callable that was moved from (an empty std::function, say), though the caller never gave it away. *)
Theorem C80_callable_is_kept_refuted : forall af, exists t u, snd (exec tr af st0 [Emplace (LV 0) []; Emplace (LV 0) []]) = [t; u] /\
  fst (sees st0 t) = Some 10 /\ fst (sees st0 u) = None /\ meant (fold_left set [@Emplace nat (LV 0) []] st0) (LV 0) = Some 10 /\
  fst (exec tr af st0 [Emplace (LV 0) []]) 0 = None.
Proof. intros af. do 2 eexists. repeat split. Qed.

(** A body that is begun a second time (C31) sees the same, if no argument that was given as a temporary
    has been moved from. *)
Theorem C80_second_run : forall V keep (t : task V) later, (forall i v, nth_error (t_args t) i = Some (Copy v true) -> keep i = true) ->
  sees later (spent keep t) = sees later t.
Proof.
  intros V keep [f args] later H. unfold sees, spent. cbn [t_fun t_args] in *. f_equal. rewrite map_map.
  assert (G : forall l b, (forall i v, nth_error l i = Some (Copy v true) -> keep (b + i) = true) ->
    map (fun x => look later (match snd x with Copy v true => if keep (fst x) then Copy v true else Copy None true | k => k end)) (combine (seq b (length l)) l) = map (look later) l).
  { induction l as [|k l IH]; intros b K; [reflexivity|]. cbn [length seq combine map fst snd]. f_equal.
    - destruct k as [v [|]|x]; try reflexivity. specialize (K 0 v eq_refl). rewrite Nat.add_0_r in K. now rewrite K.
    - apply IH. intros i v E. specialize (K (S i) v E). now rewrite Nat.add_succ_r in K. }
  apply (G args 0). exact H.
Qed.
Theorem C80_second_run_refuted : forall af, exists t, snd (exec tr af st0 [Emplace (RV 5) [LV 1; RV 6]]) = [t] /\
  sees st0 t = (Some 5, [Some 11; Some 6]) /\ sees st0 (spent (fun _ => false) t) = (Some 5, [Some 11; None]).
Proof. intros [|]; eexists; repeat split. Qed.
(** An argument std::ref(x) is looked at when the body begins, not when the task is emplaced. *)
Theorem C80_references_are_kept_refuted : forall af, exists t, snd (exec tr af st0 [Emplace (RV 5) [Ref 2; LV 2]; Assign 2 40]) = [t] /\
  sees (fst (exec tr af st0 [Emplace (RV 5) [Ref 2; LV 2]; Assign 2 40])) t = (Some 5, [Some 40; Some 12]).
Proof. intros [|]; eexists; repeat split. Qed.

Definition all_bind := (@C80_task_keeps_what_it_was_given, @C80_references_follow, @C80_arguments_stay_with_the_caller, @C80_tasks_see_what_is_meant, @C80_ex, @C80_callable_is_kept_refuted,
  @C80_second_run, @C80_second_run_refuted, @C80_references_are_kept_refuted).
Print Assumptions all_bind.
