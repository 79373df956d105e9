(** C60: what a future gives. *)
From Coq Require Import Bool List Arith NArith ZArith Lia Permutation Sorting.Sorted.
From Verif Require Import AccessModel AccessSpec AccessProof UserModel UserProof SchedModel SchedSpec SchedBase SchedFront SchedThm SchedSeq SchedEx SchedMany SchedValue PropertiesSched PropertiesMany.
Import ListNotations.
Open Scope nat_scope.

(** get() returns after the body has ended and the result was set (histories are newest first) *)
Theorem C60_get_returns_after_the_body :
  forall P n s c l1 l2, wfp P -> p_wrap P = false -> runs P n s -> log s = l1 ++ LGet c :: l2 ->
  In (LEnd c) l2 /\ In (LReach (ERSet c)) l2.
Proof.
  intros P n s c l1 l2 W NW R E. apply (runs_greach P n s W NW) in R.
  destruct (get_waits P W NW n s c l1 l2 R E) as (s0 & _ & <- & A & B). auto.
Qed.

(** At that moment the task has seen what it sees when the tasks submitted before it, and
    it, run one after another, whatever the others have done or not done so far. *)
Theorem C60_get_returns_the_sequential_value :
  forall P n s (S : semantics) g m c l1 l2 ts ts', wfp P -> p_wrap P = false -> flat P -> behaved P -> sensible S -> reach P n s ->
  spawns (p_main P) = ts ++ c :: ts' -> log s = l1 ++ LGet c :: l2 ->
  fst (exec S (performed l2) g m) c = fst (exec S (one_by_one P (ts ++ [c])) g m) c.
Proof.
  intros P n s S g m c l1 l2 ts ts' W NW F BH OK R Q E. apply (flat_greach P W) in R; auto.
  destruct (get_waits P W NW n s c l1 l2 R E) as (s0 & R0 & <- & A & _).
  exact (value P W NW n s0 S g m ts c ts' F BH OK R0 Q A).
Qed.

(** the same from the end of the body on *)
Theorem C60_values_are_final_when_the_body_ends :
  forall P n s (S : semantics) g m c ts ts', wfp P -> p_wrap P = false -> flat P -> behaved P -> sensible S -> reach P n s ->
  spawns (p_main P) = ts ++ c :: ts' -> ended s c ->
  fst (exec S (performed (log s)) g m) c = fst (exec S (one_by_one P (ts ++ [c])) g m) c.
Proof.
  intros P n s S g m c ts ts' W NW F BH OK R Q A. apply (flat_greach P W) in R; auto.
  exact (value P W NW n s S g m ts c ts' F BH OK R Q A).
Qed.

(** several submitting threads, with the schedules of C23: one order of all tasks begun so
    far that keeps that of each thread gives the value of every future *)
Theorem C60_values_with_several_threads :
  forall P ms n k s, wf_many P ms -> p_wrap P = false -> flat P -> behaved P -> creach P ms n k s ->
  exists ts, NoDup ts /\ (forall t, In t ts -> submitted s t) /\ (forall t, started s t -> In t ts) /\
    (forall p t, comes_before P ms p t -> In t ts -> exists a b d, ts = a ++ p :: b ++ t :: d) /\
    forall (S : semantics) g m l1 c l2, sensible S -> ts = l1 ++ c :: l2 -> ended s c ->
    fst (exec S (performed (log s)) g m) c = fst (exec S (one_by_one P (l1 ++ [c])) g m) c.
Proof. intros P ms n k s W NW F B R. exact (many_value P ms W NW n k s F B R). Qed.
Theorem C60_get_waits_with_several_threads :
  forall P ms n k s c l1 l2, wf_many P ms -> p_wrap P = false -> creach P ms n k s -> log s = l1 ++ LGet c :: l2 ->
  In (LEnd c) l2 /\ In (LReach (ERSet c)) l2.
Proof.
  intros P ms n k s c l1 l2 W NW R E.
  destruct (many_get_waits P ms W NW n k s c l1 l2 R E) as (k0 & s0 & _ & <- & A & B). auto.
Qed.

(** The program of PropertiesSched; here the main thread gets task 1 before tasks 2 and 3 have done anything. *)
Definition is_get (c : nat) (x : lev) : bool := match x with LGet d => Nat.eqb d c | _ => false end.
Fixpoint until_get (c : nat) (l : list lev) : list lev * list lev :=
  match l with
  | [] => ([], [])
  | x :: l' => if is_get c x then ([], l') else let p := until_get c l' in (x :: fst p, snd p)
  end.
Lemma until_get_ok c l : existsb (is_get c) l = true -> l = fst (until_get c l) ++ LGet c :: snd (until_get c l).
Proof.
  induction l as [|x l IH]; [easy|]. cbn [existsb until_get]. destruct (is_get c x) eqn:E.
  - intros _. destruct x; try discriminate. apply Nat.eqb_eq in E. now subst.
  - intros H. cbn [fst snd app]. f_equal. now apply IH.
Qed.
Definition early_order : list (nat * pick) := [(0, PNew 0); (1, PExt 0); (1, PReady 0); (1, PNew 0); (2, PReady 0); (2, PNew 0)].
Definition early : state := auto_run ex early_order 1000 (init ex 2).
Lemma early_reach : reach ex 2 early.
Proof. apply auto_reach. constructor. Qed.
Lemma early_gets : existsb (is_get 1) (log early) = true. Proof. vm_compute. reflexivity. Qed.
Example C60_ex : wf ex /\ p_wrap ex = false /\ flat ex /\ behaved ex /\ sensible cells /\ reach ex 2 early /\ runs ex 2 early /\
  spawns (p_main ex) = [0] ++ 1 :: [2; 3] /\ exists l1 l2, log early = l1 ++ LGet 1 :: l2 /\
  length (performed l2) = 3 /\ length (performed (log early)) = 5 /\
  fst (exec cells (performed l2) (fun _ => []) [0; 0]%Z) 1 = [5]%Z.
Proof.
  split; [exact ex_wf|]. split; [reflexivity|]. split; [exact ex_flat|]. split; [exact ex_behaved|]. split; [exact cells_sensible|].
  split; [exact early_reach|]. split; [left; split; [exact ex_flat|exact early_reach]|]. split; [reflexivity|].
  exists (fst (until_get 1 (log early))), (snd (until_get 1 (log early))).
  split; [exact (until_get_ok 1 (log early) early_gets)|]. split; [vm_compute; reflexivity|]. split; vm_compute; reflexivity.
Qed.
Lemma duo_end_gets : existsb (is_get 1) (log duo_end) = true. Proof. vm_compute. reflexivity. Qed.
Example C60_several_ex : wf_many duo duo_ms /\ p_wrap duo = false /\ flat duo /\ behaved duo /\ creach duo duo_ms 2 (length duo_moves) duo_end /\
  ended duo_end 1 /\ exists l1 l2, log duo_end = l1 ++ LGet 1 :: l2 /\ In (LEnd 1) l2 /\
  fst (exec cells (performed l2) (fun _ => []) [0; 0; 0]%Z) 1 = [5]%Z.
Proof.
  split; [exact duo_wf|]. split; [reflexivity|]. split; [exact duo_flat|]. split; [exact duo_behaved|]. split; [exact duo_creach|].
  split; [inlog|]. exists (fst (until_get 1 (log duo_end))), (snd (until_get 1 (log duo_end))).
  split; [exact (until_get_ok 1 (log duo_end) duo_end_gets)|]. split; [inlog|vm_compute; reflexivity].
Qed.

Definition all_value := (@C60_get_returns_after_the_body, @C60_get_returns_the_sequential_value, @C60_values_are_final_when_the_body_ends, @C60_values_with_several_threads, @C60_get_waits_with_several_threads).
Print Assumptions all_value.
