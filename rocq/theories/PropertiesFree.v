(** Several threads of the user that submit into the root space, in every interleaving (C62).

    C23 shows that such threads can deadlock, and C23's positive results are for orderly
    submissions.  Here nothing is assumed of the interleaving, except, for programs with
    nested tasks, that children have collected their dependencies before the body of the
    parent ends ([end_ok], as in C13): what survives is that conflicting tasks are ordered,
    without data races, each thread's tasks in its order, and that the outcome is that of
    running the tasks one after the other in the order in which their bodies were handed out.
    Two things are lost: progress, unless the lists agree on an order, and the order of the
    threads among tasks that do not conflict directly. *)
From Coq Require Import Bool List Arith NArith ZArith Lia Permutation Sorting.Sorted.
From Verif Require Import AccessModel AccessSpec AccessProof UserModel UserProof SchedModel SchedSpec SchedBase SchedInv1 SchedInv2 SchedInv3 SchedInv8 SchedFront SchedThm SchedLive SchedTerm SchedStack SchedSeq SchedMore SchedEx SchedMany SchedValue SchedFree NestSpec PropertiesSched PropertiesMany PropertiesNest HbModel HbSpec HbThm HbRace HbFree PropertiesHb.
Import ListNotations.
Open Scope nat_scope.

(** ** Examples *)
(** the entries into user lists during a run *)
Fixpoint entries (P : prog) (s : state) (l : list (nat * pick)) : list (nat * nat) :=
  match l with
  | [] => []
  | (i, c) :: l => match nth_error (thr s) i with Some (FSub _ t (r :: _) _ :: _) => [(r, t)] | _ => [] end
                   ++ match step P s i c with Some s' => entries P s' l | None => [] end
  end.
Definition order_in (e : list (nat * nat)) (r : nat) : list nat := map snd (filter (fun x => Nat.eqb (fst x) r) e).
Lemma crun_freach P ms n l : forall s k ord s', freach P ms n k s ord -> crun any P s l = Some s' ->
  exists ord', freach P ms n (k + length l) s' ord' /\ forall r, ord' r = ord r ++ order_in (entries P s l) r.
Proof.
  induction l as [|[i c] l IH]; intros s k ord s' R; simpl.
  - intros H; injection H as <-. exists ord. rewrite Nat.add_0_r. split; auto. intros r. unfold order_in. simpl. now rewrite app_nil_r.
  - destruct (end_okb P s i) eqn:E; [|discriminate]. destruct (step P s i c) as [s1|] eqn:S; [|discriminate]. intros H.
    destruct (IH s1 (Datatypes.S k) _ s' (freach_step P ms n k s ord i c s1 R (end_okb_ok P s i E) S) H) as (ord' & R' & O).
    exists ord'. rewrite Nat.add_succ_r. split; auto. intros r. rewrite O, <- app_assoc. f_equal. unfold order_in, enters.
    destruct (nth_error (thr s) i) as [[|f fs]|]; auto. destruct f; auto. destruct rs as [|x rs]; auto.
    simpl. destruct (Nat.eqb x r); reflexivity.
Qed.
Lemma hgo_fhist P ms n l : forall s tr s' tr', fhist P ms n s tr -> hgo (end_okb P) P s tr l = Some (s', tr') -> fhist P ms n s' tr'.
Proof.
  induction l as [|[i c] l IH]; intros s tr s' tr' R; simpl; [intros H; injection H as <- <-; auto|].
  destruct (end_okb P s i) eqn:E; [|discriminate].
  destruct (step P s i c) as [s1|] eqn:S; [|discriminate]. apply IH. constructor; auto. now apply end_okb_ok.
Qed.
Lemma out_fhist P ms n l : is_some (hgo (end_okb P) P (init_many P ms n) [] l) = true ->
  fhist P ms n (fst (out P (hgo (end_okb P) P (init_many P ms n) [] l))) (snd (out P (hgo (end_okb P) P (init_many P ms n) [] l))).
Proof. intros H. eapply (hgo_fhist P ms n l); [constructor|]. now apply out_some. Qed.

(** task 0 reads cell 2, task 1 writes cell 1, task 2 (of the other thread) reads cell 1
    and writes cell 2: it enters the list of cell 2 before and that of cell 1 after the
    first thread has submitted both its tasks; task 3 follows it *)
Definition mix_tasks : list tdef :=
  [mkTdef None (declare 0 [acc 2 MRead] []) [cell 2 KRead 0];
   mkTdef None (declare 0 [acc 1 MWrite] []) [cell 1 KWrite 5%Z];
   mkTdef None (declare 0 [acc 1 MRead; acc 2 MWrite] []) [cell 1 KRead 0; cell 2 KWrite 6];
   mkTdef None (declare 0 [acc 2 MRead] []) [cell 2 KRead 0]].
Definition mix_ms : list (list instr) := [[ISpawn 0; ISpawn 1; IDrop 0; IGet 1]; [ISpawn 2; ISpawn 3; IDrop 2; IDrop 3; IBarrier]].
Definition mix : prog := lprog (concat mix_ms) mix_tasks false.
Definition mix_moves : list (nat * pick) :=
  phases mix [([(1, PNew 0)], 2); ([(0, PNew 0)], 8); (moves_of 2, 26); (moves_of 3 ++ moves_of 2 ++ [(1, PNew 0); (0, PNew 0)], 300)] (init_many mix mix_ms 2).
Definition mix_end : state := match crun any mix (init_many mix mix_ms 2) mix_moves with Some s => s | None => init mix 0 end.
Lemma mix_freach : exists ord, freach mix mix_ms 2 (length mix_moves) mix_end ord /\ forall r, ord r = order_in [(2, 2); (2, 0); (1, 1); (1, 2); (2, 3)] r.
Proof.
  unfold mix_end. destruct (crun any mix (init_many mix mix_ms 2) mix_moves) as [s|] eqn:E.
  - destruct (crun_freach mix mix_ms 2 mix_moves _ 0 _ s (freach_init _ _ _) E) as (ord & R & O). exists ord. split; auto.
  - exfalso. apply (f_equal (fun x => match x with Some _ => true | None => false end)) in E. vm_compute in E. discriminate.
Qed.
Lemma mix_wf : wf_many mix mix_ms.
Proof. apply wf_wf_many; [apply wfb_ok; vm_compute; reflexivity|reflexivity|vm_compute; reflexivity]. Qed.
Lemma mix_flat : flat mix. Proof. apply flatb_ok. vm_compute. reflexivity. Qed.
Lemma mix_nodup t : NoDup (uniq mix t).
Proof.
  destruct t as [|[|[|[|t]]]].
  1-4: unfold uniq, user, mix, lprog; simpl; repeat (constructor; [simpl; lia|]); constructor.
  unfold mix, lprog, uniq, user; simpl. destruct t; constructor.
Qed.
Lemma mix_behaved : behaved mix.
Proof.
  intros t a H. few t; ins H.
  all: simpl; eexists; eexists; first
    [solve [split; [left; reflexivity|simpl; auto]] | solve [split; [right; left; reflexivity|simpl; auto]]].
Qed.
Lemma mix_stuck : stuck mix mix_end. Proof. apply stuckb_ok. vm_compute. reflexivity. Qed.
Lemma mix_before : comes_before mix mix_ms 0 1 /\ comes_before mix mix_ms 2 3.
Proof.
  split; [exists None, (nth 0 mix_ms []), [], [], []|exists None, (nth 1 mix_ms []), [], [], []]; split; simpl; auto.
Qed.
Lemma mix_conflict : tasks_conflict mix 0 2 /\ tasks_conflict mix 2 3.
Proof.
  split; [exists (acc 2 MRead), (acc 2 MWrite), TIO, MRead, MWrite, KRead, KWrite|exists (acc 2 MWrite), (acc 2 MRead), TIO, MWrite, MRead, KWrite, KRead];
    repeat split; simpl; auto.
Qed.
(** the second thread is inside a submission when the first begins one that shares a list *)
Example C62_not_orderly_ex : crun (begin_okb mix) mix (init_many mix mix_ms 2) mix_moves = None.
Proof. vm_compute. reflexivity. Qed.

(** ** The executions *)
(** Without nested tasks these are all executions. *)
Theorem C62_every_interleaving_is_covered :
  forall P ms n l s, wf_any P ms -> p_wrap P = false -> (forall q, NoDup (uniq P q)) -> flat P ->
  run P (init_many P ms n) l = Some s -> exists ord, freach P ms n (length l) s ord.
Proof.
  intros P ms n l s W NW ND F.
  assert (X : forall l s0 k ord, freach P ms n k s0 ord -> run P s0 l = Some s -> exists ord', freach P ms n (k + length l) s ord').
  { clear l. induction l as [|[i c] l IH]; intros s0 k ord R; simpl; [intros H; injection H as <-; rewrite Nat.add_0_r; eauto|].
    destruct (step P s0 i c) as [s1|] eqn:S; [|discriminate]. rewrite Nat.add_succ_r. apply (IH s1 (Datatypes.S k) (fun r => ord r ++ enters s0 i r)).
    econstructor; eauto. intros q fs _ c' Hc Hs. exfalso.
    assert (WU := wff P ms W ord). assert (I := mreach_Inv P WU NW n s0 (freach_mreach P ms W NW n ND k s0 ord R)).
    apply in_spawn in Hs. apply (sp_body P WU s0 I) in Hs. rewrite Hc, F in Hs. easy. }
  exact (X l _ 0 _ (freach_init P ms n)).
Qed.
Theorem C62_every_execution_has_a_history :
  forall P ms n s, (exists k ord, freach P ms n k s ord) <-> exists tr, fhist P ms n s tr.
Proof.
  intros P ms n s. split.
  - intros (k & ord & R). induction R as [|k s ord i c s' R [tr IH] G H]; [exists []; constructor|]. eexists. econstructor; eauto.
  - intros (tr & R). induction R as [|s tr i c s' R (k & ord & IH) G H]; eexists; eexists; [constructor|econstructor; eauto].
Qed.
Example C62_covered_ex : wf_many mix mix_ms /\ p_wrap mix = false /\ (forall q, NoDup (uniq mix q)) /\ flat mix /\
  run mix (init_many mix mix_ms 2) mix_moves = Some mix_end /\ length mix_moves = 159.
Proof.
  split; [exact mix_wf|]. split; [reflexivity|]. split; [exact mix_nodup|]. split; [exact mix_flat|].
  split; vm_compute; reflexivity.
Qed.

(** ** Order *)
(** Of two conflicting tasks one is complete before the body of the other is handed out. *)
Theorem C62_conflicting_tasks_are_ordered :
  forall P ms n k s ord p t, wf_any P ms -> p_wrap P = false -> (forall q, NoDup (uniq P q)) -> freach P ms n k s ord ->
  parent P p = parent P t -> tasks_conflict P p t -> p <> t -> started s p -> started s t ->
  ahead (log s) p t \/ ahead (log s) t p.
Proof. intros P ms n k s ord p t W NW ND. exact (free_exclusive P ms W NW n ND k s ord p t). Qed.
(** A thread's earlier task is complete before the body of a later, conflicting one of the
    same thread is handed out. *)
Theorem C62_each_thread_keeps_its_order :
  forall P ms n k s ord p t, wf_any P ms -> p_wrap P = false -> (forall q, NoDup (uniq P q)) -> freach P ms n k s ord ->
  comes_before P ms p t -> tasks_conflict P p t -> started s t -> ahead (log s) p t.
Proof. intros P ms n k s ord p t W NW ND. exact (free_thread_order P ms W NW n ND k s ord p t). Qed.
Theorem C62_bodies_run_once :
  forall P ms n k s ord t, wf_any P ms -> p_wrap P = false -> (forall q, NoDup (uniq P q)) -> freach P ms n k s ord ->
  not_twice (LExec t) (log s) /\ not_twice (LStart t) (log s) /\ not_twice (LEnd t) (log s) /\
  (started s t -> In (LInit t) (log s)).
Proof.
  intros P ms n k s ord t W NW ND R. destruct (free_once P ms W NW n ND k s ord t R) as (A & B & C & D & _).
  split; [|split; [|split]].
  - apply (sum_not_twice (v_exec t)); auto; [intros []; simpl; try lia; unfold ni, zb; destruct (_ =? _); lia|].
    simpl. unfold ni. now rewrite Nat.eqb_refl.
  - apply (sum_not_twice (v_start t)); auto; [intros []; simpl; try lia; unfold ni, zb; destruct (_ =? _); lia|].
    simpl. unfold ni. now rewrite Nat.eqb_refl.
  - apply (sum_not_twice (v_end t)); auto; [intros []; simpl; try lia; unfold ni, zb; destruct (_ =? _); lia|].
    simpl. unfold ni. now rewrite Nat.eqb_refl.
  - intros Q. apply in_init, D, in_exec, Q.
Qed.
Example C62_order_ex : wf_many mix mix_ms /\ (forall q, NoDup (uniq mix q)) /\
  (exists ord, freach mix mix_ms 2 (length mix_moves) mix_end ord) /\
  parent mix 0 = parent mix 2 /\ tasks_conflict mix 0 2 /\ started mix_end 0 /\ started mix_end 2 /\
  comes_before mix mix_ms 2 3 /\ tasks_conflict mix 2 3 /\ started mix_end 3.
Proof.
  split; [exact mix_wf|]. split; [exact mix_nodup|]. split; [destruct mix_freach as (ord & R & _); eauto|]. split; [reflexivity|].
  split; [apply mix_conflict|]. split; [inlog|]. split; [inlog|]. split; [apply mix_before|]. split; [apply mix_conflict|inlog].
Qed.

(** ** Progress *)
Theorem C62_executions_are_bounded :
  forall P ms n N, wf_any P ms -> p_wrap P = false -> (forall q, NoDup (uniq P q)) -> (forall o c, In (ISpawn c) (body P o) -> c < N) ->
  exists B, forall k s ord, freach P ms n k s ord -> k <= B.
Proof.
  intros P ms n N W NW ND BD. exists (Z.to_nat (measure P N (init_many P ms n))). intros k s ord R.
  pose proof (free_bounded P ms W NW n ND N k s ord BD R). lia.
Qed.
Lemma sorted_between (f : nat -> nat) l l1 p l2 t l3 : StronglySorted (fun a b => f a < f b) l -> l = l1 ++ p :: l2 ++ t :: l3 -> f p < f t.
Proof.
  intros Sd ->. induction l1 as [|x l1 IH]; simpl in Sd; inversion Sd as [|? ? S1 F1]; subst; auto.
  rewrite Forall_forall in F1. apply F1. apply in_or_app. simpl. auto.
Qed.
(** If there is an order of the root tasks that their entries into every list follow, nothing blocks. *)
Theorem C62_no_deadlock_when_the_lists_agree :
  forall P ms n k s ord f, wf_many P ms -> p_wrap P = false -> (forall q, NoDup (uniq P q)) -> no_get P -> 1 <= n -> freach P ms n k s ord ->
  (forall r l1 p l2 t l3, ord r = l1 ++ p :: l2 ++ t :: l3 -> parent P p = None -> parent P t = None -> f p < f t) -> stuck P s ->
  (forall t, submitted s t -> completed s t /\ (In (LGet t) (log s) \/ In (LDrop t) (log s) -> In (LFree t) (log s))) /\
  (forall t e, In (LEvent t e) (log s) -> In (LFire t e) (log s)) /\
  (forall g, In g (all_frames s) -> exists is, g = FBody None is /\
     (is = [] \/ exists is' t, is = IBarrier :: is' /\ submitted s t /\ parent P t = None /\
                               ~ (In (LGet t) (log s) \/ In (LDrop t) (log s)))).
Proof. intros P ms n k s ord f W NW ND NG N R SS K. exact (free_progress P ms W NW n ND k s ord f (m_no_barrier P W) NG N R SS K). Qed.
Example C62_agree_ex : wf_many mix mix_ms /\ (forall q, NoDup (uniq mix q)) /\ no_get mix /\ stuck mix mix_end /\ submitted mix_end 0 /\
  (exists ord, freach mix mix_ms 2 (length mix_moves) mix_end ord /\
               forall r l1 p l2 t l3, ord r = l1 ++ p :: l2 ++ t :: l3 -> rk_of [1; 2; 0; 3] p < rk_of [1; 2; 0; 3] t) /\
  forall o c, In (ISpawn c) (body mix o) -> c < 4.
Proof.
  split; [exact mix_wf|]. split; [exact mix_nodup|]. split; [exact (flat_no_get mix mix_ms mix_wf mix_flat)|]. split; [exact mix_stuck|]. split; [inlog|]. split.
  - destruct mix_freach as (ord & R & O). exists ord. split; auto. intros r l1 p l2 t l3. apply sorted_between. rewrite O.
    destruct r as [|[|[|r]]]; unfold order_in; simpl; repeat constructor.
  - intros [t|] c H.
    + apply spawns_In in H. now rewrite mix_flat in H.
    + simpl in H. repeat (destruct H as [H|H]; [first [discriminate H | injection H as <-; lia]|]). destruct H.
Qed.

(** ** Results *)
(** When everything submitted is complete, the result is that of running the bodies one
    after another in the order in which they were handed out. *)
Theorem C62_same_result_as_in_order_of_execution :
  forall P ms n k s ord, wf_any P ms -> p_wrap P = false -> (forall q, NoDup (uniq P q)) -> flat P -> behaved P ->
  freach P ms n k s ord -> (forall t, submitted s t -> completed s t) ->
  NoDup (execs (log s)) /\ (forall t, In t (execs (log s)) <-> submitted s t) /\
  forall (S : semantics) g m, sensible S ->
  same_result (exec S (performed (log s)) g m) (exec S (one_by_one P (execs (log s))) g m).
Proof. intros P ms n k s ord W NW ND F B R A. exact (free_result P ms W NW n ND k s ord F B R A). Qed.
(** Already when a body has ended, its value is that of running the bodies handed out
    before it, and it, one after another. *)
Theorem C62_values_in_order_of_execution :
  forall P ms n k s ord (S : semantics) g m l1 c l2, wf_any P ms -> p_wrap P = false -> (forall q, NoDup (uniq P q)) -> flat P -> behaved P ->
  sensible S -> freach P ms n k s ord -> execs (log s) = l1 ++ c :: l2 -> ended s c ->
  fst (exec S (performed (log s)) g m) c = fst (exec S (one_by_one P (l1 ++ [c])) g m) c.
Proof. intros P ms n k s ord S g m l1 c l2 W NW ND F B OK R E N. exact (free_value P ms W NW n ND k s ord S g m l1 c l2 F B OK R E N). Qed.
Example C62_result_ex : wf_many mix mix_ms /\ (forall q, NoDup (uniq mix q)) /\ flat mix /\ behaved mix /\ sensible cells /\
  (exists ord, freach mix mix_ms 2 (length mix_moves) mix_end ord) /\ (forall t, submitted mix_end t -> completed mix_end t) /\
  execs (log mix_end) = [1; 2; 0] ++ 3 :: [] /\ ended mix_end 3 /\
  fst (exec cells (performed (log mix_end)) (fun _ => []) [0; 0; 0]%Z) 3 = [6]%Z.
Proof.
  destruct mix_freach as (ord & R & O).
  split; [exact mix_wf|]. split; [exact mix_nodup|]. split; [exact mix_flat|]. split; [exact mix_behaved|]. split; [exact cells_sensible|].
  split; [eauto|]. split; [|split; [vm_compute; reflexivity|]; split; [inlog|vm_compute; reflexivity]].
  intros t H. refine (proj1 (proj1 (C62_no_deadlock_when_the_lists_agree mix mix_ms 2 _ mix_end ord (rk_of [1; 2; 0; 3]) mix_wf eq_refl mix_nodup (flat_no_get mix mix_ms mix_wf mix_flat) _ R _ mix_stuck) t H)); [lia|].
  intros r l1 p l2 q l3 E _ _. revert E. apply sorted_between. rewrite O. destruct r as [|[|[|r]]]; unfold order_in; simpl; repeat constructor.
Qed.

(** That order need not keep the order of a thread, and there may be none that does: task
    0 sees what task 2 wrote, task 2 what task 1 wrote, but the first thread submitted 0
    before 1. *)
Theorem C62_result_of_some_order_of_the_threads_refuted :
  exists P ms n k s ord (S : semantics) g m, wf_many P ms /\ p_wrap P = false /\ (forall q, NoDup (uniq P q)) /\ flat P /\ behaved P /\
  sensible S /\ freach P ms n k s ord /\ (forall t, submitted s t -> completed s t) /\
  forall ts, NoDup ts -> (forall t, In t ts <-> submitted s t) ->
  (forall p t l1 l2, comes_before P ms p t -> ts = l1 ++ t :: l2 -> In p l1) ->
  ~ same_result (exec S (performed (log s)) g m) (exec S (one_by_one P ts) g m).
Proof.
  destruct C62_result_ex as (W & ND & F & B & OK & (ord & R) & A & _).
  exists mix, mix_ms, 2, (length mix_moves), mix_end, ord, cells, (fun _ => []), [0; 0; 0]%Z.
  split; [exact W|]. split; [reflexivity|]. split; [exact ND|]. split; [exact F|]. split; [exact B|]. split; [exact OK|]. split; [exact R|].
  split; [exact A|]. intros ts N I K Q.
  assert (E : execs (log mix_end) = [1; 2; 0; 3]) by (vm_compute; reflexivity).
  assert (I' : forall t, In t ts <-> In t [1; 2; 0; 3]).
  { intros t. rewrite I, <- E. symmetry. apply (C62_same_result_as_in_order_of_execution mix mix_ms 2 _ mix_end ord W eq_refl ND F B R A). }
  assert (Pm : Permutation ts [1; 2; 0; 3]).
  { apply NoDup_Permutation; auto. repeat (constructor; [simpl; lia|]). constructor. }
  clear I E A. assert (L := Permutation_length Pm). destruct ts as [|a [|b [|c [|d [|e ts]]]]]; try discriminate L. clear L Pm.
  destruct Q as [Q _].
  assert (Q0 := Q 0). assert (Q2 := Q 2). clear Q.
  assert (V0 : fst (exec cells (performed (log mix_end)) (fun _ => []) [0; 0; 0]%Z) 0 = [6]%Z) by (vm_compute; reflexivity).
  assert (V2 : fst (exec cells (performed (log mix_end)) (fun _ => []) [0; 0; 0]%Z) 2 = [5]%Z) by (vm_compute; reflexivity).
  rewrite V0 in Q0. rewrite V2 in Q2. clear V0 V2.
  assert (Ia := proj1 (I' a) (or_introl eq_refl)).
  assert (Ib := proj1 (I' b) (or_intror (or_introl eq_refl))).
  assert (Ic := proj1 (I' c) (or_intror (or_intror (or_introl eq_refl)))).
  assert (Id := proj1 (I' d) (or_intror (or_intror (or_intror (or_introl eq_refl))))).
  assert (K1 := fun l1 l2 => K 0 1 l1 l2 (proj1 mix_before)).
  destruct Ia as [<-|[<-|[<-|[<-|[]]]]], Ib as [<-|[<-|[<-|[<-|[]]]]], Ic as [<-|[<-|[<-|[<-|[]]]]], Id as [<-|[<-|[<-|[<-|[]]]]];
    try (exfalso; clear -N; repeat match goal with H : NoDup (_ :: _) |- _ => inversion H; clear H; subst end; simpl in *; lia);
    try (vm_compute in Q0; discriminate Q0); try (vm_compute in Q2; discriminate Q2).
  all: first [specialize (K1 [] _ eq_refl) | specialize (K1 [_] _ eq_refl) | specialize (K1 [_; _] _ eq_refl) | specialize (K1 [_; _; _] _ eq_refl)]; simpl in K1; lia.
Qed.

(** ** Happens-before *)
(** Two conflicting operations of task bodies are not a data race. *)
Theorem C62_no_data_race :
  forall P ms n s tr u t m k a b, wf_any P ms -> p_wrap P = false -> (forall q, NoDup (uniq P q)) ->
  behaved P -> children_covered P -> inner_private P -> keeps_off P -> fhist P ms n s tr ->
  does tr m (LAct (Some u) b) -> does tr k (LAct (Some t) a) -> acts_conflict b a ->
  m = k \/ hb tr m k \/ hb tr k m.
Proof.
  intros P ms n s tr u t m k a b W NW ND BH CC IP KO R.
  destruct (fhist_front P ms W NW n ND s tr R) as (j & ord & _ & H). now apply (no_race P (wff P ms W ord) NW n s tr H).
Qed.
(** What a task of a thread and its descendants do happens before what a later, conflicting
    task of the same thread and its descendants do. *)
Theorem C62_threads_happen_in_order :
  forall P ms n s tr p t d e m k l1 l2, wf_any P ms -> p_wrap P = false -> (forall q, NoDup (uniq P q)) -> fhist P ms n s tr ->
  comes_before P ms p t -> tasks_conflict P p t -> within P p d -> within P t e ->
  does tr m l1 -> made_by P l1 = Some d -> does tr k l2 -> made_by P l2 = Some e -> hb tr m k.
Proof.
  intros P ms n s tr p t d e m k l1 l2 W NW ND R B C Wd We D1 A1 D2 A2.
  exact (free_threads_hb P ms W NW n ND s tr p t d e m k l1 l2 R B C Wd We D1 A1 D2 A2).
Qed.
(** get(), barrier(), submission and the end of a task's memory *)
Theorem C62_waiting_is_ordered :
  forall P ms n s tr k, wf_any P ms -> p_wrap P = false -> (forall q, NoDup (uniq P q)) -> fhist P ms n s tr ->
  (forall c m l, does tr k (LGet c) -> does tr m l -> made_by P l = Some c -> hb tr m k) /\
  (forall p d i m l, does tr k LBarrier -> does tr i (LSpawn p) -> i < k -> parent P p = None -> within P p d ->
                     does tr m l -> made_by P l = Some d -> hb tr m k) /\
  (forall c t i m a b l, nth_error tr m = Some a -> nth_error tr i = Some b -> m <= i -> r_who a = r_who b -> In (LSpawn c) (r_log b) ->
                     within P c t -> does tr k l -> made_by P l = Some t -> hb tr m k) /\
  (forall t d m l, does tr k (LFree t) -> within P t d -> does tr m l -> made_by P l = Some d -> hb tr m k).
Proof.
  intros P ms n s tr k W NW ND R. destruct (fhist_front P ms W NW n ND s tr R) as (j & ord & _ & H).
  assert (WU := wff P ms W ord). split; [|split; [|split]].
  - intros c m l. apply (get_hb P WU NW n s tr H).
  - intros p d i m l. intros. eapply (barrier_hb P WU NW n s tr H p d i m k l); eauto.
  - intros c t i m a b l. intros. eapply (submit_hb P WU NW n s tr H c t i m k a b l); eauto.
  - intros t d m l D. intros. eapply (free_hb P WU NW n s tr H t d m k l); eauto.
Qed.
(** the run above with its history *)
Definition mix_hist := hgo (end_okb mix) mix (init_many mix mix_ms 2) [] mix_moves.
Definition mix_fin := fst (out mix mix_hist).
Definition mix_tr := snd (out mix mix_hist).
Lemma mix_recorded : fhist mix mix_ms 2 mix_fin mix_tr.
Proof. unfold mix_fin, mix_tr, mix_hist. apply out_fhist. vm_compute. reflexivity. Qed.
Lemma mix_nested : children_covered mix /\ inner_private mix /\ keeps_off mix.
Proof.
  assert (E : forall q c, In (ISpawn c) (body mix (Some q)) -> False).
  { intros q c Hc. apply spawns_In in Hc. rewrite mix_flat in Hc. easy. }
  split; [intros q c Hc; destruct (E q c Hc)|]. split; [intros q c a Hc; destruct (E q c Hc)|].
  intros q pre c post x y z Eq. exfalso. apply (E q c). rewrite Eq. apply in_or_app. right. now left.
Qed.
Example C62_race_ex : wf_many mix mix_ms /\ (forall q, NoDup (uniq mix q)) /\ behaved mix /\ children_covered mix /\ inner_private mix /\ keeps_off mix /\
  fhist mix mix_ms 2 mix_fin mix_tr /\
  (* tasks 1 and 2 of different threads, on different workers *)
  does mix_tr 24 (LAct (Some 1) (mkAct 1 TIO KWrite 5)) /\ does mix_tr 67 (LAct (Some 2) (mkAct 1 TIO KRead 0)) /\
  acts_conflict (mkAct 1 TIO KWrite 5) (mkAct 1 TIO KRead 0) /\
  option_map r_who (nth_error mix_tr 24) = Some 2 /\ option_map r_who (nth_error mix_tr 67) = Some 3 /\
  (* tasks 2 and 3 of one thread *)
  comes_before mix mix_ms 2 3 /\ tasks_conflict mix 2 3 /\
  does mix_tr 68 (LAct (Some 2) (mkAct 2 TIO KWrite 6)) /\ does mix_tr 123 (LAct (Some 3) (mkAct 2 TIO KRead 0)) /\
  (* get, barrier, memory *)
  does mix_tr 152 (LGet 1) /\ does mix_tr 158 LBarrier /\ does mix_tr 2 (LSpawn 0) /\ parent mix 0 = None /\ does mix_tr 151 (LFree 0).
Proof.
  split; [exact mix_wf|]. split; [exact mix_nodup|]. split; [exact mix_behaved|]. split; [apply mix_nested|]. split; [apply mix_nested|].
  split; [apply mix_nested|]. split; [exact mix_recorded|]. split; [did|]. split; [did|].
  split; [exists 1, TIO, KWrite, KRead, 5%Z, 0%Z; repeat split|]. split; [vm_compute; reflexivity|]. split; [vm_compute; reflexivity|].
  split; [apply mix_before|]. split; [apply mix_conflict|]. split; [did|]. split; [did|]. split; [did|]. split; [did|]. split; [did|].
  split; [reflexivity|did].
Qed.

Definition all_free := (@C62_every_interleaving_is_covered, @C62_every_execution_has_a_history, @C62_conflicting_tasks_are_ordered,
  @C62_each_thread_keeps_its_order, @C62_bodies_run_once, @C62_executions_are_bounded, @C62_no_deadlock_when_the_lists_agree,
  @C62_same_result_as_in_order_of_execution, @C62_values_in_order_of_execution, @C62_result_of_some_order_of_the_threads_refuted,
  @C62_no_data_race, @C62_threads_happen_in_order, @C62_waiting_is_ordered).
Print Assumptions all_free.
