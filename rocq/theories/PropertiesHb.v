(** Happens-before: conflicting operations of tasks are not data races (C61).

    The runtime machine interleaves the steps of the threads; the results so far are about
    the order of these steps.  Here they are strengthened to the order that the C++ memory
    model guarantees, given the synchronisation that HbModel labels the steps with: within a
    thread, by the counters of the events, the locks of the user lists, the elements of the
    queues, removal_countdown and task_count. *)
From Coq Require Import Bool List Arith NArith ZArith Lia Permutation.
From Verif Require Import AccessModel AccessSpec AccessProof UserModel UserProof SchedModel SchedSpec SchedBase SchedInv1 SchedInv2 SchedInv3 SchedInv8 SchedFront SchedThm SchedLive SchedSeq SchedEx SchedMany NestSpec SchedNest PropertiesSched PropertiesMany PropertiesNest HbModel HbSpec HbThm HbRace.
Import ListNotations.
Open Scope nat_scope.

(** ** Examples: runs with their histories *)
Fixpoint hgo (ok : state -> nat -> bool) (P : prog) (s : state) (tr : list rec) (l : list (nat * pick)) : option (state * list rec) :=
  match l with
  | [] => Some (s, tr)
  | (i, c) :: l => if ok s i then match step P s i c with Some s' => hgo ok P s' (tr ++ [mkrec P s i c s']) l | None => None end else None
  end.
Definition any (s : state) (i : nat) : bool := true.
Lemma hgo_hist P n l : forall s tr s' tr', hist P n s tr -> hgo any P s tr l = Some (s', tr') -> hist P n s' tr'.
Proof.
  induction l as [|[i c] l IH]; intros s tr s' tr' R; simpl; [intros H; injection H as <- <-; auto|].
  destruct (step P s i c) as [s1|] eqn:S; [|discriminate]. apply IH. now constructor.
Qed.
Lemma hgo_ghist P n l : forall s tr s' tr', ghist P n s tr -> hgo (end_okb P) P s tr l = Some (s', tr') -> ghist P n s' tr'.
Proof.
  induction l as [|[i c] l IH]; intros s tr s' tr' R; simpl; [intros H; injection H as <- <-; auto|].
  destruct (end_okb P s i) eqn:E; [|discriminate].
  destruct (step P s i c) as [s1|] eqn:S; [|discriminate]. apply IH. constructor; auto. now apply end_okb_ok.
Qed.
Definition tidy (P : prog) (s : state) (i : nat) : bool := begin_okb P s i && end_okb P s i.
Lemma hgo_chist P ms n l : forall s tr s' tr', chist P ms n s tr ->
  hgo (tidy P) P s tr l = Some (s', tr') -> chist P ms n s' tr'.
Proof.
  induction l as [|[i c] l IH]; intros s tr s' tr' R; simpl; [intros H; injection H as <- <-; auto|].
  unfold tidy at 1. destruct (begin_okb P s i) eqn:B; [|discriminate]. destruct (end_okb P s i) eqn:E; [|discriminate]. simpl.
  destruct (step P s i c) as [s1|] eqn:S; [|discriminate]. apply IH. constructor; auto using end_okb_ok, begin_okb_ok.
Qed.
Definition out (P : prog) (x : option (state * list rec)) : state * list rec :=
  match x with Some p => p | None => (init P 0, []) end.
Definition is_some {A} (x : option A) : bool := match x with Some _ => true | None => false end.
Lemma out_some P x : is_some x = true -> x = Some (fst (out P x), snd (out P x)).
Proof. destruct x as [[s tr]|]; [reflexivity|discriminate]. Qed.
Lemma out_hist P n l : is_some (hgo any P (init P n) [] l) = true ->
  hist P n (fst (out P (hgo any P (init P n) [] l))) (snd (out P (hgo any P (init P n) [] l))).
Proof. intros H. eapply (hgo_hist P n l); [constructor|]. now apply out_some. Qed.
Lemma out_ghist P n l : is_some (hgo (end_okb P) P (init P n) [] l) = true ->
  ghist P n (fst (out P (hgo (end_okb P) P (init P n) [] l))) (snd (out P (hgo (end_okb P) P (init P n) [] l))).
Proof. intros H. eapply (hgo_ghist P n l); [constructor|]. now apply out_some. Qed.
Lemma out_chist P ms n l : is_some (hgo (tidy P) P (init_many P ms n) [] l) = true ->
  chist P ms n (fst (out P (hgo (tidy P) P (init_many P ms n) [] l))) (snd (out P (hgo (tidy P) P (init_many P ms n) [] l))).
Proof. intros H. eapply (hgo_chist P ms n l); [constructor|]. now apply out_some. Qed.
Lemma does_at tr m l : match nth_error tr m with Some a => In l (r_log a) | None => False end -> does tr m l.
Proof. unfold does. destruct (nth_error tr m) as [a|]; [eauto|easy]. Qed.
Ltac did := apply does_at; inlog.

(** [k] times the first possible move of [o] *)
Fixpoint pfirst (P : prog) (s : state) (o : list (nat * pick)) : option ((nat * pick) * state) :=
  match o with
  | [] => None
  | (i, c) :: o => match step P s i c with Some s' => Some ((i, c), s') | None => pfirst P s o end
  end.
Fixpoint plan (P : prog) (o : list (nat * pick)) (k : nat) (s : state) : list (nat * pick) :=
  match k with
  | O => []
  | S k => match pfirst P s o with Some (m, s') => m :: plan P o k s' | None => [] end
  end.
(** one such phase after the other *)
Fixpoint phases (P : prog) (l : list (list (nat * pick) * nat)) (s : state) : list (nat * pick) :=
  match l with
  | [] => []
  | (o, k) :: l => let p := plan P o k s in p ++ phases P l (match run P s p with Some s' => s' | None => s end)
  end.

(** ex: tasks 0 and 1 on different workers *)
Definition ex_hist := hgo any ex (init ex 2) [] (plan ex [(2, PNew 0); (1, PReady 0); (1, PNew 0); (2, PReady 0); (0, PNew 0); (1, PExt 0)] 1000 (init ex 2)).
Definition ex_fin := fst (out ex ex_hist).
Definition ex_tr := snd (out ex ex_hist).
Lemma ex_history : hist ex 2 ex_fin ex_tr.
Proof. unfold ex_fin, ex_tr, ex_hist. apply out_hist. vm_compute. reflexivity. Qed.
Lemma ex_recorded : recorded ex 2 ex_fin ex_tr.
Proof.
  left. split; [exact ex_flat|exact ex_history].
Qed.
(** kids: nested tasks *)
Definition kids_hist := hgo (end_okb kids) kids (init kids 2) [] (cauto any kids (moves_of 0 ++ moves_of 2 ++ moves_of 1) 1000 (init kids 2)).
Definition kids_fin := fst (out kids kids_hist).
Definition kids_tr := snd (out kids kids_hist).
Lemma kids_recorded : recorded kids 2 kids_fin kids_tr.
Proof.
  right. unfold kids_fin, kids_tr, kids_hist. apply out_ghist. vm_compute. reflexivity.
Qed.
(** duo: two threads of the user; task 2 on the third thread, the others on the fourth *)
Definition duo_split : list (nat * pick) := duo_prefix ++ plan duo (moves_of 2) 31 duo_mid.
Definition duo_more : state := match run duo (init_many duo duo_ms 2) duo_split with Some s => s | None => init duo 0 end.
Definition duo_hist := hgo (tidy duo) duo (init_many duo duo_ms 2) []
  (duo_split ++ cauto (begin_okb duo) duo (moves_of 3 ++ moves_of 0 ++ moves_of 1) 300 duo_more).
Definition duo_fin := fst (out duo duo_hist).
Definition duo_tr := snd (out duo duo_hist).
Lemma duo_recorded : chist duo duo_ms 2 duo_fin duo_tr.
Proof.
  unfold duo_fin, duo_tr, duo_hist. apply out_chist. vm_compute. reflexivity.
Qed.

(** ** The histories are those of the executions *)
Theorem C61_every_execution_has_a_history :
  forall P n s, runs P n s <-> exists tr, recorded P n s tr.
Proof.
  intros P n s. split.
  - intros [[F R]|R].
    + assert (X : exists tr, hist P n s tr); [|destruct X as [tr X]; exists tr; left; auto].
      clear F. induction R as [|s i c s' R [tr IH] H]; [exists []; constructor|]. eexists. econstructor; eauto.
    + assert (X : exists tr, ghist P n s tr); [|destruct X as [tr X]; exists tr; right; auto].
      induction R as [|s i c s' R [tr IH] G H]; [exists []; constructor|]. eexists. econstructor; eauto.
  - intros [tr [[F R]|R]].
    + left. split; auto. clear F. induction R as [|s tr i c s' R IH H]; [constructor|econstructor; eauto].
    + right. induction R as [|s tr i c s' R IH G H]; [constructor|econstructor; eauto].
Qed.
Lemma log_history P s i c s' : step P s i c = Some s' -> log s' = r_log (mkrec P s i c s') ++ log s.
Proof. intros H. apply (HbStep.hm_log P s i s'). now apply HbStep.step_hmove. Qed.
Theorem C61_the_history_is_the_log :
  forall P n s tr, recorded P n s tr -> log s = concat (rev (map r_log tr)).
Proof.
  assert (X : forall P s i c s' tr, step P s i c = Some s' -> log s = concat (rev (map r_log tr)) ->
              log s' = concat (rev (map r_log (tr ++ [mkrec P s i c s'])))).
  { intros P s i c s' tr H E. rewrite (log_history P s i c s' H), E, map_app, rev_app_distr. reflexivity. }
  intros P n s tr [[_ R]|R].
  - induction R as [|s tr i c s' R IH H]; [reflexivity|]. now apply X.
  - induction R as [|s tr i c s' R IH G H]; [reflexivity|]. now apply X.
Qed.
Example C61_history_ex : recorded ex 2 ex_fin ex_tr /\ length ex_tr = 188 /\ submitted ex_fin 3 /\ completed ex_fin 3.
Proof. split; [exact ex_recorded|]. split; [vm_compute; reflexivity|]. split; inlog. Qed.

(** ** One thread of the user *)
(** What a task and its descendants do happens before what a later, conflicting task of the
    same space and its descendants do. *)
Theorem C61_conflicting_tasks_happen_one_before_the_other :
  forall P n s tr p t d e m k l1 l2, wfp P -> p_wrap P = false -> recorded P n s tr ->
  parent P p = parent P t -> tasks_conflict P p t -> p < t -> within P p d -> within P t e ->
  does tr m l1 -> made_by P l1 = Some d -> does tr k l2 -> made_by P l2 = Some e -> hb tr m k.
Proof.
  intros P n s tr p t d e m k l1 l2 W NW R Ep C L Wd We D1 A1 D2 A2.
  apply (siblings_hb_all P W NW n s tr (recorded_hreach P W NW n s tr R) p t d e m k l1 l2); auto.
  split; auto. now apply (conflict_serial P).
Qed.
Example C61_order_ex : wf kids /\ recorded kids 2 kids_fin kids_tr /\ parent kids 1 = parent kids 2 /\ tasks_conflict kids 1 2 /\
  within kids 1 3 /\ within kids 2 2 /\ does kids_tr 147 (LAct (Some 3) (mkAct 0 TIO KMul 2)) /\
  does kids_tr 200 (LAct (Some 2) (mkAct 0 TIO KRead 0)).
Proof.
  split; [exact kids_wf|]. split; [exact kids_recorded|]. split; [reflexivity|]. split.
  { exists (acc 0 MWrite), (acc 0 MRead), TIO, MWrite, MRead, KWrite, KRead. repeat split; simpl; auto. }
  split; [econstructor; [constructor|simpl; auto]|]. split; [constructor|]. split; did.
Qed.

(** The operations of tasks are free of data races: two that conflict are ordered. *)
Theorem C61_no_data_race :
  forall P n s tr u t m k a b, wfp P -> p_wrap P = false -> flat P -> behaved P -> hist P n s tr ->
  does tr m (LAct (Some u) b) -> does tr k (LAct (Some t) a) -> acts_conflict b a ->
  m = k \/ hb tr m k \/ hb tr k m.
Proof.
  intros P n s tr u t m k a b W NW F BH R.
  assert (E : forall q c, In (ISpawn c) (body P (Some q)) -> False).
  { intros q c Hc. apply spawns_In in Hc. rewrite F in Hc. easy. }
  apply (no_race P W NW n s tr); auto.
  - apply (recorded_hreach P W NW). left; auto.
  - intros q c Hc. destruct (E q c Hc).
  - intros q c x Hc. destruct (E q c Hc).
  - intros q pre c post x y z Eq. exfalso. apply (E q c). rewrite Eq. apply in_or_app. right. now left.
Qed.
Lemma ex_behaved : behaved ex.
Proof.
  intros t a H. few t; ins H.
  all: simpl; eexists; eexists; first
    [solve [split; [left; reflexivity|simpl; auto]] | solve [split; [right; left; reflexivity|simpl; auto]]].
Qed.
Example C61_race_ex : wf ex /\ flat ex /\ behaved ex /\ hist ex 2 ex_fin ex_tr /\
  does ex_tr 17 (LAct (Some 0) (mkAct 0 TIO KWrite 5)) /\ does ex_tr 106 (LAct (Some 1) (mkAct 0 TIO KRead 0)) /\
  acts_conflict (mkAct 0 TIO KWrite 5) (mkAct 0 TIO KRead 0) /\
  option_map r_who (nth_error ex_tr 17) = Some 2 /\ option_map r_who (nth_error ex_tr 106) = Some 1.
Proof.
  split; [exact ex_wf|]. split; [exact ex_flat|]. split; [exact ex_behaved|].
  split; [exact ex_history|].
  split; [did|]. split; [did|]. split; [exists 0, TIO, KWrite, KRead, 5%Z, 0%Z; repeat split|]. split; vm_compute; reflexivity.
Qed.

(** Nested tasks, under the conditions of C59. *)
Theorem C61_no_data_race_with_nested_tasks_partial :
  forall P n s tr u t m k a b, wfp P -> p_wrap P = false ->
  behaved P -> children_covered P -> inner_private P -> keeps_off P -> recorded P n s tr ->
  does tr m (LAct (Some u) b) -> does tr k (LAct (Some t) a) -> acts_conflict b a ->
  m = k \/ hb tr m k \/ hb tr k m.
Proof.
  intros P n s tr u t m k a b W NW BH CC IP KO R. apply (no_race P W NW n s tr); auto. now apply (recorded_hreach P W NW).
Qed.
Example C61_nested_ex : wf kids /\ behaved kids /\ children_covered kids /\ inner_private kids /\ keeps_off kids /\
  recorded kids 2 kids_fin kids_tr /\
  does kids_tr 147 (LAct (Some 3) (mkAct 0 TIO KMul 2)) /\ does kids_tr 125 (LAct (Some 1) (mkAct 0 TIO KWrite 5)) /\
  acts_conflict (mkAct 0 TIO KMul 2) (mkAct 0 TIO KWrite 5) /\
  option_map r_who (nth_error kids_tr 147) = Some 2 /\ option_map r_who (nth_error kids_tr 125) = Some 1.
Proof.
  split; [exact kids_wf|]. split; [exact kids_behaved|]. split; [exact kids_covered|]. split; [exact kids_private|].
  split; [exact kids_keeps_off|]. split; [exact kids_recorded|]. split; [did|]. split; [did|].
  split; [exists 0, TIO, KMul, KWrite, 2%Z, 5%Z; repeat split|]. split; vm_compute; reflexivity.
Qed.

(** ** When is a step not before another *)
Definition obj_eq_dec (x y : obj) : {x = y} + {x <> y}.
Proof. repeat decide equality. Defined.
Definition edgeb (a b : rec) : bool :=
  Nat.eqb (r_who a) (r_who b) || existsb (fun x => existsb (fun y => if obj_eq_dec x y then true else false) (r_acq b)) (r_rel a).
(** the later steps known to follow a marked one *)
Fixpoint marks (seen : list rec) (k : nat) (tr : list rec) : list nat :=
  match tr with
  | [] => []
  | b :: tr => if existsb (fun a => edgeb a b) seen then k :: marks (b :: seen) (S k) tr else marks seen (S k) tr
  end.
Definition marked (tr : list rec) (m : nat) : list nat :=
  match nth_error tr m with Some a => marks [a] (S m) (skipn (S m) tr) | None => [] end.
Lemma marks_closed tr : forall seen k, forall j b, nth_error tr j = Some b ->
  (exists a, In a seen /\ edgeb a b = true) \/ (exists i a, i < j /\ nth_error tr i = Some a /\ In (k + i) (marks seen k tr) /\ edgeb a b = true) ->
  In (k + j) (marks seen k tr).
Proof.
  induction tr as [|x tr IH]; intros seen k j b E H; [destruct j; discriminate|]. simpl.
  destruct j as [|j]; simpl in E.
  - injection E as ->. destruct H as [(a & Ha & He)|(i & a & L & _)]; [|lia].
    assert (Q : existsb (fun a => edgeb a b) seen = true) by (apply existsb_exists; eauto). rewrite Q. left. lia.
  - rewrite Nat.add_succ_r, <- Nat.add_succ_l. destruct H as [(a & Ha & He)|(i & a & L & Ea & Hi & He)].
    + destruct (existsb (fun a => edgeb a x) seen); [right|]; apply (IH _ (S k) j b E); left; exists a; split; simpl; auto.
    + destruct i as [|i]; simpl in Ea.
      * injection Ea as ->. simpl in Hi. rewrite Nat.add_0_r in Hi. destruct (existsb (fun z => edgeb z a) seen).
        -- right. apply (IH _ (S k) j b E). left. exists a. split; simpl; auto.
        -- exfalso. clear -Hi. assert (X : forall tr seen k j, In j (marks seen k tr) -> k <= j).
           { induction tr0 as [|y l IHl]; intros sn q r Hr; [easy|]. simpl in Hr. destruct (existsb _ sn).
             - destruct Hr as [->|Hr]; auto. apply IHl in Hr. lia.
             - apply IHl in Hr. lia. }
           apply X in Hi. lia.
      * rewrite Nat.add_succ_r, <- Nat.add_succ_l in Hi. simpl in Hi.
        destruct (existsb (fun z => edgeb z x) seen).
        -- right. apply (IH _ (S k) j b E). right. exists i, a. repeat split; auto; [lia|]. destruct Hi as [Hi|Hi]; [lia|exact Hi].
        -- apply (IH _ (S k) j b E). right. exists i, a. repeat split; auto. lia.
Qed.
Lemma nth_skip {A} (l : list A) : forall m j, nth_error (skipn m l) j = nth_error l (m + j).
Proof. induction l as [|x l IH]; intros [|m] j; simpl; auto. now destruct j. Qed.
Lemma marked_hb tr m k : hb tr m k -> In k (marked tr m).
Proof.
  intros H.
  assert (ED : forall i j a b, nth_error tr i = Some a -> nth_error tr j = Some b -> i < j -> edgeb a b = true ->
               (i = m \/ In i (marked tr m)) -> m <= i -> In j (marked tr m)).
  { intros i j a b Ei Ej L Eb Hi Lm. unfold marked in *.
    assert (Em : exists c, nth_error tr m = Some c).
    { destruct (nth_error tr m) eqn:Q; [eauto|]. apply nth_error_None in Q. assert (i < length tr) by (apply nth_error_Some; congruence). lia. }
    destruct Em as (c & Em). rewrite Em in *.
    replace j with (S m + (j - S m)) by lia. apply (marks_closed _ _ _ _ b).
    - rewrite nth_skip. replace (S m + (j - S m)) with j by lia. exact Ej.
    - destruct Hi as [->|Hi]; [left; exists a; split; auto; left; congruence|].
      destruct (Nat.eq_dec i m) as [->|d]; [left; exists a; split; auto; left; congruence|].
      right. exists (i - S m), a. split; [lia|]. split; [rewrite nth_skip; replace (S m + (i - S m)) with i by lia; exact Ei|].
      split; auto. replace (S m + (i - S m)) with i by lia. exact Hi. }
  assert (X : forall i j, hb tr i j -> m <= i -> (i = m \/ In i (marked tr m)) -> In j (marked tr m)).
  { induction 1 as [i j a b Ei Ej L Ew|i j a b x Ei Ej L Hr Ha|i j l H1 IH1 H2 IH2]; intros Lm Hi.
    - apply (ED i j a b); auto. unfold edgeb. now rewrite Ew, Nat.eqb_refl.
    - apply (ED i j a b); auto. unfold edgeb. apply orb_true_iff. right. apply existsb_exists. exists x. split; auto.
      apply existsb_exists. exists x. split; auto. now destruct (obj_eq_dec x x).
    - apply IH2; [|right; auto]. apply HbBase.hb_lt in H1. lia. }
  apply (X m k H); auto.
Qed.
Lemma not_hb tr m k : existsb (Nat.eqb k) (marked tr m) = false -> ~ hb tr m k.
Proof.
  intros E H. apply marked_hb in H. assert (existsb (Nat.eqb k) (marked tr m) = true); [|congruence].
  apply existsb_exists. exists k. split; auto. apply Nat.eqb_refl.
Qed.

(** Under all schedules nested tasks can race: the parent completes before its child is
    initialised, and the child runs at the same time as a task that waited for the parent. *)
Definition late_hist := hgo any late (init late 2) []
  (phases late [([(0, PNew 0)], 100); ([(1, PNew 1)], 49); ([(2, PNew 0)], 19); ([(1, PReady 0)], 1)] (init late 2)).
Definition late_tr := snd (out late late_hist).
Theorem C61_no_data_race_with_nested_tasks_refuted :
  exists P n s tr u t m k a b, wf P /\ p_wrap P = false /\
  behaved P /\ children_covered P /\ inner_private P /\ keeps_off P /\ hist P n s tr /\
  does tr m (LAct (Some u) b) /\ does tr k (LAct (Some t) a) /\ acts_conflict b a /\
  m <> k /\ ~ hb tr m k /\ ~ hb tr k m.
Proof.
  exists late, 2, (fst (out late late_hist)), late_tr, 1, 2, 85, 86, (mkAct 0 TIO KWrite 9), (mkAct 0 TIO KWrite 5).
  assert (WI : forall q t, within late q t -> q = t \/ q = 0 /\ t = 1).
  { induction 1 as [|b c H IH S]; auto. destruct b as [|[|[|b]]]; [..|destruct b]; ins S; lia. }
  split; [apply wfb_ok; vm_compute; reflexivity|]. split; [reflexivity|].
  split. { intros t a H. destruct t as [|[|[|t]]]; [..|destruct t]; ins H; exists (mkRes 0 0), MWrite; simpl; auto. }
  split. { intros q c H. destruct q as [|[|[|q]]]; [..|destruct q]; ins H; vm_compute; reflexivity. }
  split. { intros q c a H Ha L. destruct q as [|[|[|q]]]; [..|destruct q]; ins H. ins Ha. simpl in L. lia. }
  split.
  { intros q pre c post a t b E Ha Wt Hb. destruct q as [|[|[|q]]]; [..|destruct q]; simpl in E.
    - destruct pre as [|i [|i2 [|i3 pre]]]; try discriminate E. injection E as _ <-. ins Ha.
    - destruct pre as [|i [|i2 pre]]; discriminate E.
    - destruct pre as [|i [|i2 pre]]; discriminate E.
    - destruct pre; discriminate E.
    - destruct pre; discriminate E. }
  split; [unfold late_tr, late_hist; apply out_hist; vm_compute; reflexivity|].
  split; [did|]. split; [did|]. split; [exists 0, TIO, KWrite, KWrite, 5%Z, 9%Z; repeat split|].
  split; [discriminate|]. split; apply not_hb; vm_compute; reflexivity.
Qed.

(** ** Submission, waiting, memory *)
(** What a thread did up to the submission of a task happens before everything the task
    and its descendants do. *)
Theorem C61_submission_hands_over :
  forall P n s tr c t i m k a b l, wfp P -> p_wrap P = false -> recorded P n s tr ->
  nth_error tr m = Some a -> nth_error tr i = Some b -> m <= i -> r_who a = r_who b -> In (LSpawn c) (r_log b) ->
  within P c t -> does tr k l -> made_by P l = Some t -> hb tr m k.
Proof.
  intros P n s tr c t i m k a b l W NW R Em Ei L Ew. intros.
  eapply (submit_hb P W NW n s tr (recorded_hreach P W NW n s tr R) c t i m k a b l); eauto.
Qed.
(** The steps of one body are made by one thread. *)
Theorem C61_a_body_runs_on_one_thread :
  forall P n s tr m k a b l1 l2 t, wfp P -> p_wrap P = false -> recorded P n s tr ->
  nth_error tr m = Some a -> nth_error tr k = Some b -> In l1 (r_log a) -> In l2 (r_log b) ->
  made_by P l1 = Some t -> made_by P l2 = Some t -> r_who a = r_who b.
Proof.
  intros P n s tr m k a b l1 l2 t W NW R. intros. eapply (same_body P W NW n s tr (recorded_hreach P W NW n s tr R) m k a b l1 l2); eauto.
Qed.
(** What a task did happens before get() on its future returns, so that the value is there. *)
Theorem C61_get_sees_the_body :
  forall P n s tr c m k l, wfp P -> p_wrap P = false -> recorded P n s tr ->
  does tr k (LGet c) -> does tr m l -> made_by P l = Some c -> hb tr m k.
Proof.
  intros P n s tr c m k l W NW R. apply (get_hb P W NW n s tr (recorded_hreach P W NW n s tr R)).
Qed.
(** What the tasks submitted before a barrier() and their descendants did happens before
    it returns. *)
Theorem C61_barrier_sees_the_tasks :
  forall P n s tr p d i m k l, wfp P -> p_wrap P = false -> recorded P n s tr ->
  does tr k LBarrier -> does tr i (LSpawn p) -> i < k -> parent P p = None -> within P p d ->
  does tr m l -> made_by P l = Some d -> hb tr m k.
Proof.
  intros P n s tr p d i m k l W NW R. intros. eapply (barrier_hb P W NW n s tr (recorded_hreach P W NW n s tr R) p d i m k l); eauto.
Qed.
(** Everything done by a task, its descendants and the owner of its future happens before
    its memory is freed. *)
Theorem C61_memory_is_freed_after_the_last_use :
  forall P n s tr t k, wfp P -> p_wrap P = false -> recorded P n s tr -> does tr k (LFree t) ->
  (forall d m l, within P t d -> does tr m l -> made_by P l = Some d -> hb tr m k) /\
  (forall m, does tr m (LGet t) \/ does tr m (LDrop t) -> hb tr m k).
Proof.
  intros P n s tr t k W NW R D. assert (H := recorded_hreach P W NW n s tr R). split.
  - intros d m l. apply (free_hb P W NW n s tr H); auto.
  - intros m [Q|Q]; [apply (free_use_hb P W NW n s tr H t m k (LGet t))|apply (free_use_hb P W NW n s tr H t m k (LDrop t))]; auto.
Qed.
Example C61_waiting_ex : wf ex /\ recorded ex 2 ex_fin ex_tr /\
  (* submission: by thread 0, start on thread 1 *)
  does ex_tr 27 (LSpawn 1) /\ does ex_tr 105 (LStart 1) /\
  (* get *)
  does ex_tr 107 (LAct (Some 1) (mkAct 1 TIO KWrite 7)) /\ does ex_tr 169 (LGet 1) /\ made_by ex (LAct (Some 1) (mkAct 1 TIO KWrite 7)) = Some 1 /\
  (* barrier *)
  does ex_tr 66 (LSpawn 3) /\ does ex_tr 157 (LEnd 3) /\ does ex_tr 187 LBarrier /\ parent ex 3 = None /\
  (* memory *)
  does ex_tr 97 (LFree 0) /\ does ex_tr 45 (LDrop 0) /\ does ex_tr 19 (LEnd 0).
Proof.
  split; [exact ex_wf|]. split; [exact ex_recorded|]. split; [did|]. split; [did|]. split; [did|]. split; [did|].
  split; [reflexivity|]. split; [did|]. split; [did|]. split; [did|]. split; [reflexivity|]. split; [did|]. split; did.
Qed.

(** ** Several threads of the user, orderly submissions *)
Theorem C61_no_data_race_with_several_threads_partial :
  forall P ms n s tr u t m k a b, wf_any P ms -> p_wrap P = false ->
  behaved P -> children_covered P -> inner_private P -> keeps_off P -> chist P ms n s tr ->
  does tr m (LAct (Some u) b) -> does tr k (LAct (Some t) a) -> acts_conflict b a ->
  m = k \/ hb tr m k \/ hb tr k m.
Proof.
  intros P ms n s tr u t m k a b W NW BH CC IP KO R.
  destruct (chist_front P ms W NW n s tr R) as (U & WU & H & _). now apply (no_race P WU NW n s tr H).
Qed.
Lemma duo_nested : children_covered duo /\ inner_private duo /\ keeps_off duo.
Proof.
  assert (E : forall q c, In (ISpawn c) (body duo (Some q)) -> False).
  { intros q c Hc. apply spawns_In in Hc. rewrite duo_flat in Hc. easy. }
  split; [intros q c Hc; destruct (E q c Hc)|]. split; [intros q c a Hc; destruct (E q c Hc)|].
  intros q pre c post x y z Eq. exfalso. apply (E q c). rewrite Eq. apply in_or_app. right. now left.
Qed.
Theorem C61_threads_keep_their_order_partial :
  forall P ms n s tr p t d e m k l1 l2, wf_any P ms -> p_wrap P = false -> chist P ms n s tr ->
  comes_before P ms p t -> tasks_conflict P p t -> within P p d -> within P t e ->
  does tr m l1 -> made_by P l1 = Some d -> does tr k l2 -> made_by P l2 = Some e -> hb tr m k.
Proof.
  intros P ms n s tr p t d e m k l1 l2 W NW R B C Wd We D1 A1 D2 A2.
  destruct (chist_front P ms W NW n s tr R) as (U & WU & H & L).
  apply (siblings_hb_all P WU NW n s tr H p t d e m k l1 l2); auto.
  - apply L; auto. destruct (acts_from P WU NW n s tr H k l2 e D2 A2) as (j & Dj & _).
    destruct (start_in P WU NW n s tr H t e j We Dj) as (i & Di & _). apply in_exec.
    assert (Q := HbGlob.does_log P s tr (H_glob P WU NW n s tr H) i _ Di). apply in_start in Q.
    pose proof (f_start P s (H_inv P WU NW n s tr H) t). lia.
  - split; [now apply (before_parent P ms W)|now apply (conflict_serial P)].
Qed.
Theorem C61_waiting_with_several_threads_partial :
  forall P ms n s tr k, wf_any P ms -> p_wrap P = false -> chist P ms n s tr ->
  (forall c m l, does tr k (LGet c) -> does tr m l -> made_by P l = Some c -> hb tr m k) /\
  (forall p d i m l, does tr k LBarrier -> does tr i (LSpawn p) -> i < k -> parent P p = None -> within P p d ->
                     does tr m l -> made_by P l = Some d -> hb tr m k) /\
  (forall c t i m a b l, nth_error tr m = Some a -> nth_error tr i = Some b -> m <= i -> r_who a = r_who b -> In (LSpawn c) (r_log b) ->
                     within P c t -> does tr k l -> made_by P l = Some t -> hb tr m k).
Proof.
  intros P ms n s tr k W NW R. destruct (chist_front P ms W NW n s tr R) as (U & WU & H & _). split; [|split].
  - intros c m l. apply (get_hb P WU NW n s tr H).
  - intros p d i m l. intros. eapply (barrier_hb P WU NW n s tr H p d i m k l); eauto.
  - intros c t i m a b l. intros. eapply (submit_hb P WU NW n s tr H c t i m k a b l); eauto.
Qed.
Example C61_threads_ex : wf_many duo duo_ms /\ behaved duo /\ chist duo duo_ms 2 duo_fin duo_tr /\
  (* tasks 1 and 2 of different threads, on different workers *)
  does duo_tr 25 (LAct (Some 2) (mkAct 1 TIO KWrite 3)) /\ does duo_tr 86 (LAct (Some 1) (mkAct 1 TIO KWrite 7)) /\
  acts_conflict (mkAct 1 TIO KWrite 3) (mkAct 1 TIO KWrite 7) /\
  option_map r_who (nth_error duo_tr 25) = Some 2 /\ option_map r_who (nth_error duo_tr 86) = Some 3 /\
  (* tasks 2 and 3 of one thread *)
  comes_before duo duo_ms 2 3 /\ tasks_conflict duo 2 3 /\ does duo_tr 133 (LAct (Some 3) (mkAct 2 TIO KAdd 2)) /\
  (* get, barrier *)
  does duo_tr 106 (LGet 1) /\ does duo_tr 1 (LSpawn 2) /\ does duo_tr 159 LBarrier /\ parent duo 2 = None.
Proof.
  split; [exact duo_wf|]. split; [exact duo_behaved|]. split; [exact duo_recorded|]. split; [did|]. split; [did|].
  split; [exists 1, TIO, KWrite, KWrite, 3%Z, 7%Z; repeat split|]. split; [vm_compute; reflexivity|]. split; [vm_compute; reflexivity|].
  split; [exact duo_before|]. split.
  { exists (acc 1 MWrite), (acc 1 MRead), TIO, MWrite, MRead, KWrite, KRead. repeat split; simpl; auto. }
  split; [did|]. split; [did|]. split; [did|]. split; [did|reflexivity].
Qed.

(** ** Each kind of synchronisation is needed *)
(** the same history, some objects not synchronising (relaxed memory order) *)
Definition relaxed (sync : obj -> bool) (tr : list rec) : list rec :=
  map (fun r => mkRec (r_who r) (filter sync (r_acq r)) (filter sync (r_rel r)) (r_log r)) tr.
Definition not_counters (x : obj) : bool := match x with OCtr _ => false | _ => true end.
Definition not_locks (x : obj) : bool := match x with OLck _ => false | _ => true end.
Definition not_new (x : obj) : bool := match x with OEmp _ => false | _ => true end.

(** Task 2 waits for tasks 0 and 1; who finishes first tells the other through the counter. *)
Definition join_tasks : list tdef :=
  [mkTdef None (declare 0 [acc 0 MWrite] []) [cell 0 KWrite 5%Z];
   mkTdef None (declare 0 [acc 1 MWrite] []) [cell 1 KWrite 6%Z];
   mkTdef None (declare 0 [acc 0 MRead; acc 1 MRead] []) [cell 0 KRead 0; cell 1 KRead 0]].
Definition join : prog := lprog [ISpawn 0; ISpawn 1; ISpawn 2] join_tasks false.
Definition join_hist := hgo any join (init join 2) []
  (phases join [([(0, PNew 0)], 100); ([(2, PNew 0)], 30); ([(1, PNew 0)], 30); ([(2, PReady 0)], 29)] (init join 2)).
Definition join_tr := snd (out join join_hist).
Lemma join_behaved : behaved join.
Proof.
  intros t a H. few t; ins H.
  all: simpl; eexists; eexists; first
    [solve [split; [left; reflexivity|simpl; auto]] | solve [split; [right; left; reflexivity|simpl; auto]]].
Qed.
Theorem C61_no_data_race_without_counters_refuted :
  exists P n s tr u t m k a b, wf P /\ p_wrap P = false /\ flat P /\ behaved P /\ hist P n s tr /\
  does tr m (LAct (Some u) b) /\ does tr k (LAct (Some t) a) /\ acts_conflict b a /\ m < k /\
  hb tr m k /\ ~ hb (relaxed not_counters tr) m k.
Proof.
  exists join, 2, (fst (out join join_hist)), join_tr, 0, 2, 54, 96, (mkAct 0 TIO KRead 0), (mkAct 0 TIO KWrite 5).
  assert (W : wf join) by (apply wfb_ok; vm_compute; reflexivity).
  assert (F : flat join) by (apply flatb_ok; vm_compute; reflexivity).
  assert (H : hist join 2 (fst (out join join_hist)) join_tr) by (unfold join_tr, join_hist; apply out_hist; vm_compute; reflexivity).
  assert (D1 : does join_tr 54 (LAct (Some 0) (mkAct 0 TIO KWrite 5))) by did.
  assert (D2 : does join_tr 96 (LAct (Some 2) (mkAct 0 TIO KRead 0))) by did.
  assert (C : acts_conflict (mkAct 0 TIO KWrite 5) (mkAct 0 TIO KRead 0)) by (exists 0, TIO, KWrite, KRead, 5%Z, 0%Z; repeat split).
  split; [exact W|]. split; [reflexivity|]. split; [exact F|]. split; [exact join_behaved|]. split; [exact H|].
  split; [exact D1|]. split; [exact D2|]. split; [exact C|]. split; [lia|]. split.
  - destruct (C61_no_data_race join 2 _ _ _ _ _ _ _ _ W eq_refl F join_behaved H D1 D2 C) as [Q|[Q|Q]]; [discriminate|exact Q|].
    apply HbBase.hb_lt in Q. lia.
  - apply not_hb. vm_compute. reflexivity.
Qed.

(** Task 1 is submitted when task 0 has left the user list: only the lock tells. *)
Definition pair_tasks : list tdef :=
  [mkTdef None (declare 0 [acc 0 MWrite] []) [cell 0 KWrite 5%Z];
   mkTdef None (declare 0 [acc 0 MRead] []) [cell 0 KRead 0]].
Definition two_in_turn : prog := lprog [ISpawn 0; ISpawn 1] pair_tasks false.
Definition turn_hist := hgo any two_in_turn (init two_in_turn 2) []
  (phases two_in_turn [([(0, PNew 0)], 3); ([(1, PNew 0)], 100); ([(0, PNew 0)], 100); ([(2, PNew 0)], 23)] (init two_in_turn 2)).
Definition turn_tr := snd (out two_in_turn turn_hist).
Lemma turn_behaved : behaved two_in_turn.
Proof.
  intros t a H. few t; ins H; simpl; eexists; eexists; split; [left; reflexivity|simpl; auto|left; reflexivity|simpl; auto].
Qed.
Lemma turn_facts : wf two_in_turn /\ flat two_in_turn /\ hist two_in_turn 2 (fst (out two_in_turn turn_hist)) turn_tr /\
  does turn_tr 17 (LAct (Some 0) (mkAct 0 TIO KWrite 5)) /\ does turn_tr 47 (LAct (Some 1) (mkAct 0 TIO KRead 0)).
Proof.
  split; [apply wfb_ok; vm_compute; reflexivity|]. split; [apply flatb_ok; vm_compute; reflexivity|].
  split; [unfold turn_tr, turn_hist; apply out_hist; vm_compute; reflexivity|]. split; did.
Qed.
Theorem C61_no_data_race_without_locks_refuted :
  exists P n s tr u t m k a b, wf P /\ p_wrap P = false /\ flat P /\ behaved P /\ hist P n s tr /\
  does tr m (LAct (Some u) b) /\ does tr k (LAct (Some t) a) /\ acts_conflict b a /\ m < k /\
  hb tr m k /\ ~ hb (relaxed not_locks tr) m k.
Proof.
  exists two_in_turn, 2, (fst (out two_in_turn turn_hist)), turn_tr, 0, 1, 17, 47, (mkAct 0 TIO KRead 0), (mkAct 0 TIO KWrite 5).
  destruct turn_facts as (W & F & H & D1 & D2).
  assert (C : acts_conflict (mkAct 0 TIO KWrite 5) (mkAct 0 TIO KRead 0)) by (exists 0, TIO, KWrite, KRead, 5%Z, 0%Z; repeat split).
  split; [exact W|]. split; [reflexivity|]. split; [exact F|]. split; [exact turn_behaved|]. split; [exact H|].
  split; [exact D1|]. split; [exact D2|]. split; [exact C|]. split; [lia|]. split.
  - destruct (C61_no_data_race two_in_turn 2 _ _ _ _ _ _ _ _ W eq_refl F turn_behaved H D1 D2 C) as [Q|[Q|Q]]; [discriminate|exact Q|].
    apply HbBase.hb_lt in Q. lia.
  - apply not_hb. vm_compute. reflexivity.
Qed.
(** Without the queues of new tasks a task does not see what was done before its submission. *)
Theorem C61_submission_without_queues_refuted :
  exists P n s tr c m k, wf P /\ p_wrap P = false /\ flat P /\ hist P n s tr /\
  does tr m (LSpawn c) /\ does tr k (LStart c) /\ hb tr m k /\ ~ hb (relaxed not_new tr) m k.
Proof.
  exists two_in_turn, 2, (fst (out two_in_turn turn_hist)), turn_tr, 1, 30, 46. destruct turn_facts as (W & F & H & _).
  assert (D1 : does turn_tr 30 (LSpawn 1)) by did. assert (D2 : does turn_tr 46 (LStart 1)) by did.
  split; [exact W|]. split; [reflexivity|]. split; [exact F|]. split; [exact H|]. split; [exact D1|]. split; [exact D2|]. split.
  - destruct D1 as (b & Eb & Hb).
    exact (C61_submission_hands_over two_in_turn 2 _ turn_tr 1 1 30 30 46 b b (LStart 1) W eq_refl
      (or_introl (conj F H)) Eb Eb (le_n _) eq_refl Hb (within_self _ 1) D2 eq_refl).
  - apply not_hb. vm_compute. reflexivity.
Qed.

Definition all_hb := (@C61_every_execution_has_a_history, @C61_the_history_is_the_log, @C61_history_ex, @C61_conflicting_tasks_happen_one_before_the_other, @C61_order_ex, @C61_no_data_race, @C61_race_ex, @C61_no_data_race_with_nested_tasks_partial, @C61_nested_ex, @C61_no_data_race_with_nested_tasks_refuted, @C61_submission_hands_over, @C61_a_body_runs_on_one_thread, @C61_get_sees_the_body, @C61_barrier_sees_the_tasks, @C61_memory_is_freed_after_the_last_use, @C61_waiting_ex, @C61_no_data_race_with_several_threads_partial, @C61_threads_keep_their_order_partial, @C61_waiting_with_several_threads_partial, @C61_threads_ex, @C61_no_data_race_without_counters_refuted, @C61_no_data_race_without_locks_refuted, @C61_submission_without_queues_refuted).
Print Assumptions all_hb.
