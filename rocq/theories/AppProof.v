(** Applications: every execution ends, with the result of the calls one after another. *)
From Coq Require Import Bool List Arith NArith ZArith Lia Sorting.Sorted.
From Verif Require Import AccessModel AccessSpec AccessProof UserModel UserProof SchedModel SchedSpec SchedBase SchedInv1 SchedInv2 SchedInv8 SchedFront SchedThm SchedLive SchedTerm SchedSeq AppModel.
Import ListNotations.
Open Scope nat_scope.

(** ** Well-formed applications *)
(** one access type per resource, areas within 64 bits, no resource named twice in one call,
    bodies do what their accesses permit *)
Definition one_type (js : list job) : Prop :=
  forall i j a b, In i js -> In j js -> In a (j_acc i) -> In b (j_acc j) -> r_id (a_res a) = r_id (a_res b) -> a_ty a = a_ty b.
Definition sound_job (j : job) : Prop :=
  (forall a, In a (j_acc j) -> ra_wf a = true) /\ NoDup (map (fun a => r_id (a_res a)) (j_acc j)) /\
  (forall a, In a (j_acts j) -> exists r (v : val (ac_ty a)), In (mkAcc r (ac_ty a) v) (j_acc j) /\ r_id r = ac_res a /\ permits (ac_ty a) v (ac_touch a)).
Definition sound_app (js : list job) : Prop := one_type js /\ forall j, In j js -> sound_job j.

Lemma declare_acc l u : u_acc (fold_left add_resource_access l u) = rev l ++ u_acc u /\ u_uniq (fold_left add_resource_access l u) = rev (map a_res l) ++ u_uniq u.
Proof.
  revert u. induction l as [|a l IH]; intros u; [easy|]. cbn [fold_left]. destruct (IH (add_resource_access u a)) as [-> ->]. simpl.
  now rewrite <- !app_assoc.
Qed.
Lemma task_acc j : u_acc (t_user (task_of j)) = rev (j_acc j).
Proof. unfold task_of, declare. simpl. now rewrite (proj1 (declare_acc _ _)), app_nil_r. Qed.
Lemma task_uniq j : map r_id (u_uniq (t_user (task_of j))) = rev (map (fun a => r_id (a_res a)) (j_acc j)).
Proof. unfold task_of, declare. simpl. rewrite (proj2 (declare_acc _ _)), app_nil_r, map_rev, map_map. reflexivity. Qed.

Lemma calls_spawns t js : spawns (calls t js) = seq t (length js).
Proof. revert t. induction js as [|j js IH]; intros t; [easy|]. simpl. destruct (j_get j); now rewrite IH. Qed.
Lemma calls_uses t js c : uses c (calls t js) = if (t <=? c) && (c <? t + length js) then 1 else 0.
Proof.
  revert t. induction js as [|j js IH]; intros t; simpl.
  - destruct (Nat.leb_spec t c); destruct (Nat.ltb_spec c (t + 0)); simpl; auto; lia.
  - destruct (j_get j); simpl; rewrite IH; destruct (Nat.eqb_spec t c); destruct (Nat.leb_spec (S t) c); destruct (Nat.ltb_spec c (S t + length js));
      destruct (Nat.leb_spec t c); destruct (Nat.ltb_spec c (t + S (length js))); simpl; try lia.
Qed.
Lemma spawns_app l1 l2 : spawns (l1 ++ l2) = spawns l1 ++ spawns l2.
Proof. induction l1 as [|[] l1 IH]; simpl; auto. now rewrite IH. Qed.
Lemma uses_app c l1 l2 : uses c (l1 ++ l2) = uses c l1 + uses c l2.
Proof. induction l1 as [|[] l1 IH]; simpl; auto; rewrite IH; lia. Qed.
Lemma seq_sorted a n : StronglySorted lt (seq a n).
Proof.
  revert a. induction n as [|n IH]; intros a; simpl; constructor; auto. apply Forall_forall. intros x H. apply in_seq in H. lia.
Qed.
Lemma main_spawns js w : spawns (p_main (app js w)) = seq 0 (length js).
Proof. simpl. now rewrite spawns_app, calls_spawns, app_nil_r. Qed.
Lemma main_uses js w c : uses c (p_main (app js w)) = if c <? length js then 1 else 0.
Proof. simpl. rewrite uses_app, calls_uses. simpl. destruct (Nat.ltb_spec c (length js)); simpl; lia. Qed.
Lemma calls_after t js pre i post c : calls t js ++ [IBarrier] = pre ++ i :: post -> is_use c i -> t <= c -> In c (spawns pre).
Proof.
  revert t pre. induction js as [|j js IH]; intros t pre E U L.
  - simpl in E. destruct pre as [|x [|y pre]]; try discriminate. injection E as <- _. destruct U; discriminate.
  - simpl in E. destruct pre as [|x pre]; [injection E as <- _; destruct U; discriminate|]. injection E as <- E. simpl.
    destruct pre as [|x pre]; [injection E as <- _; destruct U as [U|U]; destruct (j_get j); try discriminate; injection U as ->; now left|].
    injection E as <- E. destruct (Nat.eq_dec c t) as [->|NE]; [now left|]. right.
    assert (H : In c (spawns pre)) by (apply (IH (S t)); auto; lia). destruct (j_get j); exact H.
Qed.
Lemma acts_no_spawn l : spawns (map IAct l) = [].
Proof. induction l; simpl; auto. Qed.
Lemma body_task js w t : body (app js w) (Some t) = match nth_error js t with Some j => map IAct (j_acts j) | None => [] end.
Proof. simpl. destruct (nth_error js t); reflexivity. Qed.
Lemma body_only_acts js w t i : In i (body (app js w) (Some t)) -> exists a, i = IAct a.
Proof. rewrite body_task. destruct (nth_error js t); [|easy]. intros H. apply in_map_iff in H as (a & <- & _). eauto. Qed.
Lemma user_acc js w t a : In a (u_acc (user (app js w) t)) -> exists j, nth_error js t = Some j /\ In a (j_acc j).
Proof. unfold user. simpl. destruct (nth_error js t) as [j|] eqn:E; [|easy]. rewrite task_acc. intros H. apply in_rev in H. eauto. Qed.

Lemma uses_none c l : (forall i, In i l -> exists a, i = IAct a) -> uses c l = 0.
Proof. induction l as [|i l IH]; intros H; [easy|]. destruct (H i (or_introl eq_refl)) as [a ->]. simpl. apply IH. intros. apply H. now right. Qed.
Lemma creates_none e l : (forall i, In i l -> exists a, i = IAct a) -> creates e l = 0.
Proof. induction l as [|i l IH]; intros H; [easy|]. destruct (H i (or_introl eq_refl)) as [a ->]. simpl. apply IH. intros. apply H. now right. Qed.

Lemma app_flat js w : flat (app js w).
Proof. intros t. rewrite body_task. destruct (nth_error js t); [apply acts_no_spawn|reflexivity]. Qed.
Lemma app_parent js w t : parent (app js w) t = None.
Proof. unfold parent. simpl. now destruct (nth_error js t). Qed.
Lemma app_wf js w : sound_app js -> wf (app js w).
Proof.
  intros [OT SJ]. assert (B := body_only_acts js w). split; [split; [split|]|].
  - intros [q|] c H; [destruct (B q _ H); discriminate|apply app_parent].
  - intros q c H. destruct (B q _ H). discriminate.
  - intros [q|]; [rewrite app_flat; constructor|]. cbn [body]. rewrite main_spawns. apply seq_sorted.
  - intros [q|] c; [rewrite (uses_none c); [lia|apply B]|]. cbn [body]. rewrite main_uses. destruct (c <? length js); lia.
  - intros [q|] pre i post c E U.
    + destruct (B q i) as [a ->]; [rewrite E; apply in_or_app; simpl; auto|]. destruct U; discriminate.
    + simpl in E. apply (calls_after 0 js pre i post c E U). lia.
  - intros t e. rewrite creates_none; [lia|apply B].
  - intros t a H. destruct (user_acc js w t a H) as (j & E & Ha). unfold uniq, user. simpl. rewrite E, task_uniq.
    apply -> in_rev. exact (in_map (fun a => r_id (a_res a)) _ _ Ha).
  - intros t1 t2 a b Ha Hb. apply user_acc in Ha as (j1 & E1 & Ha). apply user_acc in Hb as (j2 & E2 & Hb).
    apply nth_error_In in E1, E2. exact (OT _ _ _ _ E1 E2 Ha Hb).
  - intros t a Ha. apply user_acc in Ha as (j1 & E1 & Ha). apply nth_error_In in E1. now apply (SJ _ E1).
  - intros t H. destruct (B t _ H). discriminate.
  - intros t c H. destruct (B t _ H). discriminate.
Qed.
Lemma app_nodup js w t : sound_app js -> NoDup (uniq (app js w) t).
Proof.
  intros [_ SJ]. unfold uniq, user. simpl. destruct (nth_error js t) as [j|] eqn:E; [|constructor].
  rewrite task_uniq. apply NoDup_rev. apply nth_error_In in E. now apply (SJ _ E).
Qed.
Lemma app_behaved js w : sound_app js -> behaved (app js w).
Proof.
  intros [_ SJ] t a H. rewrite body_task in H. destruct (nth_error js t) as [j|] eqn:E; [|easy].
  apply in_map_iff in H as (b & Eb & H). injection Eb as ->. assert (E' := E). apply nth_error_In in E.
  destruct (SJ _ E) as (_ & _ & P). destruct (P a H) as (r & v & X & Y & Z). exists r, v. repeat split; auto.
  unfold user. simpl. rewrite E', task_acc. now apply -> in_rev.
Qed.

(** ** Nothing is left over *)
Lemma calls_end js k pre is' : calls k js ++ [IBarrier] = pre ++ IBarrier :: is' -> is' = [].
Proof.
  revert k pre. induction js as [|j js IH]; intros k pre X; simpl in X.
  - destruct pre as [|x [|y pre]]; simpl in X; try discriminate. now injection X.
  - destruct pre as [|x pre]; [discriminate|]. injection X as _ X.
    destruct pre as [|x2 pre]; [destruct (j_get j); discriminate|]. injection X as _ X. exact (IH _ _ X).
Qed.
Lemma app_counts js w s : Inv (app js w) (single (app js w)) s -> forall t,
  (zsum (n_use t) (frames s) + zsum (v_use t) (log s) = if (t <? length js)%nat then 1 else 0)%Z /\
  (zsum (n_spawn t) (frames s) + zsum (v_spawn t) (log s) = if (t <? length js)%nat then 1 else 0)%Z.
Proof.
  intros I t. split.
  - rewrite (law_use _ s (i_laws _ s I) t), app_parent. cbn [startedz]. unfold body. rewrite main_uses. destruct (t <? length js); reflexivity.
  - rewrite (law_spawn _ s (i_laws _ s I) t), app_parent. cbn [startedz]. unfold body. rewrite main_spawns.
    destruct (Nat.ltb_spec t (length js)) as [L|L].
    + assert (H : forall a n, a <= t < a + n -> (zsum (ni t) (seq a n) = 1)%Z).
      { intros a n. revert a. induction n as [|n IH]; intros a Ha; [lia|]. simpl. unfold ni at 1. destruct (Nat.eqb_spec a t) as [->|NE].
        - assert (Z0 : zsum (ni t) (seq (S t) n) = 0%Z); [|rewrite Z0; reflexivity].
          apply zsum_zero. intros y Hy. apply in_seq in Hy. unfold ni. destruct (Nat.eqb_spec y t); auto; lia.
        - simpl. rewrite IH by lia. reflexivity. }
      rewrite H by lia. reflexivity.
    + assert (Z0 : zsum (ni t) (seq 0 (length js)) = 0%Z); [|rewrite Z0; reflexivity].
      apply zsum_zero. intros y Hy. apply in_seq in Hy. unfold ni. destruct (Nat.eqb_spec y t); auto; lia.
Qed.
Lemma app_finished js n s : sound_app js -> 1 <= n -> reach (app js false) n s -> stuck (app js false) s ->
  all_frames s = [FBody None []] /\ forall t, t < length js -> completed s t /\ In (LFree t) (log s).
Proof.
  intros OK N R K. assert (W := app_wf js false OK). assert (G := flat_greach _ W eq_refl n s (app_flat js false) R).
  destruct (gprogress _ W eq_refl n s N (fun t => or_introl (app_nodup js false t OK)) G K) as (A & _ & is & F & Q).
  assert (I := greach_Inv _ W eq_refl n s G). assert (CN := app_counts js false s I).
  assert (E : is = []).
  { destruct Q as [Q|(is' & t & E & St & Pt & NU)]; auto. exfalso. apply NU. apply in_use.
    destruct (CN t) as [U S]. apply in_spawn in St. rewrite F in U, S.
    assert (SF := law_suffix _ s (i_laws _ s I) (FBody None is)). rewrite F in SF.
    destruct (SF (or_introl eq_refl)) as (m & C & [pre X]). cbn in C.
    assert (Em : m = p_main (app js false)) by (destruct C as [C|[]]; now symmetry). rewrite Em in X. clear Em C.
    simpl in X. rewrite E in X. apply calls_end in X. subst is is'. cbn [zsum] in U, S. change (n_use t (FBody None [IBarrier])) with 0%Z in U. change (n_spawn t (FBody None [IBarrier])) with 0%Z in S. destruct (t <? length js)%nat; lia. }
  subst is. split; [exact F|].
  intros t Lt. destruct (CN t) as [U S]. rewrite F in U, S. apply Nat.ltb_lt in Lt. rewrite Lt in U, S. change (0 + zsum (v_use t) (log s) = 1)%Z in U. change (0 + zsum (v_spawn t) (log s) = 1)%Z in S.
  assert (St : submitted s t) by (apply in_spawn; lia). destruct (A t St) as [C Fr]. split; auto. apply Fr. apply in_use. lia.
Qed.

(** ** Results *)
(** what a body does, from a private state and a memory *)
Fixpoint run_acts (S : semantics) (as_ : list act) (l : L S) (m : M S) : L S * M S :=
  match as_ with [] => (l, m) | a :: as_ => let '(l', m') := op S a l m in run_acts S as_ l' m' end.
(** the calls one after another: memory before call [t], every body begins with [l0] *)
Definition memory_after (S : semantics) (l0 : L S) (js : list job) (m : M S) : M S :=
  fold_left (fun m j => snd (run_acts S (j_acts j) l0 m)) js m.

Lemma exec_app S l1 l2 g m : exec S (l1 ++ l2) g m = let '(g', m') := exec S l1 g m in exec S l2 g' m'.
Proof. revert g m. induction l1 as [|[t a] l1 IH]; intros g m; simpl; [now destruct (exec S l2 g m)|]. destruct (op S a (g t) m). apply IH. Qed.
Lemma exec_body S t l g m : fst (exec S (map (pair t) l) g m) t = fst (run_acts S l (g t) m) /\
  (forall u, u <> t -> fst (exec S (map (pair t) l) g m) u = g u) /\ snd (exec S (map (pair t) l) g m) = snd (run_acts S l (g t) m).
Proof.
  revert g m. induction l as [|a l IH]; intros g m; simpl; [auto|]. destruct (op S a (g t) m) as [x m'] eqn:E.
  destruct (IH (upd g t x) m') as (A & B & C). rewrite A, C. unfold upd at 1 3. rewrite Nat.eqb_refl. repeat split; auto.
  intros u Hu. rewrite B by auto. unfold upd. destruct (Nat.eqb_spec u t); congruence.
Qed.
Lemma acts_map l : acts_of (map IAct l) = l.
Proof. induction l as [|a l IH]; simpl; congruence. Qed.

Lemma calls_run S l0 js w ts k g m : (forall i, nth_error ts i = nth_error js (k + i)) -> (forall t, k <= t -> g t = l0) ->
  let x := exec S (one_by_one (app js w) (seq k (length ts))) g m in
  snd x = memory_after S l0 ts m /\
  (forall i j, nth_error ts i = Some j -> fst x (k + i) = fst (run_acts S (j_acts j) l0 (memory_after S l0 (firstn i ts) m))) /\
  (forall t, t < k -> fst x t = g t).
Proof.
  revert k g m. induction ts as [|j ts IH]; intros k g m E G; simpl length; simpl seq.
  - simpl. repeat split; auto. intros [|i] j; discriminate.
  - unfold one_by_one. cbn [flat_map]. fold (one_by_one (app js w) (seq (Datatypes.S k) (length ts))).
    rewrite body_task. assert (E0 := E 0). rewrite Nat.add_0_r in E0. simpl in E0. rewrite <- E0. rewrite acts_map.
    cbv zeta. rewrite exec_app. destruct (exec S (map (pair k) (j_acts j)) g m) as [g1 m1] eqn:X.
    destruct (exec_body S k (j_acts j) g m) as (A & B & C). rewrite X in A, B, C. cbn [fst snd] in A, B, C. rewrite (G k) in A, C by lia.
    destruct (IH (Datatypes.S k) g1 m1) as (I1 & I2 & I3).
    + intros i. replace (Datatypes.S k + i) with (k + Datatypes.S i) by lia. exact (E (Datatypes.S i)).
    + intros t Ht. rewrite B by lia. apply G. lia.
    + repeat split.
      * rewrite I1. unfold memory_after. simpl. now rewrite C.
      * intros [|i] j' H; simpl in H.
        -- injection H as <-. rewrite Nat.add_0_r, I3 by lia. rewrite A. reflexivity.
        -- replace (k + Datatypes.S i) with (Datatypes.S k + i) by lia. rewrite (I2 i j' H). unfold memory_after. simpl. now rewrite C.
      * intros t Ht. rewrite I3 by lia. apply B. lia.
Qed.

Theorem app_result js n s S l0 m : sound_app js -> 1 <= n -> sensible S -> reach (app js false) n s -> stuck (app js false) s ->
  let x := exec S (performed (log s)) (fun _ => l0) m in
  snd x = memory_after S l0 js m /\
  forall t j, nth_error js t = Some j -> fst x t = fst (run_acts S (j_acts j) l0 (memory_after S l0 (firstn t js) m)).
Proof.
  intros OK N SE R K. destruct (app_finished js n s OK N R K) as [F _].
  assert (W := app_wf js false OK).
  assert (Q := final_result _ W eq_refl n s S (fun _ => l0) m N (fun t => or_introl (app_nodup js false t OK)) (app_flat js false) (app_behaved js false OK) SE R K).
  destruct Q as [Q1 Q2]; [unfold all_frames in F; unfold frames; rewrite F; now left|].
  rewrite main_spawns in Q1, Q2.
  destruct (calls_run S l0 js false js 0 (fun _ => l0) m ltac:(easy) ltac:(easy)) as (A & B & _).
  cbv zeta in *. split; [now rewrite Q2|]. intros t j Ht. rewrite Q1. exact (B t j Ht).
Qed.

(** ** Memory as lists *)
Lemma alter_same {A} i (f g : A -> A) l : alter i f (alter i g l) = alter i (fun x => f (g x)) l.
Proof. revert i. induction l as [|x l IH]; intros [|i]; simpl; auto. now rewrite IH. Qed.
Lemma alter_swap {A} i j (f g : A -> A) l : i <> j -> alter i f (alter j g l) = alter j g (alter i f l).
Proof. revert i j. induction l as [|x l IH]; intros [|i] [|j] H; simpl; auto; [lia|]. now rewrite IH by lia. Qed.
Lemma alter_ext {A} i (f g : A -> A) l : (forall x, f x = g x) -> alter i f l = alter i g l.
Proof. intros E. revert i. induction l as [|x l IH]; intros [|i]; simpl; auto; [now rewrite E|now rewrite IH]. Qed.
Lemma alter_len {A} i (f : A -> A) l : length (alter i f l) = length l.
Proof. revert i. induction l as [|x l IH]; intros [|i]; simpl; auto. Qed.
Lemma nth_alter {A} i j (f : A -> A) l d : nth i (alter j f l) d = if (i =? j) && (i <? length l) then f (nth i l d) else nth i l d.
Proof.
  revert i j. induction l as [|x l IH]; intros [|i] [|j]; simpl; auto.
  - now rewrite andb_false_r.
  - rewrite IH. reflexivity.
Qed.
Lemma nth_alter_ne {A} i j (f : A -> A) l d : i <> j -> nth i (alter j f l) d = nth i l d.
Proof. intros H. rewrite nth_alter. destruct (Nat.eqb_spec i j); [lia|reflexivity]. Qed.

Lemma io_no_conflict r s x y c d : ~ acts_conflict (mkAct r TIO x c) (mkAct s TIO y d) -> r <> s \/ kind_conflict x y = false.
Proof.
  intros H. destruct (Nat.eq_dec r s) as [->|]; auto. right. destruct (kind_conflict x y) eqn:E; auto. destruct H.
  exists s, TIO, x, y, c, d. repeat split; auto.
Qed.
Lemma blas_sensible K : sensible (blas K).
Proof.
  intros [r T x c] [s U y d] l1 l2 m H. destruct T; try (destruct U; simpl; [destruct y|..]; auto; fail).
  destruct U; try (simpl; destruct x; auto; fail).
  apply io_no_conflict in H. simpl.
  destruct x, y; simpl; auto; destruct H as [H|H]; try discriminate H; rewrite ?nth_alter_ne by auto; auto.
  repeat split; auto. symmetry. now apply alter_swap.
Qed.
