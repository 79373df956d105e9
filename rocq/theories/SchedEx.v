(** Concrete programs and runs: a checker for well-formed programs, a simple
    scheduler, integer cells. *)
From Coq Require Import Bool List Arith NArith ZArith Lia Sorting.Sorted.
From Verif Require Import AccessModel AccessSpec AccessProof UserModel SchedModel SchedSpec.
Import ListNotations.

(** ** Programs given by a list of task definitions *)
Definition no_task : tdef := mkTdef None (mkUser 0 [] []) [].
Definition lprog (main : list instr) (ds : list tdef) (w : bool) : prog :=
  mkProg main (fun t => nth t ds no_task) w.

Definition owners (ds : list tdef) : list (option nat) := None :: map Some (seq 0 (length ds)).

Fixpoint sortedb (l : list nat) : bool :=
  match l with [] => true | x :: l => forallb (Nat.ltb x) l && sortedb l end.
Fixpoint nodupb (l : list nat) : bool :=
  match l with [] => true | x :: l => negb (existsb (Nat.eqb x) l) && nodupb l end.
Fixpoint used (s : list instr) : list nat :=
  match s with [] => [] | IDrop c :: s | IGet c :: s => c :: used s | _ :: s => used s end.
Fixpoint makes (s : list instr) : list nat :=
  match s with [] => [] | IEvent c :: s => c :: makes s | _ :: s => makes s end.
Fixpoint use_after (sp : list nat) (s : list instr) : bool :=
  match s with
  | [] => true
  | ISpawn c :: s => use_after (c :: sp) s
  | IDrop c :: s | IGet c :: s => existsb (Nat.eqb c) sp && use_after sp s
  | _ :: s => use_after sp s
  end.
Definition quiet_instr (i : instr) : bool := match i with IGet _ | IBarrier => false | _ => true end.

Definition wfb (main : list instr) (ds : list tdef) : bool :=
  let P := lprog main ds false in
  let ts := seq 0 (length ds) in
  forallb (fun o => forallb (fun c => onat_eqb (parent P c) o) (spawns (body P o))
                    && sortedb (spawns (body P o)) && nodupb (used (body P o))
                    && use_after [] (body P o)) (owners ds)
  && forallb (fun q => forallb (Nat.ltb q) (spawns (body P (Some q))) && nodupb (makes (body P (Some q)))
                       && forallb quiet_instr (body P (Some q))
                       && forallb (fun a => existsb (Nat.eqb (r_id (a_res a))) (uniq P q) && ra_wf a) (u_acc (user P q))
                       && forallb (fun u => forallb (fun a => forallb (fun b =>
                            negb (Nat.eqb (r_id (a_res a)) (r_id (a_res b))) || if ty_eq_dec (a_ty a) (a_ty b) then true else false)
                            (u_acc (user P u))) (u_acc (user P q))) ts) ts.

(** no task waits for itself ([patient]) *)
Definition patientb (main : list instr) (ds : list tdef) : bool :=
  let P := lprog main ds false in
  forallb (fun t => nodupb (uniq P t) || negb (user_is_serial (user P t) (user P t))) (seq 0 (length ds)).

Definition flatb (ds : list tdef) : bool := forallb (fun d => match spawns (t_body d) with [] => true | _ => false end) ds.

Lemma sortedb_ok l : sortedb l = true -> StronglySorted lt l.
Proof.
  induction l as [|x l IH]; simpl; intros H; constructor.
  - apply IH. now apply andb_true_iff in H.
  - apply andb_true_iff in H as [H _]. rewrite forallb_forall in H. apply Forall_forall. intros y Hy. now apply Nat.ltb_lt, H.
Qed.
Lemma nodupb_ok l : nodupb l = true -> NoDup l.
Proof.
  induction l as [|x l IH]; simpl; intros H; constructor; apply andb_true_iff in H as [H1 H2]; auto.
  intros Q. apply negb_true_iff in H1. assert (existsb (Nat.eqb x) l = true); [|congruence].
  apply existsb_exists. exists x. split; auto. apply Nat.eqb_refl.
Qed.

Lemma spawns_in c s : In (ISpawn c) s -> In c (spawns s).
Proof. induction s as [|x s IH]; [easy|]. intros [->|H]; [now left|]. destruct x; simpl; auto. Qed.
Lemma uses_used c s : NoDup (used s) -> uses c s <= 1 /\ (~ In c (used s) -> uses c s = 0).
Proof.
  induction s as [|x s IH]; simpl; intros N; [split; auto|]. destruct x; simpl in *; auto.
  - inversion N; subst. destruct (IH H2) as [A B]. destruct (Nat.eqb_spec c0 c).
    + subst. rewrite B by easy. split; [lia|]. intros Q. destruct Q; now left.
    + split; [lia|]. intros Q. rewrite B by tauto. lia.
  - inversion N; subst. destruct (IH H2) as [A B]. destruct (Nat.eqb_spec c0 c).
    + subst. rewrite B by easy. split; [lia|]. intros Q. destruct Q; now left.
    + split; [lia|]. intros Q. rewrite B by tauto. lia.
Qed.
Lemma creates_makes c s : NoDup (makes s) -> creates c s <= 1 /\ (~ In c (makes s) -> creates c s = 0).
Proof.
  induction s as [|x s IH]; simpl; intros N; [split; auto|]. destruct x; simpl in *; auto.
  inversion N; subst. destruct (IH H2) as [A B]. destruct (Nat.eqb_spec e c).
  - subst. rewrite B by easy. split; [lia|]. intros Q. destruct Q; now left.
  - split; [lia|]. intros Q. rewrite B by tauto. lia.
Qed.
Lemma use_after_ok s : forall sp, use_after sp s = true -> forall pre i post c,
  s = pre ++ i :: post -> is_use c i -> In c (sp ++ spawns pre).
Proof.
  induction s as [|x s IH]; intros sp H pre i post c E U; [destruct pre; discriminate|].
  destruct pre as [|y pre]; injection E as -> E.
  - simpl. rewrite app_nil_r. destruct U as [-> | ->]; simpl in H; apply andb_true_iff in H as [H _];
      apply existsb_exists in H as (z & Hz & H); apply Nat.eqb_eq in H; now subst.
  - destruct y; simpl in *; try (eapply IH; eauto; fail).
    + assert (In c ((c0 :: sp) ++ spawns pre)) by (eapply IH; eauto). simpl in H0. rewrite in_app_iff in *. simpl. tauto.
    + apply andb_true_iff in H as [_ H]. eapply IH; eauto.
    + apply andb_true_iff in H as [_ H]. eapply IH; eauto.
Qed.

Lemma lprog_cases ds t : In t (seq 0 (length ds)) \/ nth t ds no_task = no_task.
Proof.
  destruct (lt_dec t (length ds)); [left; apply in_seq; lia|right; apply nth_overflow; lia].
Qed.

Lemma wfb_ok main ds w : wfb main ds = true -> wf (lprog main ds w).
Proof.
  unfold wfb. cbv zeta. intros H. apply andb_true_iff in H as [H1 H2].
  change (lprog main ds false) with (mkProg main (fun t => nth t ds no_task) false) in *.
  unfold body, parent, user, uniq in *. cbn [p_main p_task] in *. unfold user in *. cbn [p_main p_task] in *.
  rewrite forallb_forall in H1, H2.
  assert (O : forall o : option nat, In o (owners ds) \/ body (lprog main ds w) o = []).
  { intros [t|]; [|left; now left]. destruct (lprog_cases ds t) as [Q|Q]; [left; right; now apply in_map|].
    right. simpl. now rewrite Q. }
  split; [split; [split|]|].
  - intros o c Hc. destruct (O o) as [Ho|Ho]; [|rewrite Ho in Hc; easy]. specialize (H1 o Ho).
    rewrite !andb_true_iff in H1. destruct H1 as [[[H1 _] _] _]. rewrite forallb_forall in H1.
    assert (Q := H1 c (spawns_in _ _ Hc)). unfold parent. simpl.
    destruct (t_parent (nth c ds no_task)) as [x|], o as [y|]; simpl in Q; try discriminate; auto.
    apply Nat.eqb_eq in Q. now subst.
  - intros q c Hc. destruct (lprog_cases ds q) as [Q|Q]; [|simpl in Hc; rewrite Q in Hc; easy]. specialize (H2 q Q).
    rewrite !andb_true_iff in H2. destruct H2 as [[[[H2 _] _] _] _]. rewrite forallb_forall in H2.
    apply Nat.ltb_lt, H2. now apply spawns_in.
  - intros o. destruct (O o) as [Ho|Ho]; [|rewrite Ho; constructor]. specialize (H1 o Ho).
    rewrite !andb_true_iff in H1. now apply sortedb_ok.
  - intros o c. destruct (O o) as [Ho|Ho]; [|rewrite Ho; simpl; lia]. specialize (H1 o Ho).
    rewrite !andb_true_iff in H1. apply uses_used, nodupb_ok. apply H1.
  - intros o pre i post c E U. destruct (O o) as [Ho|Ho]; [|rewrite Ho in E; now destruct pre]. specialize (H1 o Ho).
    rewrite !andb_true_iff in H1. destruct H1 as [_ H1]. exact (use_after_ok _ [] H1 pre i post c E U).
  - intros t e. destruct (lprog_cases ds t) as [Q|Q]; [|simpl; rewrite Q; simpl; lia]. specialize (H2 t Q).
    rewrite !andb_true_iff in H2. apply creates_makes, nodupb_ok. apply H2.
  - intros t a Ha. unfold uniq, user in *. simpl in *. destruct (lprog_cases ds t) as [Q|Q]; [|rewrite Q in Ha; easy]. specialize (H2 t Q).
    rewrite !andb_true_iff in H2. destruct H2 as [[_ H2] _]. rewrite forallb_forall in H2. apply H2 in Ha.
    apply andb_true_iff in Ha as [Ha _]. apply existsb_exists in Ha as (z & Hz & Ha). apply Nat.eqb_eq in Ha. now rewrite Ha.
  - intros t u a b Ha Hb E. unfold user in *. simpl in *.
    destruct (lprog_cases ds t) as [Q|Q]; [|rewrite Q in Ha; easy]. destruct (lprog_cases ds u) as [Q'|Q']; [|rewrite Q' in Hb; easy].
    specialize (H2 t Q). rewrite !andb_true_iff in H2. destruct H2 as [_ H2]. rewrite forallb_forall in H2.
    specialize (H2 u Q'). rewrite forallb_forall in H2. specialize (H2 a Ha). rewrite forallb_forall in H2. specialize (H2 b Hb).
    destruct (ty_eq_dec (a_ty a) (a_ty b)); auto. rewrite E, Nat.eqb_refl in H2. discriminate.
  - intros t a Ha. unfold user in *. simpl in *. destruct (lprog_cases ds t) as [Q|Q]; [|rewrite Q in Ha; easy]. specialize (H2 t Q).
    rewrite !andb_true_iff in H2. destruct H2 as [[_ H2] _]. rewrite forallb_forall in H2. apply H2 in Ha.
    now apply andb_true_iff in Ha as [_ Ha].
  - intros t Hc. destruct (lprog_cases ds t) as [Q|Q]; [|simpl in Hc; rewrite Q in Hc; easy]. specialize (H2 t Q).
    rewrite !andb_true_iff in H2. destruct H2 as [[[_ H2] _] _]. rewrite forallb_forall in H2. now apply H2 in Hc.
  - intros t c Hc. destruct (lprog_cases ds t) as [Q|Q]; [|simpl in Hc; rewrite Q in Hc; easy]. specialize (H2 t Q).
    rewrite !andb_true_iff in H2. destruct H2 as [[[_ H2] _] _]. rewrite forallb_forall in H2. now apply H2 in Hc.
Qed.

Lemma patientb_ok main ds w : patientb main ds = true -> forall t, patient (lprog main ds w) t.
Proof.
  unfold patientb. cbv zeta. intros H t. rewrite forallb_forall in H. unfold patient, uniq, user in *. cbn [lprog p_task] in *.
  destruct (lprog_cases ds t) as [Q|Q].
  - specialize (H t Q). apply orb_prop in H as [H|H]; [left; now apply nodupb_ok|right; now apply negb_true_iff].
  - left. rewrite Q. constructor.
Qed.

Lemma flatb_ok main ds w : flatb ds = true -> flat (lprog main ds w).
Proof.
  unfold flatb. rewrite forallb_forall. intros H t. simpl. destruct (lprog_cases ds t) as [Q|Q]; [|now rewrite Q].
  apply in_seq in Q. assert (X := H (nth t ds no_task) (nth_In _ _ (proj2 Q))).
  now destruct (spawns _).
Qed.

(** ** Runs *)
Lemma run_reach P n l : forall s s', reach P n s -> run P s l = Some s' -> reach P n s'.
Proof.
  induction l as [|[i c] l IH]; simpl; intros s s' R H; [now injection H as <-|].
  destruct (step P s i c) as [s1|] eqn:E; [|discriminate]. eapply IH; [|exact H]. econstructor; eauto.
Qed.

(** run [k] steps of the first move in [order] that is possible *)
Fixpoint first_move (P : prog) (s : state) (order : list (nat * pick)) : option state :=
  match order with
  | [] => None
  | (i, c) :: o => match step P s i c with Some s' => Some s' | None => first_move P s o end
  end.
Fixpoint auto_run (P : prog) (order : list (nat * pick)) (k : nat) (s : state) : state :=
  match k with
  | O => s
  | S k => match first_move P s order with Some s' => auto_run P order k s' | None => s end
  end.
Lemma first_reach P n s o s' : reach P n s -> first_move P s o = Some s' -> reach P n s'.
Proof.
  intros R. induction o as [|[i c] o IH]; simpl; [easy|]. destruct (step P s i c) eqn:E; auto.
  intros H. injection H as <-. econstructor; eauto.
Qed.
Lemma auto_reach P n o k : forall s, reach P n s -> reach P n (auto_run P o k s).
Proof.
  induction k as [|k IH]; simpl; intros s R; auto. destruct (first_move P s o) eqn:E; auto.
  apply IH. eapply first_reach; eauto.
Qed.

(** all moves of [n] threads *)
Definition moves_of (i : nat) : list (nat * pick) := [(i, PReady 0); (i, PNew 0); (i, PExt 0)].

(** ** Integer cells: an instance of [semantics] *)
Fixpoint put (k : nat) (v : Z) (l : list Z) : list Z :=
  match k, l with
  | _, [] => []
  | O, _ :: l => v :: l
  | S k, x :: l => x :: put k v l
  end.
Definition cell_op (a : act) (l : list Z) (m : list Z) : list Z * list Z :=
  match ac_ty a as T return touch T -> list Z * list Z with
  | TIO => fun k => let c := nth (ac_res a) m 0%Z in
      match k with
      | KRead => (c :: l, m)
      | KWrite => (l, put (ac_res a) (ac_code a) m)
      | KAdd => (l, put (ac_res a) (c + ac_code a)%Z m)
      | KMul => (l, put (ac_res a) (c * ac_code a)%Z m)
      end
  | _ => fun _ => (l, m)
  end (ac_touch a).
Definition cells : semantics := mkSem (list Z) (list Z) cell_op.

Lemma nth_put_ne j k v l : j <> k -> nth j (put k v l) 0%Z = nth j l 0%Z.
Proof.
  revert j k. induction l as [|x l IH]; intros [|j] [|k] H; simpl; auto; try lia. 
Qed.
Lemma put_comm j k v w l : j <> k -> put j v (put k w l) = put k w (put j v l).
Proof.
  revert j k. induction l as [|x l IH]; intros [|j] [|k] H; simpl; auto; try lia. f_equal. apply IH. lia.
Qed.
Lemma put_put k v w l : put k v (put k w l) = put k v l.
Proof. revert k. induction l as [|x l IH]; intros [|k]; simpl; auto. f_equal. auto. Qed.
Lemma nth_put k v l : nth k (put k v l) 0%Z = if k <? length l then v else 0%Z.
Proof.
  revert k. induction l as [|x l IH]; intros [|k]; simpl; auto. rewrite IH. reflexivity.
Qed.
Lemma put_over k v l : k <? length l = false -> put k v l = l.
Proof. revert k. induction l as [|x l IH]; intros [|k] H; simpl in *; auto; try discriminate. f_equal. now apply IH. Qed.

Lemma cells_sensible : sensible cells.
Proof.
  intros [r T x c] [r' T' y d] l1 l2 m NC. simpl. unfold cell_op; simpl.
  destruct T; [|destruct T'; auto; destruct y; auto..].
  destruct T'; [|destruct x; auto..].
  destruct (Nat.eq_dec r r') as [<-|D].
  - assert (K : ~ conflict TIO x y) by (intros K; apply NC; exists r, TIO, x, y, c, d; auto).
    destruct x, y; simpl in K; try (destruct K; reflexivity); auto.
    + rewrite !nth_put. destruct (r <? length m) eqn:E.
      * rewrite !put_put. repeat split; auto. f_equal. lia.
      * now rewrite !(put_over r) by (rewrite ?(put_over r); auto).
    + rewrite !nth_put. destruct (r <? length m) eqn:E.
      * rewrite !put_put. repeat split; auto. f_equal. lia.
      * now rewrite !(put_over r) by (rewrite ?(put_over r); auto).
  - destruct x, y; simpl; rewrite ?nth_put_ne by auto; auto; repeat split; auto using put_comm.
Qed.
