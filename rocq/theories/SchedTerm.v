(** Executions of the runtime machine are finite. *)
From Coq Require Import Bool List Arith NArith ZArith Lia Permutation Sorting.Sorted.
From Verif Require Import AccessModel AccessSpec AccessProof UserModel UserProof SchedModel SchedSpec SchedBase SchedInv1 SchedInv2 SchedInv3 SchedInv4 SchedInv5 SchedInv6 SchedInv7 SchedInv8 SchedFront SchedThm SchedLive.
Import ListNotations.
Open Scope Z_scope.

Definition ev_dec (a b : ev) : {a = b} + {a <> b}.
Proof. destruct (ev_eqb_spec a b); auto. Defined.

Lemma zsum_eupd (g : ev -> Z) x v l : NoDup l ->
  zsum (eupd g x v) l = zsum g l + (if in_dec ev_dec x l then v - g x else 0).
Proof.
  induction 1 as [|a l Ha ND IH]; [reflexivity|]. cbn [zsum]. rewrite IH. unfold eupd at 1.
  destruct (in_dec ev_dec x (a :: l)) as [H|H].
  - destruct (ev_eqb_spec a x).
    + subst. destruct (in_dec ev_dec x l); [easy|]. lia.
    + destruct H as [->|H]; [easy|]. destruct (in_dec ev_dec x l); [|easy]. lia.
  - destruct (ev_eqb_spec a x); [subst; simpl in H; tauto|].
    destruct (in_dec ev_dec x l); [simpl in H; tauto|]. lia.
Qed.

Lemma zsum_ce_swap l m : NoDup m -> (forall f, In f l -> forall e k, f = FNotify e k -> In e m) ->
  zsum (fun f => match f with FNotify _ _ => 1 | _ => 0 end) l = zsum (fun x => zsum (w_notify x) l) m.
Proof.
  intros ND. induction l as [|f l IH]; intros H.
  - simpl. symmetry. now apply zsum_zero.
  - cbn [zsum]. rewrite IH by (intros; eapply H; eauto; simpl; auto). rewrite zsum_plus. f_equal.
    destruct f; simpl; try (symmetry; now apply zsum_zero).
    assert (He : In e m) by (eapply (H (FNotify e k)); simpl; auto). clear -ND He.
    induction ND as [|a m Ha ND IH]; [easy|]. cbn [zsum]. unfold ce at 1. destruct (ev_eqb_spec e a).
    + subst. rewrite zsum_zero; [simpl; lia|]. intros y Hy. unfold ce. destruct (ev_eqb_spec a y); [subst; easy|easy].
    + destruct He as [->|He]; [easy|]. rewrite <- IH by easy. simpl. lia.
Qed.

Lemma zsum_seq_one (g : nat -> Z) t N : (t < N)%nat -> zsum (fun x => ni x t * g x) (seq 0 N) = g t.
Proof.
  assert (ND := seq_NoDup N 0). intros H. assert (Ht : In t (seq 0 N)) by (apply in_seq; lia). clear H.
  induction ND as [|a l Ha ND IH]; [easy|]. cbn [zsum]. unfold ni at 1. destruct (Nat.eqb_spec t a).
  - subst. rewrite zsum_zero; [simpl; lia|]. intros y Hy. unfold ni. destruct (Nat.eqb_spec a y); [subst; easy|simpl; lia].
  - destruct Ht as [->|Ht]; [easy|]. rewrite IH by easy. simpl. lia.
Qed.

(** all tasks have names below [N] *)
Definition bounded (P : prog) (N : nat) : Prop := forall o c, In (ISpawn c) (body P o) -> (c < N)%nat.

Fixpoint made (s : list instr) : list nat :=
  match s with [] => [] | IEvent e :: s => e :: made s | _ :: s => made s end.

Lemma creates_made e s : (1 <= creates e s)%nat -> In e (made s).
Proof.
  induction s as [|[] s IH]; simpl; intros H; try lia; auto.
  destruct (Nat.eqb_spec e0 e); auto.
Qed.

Section Term.
  Context (P : prog) {U : front} (W : wfc P U) (NW : p_wrap P = false) (N : nat) (BD : bounded P N).

  Definition universe : list ev :=
    nodup ev_dec (flat_map (fun t => [EPre t; EPost t; ERSet t; ERGet t] ++ map (EExt t) (made (body P (Some t)))) (seq 0 N)).

  Lemma in_universe x : In x universe <->
    match x with
    | EPre t | EPost t | ERSet t | ERGet t => (t < N)%nat
    | EExt t e => (t < N)%nat /\ In e (made (body P (Some t)))
    end.
  Proof.
    unfold universe. rewrite nodup_In, in_flat_map. split.
    - intros (t & Ht & H). apply in_seq in Ht. apply in_app_or in H as [H|H].
      + simpl in H. repeat destruct H as [<-|H]; try easy; lia.
      + apply in_map_iff in H as (e & <- & H). split; [lia|easy].
    - destruct x; intros H; exists t; (split; [apply in_seq; lia|try (apply in_or_app; left; simpl; auto 6; fail)]).
      apply in_or_app. right. apply in_map. tauto.
  Qed.

  Lemma universe_NoDup : NoDup universe. Proof. apply NoDup_nodup. Qed.

  (** ** Every notified event is in the universe *)
  Definition known_frame (f : frame) : Prop :=
    match f with
    | FNotify x _ => In x universe
    | FFollow _ l => forall x, In x l -> In x universe
    | _ => True
    end.

  Lemma sp_lt s t : Inv P U s -> sp s t -> (t < N)%nat.
  Proof. intros I H. apply (sp_body P W s I), spawns_In in H. eapply BD; eauto. Qed.

  Lemma init_sp s t : Inv P U s -> 1 <= zsum (v_init t) (log s) -> sp s t.
  Proof. intros I H. pose proof (f_phase P s I t). unfold sp. lia. Qed.

  Lemma start_sp s t : Inv P U s -> 1 <= zsum (v_start t) (log s) -> sp s t.
  Proof.
    intros I H. apply (init_sp s t I). pose proof (f_exec_init P s I t). pose proof (f_start P s I t). lia.
  Qed.

  Lemma body_sp s t is : Inv P U s -> In (FBody (Some t) is) (frames s) -> sp s t.
  Proof.
    intros I H. assert (B : 1 <= zsum (is_body (Some t)) (frames s)).
    { assert (is_body (Some t) (FBody (Some t) is) = 1) as <- by (simpl; now rewrite Nat.eqb_refl).
      apply in_w; auto. intro; apply w_nn4. }
    apply (start_sp s t I). apply (body_facts P s I) in B. lia.
  Qed.

  Lemma use_lt s o i is c : Inv P U s -> In (FBody o (i :: is)) (frames s) -> is_use c i -> (c < N)%nat.
  Proof.
    intros I Hf Us. assert (SF := law_suffix P s (i_laws P s I) _ Hf). simpl in SF. destruct SF as (m & C & pre & Epre).
    assert (Hsp := m_use_after P W o m pre _ _ c C Epre Us).
    apply (BD o). apply (code_In P W o m _ C). rewrite Epre. apply in_or_app. left. now apply spawns_In.
  Qed.

  Lemma collect_lt s f t : Inv P U s -> In f (frames s) -> w_collect t f = 1 -> (t < N)%nat.
  Proof.
    intros I Hf H. apply (sp_lt s t I). assert (C := in_collect s t f Hf H).
    apply (collect_facts P W s I) in C. unfold sp. lia.
  Qed.

  Lemma exec_lt s t : Inv P U s -> In (FExec t) (frames s) -> (t < N)%nat.
  Proof.
    intros I Hf. apply (sp_lt s t I), (init_sp s t I).
    assert (w_token t (FExec t) <= zsum (w_token t) (frames s)) by (apply in_w; auto; intro; apply w_nn).
    simpl in H. rewrite ni_refl in H. pose proof (i_tok P s I t) as T. unfold tok in T.
    pose proof (ni_nonneg t (rdy s)). pose proof (f_exec P s I t).
    destruct (Z.leb_spec 1 (zsum (v_init t) (log s))); simpl in T; lia.
  Qed.

  Lemma event_known s t e : Inv P U s -> 1 <= zsum (v_event t e) (log s) -> In (EExt t e) universe.
  Proof.
    intros I H. apply in_universe. pose proof (law_event P s (i_laws P s I) t e) as L.
    assert (0 <= zsum (n_create t e) (frames s)).
    { apply nn_v. intro g. unfold n_create. pose proof (w_nn4 (Some t) g). nia. }
    pose proof (f_startedz P s I (Some t)) as H1. simpl in H1. split.
    - apply (sp_lt s _ I), (start_sp s t I). nia.
    - apply creates_made. nia.
  Qed.

  Lemma fol_known s y x : Inv P U s -> In x (fol s y) -> In x universe.
  Proof.
    intros I H. apply (i_fol P s I) in H. apply in_universe. destruct y, x; simpl in H; try easy.
    - apply (sp_lt s _ I). tauto.
    - destruct H as [H Hs]. apply (sp_lt s _ I), (start_sp s _ I).
      apply (sp_parent P W s I) in Hs. rewrite H in Hs. simpl in Hs. lia.
    - destruct H as [-> H]. apply (event_known s _ _ I), in_universe in H. tauto.
  Qed.

  Lemma known_frames n s : mreach P U n s -> forall f, In f (frames s) -> known_frame f.
  Proof.
    induction 1 as [|s i c s' R IH G PO H]; intros g Hg.
    - rewrite (frames_init P (U := U) n) in Hg. apply in_map_iff in Hg as (m & <- & _). easy.
    - assert (I := mreach_Inv P W NW n s R). assert (M := step_moves P s i c s' H).
      destruct M as [j f fs s1 fr rest E H1 -> Hp Hp' | j pk s1 fr E H1 -> Hp'].
      + apply (Permutation_in _ Hp') in Hg. apply in_app_or in Hg as [Hg|Hg].
        2: { apply IH, (Permutation_in _ (Permutation_sym Hp)). now right. }
        assert (Hf : In f (frames s)) by (apply (Permutation_in _ (Permutation_sym Hp)); now left).
        assert (KF := IH f Hf). clear -I Hf Hg H1 KF BD W NW.
        cases_f H1; simpl in Hg; repeat destruct Hg as [<-|Hg]; try easy; simpl in *; rewrite ?in_universe; auto;
          try (apply (use_lt s _ _ _ _ I Hf); unfold is_use; auto; fail);
          try (apply (sp_lt s _ I), (body_sp s _ _ I Hf); fail);
          try (apply (collect_lt s _ _ I Hf); simpl; apply ni_refl).
        * intros x Hx. now apply (fol_known s e x I).
        * apply in_universe, KF. auto.
        * now apply (exec_lt s).
      + apply (Permutation_in _ Hp') in Hg. apply in_app_or in Hg as [Hg|Hg]; [|now apply IH].
        clear -I Hg H1 BD W NW. cases_i H1; simpl in Hg; destruct Hg as [<-|[]]; try easy.
        simpl. apply (event_known s _ _ I). pose proof (law_fire P s (i_laws P s I) n n0) as L.
        pose proof (f_fire P s I n n0). apply nth_error_In in Heqo.
        assert (B := zsum_ge (fun x => zb (Nat.eqb (fst x) n && Nat.eqb (snd x) n0)) (ext s) (n, n0)
                      (fun y _ => proj1 (zb_bound _)) Heqo).
        simpl in B. rewrite !Nat.eqb_refl in B. simpl in B. lia.
  Qed.

  (** ** Lengths of user lists *)
  Fixpoint spots (r : nat) (l : list nat) : list nat :=
    match l with [] => [] | x :: l => if Nat.eq_dec x r then length l :: spots r l else spots r l end.

  Lemma spots_length r l : length (spots r l) = count_occ Nat.eq_dec l r.
  Proof. induction l as [|x l IH]; simpl; auto. destruct (Nat.eq_dec x r); simpl; auto. Qed.

  Lemma spots_in r pre l : In (length l) (spots r (pre ++ r :: l)).
  Proof.
    induction pre as [|x pre IH]; simpl; [destruct (Nat.eq_dec r r); [now left|easy]|].
    destruct (Nat.eq_dec x r); [now right|easy].
  Qed.

  Lemma users_length s r : Inv P U s -> (length (users s r) <= mentions P N r)%nat.
  Proof.
    intros I.
    assert (E : mentions P N r = length (flat_map (fun t => map (pair t) (spots r (uniq P t))) (seq 0 N))).
    { unfold mentions. generalize (seq 0 N). intros l. induction l as [|t l IH]; simpl; auto.
      now rewrite app_length, map_length, spots_length, IH. }
    rewrite E. apply NoDup_incl_length.
    - assert (NE := i_newer P s I r). induction NE as [|[t k] l S IH F]; [constructor|].
      constructor; auto. intros H. rewrite Forall_forall in F. apply F in H as [H _]. simpl in H. destruct (H eq_refl) as [H1|[_ H1]]; lia.
    - intros [t k] H. apply (i_ent P s I) in H as [(pre & rs & Eu & <-) H]. apply (sp_lt s t I) in H.
      apply in_flat_map. exists t. split; [apply in_seq; lia|]. apply in_map. rewrite Eu. apply spots_in.
  Qed.

  Lemma older_length x l : (length (older x l) <= length l)%nat.
  Proof. induction l as [|y l IH]; simpl; auto. destruct (entry_eqb y x); simpl; lia. Qed.

  (** ** The measure *)
  Definition len {A} (l : list A) : Z := Z.of_nat (length l).
  Definition zu (t : nat) : Z := len (uniq P t).
  Definition K : Z := 12 + zsum zu (seq 0 N).
  Definition J : Z := 6 + K.

  Definition zm (r : nat) : Z := Z.of_nat (mentions P N r).
  Definition c_rest (rs : list nat) : Z := zsum (fun r => 2 + zm r * J) rs + 5 + K.
  Definition c_new (t : nat) : Z := 3 + K + c_rest (uniq P t).
  Definition c_instr (i : instr) : Z :=
    match i with
    | ISpawn c => 3 + zu c + c_new c
    | IEvent _ => 3 + K
    | _ => 1
    end.
  Definition c_body (s : list instr) : Z := 1 + zsum c_instr s.

  Definition cost (f : frame) : Z :=
    match f with
    | FBody _ s => c_body s
    | FSub _ c rs s => 1 + len rs + c_new c + c_body s
    | FInitUp t => c_new t - 1
    | FInit _ rs => c_rest rs
    | FIter _ _ it rs => 1 + J * len it + c_rest rs
    | FDep1 _ _ _ it rs => 6 + K + J * len it + c_rest rs
    | FDep2 _ _ _ it rs => 5 + K + J * len it + c_rest rs
    | FDep3 _ _ _ it rs => 4 + K + J * len it + c_rest rs
    | FDep4 _ _ _ it rs => 3 + K + J * len it + c_rest rs
    | FPar1 _ _ => 3 + K
    | FPar2 _ _ => 2 + K
    | FPar3 _ _ => 1 + K
    | FNotify _ _ => -1
    | FNotify2 (EPost t) _ _ => 8 + zu t
    | FNotify2 _ _ _ => 8
    | FDelete _ rs => 6 + len rs
    | FNotify3 _ _ _ => 5
    | FFollow _ _ => 3
    | FRemove _ => 2
    | FExec _ => 1
    | FRun t => 1 + c_body (body P (Some t))
    end.

  Definition todo (t : nat) (l : list lev) : Z := (1 - zsum (v_exec t) l) * (2 + c_body (body P (Some t))).

  Definition measure (s : state) : Z :=
    zsum cost (frames s) + zsum c_new (emp s) + 2 * len (rdy s) + len (ext s)
    + zsum (fun t => todo t (log s)) (seq 0 N) + K * zsum (ctr s) universe.

  Lemma len_nn {A} (l : list A) : 0 <= len l. Proof. unfold len. lia. Qed.
  Lemma len_cons {A} (x : A) l : len (x :: l) = 1 + len l. Proof. unfold len. simpl. lia. Qed.
  Lemma K_ge t : (t < N)%nat -> 12 + zu t <= K.
  Proof.
    intros H. assert (zu t <= zsum zu (seq 0 N)); [|unfold K; lia].
    apply zsum_ge; [intros; apply len_nn|apply in_seq; lia].
  Qed.
  Lemma K_pos : 12 <= K.
  Proof. assert (0 <= zsum zu (seq 0 N)) by (apply zsum_nonneg; intros; apply len_nn). unfold K; lia. Qed.
  Lemma c_rest_pos rs : 5 <= c_rest rs.
  Proof.
    unfold c_rest, J. pose proof K_pos. assert (0 <= zsum (fun r => 2 + zm r * (6 + K)) rs); [|lia].
    apply zsum_nonneg. intros r _. unfold zm. nia.
  Qed.
  Lemma c_instr_pos i : 1 <= c_instr i.
  Proof. destruct i; simpl; try lia; pose proof K_pos; try lia. unfold c_new. pose proof (c_rest_pos (uniq P c)). pose proof (len_nn (uniq P c)). unfold zu. lia. Qed.
  Lemma c_body_pos s : 1 <= c_body s.
  Proof. unfold c_body. assert (0 <= zsum c_instr s); [|lia]. apply zsum_nonneg. intros i _. pose proof (c_instr_pos i). lia. Qed.

  Lemma cost_ge f : - (match f with FNotify _ _ => 1 | _ => 0 end) <= cost f.
  Proof.
    pose proof K_pos.
    destruct f; simpl; unfold c_new; try lia;
      repeat match goal with
      | |- context [c_body ?s] => lazymatch goal with G : 1 <= c_body s |- _ => fail | _ => pose proof (c_body_pos s) end
      | |- context [c_rest ?s] => lazymatch goal with G : 5 <= c_rest s |- _ => fail | _ => pose proof (c_rest_pos s) end
      | |- context [len ?s] => lazymatch goal with G : 0 <= len s |- _ => fail | _ => pose proof (len_nn s) end
      end; unfold J; try nia.
    destruct e; try lia. pose proof (len_nn (uniq P t)). unfold zu. lia.
  Qed.

  Lemma mr_measure_nn n s : mreach P U n s -> 0 <= measure s.
  Proof.
    intros R. assert (I := mreach_Inv P W NW n s R). unfold measure.
    assert (A1 : - zsum (fun f => match f with FNotify _ _ => 1 | _ => 0 end) (frames s) <= zsum cost (frames s)).
    { generalize (frames s). intros l. induction l as [|f l IH]; simpl; [lia|]. pose proof (cost_ge f). lia. }
    rewrite (zsum_ce_swap _ universe universe_NoDup) in A1.
    2: { intros f Hf e k ->. exact (known_frames n s R _ Hf). }
    assert (A2 : zsum (fun x => zsum (w_notify x) (frames s)) universe <= zsum (ctr s) universe).
    { generalize universe. intros l. induction l as [|x l IH]; simpl; [lia|].
      rewrite (i_acc P s I x). pose proof (base_nn P W s I x). pose proof (edges_nn P s I x). nnw w_follow x s. lia. }
    assert (A3 : 0 <= zsum (ctr s) universe).
    { apply zsum_nonneg. intros x _. pose proof (i_reach P s I x). lia. }
    assert (A4 : 0 <= zsum c_new (emp s)).
    { apply zsum_nonneg. intros t _. unfold c_new. pose proof K_pos. pose proof (c_rest_pos (uniq P t)). lia. }
    assert (A5 : 0 <= zsum (fun t => todo t (log s)) (seq 0 N)).
    { apply zsum_nonneg. intros t _. unfold todo. pose proof (f_exec P s I t). pose proof (c_body_pos (body P (Some t))). nia. }
    pose proof (len_nn (rdy s)). pose proof (len_nn (ext s)). pose proof K_pos. nia.
  Qed.

  Lemma inc_sum s x v : v <= 1 + ctr s x -> zsum (eupd (ctr s) x v) universe <= 1 + zsum (ctr s) universe.
  Proof.
    intros H. rewrite (zsum_eupd _ _ _ _ universe_NoDup). destruct (in_dec ev_dec x universe); lia.
  Qed.

  Lemma len_remove {A} (l : list A) : forall k x, nth_error l k = Some x -> len (remove_nth k l) = len l - 1.
  Proof.
    induction l as [|a l IH]; intros [|k] x; simpl; try discriminate; intros H.
    - rewrite len_cons. lia.
    - rewrite !len_cons, (IH _ _ H). lia.
  Qed.

  Lemma mr_measure_dec n s i c s' : mreach P U n s -> step P s i c = Some s' -> measure s' <= measure s - 1.
  Proof.
    intros R H. assert (I := mreach_Inv P W NW n s R). assert (M := step_moves P s i c s' H).
    pose proof K_pos as KP.
    destruct M as [j f fs s1 fr rest E H1 -> Hp Hp' | j pk s1 fr E H1 -> Hp']; unfold measure.
    - assert (Hf : In f (frames s)) by (apply (Permutation_in _ (Permutation_sym Hp)); now left).
      rewrite (zsum_perm cost _ _ Hp), (zsum_perm cost _ _ Hp'), zsum_app.
      assert (KF := known_frames n s R f Hf).
      assert (UL := fun r => users_length s r I).
      assert (EL : forall t, f = FExec t -> (t < N)%nat) by (intros t ->; now apply (exec_lt s)).
      assert (TD : forall x l, (forall t, v_exec t x = 0) -> zsum (fun t => todo t (x :: l)) (seq 0 N) = zsum (fun t => todo t l) (seq 0 N)).
      { intros x l Hx. apply zsum_ext. intros t _. unfold todo. cbn [zsum]. now rewrite Hx. }
      assert (INC : forall x, K * zsum (eupd (ctr s) x (wrap P (ctr s x + 1))) universe <= K + K * zsum (ctr s) universe).
      { intros x. pose proof (inc_sum s x (wrap P (ctr s x + 1))) as Q. rewrite (wrap_id P NW) in *. nia. }
      assert (DEC : forall x, In x universe -> K * zsum (eupd (ctr s) x (wrap P (ctr s x - 1))) universe = K * zsum (ctr s) universe - K).
      { intros x Hx. rewrite (zsum_eupd _ _ _ _ universe_NoDup), (wrap_id P NW). destruct (in_dec ev_dec x universe); [lia|easy]. }
      assert (RC0 : c_rest [] = 5 + K) by (unfold c_rest; cbn [zsum]; lia).
      assert (RC1 : forall r l, c_rest (r :: l) = 2 + zm r * J + c_rest l) by (intros; unfold c_rest; cbn [zsum]; lia).
      assert (EJ : J = 6 + K) by reflexivity.
      assert (JL : forall l : list (nat * nat), 0 <= J * len l) by (intros l; pose proof (len_nn l); nia).
      clear -H1 KF EL UL KP W NW TD INC DEC RC0 RC1 EJ JL.
      cases_f H1; cbn [app cost zsum users ctr fol emp rdy ext cdn tcn log thr set_users set_lck set_ctr set_fol set_emp set_rdy set_ext set_cdn set_tcn add_log set_thr inc];
        unfold c_body, c_new, zu; cbn [zsum c_instr]; unfold c_new, zu; rewrite ?len_cons;
        rewrite ?TD by (intros; reflexivity); try lia.
      all: match goal with
        | |- context [eupd (ctr _) ?x (wrap P (_ + 1))] => pose proof (INC x)
        | |- context [eupd (ctr _) ?x (wrap P (_ - 1))] => pose proof (DEC x KF)
        | _ => idtac
        end.
      all: change (len (@nil nat)) with 0 in *; change (len (@nil (nat * nat))) with 0 in *; rewrite ?RC0, ?RC1, ?Z.mul_add_distr_l, ?Z.mul_1_r.
      all: repeat match goal with |- context [J * len ?l] => lazymatch goal with G : 0 <= J * len l |- _ => fail | _ => pose proof (JL l) end end.
      all: try lia.
      + (* users *)
        assert (len (older (t, length l) (users s n)) <= zm n).
        { pose proof (older_length (t, length l) (users s n)). specialize (UL n). unfold len, zm. lia. }
        nia.
      + apply in_universe, K_ge in KF. unfold zu in KF. lia.
      + apply in_universe, K_ge in KF. unfold zu in KF. lia.
      + pose proof (len_nn (uniq P t)). lia.
      + (* budget *)
        specialize (EL t eq_refl).
        assert (T : zsum (fun x => todo x (LExec t :: log s)) (seq 0 N) = zsum (fun x => todo x (log s)) (seq 0 N) - (2 + c_body (body P (Some t)))).
        { rewrite <- (zsum_seq_one (fun x => 2 + c_body (body P (Some x))) t N EL). clear.
          induction (seq 0 N) as [|a l IH]; [reflexivity|]. cbn [zsum]. rewrite IH.
          unfold todo. cbn [zsum v_exec]. lia. }
        rewrite T. unfold c_body in *. cbn [zsum] in *. lia.
      + change (t_body (p_task P t)) with (body P (Some t)). lia.
    - rewrite (zsum_perm cost _ _ Hp'), zsum_app.
      assert (TD : forall x l, (forall t, v_exec t x = 0) -> zsum (fun t => todo t (x :: l)) (seq 0 N) = zsum (fun t => todo t l) (seq 0 N)).
      { intros x l Hx. apply zsum_ext. intros t _. unfold todo. cbn [zsum]. now rewrite Hx. }
      clear -H1 TD.
      cases_i H1; cbn [app cost zsum users ctr fol emp rdy ext cdn tcn log thr set_users set_lck set_ctr set_fol set_emp set_rdy set_ext set_cdn set_tcn add_log set_thr inc];
      rewrite ?TD by (intros; reflexivity); rewrite ?(len_remove _ _ _ Heqo); try lia.
      rewrite (zsum_remove_nth c_new _ _ _ Heqo). lia.
  Qed.

End Term.

Section TermOne.
  Context (P : prog) (W : wfa P) (NW : p_wrap P = false) (N : nat) (BD : bounded P N).
  Notation measure := (measure P N).

  Lemma measure_nn n s : greach P n s -> 0 <= measure s.
  Proof. intros R. exact (mr_measure_nn P W NW N BD n s (greach_mreach P W NW n s R)). Qed.

  Lemma measure_dec n s i c s' : greach P n s -> step P s i c = Some s' -> measure s' <= measure s - 1.
  Proof. intros R. exact (mr_measure_dec P W NW N BD n s i c s' (greach_mreach P W NW n s R)). Qed.

  Theorem terminates n l s : run P (init P n) l = Some s -> flat P -> len l <= measure (init P n).
  Proof.
    intros H F.
    assert (G : forall l s0 s, greach P n s0 -> run P s0 l = Some s -> greach P n s /\ len l + measure s <= measure s0).
    { clear l s H. induction l as [|[i c] l IH]; intros s0 s R; simpl.
      - intros Q; injection Q as <-. split; auto. unfold len. simpl. lia.
      - destruct (step P s0 i c) as [s1|] eqn:E; [|discriminate]. intros Q.
        assert (R1 : greach P n s1).
        { econstructor; eauto. intros q fs _ c' Hc Hs. exfalso.
          assert (I := greach_Inv P W NW n s0 R). apply in_spawn in Hs.
          apply (sp_body P W s0 I) in Hs. rewrite Hc, F in Hs. easy. }
        destruct (IH s1 s R1 Q) as [R2 B]. split; auto. rewrite len_cons.
        pose proof (measure_dec n s0 i c s1 R E). lia. }
    destruct (G l _ s (greach_init P n) H) as [R B]. pose proof (measure_nn n s R). lia.
  Qed.

  Theorem gterminates n k s : gsteps P n k s -> greach P n s /\ Z.of_nat k + measure s <= measure (init P n).
  Proof.
    induction 1 as [|k s i c s' _ [R B] E H]; [split; [constructor|lia]|].
    split; [econstructor; eauto|]. pose proof (measure_dec n s i c s' R H). lia.
  Qed.
End TermOne.

Lemma flat_bounded P : flat P -> bounded P (S (list_max (spawns (p_main P)))).
Proof.
  intros F [t|] c H; apply spawns_In in H.
  - rewrite F in H. easy.
  - assert (L := list_max_le (spawns (p_main P)) (list_max (spawns (p_main P)))).
    destruct L as [L _]. specialize (L (le_n _)). rewrite Forall_forall in L. apply L in H. lia.
Qed.
