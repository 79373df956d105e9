(** Parallel execution equals sequential execution. *)
From Coq Require Import Bool List Arith NArith ZArith Lia Permutation Sorting.Sorted.
From Verif Require Import AccessModel AccessSpec AccessProof UserModel UserProof SchedModel SchedSpec SchedBase SchedInv1 SchedInv2 SchedInv3 SchedInv4 SchedInv5 SchedInv6 SchedInv7 SchedInv8 SchedFront SchedThm SchedLive SchedTerm.
Import ListNotations.
Open Scope Z_scope.

(** ** Exchanging operations *)
Section Swap.
  Context (S : semantics) (OK : sensible S) (ky : nat -> nat).

  Lemma same_refl (x : (nat -> L S) * M S) : same_result x x. Proof. split; auto. Qed.
  Lemma same_trans (x y z : (nat -> L S) * M S) : same_result x y -> same_result y z -> same_result x z.
  Proof. intros [A B] [C D]. split; [intros t; now rewrite A|congruence]. Qed.

  Lemma exec_ext l : forall g h m, (forall t, g t = h t) -> same_result (exec S l g m) (exec S l h m).
  Proof.
    induction l as [|[t a] l IH]; intros g h m E; simpl; [split; auto|].
    rewrite E. destruct (op S a (h t) m) as [x m']. apply IH.
    intros u. unfold upd. now destruct (Nat.eqb u t).
  Qed.

  Lemma exec_app l1 : forall l2 g m, exec S (l1 ++ l2) g m = let '(g', m') := exec S l1 g m in exec S l2 g' m'.
  Proof.
    induction l1 as [|[t a] l IH]; intros l2 g m; simpl; auto.
    destruct (op S a (g t) m). apply IH.
  Qed.

  Lemma exec_cons x l l' g m : (forall g m, same_result (exec S l g m) (exec S l' g m)) ->
    same_result (exec S (x :: l) g m) (exec S (x :: l') g m).
  Proof. intros H. destruct x as [t a]. simpl. destruct (op S a (g t) m). apply H. Qed.

  Lemma swap t p a b l g m : t <> p -> ~ acts_conflict a b ->
    same_result (exec S ((t, a) :: (p, b) :: l) g m) (exec S ((p, b) :: (t, a) :: l) g m).
  Proof.
    intros D C. simpl. assert (H := OK a b (g t) (g p) m C).
    destruct (op S a (g t) m) as [la m1] eqn:E1. destruct (op S b (g p) m) as [lb' n1] eqn:E2.
    assert (U1 : upd g t la p = g p). { unfold upd. destruct (Nat.eqb_spec p t); congruence. }
    assert (U2 : upd g p lb' t = g t). { unfold upd. destruct (Nat.eqb_spec t p); congruence. }
    rewrite U1, U2.
    destruct (op S b (g p) m1) as [lb m2]. destruct (op S a (g t) n1) as [la' n2].
    destruct H as (-> & -> & ->). apply exec_ext.
    intros u. unfold upd. destruct (Nat.eqb_spec u p), (Nat.eqb_spec u t); congruence.
  Qed.

  Fixpoint insert (x : nat * act) (l : list (nat * act)) : list (nat * act) :=
    match l with
    | [] => [x]
    | y :: l' => if Nat.leb (ky (fst x)) (ky (fst y)) then x :: l else y :: insert x l'
    end.
  Fixpoint isort (l : list (nat * act)) : list (nat * act) :=
    match l with [] => [] | x :: l => insert x (isort l) end.

  Definition inv_free (x y : nat * act) : Prop := (ky (fst y) < ky (fst x))%nat -> ~ acts_conflict (snd x) (snd y).

  Lemma insert_exec x l : Forall (inv_free x) l -> forall g m,
    same_result (exec S (x :: l) g m) (exec S (insert x l) g m).
  Proof.
    induction 1 as [|y l H F IH]; intros g m; [apply same_refl|]. cbn [insert].
    destruct (Nat.leb_spec (ky (fst x)) (ky (fst y))) as [Q|Q]; [apply same_refl|].
    destruct x as [t a], y as [p b]. simpl in Q.
    eapply same_trans; [apply swap; [intros ->; lia|apply H; exact Q]|]. apply exec_cons. exact IH.
  Qed.

  Lemma insert_perm x l : Permutation (x :: l) (insert x l).
  Proof.
    induction l as [|y l IH]; simpl; auto. destruct (Nat.leb (ky (fst x)) (ky (fst y))); auto.
    rewrite perm_swap. now constructor.
  Qed.
  Lemma isort_perm l : Permutation l (isort l).
  Proof. induction l as [|x l IH]; simpl; auto. rewrite <- insert_perm. now constructor. Qed.

  Lemma isort_exec l : ForallOrdPairs inv_free l -> forall g m, same_result (exec S l g m) (exec S (isort l) g m).
  Proof.
    induction 1 as [|x l H F IH]; intros g m; [apply same_refl|]. cbn [isort].
    eapply same_trans; [apply exec_cons; exact IH|]. apply insert_exec.
    rewrite Forall_forall in *. intros y Hy. apply H. eapply Permutation_in; [symmetry; apply isort_perm|exact Hy].
  Qed.

  Definition of_task (t : nat) (l : list (nat * act)) : list (nat * act) := filter (fun x => Nat.eqb (fst x) t) l.

  Lemma insert_low x l : (forall y, In y l -> (ky (fst x) <= ky (fst y))%nat) -> insert x l = x :: l.
  Proof.
    destruct l as [|y l]; simpl; auto. intros H. destruct (Nat.leb_spec (ky (fst x)) (ky (fst y))); auto.
    specialize (H y (or_introl eq_refl)). lia.
  Qed.
  Lemma insert_skip x l l' : (forall y, In y l -> (ky (fst y) < ky (fst x))%nat) -> insert x (l ++ l') = l ++ insert x l'.
  Proof.
    induction l as [|y l IH]; simpl; auto. intros H. destruct (Nat.leb_spec (ky (fst x)) (ky (fst y))).
    - specialize (H y (or_introl eq_refl)). lia.
    - rewrite IH; auto.
  Qed.

  Lemma insert_flat x l ts : StronglySorted (fun a b => (ky a < ky b)%nat) ts -> In (fst x) ts ->
    insert x (flat_map (fun t => of_task t l) ts) = flat_map (fun t => of_task t (x :: l)) ts.
  Proof.
    induction 1 as [|t ts SS IH F]; [easy|]. intros Hx. cbn [flat_map]. unfold of_task at 3. cbn [filter].
    rewrite Forall_forall in F.
    destruct (Nat.eqb_spec (fst x) t) as [e|e].
    - rewrite insert_low.
      + change ((x :: filter (fun y => Nat.eqb (fst y) t) l) ++ flat_map (fun u => of_task u l) ts =
                (x :: filter (fun y => Nat.eqb (fst y) t) l) ++ flat_map (fun u => of_task u (x :: l)) ts).
        f_equal. rewrite !flat_map_concat_map. f_equal. apply map_ext_in. intros u Hu. unfold of_task. cbn [filter].
        destruct (Nat.eqb_spec (fst x) u); auto. specialize (F u Hu). simpl in F. subst. lia.
      + intros y Hy. apply in_app_or in Hy as [Hy|Hy].
        * apply filter_In in Hy as [_ Hy]. apply Nat.eqb_eq in Hy. subst. now rewrite Hy.
        * apply in_flat_map in Hy as (u & Hu & Hy). apply filter_In in Hy as [_ Hy]. apply Nat.eqb_eq in Hy.
          specialize (F u Hu). simpl in F. subst. lia.
    - destruct Hx as [->|Hx]; [easy|]. rewrite insert_skip, IH; auto.
      intros y Hy. apply filter_In in Hy as [_ Hy]. apply Nat.eqb_eq in Hy. specialize (F _ Hx). now rewrite Hy.
  Qed.

  Lemma isort_flat l ts : StronglySorted (fun a b => (ky a < ky b)%nat) ts -> (forall x, In x l -> In (fst x) ts) ->
    isort l = flat_map (fun t => of_task t l) ts.
  Proof.
    intros SS. induction l as [|x l IH]; intros H.
    - simpl. clear. induction ts; auto.
    - cbn [isort]. rewrite IH by (intros; apply H; simpl; auto). apply insert_flat; auto. apply H. simpl; auto.
  Qed.
End Swap.

Section SeqMany.
  Context (P : prog) {U : front} (W : wfc P U) (NW : p_wrap P = false).

  Fixpoint done (t : nat) (l : list lev) : list act :=
    match l with
    | [] => []
    | LAct (Some u) a :: l => done t l ++ (if Nat.eqb u t then [a] else [])
    | _ :: l => done t l
    end.

  Lemma of_task_done t l : of_task t (performed l) = map (pair t) (done t l).
  Proof.
    induction l as [|[] l IH]; simpl; auto. destruct t0 as [u|]; auto.
    unfold of_task in *. rewrite filter_app, map_app, IH. f_equal. simpl.
    destruct (Nat.eqb_spec u t); simpl; congruence.
  Qed.

  Lemma done_in t a l : In a (done t l) <-> In (LAct (Some t) a) l.
  Proof.
    induction l as [|x l IH]; [easy|]. split.
    - intros H. destruct x; simpl in H; try (right; now apply IH).
      destruct t0 as [u|]; [|right; now apply IH]. apply in_app_or in H as [H|H]; [right; now apply IH|].
      destruct (Nat.eqb_spec u t); [|easy]. destruct H as [->|[]]. subst. now left.
    - intros [->|H].
      + simpl. rewrite Nat.eqb_refl. apply in_or_app. right. now left.
      + apply IH in H. destruct x; simpl; auto. destruct t0; auto. apply in_or_app. auto.
  Qed.

  Definition started_ok (s : state) (t : nat) : Prop :=
    (zsum (v_start t) (log s) = 0 -> done t (log s) = []) /\
    (forall f, In f (frames s) -> is_body (Some t) f = 1 -> done t (log s) ++ acts_of (left_of f) = acts_of (body P (Some t))) /\
    (1 <= zsum (v_end t) (log s) -> done t (log s) = acts_of (body P (Some t))).

  Lemma mr_done_ok n s : mreach P U n s -> forall t, started_ok s t.
  Proof.
    induction 1 as [|s i c s' R IH G PO H]; intros t.
    - split; [easy|]. split; [|simpl; lia].
      rewrite (frames_init P (U := U) n). intros f Hf. apply in_map_iff in Hf as (m & <- & _). simpl. lia.
    - assert (I := mreach_Inv P W NW n s R). assert (M := step_moves P s i c s' H). specialize (IH t).
      destruct IH as (A & B & C).
      destruct M as [j f fs s1 fr rest E H1 -> Hp Hp' | j pk s1 fr E H1 -> Hp'].
      + assert (Hf : In f (frames s)) by (apply (Permutation_in _ (Permutation_sym Hp)); now left).
        assert (Br : forall g, In g rest -> is_body (Some t) g = 1 -> done t (log s) ++ acts_of (left_of g) = acts_of (body P (Some t))).
        { intros g Hg. apply B. apply (Permutation_in _ (Permutation_sym Hp)). now right. }
        specialize (B f Hf).
        assert (B1 : is_body (Some t) f = 1 -> (forall g, In g rest -> is_body (Some t) g = 0) /\
                     zsum (v_start t) (log s) = 1 /\ zsum (v_end t) (log s) = 0).
        { intros Q. assert (B1 : 1 <= zsum (is_body (Some t)) (frames s)) by (rewrite <- Q; apply in_w; auto; intro; apply w_nn4).
          apply (body_facts P s I) in B1. destruct B1 as (B1 & B2 & B3 & _). split; [|lia].
          rewrite (zsum_perm _ _ _ Hp) in B1. cbn [zsum] in B1. intros g Hg.
          assert (is_body (Some t) g <= zsum (is_body (Some t)) rest) by (apply zsum_ge; auto; intros; apply w_nn4).
          pose proof (w_nn4 (Some t) g). lia. }
        assert (S0 : forall x, f = FRun x -> zsum (v_start x) (log s) = 0).
        { intros x ->. assert (w_run x (FRun x) <= zsum (w_run x) (frames s)) by (apply in_w; auto; intro; apply w_nn).
          simpl in H0. rewrite ni_refl in H0. pose proof (law_exec P s (i_laws P s I) x). pose proof (f_exec P s I x).
          pose proof (f_start P s I x). pose proof (f_end P s I x). lia. }
        assert (SE := f_end P s I t).
        unfold started_ok. clear -I A B Br B1 C H1 Hp' S0 SE.
        assert (FR : forall g, In g (frames (set_thr s1 (set_nth j (fr ++ fs) (thr s)))) -> In g fr \/ In g rest).
        { intros g Hg. apply (Permutation_in _ Hp') in Hg. now apply in_app_or in Hg. }
        clear Hp'. revert FR. generalize (frames (set_thr s1 (set_nth j (fr ++ fs) (thr s)))). intros F' FR.
        cases_f H1; cbn [log set_thr add_log set_users set_lck set_ctr set_fol set_emp set_rdy set_ext set_cdn set_tcn inc done zsum v_start v_end Z.add left_of app] in *;
          rewrite ?app_nil_r, ?Z.add_0_l in *.
        all: try solve [split; [exact A|split; [intros g Hg Q; apply FR in Hg as [Hg|Hg]; [|now apply Br]|exact C]];
          repeat (destruct Hg as [<-|Hg]; [first [exact (B Q) | now (simpl in Q; lia) | simpl in *; apply B; exact Q]|]); destruct Hg].
        * (* end of a body *)
          split; [exact A|split].
          -- intros g Hg Q. apply FR in Hg as [Hg|Hg]; [|now apply Br].
             repeat (destruct Hg as [<-|Hg]; [now (simpl in Q; lia)|]). destruct Hg.
          -- intros Q. destruct (Nat.eq_dec n t) as [->|d].
             ++ rewrite <- B by (simpl; now rewrite Nat.eqb_refl). simpl. now rewrite ?app_nil_r.
             ++ apply C. unfold ni in Q. destruct (Nat.eqb_spec n t); [easy|]. simpl zb in Q. lia.
        * (* an operation *)
          destruct (Nat.eqb_spec n t) as [->|d].
          -- assert (Q : is_body (Some t) (FBody (Some t) (IAct a :: s0)) = 1) by (simpl; now rewrite Nat.eqb_refl).
             destruct (B1 Q) as (B2 & B3 & B4). split; [lia|]. split; [|lia].
             intros g Hg Q'. apply FR in Hg as [Hg|Hg]; [|specialize (B2 g Hg); lia].
             destruct Hg as [<-|[]]. rewrite <- (B Q), <- app_assoc. reflexivity.
          -- rewrite app_nil_r. split; [exact A|]. split; [|exact C].
             intros g Hg Q. apply FR in Hg as [Hg|Hg]; [|now apply Br]. destruct Hg as [<-|[]].
             simpl in Q. destruct (Nat.eqb_spec n t); [congruence|]. simpl in Q. lia.
        * (* start of a body *)
          split; [intros Q; apply A; assert (0 <= ni t t0) by (unfold ni; destruct (Nat.eqb t0 t); simpl; lia); pose proof (f_start P s I t); lia|]. split; [|exact C].
          intros g Hg Q. apply FR in Hg as [Hg|Hg]; [|now apply Br].
          destruct Hg as [<-|[]]. simpl in Q. destruct (Nat.eqb_spec t0 t) as [->|]; [|simpl in Q; lia].
          simpl. now rewrite A by (now apply S0).
      + assert (FR : forall g, In g (frames (set_thr s1 (set_nth j fr (thr s)))) -> In g fr \/ In g (frames s)).
        { intros g Hg. apply (Permutation_in _ Hp') in Hg. now apply in_app_or in Hg. }
        clear Hp'. revert FR. unfold started_ok.
        generalize (frames (set_thr s1 (set_nth j fr (thr s)))). intros F' FR.
        cases_i H1; cbn [log set_thr add_log set_users set_lck set_ctr set_fol set_emp set_rdy set_ext set_cdn set_tcn inc done zsum v_start v_end Z.add left_of app] in *;
          rewrite ?app_nil_r, ?Z.add_0_l in *.
        all: split; [exact A|split; [intros g Hg Q; apply FR in Hg as [Hg|Hg]; [|now apply B]|exact C]];
             repeat (destruct Hg as [<-|Hg]; [now (simpl in Q; lia)|]); destruct Hg.
  Qed.

  (** only started tasks have done anything, and only what their bodies say *)
  Lemma mr_done_body n s t a : mreach P U n s -> In a (done t (log s)) -> In (IAct a) (body P (Some t)) /\ 1 <= zsum (v_exec t) (log s).
  Proof.
    intros R H. destruct (mr_done_ok n s R t) as (A & B & C). assert (I := mreach_Inv P W NW n s R).
    assert (X : In a (acts_of (body P (Some t)))).
    { pose proof (f_start P s I t). pose proof (f_exec P s I t). pose proof (f_end P s I t).
      destruct (Z.eq_dec (zsum (v_start t) (log s)) 0) as [e|e]; [rewrite A in H by easy; easy|].
      destruct (Z_le_dec 1 (zsum (v_end t) (log s))) as [l|l]; [now rewrite <- C|].
      assert (L1 := law_body P s (i_laws P s I) t).
      assert (Q : 1 <= zsum (is_body (Some t)) (frames s)) by lia.
      assert (Q0 : 0 < zsum (is_body (Some t)) (frames s)) by lia. clear Q. apply zsum_pos_ex in Q0 as (f & Hf & Q).
      assert (is_body (Some t) f = 1).
      { assert (is_body (Some t) f <= 1) by (unfold is_body; destruct f; try lia; match goal with |- zb ?b <= 1 => destruct b; simpl; lia end). lia. }
      rewrite <- (B f Hf H3). apply in_or_app. auto. }
    split.
    - revert X. generalize (body P (Some t)). intros b. induction b as [|[] b IH]; simpl; intros X; auto.
      destruct X as [->|X]; auto.
    - pose proof (f_start P s I t).
      destruct (Z.eq_dec (zsum (v_start t) (log s)) 0) as [e|e]; [rewrite A in H by easy; easy|lia].
  Qed.

  Lemma acts_tasks (BH : behaved P) p t a b : In (IAct a) (body P (Some p)) -> In (IAct b) (body P (Some t)) ->
    acts_conflict a b -> tasks_conflict P p t.
  Proof.
    intros Ha Hb (r & T & x & y & c & d & -> & -> & C).
    apply BH in Ha as (ra & va & Ha & Ra & Pa). apply BH in Hb as (rb & vb & Hb & Rb & Pb). simpl in *.
    exists (mkAcc ra T va), (mkAcc rb T vb), T, va, vb, x, y. simpl. repeat split; auto. congruence.
  Qed.

  Lemma in_performed t a l : In (t, a) (performed l) <-> In a (done t l).
  Proof.
    assert (H := of_task_done t l). split; intros X.
    - assert (Y : In (t, a) (of_task t (performed l))) by (apply filter_In; simpl; now rewrite Nat.eqb_refl).
      rewrite H in Y. apply in_map_iff in Y as (b & Eb & Y). now injection Eb as <-.
    - assert (Y : In (t, a) (of_task t (performed l))) by (rewrite H; now apply in_map).
      now apply filter_In in Y.
  Qed.

  Lemma mr_exec_sp n s t : mreach P U n s -> 1 <= zsum (v_exec t) (log s) -> sp s t.
  Proof.
    intros R H. assert (I := mreach_Inv P W NW n s R). pose proof (f_exec_init P s I t).
    pose proof (law_phase P s (i_laws P s I) t) as L. signs t s. unfold sp. lia.
  Qed.

  Lemma fop_snoc {A} (R : A -> A -> Prop) l y : ForallOrdPairs R l -> (forall x, In x l -> R x y) -> ForallOrdPairs R (l ++ [y]).
  Proof.
    induction 1 as [|x l H F IH]; intros G; simpl.
    - constructor; constructor.
    - constructor; [|apply IH; intros; apply G; simpl; auto].
      apply Forall_app. split; auto. constructor; [apply G; simpl; auto|constructor].
  Qed.

  Lemma mr_flat_parent n s t : flat P -> mreach P U n s -> sp s t -> parent P t = None.
  Proof.
    intros F R H. assert (I := mreach_Inv P W NW n s R). apply (sp_body P W s I) in H.
    destruct (parent P t) as [q|]; auto. now rewrite F in H.
  Qed.

  Lemma mr_pairs h n s : aligned U h -> flat P -> behaved P -> mreach P U n s -> ForallOrdPairs (inv_free h) (performed (log s)).
  Proof.
    intros AL F BH. induction 1 as [|s i c s' R IH G PO H]; [constructor|].
    assert (I := mreach_Inv P W NW n s R). assert (M := step_moves P s i c s' H).
    destruct M as [j f fs s1 fr rest E H1 -> Hp Hp' | j pk s1 fr E H1 -> Hp'].
    - assert (Hf : In f (frames s)) by (apply (Permutation_in _ (Permutation_sym Hp)); now left).
      assert (X : forall q a s0, f = FBody (Some q) (IAct a :: s0) -> ForallOrdPairs (inv_free h) (performed (log s) ++ [(q, a)])).
      { intros q a s0 ->. apply fop_snoc; auto. intros [t b] Ht Lt C. simpl in *.
        apply in_performed in Ht. destruct (mr_done_body n s t b R Ht) as [Hb Ex].
        assert (Q : is_body (Some q) (FBody (Some q) (IAct a :: s0)) = 1) by (simpl; now rewrite Nat.eqb_refl).
        assert (Ha : In (IAct a) (body P (Some q))).
        { eapply (piece_In P W). exact (law_suffix P s (i_laws P s I) _ Hf). }
        assert (B1 : 1 <= zsum (is_body (Some q)) (frames s)) by (rewrite <- Q; apply in_w; auto; intro; apply w_nn4).
        apply (body_facts P s I) in B1. destruct B1 as (_ & B2 & _ & B3).
        assert (S1 : sp s t) by (eapply mr_exec_sp; eauto). assert (S2 : sp s q) by (eapply mr_exec_sp; eauto; lia).
        assert (RC : rc s q).
        { apply (i_order_all P W s I t); auto. split; [rewrite (mr_flat_parent n s t), (mr_flat_parent n s q); auto|].
          rewrite user_is_serial_sym. apply conflict_serial. eapply acts_tasks; eauto. }
        assert (ended s q). { apply (mr_completed_ended P W NW n s q R). now apply in_reach. }
        apply in_end in H0. lia. }
      clear -IH H1 X.
      cases_f H1; cbn [log set_thr add_log set_users set_lck set_ctr set_fol set_emp set_rdy set_ext set_cdn set_tcn inc performed] in *; auto.
      eapply X; eauto.
    - cases_i H1; cbn [log set_thr add_log set_users set_lck set_ctr set_fol set_emp set_rdy set_ext set_cdn set_tcn inc performed] in *; auto.
  Qed.

  Lemma spawned_in t l : In t (spawned l) <-> In (LSpawn t) l.
  Proof.
    induction l as [|x l IH]; [easy|]. split.
    - destruct x; simpl; intros Hx; try (right; now apply IH). destruct Hx as [->|Hx]; [now left|right; now apply IH].
    - intros [->|Hx]; [simpl; auto|]. apply IH in Hx. destruct x; simpl; auto.
  Qed.

  (** The history so far, sorted by the rank of the tasks. *)
  Theorem mr_serialised h n s S g m ts : ForallOrdPairs (inv_free h) (performed (log s)) -> flat P -> behaved P -> sensible S -> mreach P U n s ->
    StronglySorted (fun a b => (h a < h b)%nat) ts -> (forall t, 1 <= zsum (v_exec t) (log s) -> In t ts) ->
    same_result (exec S (performed (log s)) g m)
                (exec S (flat_map (fun t => map (pair t) (done t (log s))) ts) g m).
  Proof.
    intros FP F BH OK R SS A. assert (I := mreach_Inv P W NW n s R).
    eapply same_trans; [apply (isort_exec S OK h); exact FP|].
    rewrite (isort_flat h (performed (log s)) ts); auto.
    - rewrite flat_map_concat_map. erewrite map_ext; [rewrite <- flat_map_concat_map; apply same_refl|].
      intros t. apply of_task_done.
    - intros [t a] H. apply in_performed in H. destruct (mr_done_body n s t a R H) as [_ H0].
      now apply A.
  Qed.

  Theorem mr_sequential h n s S g m ts : ForallOrdPairs (inv_free h) (performed (log s)) -> flat P -> behaved P -> sensible S -> mreach P U n s ->
    StronglySorted (fun a b => (h a < h b)%nat) ts -> (forall t, submitted s t <-> In t ts) ->
    (forall t, submitted s t -> completed s t) ->
    same_result (exec S (performed (log s)) g m) (exec S (one_by_one P ts) g m).
  Proof.
    intros FP F BH OK R SS A AC. eapply same_trans; [eapply mr_serialised; eauto; intros t Ht; apply A, in_spawn; eapply mr_exec_sp; eauto|]. unfold one_by_one.
    rewrite !flat_map_concat_map. erewrite map_ext_in; [apply same_refl|].
    intros t Ht. destruct (mr_done_ok n s R t) as (_ & _ & C). rewrite C; [reflexivity|].
    apply in_end. apply (mr_completed_ended P W NW n s t R). apply AC. now apply A.
  Qed.
End SeqMany.

Section Seq.
  Context (P : prog) (W : wfa P) (NW : p_wrap P = false).
  Notation G := (greach_mreach P W NW _ _).

  Lemma done_ok n s : greach P n s -> forall t, started_ok P s t.
  Proof. intros R. exact (mr_done_ok P W NW n s (G R)). Qed.
  Lemma done_body n s t a : greach P n s -> In a (done t (log s)) -> In (IAct a) (body P (Some t)) /\ 1 <= zsum (v_exec t) (log s).
  Proof. intros R. exact (mr_done_body P W NW n s t a (G R)). Qed.
  Lemma exec_sp n s t : greach P n s -> 1 <= zsum (v_exec t) (log s) -> sp s t.
  Proof. intros R. exact (mr_exec_sp P W NW n s t (G R)). Qed.
  Lemma flat_parent n s t : flat P -> greach P n s -> sp s t -> parent P t = None.
  Proof. intros F R. exact (mr_flat_parent P W NW n s t F (G R)). Qed.

  (** The history so far, sorted by task. *)
  Theorem serialised n s S g m : flat P -> behaved P -> sensible S -> reach P n s ->
    same_result (exec S (performed (log s)) g m)
                (exec S (flat_map (fun t => map (pair t) (done t (log s))) (rev (spawned (log s)))) g m).
  Proof.
    intros F BH OK R0. assert (R : greach P n s) by (now apply flat_greach).
    assert (AL : aligned (single P) (fun t => t)) by (intros r p t L; exact L).
    apply (mr_serialised P W NW (fun t => t) n s S g m (rev (spawned (log s))) (mr_pairs P W NW _ n s AL F BH (G R)) F BH OK (G R)).
    2:{ intros t Ht. rewrite <- in_rev. apply spawned_in. apply in_spawn. now apply (exec_sp n s t R). }
    simpl.
    assert (SS := spawned_sorted P W NW n s R).
    assert (X : forall l, StronglySorted (snewer P) l -> (forall x, In x l -> parent P x = None) -> StronglySorted lt (rev l)).
    { induction l as [|x l IHl]; intros A B; [constructor|]. inversion A; subst. simpl.
      assert (Y : StronglySorted lt (rev l)) by (apply IHl; auto; intros; apply B; simpl; auto).
      assert (Z : forall y, In y (rev l) -> (y < x)%nat).
      { intros y Hy. apply in_rev in Hy. rewrite Forall_forall in H2. apply H2; auto.
        rewrite !B; simpl; auto. }
      revert Y Z. generalize (rev l). clear. intros l. induction 1 as [|y l Y IH F]; intros Z; simpl.
      - constructor; constructor.
      - constructor; [apply IH; intros; apply Z; simpl; auto|].
        apply Forall_app. split; auto. constructor; auto. apply Z. simpl; auto. }
    apply X; auto. intros x Hx. eapply flat_parent; eauto. unfold sp. apply in_spawn.
    revert Hx. generalize (log s). clear. intros l. induction l as [|[] l IH]; simpl; intros Hx; auto.
    destruct Hx as [->|Hx]; auto.
  Qed.

  (** When every submitted task is complete, the result is that of running the
      bodies one after another in the order of submission. *)
  Theorem sequential n s S g m : flat P -> behaved P -> sensible S -> reach P n s ->
    (forall t, submitted s t -> completed s t) ->
    same_result (exec S (performed (log s)) g m) (exec S (one_by_one P (rev (spawned (log s)))) g m).
  Proof.
    intros F BH OK R0 AC. assert (R : greach P n s) by (now apply flat_greach).
    eapply same_trans; [eapply serialised; eauto|]. unfold one_by_one.
    rewrite !flat_map_concat_map. erewrite map_ext_in; [apply same_refl|].
    intros t Ht. destruct (done_ok n s R t) as (_ & _ & C). rewrite C; [reflexivity|].
    apply in_end. apply (completed_ended P W NW n s t R). apply AC. unfold submitted. rewrite <- in_rev in Ht.
    revert Ht. generalize (log s). clear. intros l. induction l as [|[] l IH]; simpl; intros Hx; auto.
    destruct Hx as [->|Hx]; auto.
  Qed.

  (** the order of submission is that of the main program *)
  Lemma spawned_main n s : flat P -> greach P n s -> forall f, In f (frames s) -> is_body None f = 1 ->
    rev (spawned (log s)) ++ spawns (left_of f) = spawns (p_main P).
  Proof.
    intros F. induction 1 as [|s i c s' R IH G H].
    - assert (X : frames (init P n) = [FBody None (p_main P)]).
      { unfold frames; simpl. f_equal. induction n; simpl; auto. }
      rewrite X. intros f [<-|[]]. auto.
    - assert (I := greach_Inv P W NW n s R). assert (M := step_moves P s i c s' H).
      destruct M as [j f fs s1 fr rest E H1 -> Hp Hp' | j pk s1 fr E H1 -> Hp'].
      + assert (Hf : In f (frames s)) by (apply (Permutation_in _ (Permutation_sym Hp)); now left).
        assert (Br : forall g, In g rest -> is_body None g = 1 -> rev (spawned (log s)) ++ spawns (left_of g) = spawns (p_main P)).
        { intros g Hg. apply IH. apply (Permutation_in _ (Permutation_sym Hp)). now right. }
        assert (B := IH f Hf).
        assert (B1 : is_body None f = 1 -> (forall g, In g rest -> is_body None g = 0)).
        { intros Q. assert (L1 := law_main P s (i_laws P s I)). simpl in L1.
          rewrite (zsum_perm _ _ _ Hp) in L1. cbn [zsum] in L1. intros g Hg.
          assert (is_body None g <= zsum (is_body None) rest) by (apply zsum_ge; auto; intros; apply w_nn4).
          pose proof (w_nn4 None g). lia. }
        assert (Q0 : forall q x s0, f = FBody (Some q) (ISpawn x :: s0) -> False).
        { intros q x s0 ->. assert (X : In (ISpawn x) (body P (Some q))) by (eapply (piece_In P W); exact (law_suffix P s (i_laws P s I) _ Hf)).
          specialize (F q). revert F X. generalize (body P (Some q)). clear. intros l.
          induction l as [|y l IH]; [easy|]. intros F [->|X]; [easy|]. destruct y; simpl in F; auto. discriminate. }
        clear -I B Br B1 H1 Hp' Q0.
        assert (FR : forall g, In g (frames (set_thr s1 (set_nth j (fr ++ fs) (thr s)))) -> In g fr \/ In g rest).
        { intros g Hg. apply (Permutation_in _ Hp') in Hg. now apply in_app_or in Hg. }
        clear Hp'. revert FR. generalize (frames (set_thr s1 (set_nth j (fr ++ fs) (thr s)))). intros F' FR.
        cases_f H1; cbn [log set_thr add_log set_users set_lck set_ctr set_fol set_emp set_rdy set_ext set_cdn set_tcn inc spawned rev] in *.
        all: intros g Hg Q; apply FR in Hg as [Hg|Hg].
        all: try solve [now apply Br
          | repeat (destruct Hg as [<-|Hg]; [first [exact (B Q) | now (simpl in Q; lia) | simpl in *; apply B; exact Q]|]); destruct Hg].
        all: first [exfalso; eapply Q0; reflexivity | specialize (B1 eq_refl g Hg); lia
                   | repeat (destruct Hg as [<-|Hg]; [first [now (simpl in Q; lia) | rewrite <- app_assoc; exact (B eq_refl)]|]); destruct Hg].
      + assert (FR : forall g, In g (frames (set_thr s1 (set_nth j fr (thr s)))) -> In g fr \/ In g (frames s)).
        { intros g Hg. apply (Permutation_in _ Hp') in Hg. now apply in_app_or in Hg. }
        clear Hp'. revert FR.
        generalize (frames (set_thr s1 (set_nth j fr (thr s)))). intros F' FR.
        cases_i H1; cbn [log set_thr add_log set_users set_lck set_ctr set_fol set_emp set_rdy set_ext set_cdn set_tcn inc spawned] in *.
        all: intros g Hg Q; apply FR in Hg as [Hg|Hg]; [|now apply IH];
             repeat (destruct Hg as [<-|Hg]; [now (simpl in Q; lia)|]); destruct Hg.
  Qed.

End Seq.

Section Final.
  Context (P : prog) (W : wf P) (NW : p_wrap P = false).

  (** A run that has come to an end with the main program finished. *)
  Theorem final_result n s S g m : (1 <= n)%nat -> (forall t, patient P t) -> flat P -> behaved P -> sensible S -> reach P n s -> stuck P s ->
    In (FBody None []) (frames s) ->
    same_result (exec S (performed (log s)) g m) (exec S (one_by_one P (spawns (p_main P))) g m).
  Proof.
    intros N PA F BH OK R ST Hm. assert (G : greach P n s) by (now apply (flat_greach P W)).
    assert (X := spawned_main P W NW n s F G _ Hm eq_refl). simpl in X. rewrite app_nil_r in X. rewrite <- X.
    apply (sequential P W NW n s S g m); auto. apply (progress P W NW n s N PA F R ST).
  Qed.
End Final.
