(** Several threads of the user that submit at the same time. *)
From Coq Require Import Bool List Arith NArith ZArith Lia Permutation Sorting.Sorted.
From Verif Require Import AccessModel AccessSpec AccessProof UserModel UserProof SchedModel SchedSpec SchedBase SchedInv1 SchedInv2 SchedInv3 SchedInv4 SchedInv5 SchedInv6 SchedInv7 SchedInv8 SchedFront SchedThm SchedLive SchedTerm SchedSeq.
Import ListNotations.
Open Scope Z_scope.

(** ** Specification *)
(** programs of several threads; as [wf], but names say nothing about the order *)
(** several threads of the user; bodies may wait for futures and call [barrier()] *)
Definition wf_any (P : prog) (ms : list (list instr)) : Prop := wfc P (mkFront ms (fun _ t => t)).
Definition wf_many (P : prog) (ms : list (list instr)) : Prop := wfm P (mkFront ms (fun _ t => t)).

(** A task enters its first user list only when every task of the same space that has
    begun to enter lists (the loop of task_space.cpp:81-84) has already entered those
    both name. *)
Definition begin_ok (P : prog) (s : state) (i : nat) : Prop :=
  forall o c is fs, nth_error (thr s) i = Some (FSub o c (uniq P c) is :: fs) ->
  forall o' c' rs is', In (FSub o' c' rs is') (concat (thr s)) -> parent P c' = parent P c ->
  (length rs < length (uniq P c'))%nat -> forall r, In r rs -> ~ In r (uniq P c).

(** runs of [k] steps *)
Inductive creach (P : prog) (ms : list (list instr)) (n : nat) : nat -> state -> Prop :=
| creach_init : creach P ms n 0 (init_many P ms n)
| creach_step k s i c s' : creach P ms n k s -> end_ok P s i -> begin_ok P s i ->
                           step P s i c = Some s' -> creach P ms n (S k) s'.

(** [p] comes before [t] in one thread, or in the body of one task *)
Definition comes_before (P : prog) (ms : list (list instr)) (p t : nat) : Prop :=
  exists o m l1 l2 l3, match o with None => In m ms | Some q => m = body P (Some q) end /\
                       spawns m = l1 ++ p :: l2 ++ t :: l3.

(** ** Ranks from an order *)
Fixpoint rk_of (l : list nat) (t : nat) : nat :=
  match l with [] => t | x :: l => if Nat.eqb x t then 0 else S (rk_of l t) end.

Lemma rk_of_in l t : In t l <-> (rk_of l t < length l)%nat.
Proof.
  induction l as [|x l IH]; simpl; [split; [easy|lia]|]. destruct (Nat.eqb_spec x t) as [->|d]; [split; auto; lia|].
  rewrite IH. split; [intros [?|?]; [congruence|]|right]; lia.
Qed.
Lemma rk_of_out l t : ~ In t l -> (rk_of l t = length l + t)%nat.
Proof.
  induction l as [|x l IH]; simpl; intros H; auto. destruct (Nat.eqb_spec x t) as [->|d]; [tauto|]. rewrite IH; tauto.
Qed.
Lemma rk_of_inj l p t : rk_of l p = rk_of l t -> p = t.
Proof.
  induction l as [|x l IH]; simpl; auto. destruct (Nat.eqb_spec x p), (Nat.eqb_spec x t); try congruence; try lia; intros H; injection H; auto.
Qed.
Lemma rk_of_app l l' t : In t l -> rk_of (l ++ l') t = rk_of l t.
Proof.
  induction l as [|x l IH]; simpl; [easy|]. destruct (Nat.eqb_spec x t); auto. intros [?|?]; [congruence|]. now rewrite IH.
Qed.
Lemma rk_of_far l l' t : ~ In t l -> (length l <= rk_of (l ++ l') t)%nat.
Proof.
  induction l as [|x l IH]; simpl; intros H; [lia|]. destruct (Nat.eqb_spec x t); [tauto|]. apply le_n_S, IH. tauto.
Qed.
Lemma rk_of_new l t : ~ In t l -> rk_of (l ++ [t]) t = length l.
Proof.
  induction l as [|x l IH]; simpl; intros H; [now rewrite Nat.eqb_refl|]. destruct (Nat.eqb_spec x t); [tauto|]. rewrite IH; tauto.
Qed.
Lemma rk_of_sorted l : NoDup l -> StronglySorted (fun a b => (rk_of l a < rk_of l b)%nat) l.
Proof.
  induction l as [|x l IH] using rev_ind; intros H; [constructor|].
  apply NoDup_remove in H as [H1 H2]. rewrite app_nil_r in H1, H2. specialize (IH H1).
  assert (A : forall l0, (forall y, In y l0 -> In y l) -> StronglySorted (fun a b => (rk_of l a < rk_of l b)%nat) l0 ->
              StronglySorted (fun a b => (rk_of (l ++ [x]) a < rk_of (l ++ [x]) b)%nat) (l0 ++ [x])).
  { intros l0. induction l0 as [|y l0 IH0]; intros Sub SS; simpl; [constructor; constructor|].
    inversion SS; subst. constructor; [apply IH0; auto; intros; apply Sub; simpl; auto|].
    apply Forall_app. split.
    - rewrite Forall_forall in *. intros z Hz. rewrite !rk_of_app by (apply Sub; simpl; auto). auto.
    - constructor; [|constructor]. rewrite rk_of_app by (apply Sub; simpl; auto).
      rewrite rk_of_new by auto. apply rk_of_in, Sub. simpl; auto. }
  apply A; auto.
Qed.

(** a smaller index means an earlier place *)
Lemma rk_of_split l p t : NoDup l -> In t l -> (rk_of l p < rk_of l t)%nat -> exists a b d, l = a ++ p :: b ++ t :: d.
Proof.
  intros ND Ht Lt. apply in_split in Ht as (a & d & ->).
  assert (Np : In p a).
  { apply NoDup_remove_2 in ND. destruct (in_dec Nat.eq_dec p a) as [H|H]; auto. exfalso.
    pose proof (rk_of_far a (t :: d) p H).
    assert (Nt : ~ In t a) by (intros Q; apply ND, in_or_app; auto).
    assert (E : rk_of (a ++ t :: d) t = length a).
    { change (t :: d) with ([t] ++ d). rewrite app_assoc, rk_of_app by (apply in_or_app; simpl; auto). now apply rk_of_new. }
    lia. }
  apply in_split in Np as (a1 & a2 & ->). exists a1, a2, d. now rewrite <- app_assoc.
Qed.

Lemma wf_rankc P ms r : wfc P (mkFront ms (fun _ t => t)) -> (forall k p t, r k p = r k t -> p = t) -> wfc P (mkFront ms r).
Proof. intros W Hr. split; [apply (m_main P W)|exact Hr|apply W|apply W|apply W|apply W|apply W|apply W|apply W|apply W|apply W]. Qed.
Lemma wf_rank P ms r : wf_many P ms -> (forall k p t, r k p = r k t -> p = t) -> wfm P (mkFront ms r).
Proof. intros W Hr. split; [apply wf_rankc; [apply W|exact Hr]|apply W]. Qed.

(** the task whose first entry the next step of thread [i] makes *)
Definition starts (P : prog) (s : state) (i : nat) : list nat :=
  match nth_error (thr s) i with
  | Some (FSub _ c rs _ :: _) => if Nat.eqb (length rs) (length (uniq P c)) then [c] else []
  | _ => []
  end.

(** ** What steps do to submissions *)
Inductive smoves (P : prog) (s s' : state) (i : nat) : Prop :=
| sm_spawn o t is fs rest :
    nth_error (thr s) i = Some (FBody o (ISpawn t :: is) :: fs) ->
    Permutation (frames s) (FBody o (ISpawn t :: is) :: rest) ->
    Permutation (frames s') (FSub o t (uniq P t) is :: rest) ->
    log s' = LSpawn t :: log s -> smoves P s s' i
| sm_push o t r rs is fs rest :
    nth_error (thr s) i = Some (FSub o t (r :: rs) is :: fs) ->
    Permutation (frames s) (FSub o t (r :: rs) is :: rest) ->
    Permutation (frames s') (FSub o t rs is :: rest) ->
    log s' = log s -> smoves P s s' i
| sm_end o t is fs rest :
    nth_error (thr s) i = Some (FSub o t [] is :: fs) ->
    Permutation (frames s) (FSub o t [] is :: rest) ->
    Permutation (frames s') (FBody o is :: rest) ->
    log s' = LSub t :: log s -> smoves P s s' i
| sm_other :
    starts P s i = [] /\ (forall o t rs is fs, nth_error (thr s) i <> Some (FSub o t rs is :: fs)) ->
    (forall t, In (LSpawn t) (log s') <-> In (LSpawn t) (log s)) ->
    (forall o t rs is, In (FSub o t rs is) (frames s') <-> In (FSub o t rs is) (frames s)) ->
    (forall o is, In (FBody o is) (frames s') -> In (FBody o is) (frames s) \/
       (exists x, (forall t, x <> ISpawn t) /\ In (FBody o (x :: is)) (frames s)) \/ exists q, o = Some q /\ is = body P (Some q)) ->
    smoves P s s' i.

Lemma step_smoves P s i c s' : step P s i c = Some s' -> smoves P s s' i.
Proof.
  unfold step. destruct (nth_error (thr s) i) as [[|f fs]|] eqn:E; [| |discriminate].
  - destruct (istep s c) as [[s1 fr]|] eqn:F; [|discriminate]. intros H; injection H as <-.
    destruct (concat_set_nth _ _ _ fr E) as (r & H1 & H2).
    assert (Hp : Permutation (frames (set_thr s1 (set_nth i fr (thr s)))) (fr ++ frames s)).
    { unfold frames; simpl. etransitivity; [exact H2|]. apply Permutation_app_head. symmetry. exact H1. }
    clear H1 H2. apply sm_other.
    + unfold starts. rewrite E. split; [easy|discriminate].
    + cases_i F; simpl; intros t; try easy; split; auto; intros [Q|Q]; auto; discriminate.
    + intros o t rs is. split; intros Q.
      * apply (Permutation_in _ Hp) in Q. apply in_app_or in Q as [Q|Q]; auto. clear Hp.
        cases_i F; simpl in Q; repeat (destruct Q as [Q|Q]; [discriminate|]); easy.
      * apply (Permutation_in _ (Permutation_sym Hp)), in_or_app. auto.
    + intros o is Q. apply (Permutation_in _ Hp) in Q. apply in_app_or in Q as [Q|Q]; auto. clear Hp.
      cases_i F; simpl in Q; repeat (destruct Q as [Q|Q]; [discriminate|]); easy.
  - destruct (fstep P s f) as [[s1 fr]|] eqn:F; [|discriminate]. intros H; injection H as <-.
    destruct (concat_set_nth _ _ _ (fr ++ fs) E) as (r & H1 & H2).
    set (s' := set_thr s1 (set_nth i (fr ++ fs) (thr s))).
    assert (Hp : Permutation (frames s) (f :: (fs ++ r))) by exact H1.
    assert (Hp' : Permutation (frames s') (fr ++ (fs ++ r))).
    { unfold frames, s'; simpl. rewrite app_assoc. exact H2. }
    clear H1 H2. set (rest := fs ++ r) in *. clearbody rest.
    assert (Ls : log s' = log s1) by reflexivity. clearbody s'.
    assert (O : (forall o t rs is, f <> FSub o t rs is) ->
      (forall o t rs is, ~ In (FSub o t rs is) fr) ->
      (forall t, In (LSpawn t) (log s1) <-> In (LSpawn t) (log s)) ->
      (forall o is, In (FBody o is) fr -> f = FBody o is \/ (exists x, (forall t, x <> ISpawn t) /\ f = FBody o (x :: is)) \/ exists q, o = Some q /\ is = body P (Some q)) ->
      smoves P s s' i).
    { intros A B C D. apply sm_other.
      - unfold starts. rewrite E. split; [destruct f; auto; exfalso; eapply A; eauto|]. intros o t rs is fs0 Q. injection Q as Q _. eapply A; eauto.
      - now rewrite Ls.
      - intros o t rs is. split; intros Q.
        + apply (Permutation_in _ Hp') in Q. apply in_app_or in Q as [Q|Q]; [destruct (B _ _ _ _ Q)|].
          apply (Permutation_in _ (Permutation_sym Hp)). now right.
        + apply (Permutation_in _ Hp) in Q. destruct Q as [Q|Q]; [destruct (A _ _ _ _ Q)|].
          apply (Permutation_in _ (Permutation_sym Hp')), in_or_app. auto.
      - intros o is Q. apply (Permutation_in _ Hp') in Q. apply in_app_or in Q as [Q|Q].
        + assert (Hf : In f (frames s)) by (apply (Permutation_in _ (Permutation_sym Hp)); now left).
          destruct (D _ _ Q) as [->|[(x & Hx & ->)|Z]]; eauto.
        + left. apply (Permutation_in _ (Permutation_sym Hp)). now right. }
    cases_f F.
    all: try (eapply sm_spawn; eauto; fail).
    all: try (eapply sm_push; eauto; fail).
    all: try (eapply sm_end; eauto; fail).
    all: apply O; clear; simpl;
      [intros; discriminate
      |intros; intros Q; repeat (destruct Q as [Q|Q]; [discriminate Q|]); exact Q
      |intros x; repeat match goal with |- context [match ?e with EPre _ => _ | _ => _ end] => destruct e; simpl
                                      | |- context [match ?e with NInit => _ | _ => _ end] => destruct e; simpl
                                      | |- context [if ?b then _ else _] => destruct b; simpl end;
         (split; [intros Q; repeat (destruct Q as [Q|Q]; [discriminate Q|]); exact Q|auto])
      |intros x y Q; repeat (destruct Q as [Q|Q]; [first [discriminate Q
          | injection Q as <- <-; right; left; eexists; split; [|reflexivity]; intros; discriminate
          | injection Q as <- <-; right; right; eauto] |]); destruct Q].
Qed.

(** tasks that emplace nothing have nothing to wait for *)
Lemma flat_no_get P ms : wf_many P ms -> flat P -> no_get P.
Proof.
  intros W F t c H. apply in_split in H as (pre & post & E).
  assert (X := m_use_after P W (Some t) (body P (Some t)) pre _ post c eq_refl E (or_intror eq_refl)).
  specialize (F t). rewrite E, spawns_app in F. apply app_eq_nil in F as [F _]. now rewrite F in X.
Qed.

Section Many.
  Context (P : prog) (ms : list (list instr)) (W : wf_any P ms) (NW : p_wrap P = false) (n : nat).
  Notation FR := (fun l => mkFront ms (fun _ => rk_of l)).

  Lemma wr l : wfc P (FR l).
  Proof. apply wf_rankc; auto. intros _. apply rk_of_inj. Qed.

  (** where thread and body code stands: every task before it has begun *)
  Definition stands (ord : list nat) (f : frame) : Prop :=
    match f with
    | FBody o is => exists m pre, code P (FR []) o m /\ m = pre ++ is /\ forall c, In c (spawns pre) -> In c ord
    | FSub o t _ is => exists m pre, code P (FR []) o m /\ m = pre ++ ISpawn t :: is /\ forall c, In c (spawns pre) -> In c ord
    | _ => True
    end.

  Record order (s : state) (ord : list nat) : Prop := {
    o_mreach : forall tl, mreach P (FR (ord ++ tl)) n s;
    o_nodup : NoDup ord;
    o_begun : forall t, In t ord <-> submitted s t /\ forall o rs is, In (FSub o t rs is) (frames s) -> (length rs < length (uniq P t))%nat;
    o_entered : forall p t r, In t ord -> (rk_of ord p < rk_of ord t)%nat -> parent P p = parent P t ->
                In r (uniq P p) -> In r (uniq P t) -> pushed s p r;
    o_stands : forall f, In f (frames s) -> stands ord f;
    o_thread : forall p t, comes_before P ms p t -> In t ord -> In p ord /\ (rk_of ord p < rk_of ord t)%nat
  }.

  Lemma order_Inv s ord : order s ord -> Inv P (FR ord) s.
  Proof. intros O. pose proof (o_mreach s ord O []) as R. rewrite app_nil_r in R. exact (mreach_Inv P (wr _) NW n s R). Qed.

  Lemma sub_one s ord o t rs is rest : order s ord -> Permutation (frames s) (FSub o t rs is :: rest) ->
    forall o' rs' is', ~ In (FSub o' t rs' is') rest.
  Proof.
    intros O Hp o' rs' is' Hi. assert (I := order_Inv s ord O).
    assert (Hf : In (FSub o t rs is) (frames s)) by (apply (Permutation_in _ (Permutation_sym Hp)); now left).
    destruct (sub_facts P (wr ord) s _ _ _ _ I Hf) as (_ & Q & _).
    rewrite (zsum_perm _ _ _ Hp) in Q. cbn [zsum] in Q.
    assert (w_sub t (FSub o' t rs' is') <= zsum (w_sub t) rest) by (apply zsum_ge; auto; intros; apply w_nn).
    simpl in *. rewrite ni_refl in *. lia.
  Qed.

  Lemma same_list (l : list (list instr)) m m' c : NoDup (spawns (concat l)) -> In m l -> In m' l ->
    In c (spawns m) -> In c (spawns m') -> m = m'.
  Proof.
    induction l as [|x l IH]; [easy|]. simpl. rewrite spawns_app. intros ND Hm Hm' Hc Hc'.
    assert (IN : forall y, In y l -> In c (spawns y) -> In c (spawns (concat l))).
    { intros y Hy Q. apply spawns_In in Q. apply spawns_In. apply in_concat. eauto. }
    assert (D : In c (spawns x) -> ~ In c (spawns (concat l))).
    { clear -ND. intros A B. induction (spawns x) as [|y l1 IH]; [easy|]. simpl in *. inversion ND; subst.
      destruct A as [->|A]; auto. apply H1, in_or_app. auto. }
    assert (ND2 : NoDup (spawns (concat l))).
    { clear -ND. induction (spawns x) as [|y l1 IH]; auto. inversion ND; auto. }
    destruct Hm as [->|Hm], Hm' as [->|Hm']; auto; exfalso; eapply D; eauto.
  Qed.

  Lemma same_place (l1 l2 l1' l2' : list nat) t : NoDup (l1 ++ t :: l2) -> l1 ++ t :: l2 = l1' ++ t :: l2' -> l1 = l1'.
  Proof.
    revert l1'. induction l1 as [|x l1 IH]; intros [|y l1'] ND E; simpl in *; auto.
    - injection E as <- E. inversion ND; subst. exfalso. apply H1, in_or_app. simpl. auto.
    - injection E as -> E. inversion ND; subst. exfalso. apply H1, in_or_app. simpl. auto.
    - injection E as -> E. inversion ND; subst. f_equal. eapply IH; eauto.
  Qed.

  (** the tasks before [t] in its thread are those before it in any place it is found *)
  Lemma before_place o m pre t is p : code P (FR []) o m -> m = pre ++ ISpawn t :: is ->
    comes_before P ms p t -> In p (spawns pre).
  Proof.
    intros C Em (o' & m' & l1 & l2 & l3 & C' & Es).
    assert (C2 : code P (FR []) o' m') by (destruct o'; exact C').
    assert (T1 : In (ISpawn t) m) by (subst m; apply in_or_app; simpl; auto).
    assert (T2 : In (ISpawn t) m') by (apply spawns_In; rewrite Es; apply in_or_app; right; right; apply in_or_app; simpl; auto).
    assert (Eo : o' = o).
    { rewrite <- (m_parent P W o t (code_In P (wr []) o m _ C T1)). symmetry.
      exact (m_parent P W o' t (code_In P (wr []) o' m' _ C2 T2)). }
    subst o'. assert (m = m').
    { destruct o as [q|]; simpl in *; [congruence|].
      apply (same_list ms m m' t); auto; try (now apply spawns_In).
      change ms with (mains (mkFront ms (fun _ t => t))). rewrite <- (m_main P W). exact (m_once P W None). }
    subst m'. assert (ND : NoDup (spawns m)).
    { pose proof (m_once P W o) as ND. destruct o as [q|]; simpl in C; [now rewrite C|].
      simpl body in ND. rewrite (m_main P W) in ND. simpl in ND. clear -ND C. induction ms as [|x l IH]; [easy|].
      simpl in ND. rewrite spawns_app in ND. destruct C as [->|C].
      - clear -ND. induction (spawns m) as [|y l1 IH]; [constructor|]. inversion ND; subst. constructor; auto.
        intros Q. apply H1, in_or_app. auto.
      - apply IH; auto. clear -ND. induction (spawns x) as [|y l1 IH]; auto. inversion ND; auto. }
    rewrite Em, spawns_app in Es. simpl in Es.
    replace (l1 ++ p :: l2 ++ t :: l3) with ((l1 ++ p :: l2) ++ t :: l3) in Es by (now rewrite <- app_assoc).
    rewrite Em, spawns_app in ND. simpl in ND. apply same_place in Es; auto. rewrite Es. apply in_or_app. simpl. auto.
  Qed.

  Lemma before_first p t : comes_before P ms p t -> exists o m, code P (FR []) o m /\ In t (spawns m).
  Proof.
    intros (o & m & l1 & l2 & l3 & C & E). exists o, m. split; [destruct o; exact C|].
    rewrite E. apply in_or_app; right; right; apply in_or_app; simpl; auto.
  Qed.

  Lemma order_init : order (init_many P ms n) [].
  Proof.
    assert (F := frames_init P (U := FR []) n). simpl in F.
    split; try easy.
    - intros tl. exact (mreach_init P (FR tl) n).
    - constructor.
    - intros f Hf. rewrite F in Hf. apply in_map_iff in Hf as (m & <- & Hm). exists m, []. repeat split; auto; easy.
  Qed.

  Lemma stands_mono ord l f : stands ord f -> stands (ord ++ l) f.
  Proof.
    destruct f; simpl; auto; intros (m & pre & A & B & C); exists m, pre; repeat split; auto; intros x Hx; apply in_or_app; auto.
  Qed.

  (** the rank agrees with the place in the order *)
  Lemma rank_place l tl p t : In t l -> (rk_of (l ++ tl) p < rk_of (l ++ tl) t)%nat -> (rk_of l p < rk_of l t)%nat.
  Proof.
    intros Ht Lt. rewrite (rk_of_app l tl t Ht) in Lt. destruct (in_dec Nat.eq_dec p l) as [H|H].
    - now rewrite rk_of_app in Lt.
    - pose proof (rk_of_far l tl p H). apply rk_of_in in Ht. lia.
  Qed.

  Lemma order_step s ord i c s' : order s ord -> end_ok P s i -> begin_ok P s i -> step P s i c = Some s' ->
    order s' (ord ++ starts P s i).
  Proof.
    intros O G B H. assert (I := order_Inv s ord O). assert (M := step_moves P s i c s' H).
    assert (Top : forall f fs, nth_error (thr s) i = Some (f :: fs) -> In f (frames s)).
    { intros f fs E. unfold frames. apply in_concat. eexists. split; [exact (nth_error_In _ _ E)|now left]. }
    assert (SUB : forall o t rs is, In (FSub o t rs is) (frames s) -> submitted s t /\ parent P t = o /\ (length rs <= length (uniq P t))%nat).
    { intros o t rs is Hf. destruct (sub_facts P (wr ord) s _ _ _ _ I Hf) as (Q & _).
      split; [now apply in_spawn|]. split.
      - apply (m_parent P W). apply (piece_In P (wr ord) o _ is). exact (law_suffix P s (i_laws P s I) _ Hf).
      - destruct (i_frames P s I _ Hf) as [[pre E] _]. rewrite E, app_length. lia. }
    (* a task that starts now *)
    assert (ST : forall t, In t (starts P s i) -> exists o is fs, nth_error (thr s) i = Some (FSub o t (uniq P t) is :: fs) /\ starts P s i = [t]).
    { intros t Ht. unfold starts in *. destruct (nth_error (thr s) i) as [[|[] fs]|] eqn:E; try easy.
      destruct (Nat.eqb_spec (length rs) (length (uniq P c0))) as [e|e]; [|easy]. destruct Ht as [->|[]].
      exists o, s0, fs. split; auto. assert (Hf := Top _ _ eq_refl). destruct (i_frames P s I _ Hf) as [[pre Q] _].
      assert (pre = []) by (destruct pre; auto; rewrite Q in e; simpl in e; rewrite app_length in e; lia).
      subst pre. simpl in Q. now rewrite Q. }
    assert (NEWT : forall t, In t (starts P s i) -> ~ In t ord).
    { intros t Ht Ho. destruct (ST t Ht) as (o & is & fs & E & _). apply (o_begun s ord O) in Ho as [_ Ho].
      specialize (Ho _ _ _ (Top _ _ E)). lia. }
    (* everything before a starting task has entered the lists *)
    assert (ENT : forall t p r, In t (starts P s i) -> In p ord -> parent P p = parent P t -> In r (uniq P t) -> pushed s p r).
    { intros t p r Ht Hp Ep Hr. destruct (ST t Ht) as (o & is & fs & E & _). apply (o_begun s ord O) in Hp as [Hp1 Hp2].
      split; [now apply in_spawn|]. intros o' rs is' Hf Hi. exact (B o t is fs E o' p rs is' Hf Ep (Hp2 _ _ _ Hf) r Hi Hr). }
    assert (EN' : forall p t r, In t (ord ++ starts P s i) -> (rk_of (ord ++ starts P s i) p < rk_of (ord ++ starts P s i) t)%nat ->
                  parent P p = parent P t -> In r (uniq P p) -> In r (uniq P t) -> pushed s p r).
    { intros p t r Ht Lt Ep Hp Hr. apply in_app_or in Ht as [Ht|Ht].
      - apply rank_place in Lt; auto. eapply (o_entered s ord O); eauto.
      - apply (ENT t); auto. destruct (ST t Ht) as (_ & _ & _ & _ & Es). rewrite Es in Lt.
        rewrite rk_of_new in Lt by auto. destruct (in_dec Nat.eq_dec p ord) as [Q|Q]; auto.
        pose proof (rk_of_far ord [t] p Q). lia. }
    assert (PO : forall tl, push_ok P (FR ((ord ++ starts P s i) ++ tl)) s i).
    { intros tl o t r rs is fs E p Hp Lt Hr. simpl in Lt.
      assert (Hf := Top _ _ E). destruct (SUB _ _ _ _ Hf) as (Q1 & Q2 & Q3).
      assert (Ep : parent P p = parent P t) by (apply (m_parent P W), spawns_In; exact Hp).
      assert (Ht : In t (ord ++ starts P s i)).
      { destruct (Nat.eq_dec (length (r :: rs)) (length (uniq P t))) as [e|e].
        - apply in_or_app. right. unfold starts. rewrite E. rewrite e, Nat.eqb_refl. now left.
        - apply in_or_app. left. apply (o_begun s ord O). split; auto. intros o2 rs2 is2 Hf2.
          apply in_split in Hf as (a & b & Es).
          assert (PE : Permutation (frames s) (FSub o t (r :: rs) is :: (a ++ b))) by (rewrite Es; symmetry; apply Permutation_middle).
          apply (Permutation_in _ PE) in Hf2 as [Hf2|Hf2].
          + injection Hf2 as <- <- <-. lia.
          + destruct (sub_one s ord _ _ _ _ _ O PE _ _ _ Hf2). }
      apply rank_place in Lt; auto.
      assert (Hr2 : In r (uniq P t)).
      { destruct (i_frames P s I _ Hf) as [[pre Q] _]. rewrite Q. apply in_or_app. simpl. auto. }
      destruct (EN' p t r Ht Lt Ep Hr Hr2) as [A1 A2]. split; [now apply in_spawn|exact A2]. }
    assert (MR : forall tl, mreach P (FR ((ord ++ starts P s i) ++ tl)) n s').
    { intros tl. apply (mreach_step P _ n s i c s'); auto. rewrite <- app_assoc. apply (o_mreach s ord O). }
    assert (ND : NoDup (ord ++ starts P s i)).
    { destruct (starts P s i) as [|t l] eqn:E; [rewrite app_nil_r; apply (o_nodup s ord O)|].
      destruct (ST t (or_introl eq_refl)) as (_ & _ & _ & _ & Es). injection Es as ->.
      apply Permutation_NoDup with (l := t :: ord); [apply Permutation_cons_append|].
      constructor; [apply NEWT; now left|apply (o_nodup s ord O)]. }
    assert (SM := step_smoves P s i c s' H).
    split; auto.
    - (* begun *)
      intros t. destruct SM as [o x is fs rest E Hp Hp' El | o x r rs is fs rest E Hp Hp' El | o x is fs rest E Hp Hp' El | [SE _] EL EF _].
      + assert (SE : starts P s i = []) by (unfold starts; now rewrite E). rewrite SE, app_nil_r.
        destruct (Nat.eq_dec t x) as [->|d].
        * split; [intros Q|intros [_ Q]].
          -- apply (o_begun s ord O) in Q as [Q _]. destruct (spawn_facts P (wr ord) s I _ _ _ (Top _ _ E)) as [_ Z].
             apply in_spawn in Q. lia.
          -- specialize (Q o (uniq P x) is). exfalso. apply (Nat.lt_irrefl (length (uniq P x))). apply Q.
             apply (Permutation_in _ (Permutation_sym Hp')). now left.
        * rewrite (o_begun s ord O). unfold submitted. rewrite El. simpl. split.
          -- intros [A1 A2]. split; auto. intros o2 rs2 is2 Hi. apply (Permutation_in _ Hp') in Hi as [Hi|Hi]; [congruence|].
             apply (A2 o2 rs2 is2). apply (Permutation_in _ (Permutation_sym Hp)). now right.
          -- intros [[A1|A1] A2]; [congruence|]. split; auto. intros o2 rs2 is2 Hi. apply (A2 o2 rs2 is2).
             apply (Permutation_in _ Hp) in Hi as [Hi|Hi]; [discriminate|]. apply (Permutation_in _ (Permutation_sym Hp')). now right.
      + destruct (SUB _ _ _ _ (Top _ _ E)) as (Q1 & Q2 & Q3). assert (ONE := sub_one s ord _ _ _ _ _ O Hp).
        destruct (Nat.eq_dec t x) as [->|d].
        * split; intros _.
          -- split; [unfold submitted; now rewrite El|]. intros o2 rs2 is2 Hi. apply (Permutation_in _ Hp') in Hi as [Hi|Hi].
             ++ injection Hi as <- <- <-. simpl in Q3. lia.
             ++ destruct (ONE _ _ _ Hi).
          -- apply in_or_app. unfold starts. rewrite E. destruct (Nat.eqb_spec (length (r :: rs)) (length (uniq P x))) as [e|e]; [right; now left|left].
             apply (o_begun s ord O). split; auto. intros o2 rs2 is2 Hi. apply (Permutation_in _ Hp) in Hi as [Hi|Hi].
             ++ injection Hi as <- <- <-. lia.
             ++ destruct (ONE _ _ _ Hi).
        * assert (X : In t (ord ++ starts P s i) <-> In t ord).
          { split; [|intros; apply in_or_app; auto]. intros Q. apply in_app_or in Q as [Q|Q]; auto. unfold starts in Q. rewrite E in Q.
            destruct (Nat.eqb _ _); [|easy]. destruct Q as [Q|[]]. congruence. }
          rewrite X, (o_begun s ord O). unfold submitted. rewrite El.
          split; intros [A1 A2]; (split; [auto|]); intros o2 rs2 is2 Hi; apply (A2 o2 rs2 is2).
          -- apply (Permutation_in _ Hp') in Hi as [Hi|Hi]; [congruence|]. apply (Permutation_in _ (Permutation_sym Hp)). now right.
          -- apply (Permutation_in _ Hp) in Hi as [Hi|Hi]; [congruence|]. apply (Permutation_in _ (Permutation_sym Hp')). now right.
      + destruct (SUB _ _ _ _ (Top _ _ E)) as (Q1 & Q2 & Q3). assert (ONE := sub_one s ord _ _ _ _ _ O Hp).
        destruct (Nat.eq_dec t x) as [->|d].
        * split; intros _.
          -- split; [unfold submitted; rewrite El; now right|]. intros o2 rs2 is2 Hi. apply (Permutation_in _ Hp') in Hi as [Hi|Hi]; [discriminate|].
             destruct (ONE _ _ _ Hi).
          -- apply in_or_app. unfold starts. rewrite E. destruct (Nat.eqb_spec (length (@nil nat)) (length (uniq P x))) as [e|e]; [right; now left|left].
             apply (o_begun s ord O). split; auto. intros o2 rs2 is2 Hi. apply (Permutation_in _ Hp) in Hi as [Hi|Hi].
             ++ injection Hi as <- <- <-. lia.
             ++ destruct (ONE _ _ _ Hi).
        * assert (X : In t (ord ++ starts P s i) <-> In t ord).
          { split; [|intros; apply in_or_app; auto]. intros Q. apply in_app_or in Q as [Q|Q]; auto. unfold starts in Q. rewrite E in Q.
            destruct (Nat.eqb _ _); [|easy]. destruct Q as [Q|[]]. congruence. }
          rewrite X, (o_begun s ord O). unfold submitted. rewrite El.
          split; intros [A1 A2]; (split; [simpl in *; try (destruct A1; [discriminate|]); auto|]); intros o2 rs2 is2 Hi; apply (A2 o2 rs2 is2).
          -- apply (Permutation_in _ Hp') in Hi as [Hi|Hi]; [discriminate|]. apply (Permutation_in _ (Permutation_sym Hp)). now right.
          -- apply (Permutation_in _ Hp) in Hi as [Hi|Hi]; [congruence|]. apply (Permutation_in _ (Permutation_sym Hp')). now right.
      + rewrite SE, app_nil_r, (o_begun s ord O). unfold submitted. rewrite EL.
        split; intros [A1 A2]; (split; [auto|]); intros o2 rs2 is2 Hi; apply (A2 o2 rs2 is2), EF; exact Hi.
    - (* entered *)
      intros p t r Ht Lt Ep Hp Hr. apply (pushed_mono P (wr ord) s s' p r I M). eapply EN'; eauto.
    - (* stands *)
      assert (OLD := fun f Hf => stands_mono ord (starts P s i) f (o_stands s ord O f Hf)).
      destruct SM as [o x is fs rest E Hp Hp' El | o x r rs is fs rest E Hp Hp' El | o x is fs rest E Hp Hp' El | [SE _] EL EF EB].
      + intros f Hf. apply (Permutation_in _ Hp') in Hf as [<-|Hf].
        * exact (OLD _ (Top _ _ E)).
        * apply OLD. apply (Permutation_in _ (Permutation_sym Hp)). now right.
      + intros f Hf. apply (Permutation_in _ Hp') in Hf as [<-|Hf].
        * exact (OLD _ (Top _ _ E)).
        * apply OLD. apply (Permutation_in _ (Permutation_sym Hp)). now right.
      + intros f Hf. apply (Permutation_in _ Hp') in Hf as [<-|Hf].
        * destruct (OLD _ (Top _ _ E)) as (m & pre & C & Em & A). exists m, (pre ++ [ISpawn x]).
          rewrite <- app_assoc. repeat split; auto. intros y Hy. rewrite spawns_app in Hy.
          apply in_app_or in Hy as [Hy|[<-|[]]]; auto.
          apply in_or_app. unfold starts. rewrite E.
          destruct (Nat.eqb_spec (length (@nil nat)) (length (uniq P x))) as [e|e]; [right; now left|left].
          destruct (SUB _ _ _ _ (Top _ _ E)) as (Q1 & Q2 & Q3).
          apply (o_begun s ord O). split; auto. intros o2 rs2 is2 Hi. apply (Permutation_in _ Hp) in Hi as [Hi|Hi].
          -- injection Hi as <- <- <-. lia.
          -- destruct (sub_one s ord _ _ _ _ _ O Hp _ _ _ Hi).
        * apply OLD. apply (Permutation_in _ (Permutation_sym Hp)). now right.
      + intros f Hf. destruct f; try exact Logic.I.
        * destruct (EB _ _ Hf) as [Q|[(y & Hy & Q)|(q & -> & ->)]].
          -- exact (OLD _ Q).
          -- destruct (OLD _ Q) as (m & pre & C & Em & A). exists m, (pre ++ [y]). rewrite <- app_assoc. repeat split; auto.
             intros z Hz. rewrite spawns_app in Hz. apply in_app_or in Hz as [Hz|Hz]; auto. destruct y; try easy. destruct (Hy c0 eq_refl).
          -- exists (body P (Some q)), []. repeat split; auto; easy.
        * apply EF in Hf. exact (OLD _ Hf).
    - (* order of the threads *)
      intros p t Hb Ht. apply in_app_or in Ht as [Ht|Ht].
      + destruct (o_thread s ord O p t Hb Ht) as [A1 A2]. split; [apply in_or_app; auto|].
        now rewrite !rk_of_app.
      + destruct (ST t Ht) as (o & is & fs & E & Es).
        destruct (o_stands s ord O _ (Top _ _ E)) as (m & pre & C & Em & A).
        assert (Hp := A _ (before_place o m pre t is p C Em Hb)). split; [apply in_or_app; auto|].
        rewrite rk_of_app by auto. rewrite Es, rk_of_new by auto. now apply rk_of_in.
  Qed.

  Theorem creach_order k s : creach P ms n k s -> exists ord, order s ord.
  Proof.
    induction 1 as [|k s i c s' R [ord O] G B H]; [exists []; apply order_init|].
    eexists. eapply order_step; eauto.
  Qed.


  Lemma order_mreach s ord : order s ord -> mreach P (FR ord) n s.
  Proof. intros O. pose proof (o_mreach s ord O []) as R. now rewrite app_nil_r in R. Qed.

  Lemma started_in s ord t : order s ord -> started s t -> In t ord.
  Proof.
    intros O St. assert (I := order_Inv s ord O). apply in_exec in St. pose proof (f_exec_init P s I t) as Q.
    destruct (past_sub P (wr ord) s t I) as [A B]; [signs t s; lia|].
    apply (o_begun s ord O). split; [now apply in_spawn|]. intros o rs is Hf. destruct (B _ _ _ Hf).
  Qed.

  Theorem many_exclusive k s p t : creach P ms n k s -> parent P p = parent P t -> tasks_conflict P p t -> p <> t ->
    started s p -> started s t -> completed s p \/ completed s t.
  Proof.
    intros R Ep C D Sp St. destruct (creach_order k s R) as [ord O]. assert (I := order_Inv s ord O).
    assert (X : forall a, started s a -> sp s a).
    { intros a Ha. apply in_exec in Ha. exact (mr_exec_sp P (wr ord) NW n s a (order_mreach s ord O) Ha). }
    assert (SR := conflict_serial P p t C).
    destruct (lt_eq_lt_dec (rk_of ord p) (rk_of ord t)) as [[L|L]|L].
    - left. apply in_reach. apply (i_order_all P (wr ord) s I t); auto; [now apply in_exec|split; auto].
    - apply rk_of_inj in L. easy.
    - right. apply in_reach. apply (i_order_all P (wr ord) s I p); auto; [now apply in_exec|]. split; auto. now rewrite user_is_serial_sym.
  Qed.

  Lemma before_parent p t : comes_before P ms p t -> parent P p = parent P t.
  Proof.
    intros (o & m & l1 & l2 & l3 & C & E). assert (C2 : code P (FR []) o m) by (destruct o; exact C).
    assert (X : forall x, In x (spawns m) -> parent P x = o).
    { intros x Hx. apply (m_parent P W). apply (code_In P (wr []) o m _ C2). now apply spawns_In. }
    rewrite !X; auto; rewrite E; apply in_or_app; right; simpl; auto. right. apply in_or_app. simpl. auto.
  Qed.

  Theorem many_thread_order k s p t : creach P ms n k s -> comes_before P ms p t -> tasks_conflict P p t ->
    started s t -> completed s p.
  Proof.
    intros R B C St. destruct (creach_order k s R) as [ord O].
    assert (Ht := started_in s ord t O St). destruct (o_thread s ord O p t B Ht) as [Hp Lt].
    apply (mr_order P (wr ord) NW n s p t (order_mreach s ord O)); auto.
    - now apply before_parent.
    - now apply (o_begun s ord O) in Hp.
  Qed.

  Theorem many_progress k s : (forall t, ~ In IBarrier (body P (Some t))) -> no_get P -> (1 <= n)%nat -> (forall t, patient P t) -> creach P ms n k s -> stuck P s ->
    (forall t, submitted s t -> completed s t /\ (In (LGet t) (log s) \/ In (LDrop t) (log s) -> In (LFree t) (log s)))
    /\ (forall t e, In (LEvent t e) (log s) -> In (LFire t e) (log s))
    /\ forall f, In f (frames s) -> exists is, f = FBody None is /\
       (is = [] \/ exists is' t, is = IBarrier :: is' /\ submitted s t /\ parent P t = None /\
                              ~ (In (LGet t) (log s) \/ In (LDrop t) (log s))).
  Proof.
    intros NB NG N PA R K. destruct (creach_order k s R) as [ord O].
    assert (Wm : wfm P (FR ord)) by (split; [apply wr|exact NB]).
    refine (mr_progress P Wm NW n s NG _ N PA (order_mreach s ord O) K).
    exists (rk_of ord). easy.
  Qed.

  Theorem many_bounded N k s : bounded P N -> creach P ms n k s -> Z.of_nat k <= measure P N (init_many P ms n).
  Proof.
    intros BD R. assert (X : Z.of_nat k + measure P N s <= measure P N (init_many P ms n)).
    { induction R as [|k s i c s' R IH G B H]; [simpl; lia|]. destruct (creach_order k s R) as [ord O].
      pose proof (mr_measure_dec P (wr ord) NW N BD n s i c s' (order_mreach s ord O) H). lia. }
    destruct (creach_order k s R) as [ord O].
    pose proof (mr_measure_nn P (wr ord) NW N BD n s (order_mreach s ord O)). lia.
  Qed.

  Theorem many_result k s : flat P -> behaved P -> creach P ms n k s -> (forall t, submitted s t -> completed s t) ->
    exists ts, NoDup ts /\ (forall t, In t ts <-> submitted s t) /\
      (forall p t, comes_before P ms p t -> In t ts -> exists a b d, ts = a ++ p :: b ++ t :: d) /\
      forall S g m, sensible S -> same_result (exec S (performed (log s)) g m) (exec S (one_by_one P ts) g m).
  Proof.
    intros F BH R AC. destruct (creach_order k s R) as [ord O]. assert (I := order_Inv s ord O). exists ord.
    assert (ND := o_nodup s ord O).
    assert (IN : forall t, In t ord <-> submitted s t).
    { intros t. rewrite (o_begun s ord O). split; [easy|]. intros Q. split; auto. intros o rs is Hf. exfalso.
      destruct (sub_facts P (wr ord) s _ _ _ _ I Hf) as (_ & _ & _ & _ & _ & NR). apply NR. now apply in_reach, AC. }
    assert (PR : ForallOrdPairs (inv_free (rk_of ord)) (performed (log s))).
    { apply (mr_pairs P (wr ord) NW (rk_of ord) n s (fun _ _ _ L => L) F BH (order_mreach s ord O)). }
    repeat split; auto; try apply IN.
    - intros p t B Ht. destruct (o_thread s ord O p t B Ht) as [_ Lt]. now apply rk_of_split.
    - destruct (mr_sequential P (wr ord) NW (rk_of ord) n s S g m ord PR F BH H (order_mreach s ord O)) as [A _]; auto.
      + now apply rk_of_sorted.
      + intros t. symmetry. apply IN.
    - destruct (mr_sequential P (wr ord) NW (rk_of ord) n s S g m ord PR F BH H (order_mreach s ord O)) as [_ A]; auto.
      + now apply rk_of_sorted.
      + intros t. symmetry. apply IN.
  Qed.

  Theorem many_once k s t : creach P ms n k s ->
    zsum (v_exec t) (log s) <= 1 /\ zsum (v_start t) (log s) <= 1 /\ zsum (v_end t) (log s) <= 1
    /\ (1 <= zsum (v_exec t) (log s) -> 1 <= zsum (v_init t) (log s))
    /\ zsum (w_token t) (frames s) + zsum (ni t) (rdy s) + zsum (w_run t) (frames s) + zsum (is_body (Some t)) (frames s) <= 1.
  Proof. intros R. destruct (creach_order k s R) as [ord O]. exact (mr_once P (wr ord) NW n s t (order_mreach s ord O)). Qed.

  (** flat programs: any schedule closes its submissions in time *)
  Lemma flat_end_ok k s i : flat P -> creach P ms n k s -> end_ok P s i.
  Proof.
    intros F R q fs _ c Hc Hs. exfalso. destruct (creach_order k s R) as [ord O]. assert (I := order_Inv s ord O).
    apply in_spawn in Hs. apply (sp_body P (wr ord) s I) in Hs. rewrite Hc, F in Hs. easy.
  Qed.

  (** tasks that name at most one resource: any schedule *)
  Theorem small_creach l s : flat P -> (forall t, (length (uniq P t) <= 1)%nat) ->
    run P (init_many P ms n) l = Some s -> creach P ms n (length l) s.
  Proof.
    intros F SM H.
    assert (G : forall l s0 s k, creach P ms n k s0 -> run P s0 l = Some s -> creach P ms n (k + length l) s).
    { clear l s H. induction l as [|[i c] l IH]; intros s0 s k R; simpl.
      - intros Q; injection Q as <-. now rewrite Nat.add_0_r.
      - destruct (step P s0 i c) as [s1|] eqn:E; [|discriminate]. intros Q. rewrite Nat.add_succ_r, <- Nat.add_succ_l.
        eapply IH; eauto. econstructor; eauto; [eapply flat_end_ok; eauto|].
        intros o t is fs _ o' c' rs is' _ _ L r Hr. specialize (SM c'). destruct rs; simpl in *; [easy|lia]. }
    exact (G l _ s 0%nat (creach_init P ms n) H).
  Qed.

  (** a lock around every submission of a space *)
  Definition lone (s : state) (i : nat) : Prop :=
    forall o c is fs, nth_error (thr s) i = Some (FBody o (ISpawn c :: is) :: fs) ->
    forall o' c' rs is', In (FSub o' c' rs is') (concat (thr s)) -> parent P c' <> parent P c.

  Inductive locked_runs : nat -> state -> Prop :=
  | locked_init : locked_runs 0 (init_many P ms n)
  | locked_step k s i c s' : locked_runs k s -> end_ok P s i -> lone s i -> step P s i c = Some s' -> locked_runs (S k) s'.

  Definition alone (s : state) : Prop :=
    forall o t rs is rest, Permutation (frames s) (FSub o t rs is :: rest) ->
    forall o' t' rs' is', In (FSub o' t' rs' is') rest -> parent P t' <> parent P t.

  (** a frame that is not the head of one reading of a bag is in the rest *)
  Lemma perm_two {A} (f g : A) l r1 r2 : Permutation l (f :: r1) -> Permutation l (g :: r2) ->
    (f = g /\ Permutation r1 r2) \/ (exists r, Permutation r1 (g :: r) /\ Permutation r2 (f :: r)).
  Proof.
    intros A1 A2. assert (B : Permutation (f :: r1) (g :: r2)) by (etransitivity; [symmetry; exact A1|exact A2]).
    assert (Hg : In g (f :: r1)) by (apply (Permutation_in _ (Permutation_sym B)); now left).
    destruct Hg as [->|Hg].
    - left. split; auto. now apply Permutation_cons_inv in B.
    - right. apply in_split in Hg as (a & b & ->). exists (a ++ b). split; [symmetry; apply Permutation_middle|].
      apply (Permutation_cons_inv (a := g)). rewrite <- B. rewrite perm_swap. constructor. symmetry. apply Permutation_middle.
  Qed.

  Lemma locked_alone k s : locked_runs k s -> creach P ms n k s /\ alone s.
  Proof.
    induction 1 as [|k s i c s' R [C A] G L H].
    - split; [constructor|]. intros o t rs is rest Hp. exfalso.
      assert (F := frames_init P (U := FR []) n). simpl in F.
      assert (Hf : In (FSub o t rs is) (frames (init_many P ms n))) by (apply (Permutation_in _ (Permutation_sym Hp)); now left).
      rewrite F in Hf. apply in_map_iff in Hf as (m & Q & _). discriminate.
    - destruct (creach_order k s C) as [ord O].
      assert (I := order_Inv s ord O).
      assert (IN : forall f rest, Permutation (frames s) (f :: rest) -> forall g, In g rest -> In g (frames s)).
      { intros f rest Hp g Hg. apply (Permutation_in _ (Permutation_sym Hp)). now right. }
      assert (BO : begin_ok P s i).
      { intros o t is fs E o' c' rs is' Hf Ep Lt. exfalso.
        assert (Ht : In (FSub o t (uniq P t) is) (frames s)).
        { unfold frames. apply in_concat. eexists. split; [exact (nth_error_In _ _ E)|now left]. }
        apply in_split in Ht as (a & b & Es).
        assert (PE : Permutation (frames s) (FSub o t (uniq P t) is :: (a ++ b))) by (rewrite Es; symmetry; apply Permutation_middle).
        fold (frames s) in Hf. apply (Permutation_in _ PE) in Hf as [Hf|Hf].
        * injection Hf as <- <- <- <-. lia.
        * exact (A _ _ _ _ _ PE _ _ _ _ Hf Ep). }
      split.
      + econstructor; eauto.
      + destruct (step_smoves P s i c s' H) as [o x is fs rest E Hp Hp' El | o x r rs is fs rest E Hp Hp' El | o x is fs rest E Hp Hp' El | [SE _] EL EF _];
          intros o1 t1 rs1 is1 rest1 Hq o2 t2 rs2 is2 H2.
        * destruct (perm_two _ _ _ _ _ Hq Hp') as [[Q1 Q2]|(q & Q1 & Q2)].
          -- injection Q1 as -> -> -> ->. apply (Permutation_in _ Q2) in H2. apply (L _ _ _ _ E o2 t2 rs2 is2). exact (IN _ _ Hp _ H2).
          -- assert (Y : In (FSub o1 t1 rs1 is1) rest) by (apply (Permutation_in _ (Permutation_sym Q2)); now left).
             assert (H3 := Permutation_in _ Q1 H2); clear H2; destruct H3 as [H2|H2].
             ++ injection H2 as E1 E2 E3 E4. subst t2. intros Ep. apply (L _ _ _ _ E o1 t1 rs1 is1); auto. exact (IN _ _ Hp _ Y).
             ++ apply (A o1 t1 rs1 is1 (FBody o (ISpawn x :: is) :: q)) with (o' := o2) (rs' := rs2) (is' := is2); [|now right].
                rewrite Hp, Q2. apply perm_swap.
        * destruct (perm_two _ _ _ _ _ Hq Hp') as [[Q1 Q2]|(q & Q1 & Q2)].
          -- injection Q1 as -> -> -> ->. apply (Permutation_in _ Q2) in H2. exact (A _ _ _ _ _ Hp _ _ _ _ H2).
          -- assert (Y : In (FSub o1 t1 rs1 is1) rest) by (apply (Permutation_in _ (Permutation_sym Q2)); now left).
             assert (H3 := Permutation_in _ Q1 H2); clear H2; destruct H3 as [H2|H2].
             ++ injection H2 as E1 E2 E3 E4. subst t2. intros Ep. apply (A _ _ _ _ _ Hp _ _ _ _ Y). auto.
             ++ apply (A o1 t1 rs1 is1 (FSub o x (r :: rs) is :: q)) with (o' := o2) (rs' := rs2) (is' := is2); [|now right].
                rewrite Hp, Q2. apply perm_swap.
        * destruct (perm_two _ _ _ _ _ Hq Hp') as [[Q1 Q2]|(q & Q1 & Q2)]; [discriminate|].
          assert (H3 := Permutation_in _ Q1 H2); clear H2; destruct H3 as [H2|H2]; [discriminate|].
          apply (A o1 t1 rs1 is1 (FSub o x [] is :: q)) with (o' := o2) (rs' := rs2) (is' := is2); [|now right].
          rewrite Hp, Q2. apply perm_swap.
        * (* other steps keep the submissions *)
          assert (Y1 : In (FSub o1 t1 rs1 is1) (frames s)) by (apply EF; apply (Permutation_in _ (Permutation_sym Hq)); now left).
          assert (Y2 : In (FSub o2 t2 rs2 is2) (frames s)) by (apply EF; apply (Permutation_in _ (Permutation_sym Hq)); now right).
          intros Ep.
          apply in_split in Y1 as (a & b & Es).
          assert (PE : Permutation (frames s) (FSub o1 t1 rs1 is1 :: (a ++ b))) by (rewrite Es; symmetry; apply Permutation_middle).
          apply (Permutation_in _ PE) in Y2 as [Y2|Y2]; [|exact (A _ _ _ _ _ PE _ _ _ _ Y2 Ep)].
          injection Y2 as <- <- <- <-.
          (* the same task twice in one state *)
          assert (O' := order_step s ord i c s' O G BO H). exact (sub_one _ _ _ _ _ _ _ O' Hq _ _ _ H2).
  Qed.
End Many.
