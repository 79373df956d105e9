(** Bodies that call [barrier()] (redGrapes.cpp:136-142): the root of a task that has
    started and not ended is still counted, so the call never returns. *)
From Coq Require Import Bool List Arith NArith ZArith Lia Permutation.
From Verif Require Import AccessModel AccessSpec AccessProof UserModel UserProof SchedModel SchedSpec SchedBase SchedInv1 SchedInv2 SchedInv3 SchedInv4 SchedInv5 SchedInv6 SchedInv7 SchedInv8 SchedFront SchedThm.
Import ListNotations.
Open Scope Z_scope.

Section Barrier.
  Context (P : prog) {U : front} (W : wfc P U) (NW : p_wrap P = false).

  (** a task that is not complete has a root that is not freed *)
  Lemma root_counted n s : mreach P U n s -> forall t, submitted s t -> ~ completed s t -> tcn s None <> 0.
  Proof.
    intros R. assert (I := mreach_Inv P W NW n s R).
    induction t as [t IH] using (well_founded_induction lt_wf). intros Hs NC Z.
    destruct (parent P t) as [q|] eqn:E.
    - assert (Sq : submitted s q /\ (q < t)%nat).
      { assert (S := proj2 (in_spawn t _) Hs). split.
        - assert (Q := sp_parent P W s I t S). rewrite E in Q. simpl in Q. apply in_spawn.
          pose proof (f_start P s I q). pose proof (f_exec_init P s I q). pose proof (f_phase P s I q). lia.
        - apply (m_lt P W). apply spawns_In. rewrite <- E. apply (sp_body P W s I). exact S. }
      destruct Sq as [Sq Lq]. apply (IH q Lq Sq); auto. intros Cq. apply NC. exact (mr_children_first P W NW n s t q R Cq E Hs).
    - assert (F := mr_empty_all_free P W NW n s None R Z t E Hs). apply NC. exact (proj1 (proj2 (proj2 (mr_free_late P W NW n s t R F)))).
  Qed.

  (** while the body of [t] is running, the task space is not empty *)
  Lemma running_counted n s t is : mreach P U n s -> In (FBody (Some t) is) (frames s) -> tcn s None <> 0.
  Proof.
    intros R Hf. assert (I := mreach_Inv P W NW n s R).
    assert (B : 1 <= zsum (is_body (Some t)) (frames s)).
    { assert (X := zsum_ge (is_body (Some t)) (frames s) (FBody (Some t) is) (fun x _ => w_nn4 (Some t) x) Hf).
      simpl in X. rewrite Nat.eqb_refl in X. exact X. }
    assert (LB := law_body P s (i_laws P s I) t). pose proof (f_start P s I t). pose proof (f_exec_init P s I t). pose proof (f_phase P s I t). pose proof (f_exec P s I t).
    pose proof (nn_v (v_end t) (log s) (fun x => ltac:(destruct x; simpl; unfold ni, zb; try destruct (Nat.eqb _ _); lia))).
    apply (root_counted n s R t).
    - apply in_spawn. lia.
    - intros C. apply in_reach in C. assert (E := rc_end P s I t C). lia.
  Qed.

  (** the call is still ahead, in every body that contains one *)
  Definition ahead (s : state) : Prop :=
    forall t, In IBarrier (body P (Some t)) ->
    ~ In (LEnd t) (log s) /\
    forall f, In f (frames s) -> match f with FBody (Some q) is | FSub (Some q) _ _ is => q = t -> In IBarrier is | _ => True end.

  Lemma barrier_ahead n s : mreach P U n s -> ahead s.
  Proof.
    induction 1 as [|s i c s' R IH G PO H].
    - intros t _. split; [easy|]. intros f Hf. rewrite (frames_init P (U := U) n) in Hf. apply in_map_iff in Hf as (m & <- & _). exact Logic.I.
    - intros t Ht. destruct (IH t Ht) as [NE FA]. assert (M := step_moves P s i c s' H).
      destruct M as [j g fs s1 fr rest E H1 -> Hp Hp' | j pk s1 fr E H1 -> Hp'].
      + assert (Hg : In g (frames s)) by (apply (Permutation_in _ (Permutation_sym Hp)); now left).
        assert (FG := FA g Hg).
        assert (RC : forall q is, g = FBody (Some q) (IBarrier :: is) -> tcn s None <> 0).
        { intros q is ->. exact (running_counted n s q _ R Hg). }
        assert (K : ~ In (LEnd t) (log s1) /\ forall f, In f fr -> match f with FBody (Some q) is | FSub (Some q) _ _ is => q = t -> In IBarrier is | _ => True end).
        { clear Hp Hp' E H G PO. cases_f H1; simpl in *; split;
            try exact NE;
            try (intros X; repeat (destruct X as [X|X]; [try discriminate X|]); now apply NE);
            try (intros [X|X]; [try discriminate X|now apply NE]);
            try (intros f Hf; repeat (destruct Hf as [<-|Hf]; [|]); try easy; try exact Logic.I; try exact FG;
                 try (intros ->; specialize (FG eq_refl); destruct FG as [FG|FG]; [discriminate FG|exact FG]);
                 try (destruct o; [|exact Logic.I]; intros ->; specialize (FG eq_refl); destruct FG as [FG|FG]; [discriminate FG|exact FG])).
          all: match goal with
               | X : LEnd _ = LEnd _ |- _ => injection X as X; destruct (FG X)
               | B : (tcn _ None =? 0) = true |- _ =>
                   apply Z.eqb_eq in B; first [exact Logic.I | exfalso; eapply RC; [reflexivity|exact B] | destruct o; [exfalso; eapply RC; [reflexivity|exact B]|exact Logic.I]]
               | |- _ => intros ->; exact Ht
               end. }
        destruct K as [K1 K2]. split; [exact K1|]. intros f Hf. apply (Permutation_in _ Hp') in Hf. apply in_app_or in Hf as [Hf|Hf]; [exact (K2 f Hf)|].
        exact (FA f (Permutation_in _ (Permutation_sym Hp) (or_intror Hf))).
      + assert (L : log s1 = log s \/ exists x, log s1 = x :: log s /\ x <> LEnd t) by (cases_i H1; simpl; eauto; right; eexists; split; [reflexivity|discriminate]).
        split.
        * simpl. destruct L as [->|(x & -> & NX)]; [exact NE|]. intros [X|X]; auto.
        * intros f Hf. apply (Permutation_in _ Hp') in Hf. apply in_app_or in Hf as [Hf|Hf]; [|exact (FA f Hf)].
          cases_i H1; simpl in Hf; destruct Hf as [<-|[]]; exact Logic.I.
  Qed.

  Theorem mr_barrier_never_ends n s t : mreach P U n s -> In IBarrier (body P (Some t)) -> ~ ended s t /\ ~ completed s t.
  Proof.
    intros R Ht. destruct (barrier_ahead n s R t Ht) as [NE _]. split; [exact NE|].
    intros C. apply NE. exact (mr_completed_ended P W NW n s t R C).
  Qed.

  (** once such a task is submitted, the task space never is empty again *)
  Theorem mr_space_counted n s t : mreach P U n s -> In IBarrier (body P (Some t)) -> submitted s t -> tcn s None <> 0.
  Proof. intros R Ht Hs. apply (root_counted n s R t Hs). now apply (mr_barrier_never_ends n s t R Ht). Qed.

  Lemma step_log s i c s' : step P s i c = Some s' ->
    exists k, log s' = k ++ log s /\ (In LBarrier k -> k = [LBarrier] /\ tcn s None = 0).
  Proof.
    intros H. apply step_moves in H. destruct H as [j g fs s1 fr rest E H1 -> _ _ | j pk s1 fr E H1 -> _]; simpl.
    - clear E. cases_f H1; simpl; try (exists []; split; [reflexivity|easy]);
        try (eexists [_]; split; [reflexivity|]; intros [X|[]]; first [discriminate X | split; [reflexivity|now apply Z.eqb_eq]]);
        try (eexists [_; _]; split; [reflexivity|]; intros [X|[X|[]]]; discriminate X).
    - clear E. cases_i H1; simpl; try (exists []; split; [reflexivity|easy]);
        try (eexists [_]; split; [reflexivity|]; intros [X|[]]; discriminate X).
  Qed.

  (** no [barrier()] returns after the submission of a task whose body calls it *)
  Theorem mr_no_barrier_returns n s t l1 l2 : mreach P U n s -> In IBarrier (body P (Some t)) ->
    log s = l1 ++ LBarrier :: l2 -> ~ In (LSpawn t) l2.
  Proof.
    intros R Ht. revert l1. induction R as [|s i c s' R IH G PO H]; intros l1 E.
    - simpl in E. destruct l1; discriminate.
    - destruct (step_log s i c s' H) as (k & Ek & HB). rewrite Ek in E.
      assert (D : (exists l, k = l1 ++ LBarrier :: l) \/ exists l, l1 = k ++ l /\ log s = l ++ LBarrier :: l2).
      { clear -E. revert l1 E. induction k as [|x k IH]; intros l1 E; simpl in E; [right; exists l1; auto|].
        destruct l1 as [|y l1]; simpl in E; injection E as -> E; [left; exists k; auto|].
        destruct (IH l1 E) as [(l & ->)|(l & -> & ?)]; [left|right]; exists l; auto. }
      destruct D as [(l & ->)|(l & -> & E')]; [|exact (IH l E')].
      destruct HB as [HB Z]; [apply in_elt|]. assert (l1 = [] /\ l = []) as [-> ->].
      { destruct l1 as [|y l1]; [injection HB as ->; auto|]. injection HB as _ HB. destruct l1; discriminate. }
      simpl in E. injection E as <-. intros Hs. exact (mr_space_counted n s t R Ht Hs Z).
  Qed.
End Barrier.
