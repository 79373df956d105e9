(** Preservation of the invariant, part 3: events, locks. *)
From Coq Require Import Bool List Arith NArith ZArith Lia Permutation Sorting.Sorted.
From Verif Require Import AccessModel AccessSpec AccessProof UserModel UserProof SchedModel SchedSpec SchedBase SchedInv1 SchedInv2 SchedInv3 SchedInv4.
Import ListNotations.
Open Scope Z_scope.

Section Pres.
  Context (P : prog) {U : front} (W : wfc P U) (NW : p_wrap P = false).

  Lemma pres_up s s' t : Inv P U s -> moves P s s' ->
    zsum (w_collect t) (frames s') + zsum (w_ninit t) (frames s') + zsum (v_init t) (log s') = 0 ->
    ob s' t = 0.
  Proof.
    intros I M. assert (UP := i_up P s I t).
    assert (O := ob_nn P s I t). assert (OG := ob_ge P s I t). assert (N := i_nexec P s I t).
    assert (NI := notify_split t (frames s)). assert (EI := f_exec_init P s I t). 
    signs t s. 
    destruct M as [i f fs s1 fr rest E H -> Hp Hp' | i pk s1 fr E H -> Hp'].
    - rewrite (ob_step P W s s1 f fr rest i fs t I H Hp Hp').
      rewrite ?(zsum_perm _ _ _ Hp').
      signsl t rest. assert (NR := notify_split t rest).
      rewrite ?(zsum_perm _ _ _ Hp) in *. clear Hp Hp' E I.
      cases_f H; unfold delta; rewrite ?zsum_app in *; simpl in *;
        repeat match goal with E : (_ =? _) = _ |- _ => rewrite E end;
        unfold ce, ni in *; simpl in *; rewrite ?Z.add_0_l, ?Z.add_0_r, ?Z.sub_0_r in *; try solve [exact UP]; try lia;
        repeat match goal with
        | |- context [Nat.eqb ?a ?b] => destruct (Nat.eqb_spec a b); try subst; simpl in *
        end; try lia.
      replace (match e0 with EPre _ | _ => 0 end) with 0 by (destruct e0; reflexivity). lia.
    - rewrite (ob_idle s s1 pk fr i t H Hp'). rewrite ?(zsum_perm _ _ _ Hp'). clear I Hp' E.
      cases_i H; law_tac; lia.
  Qed.

  Lemma pres_pend s s' y x : Inv P U s -> moves P s s' -> pend s' y x <= zsum (ce x) (fol s' y).
  Proof.
    intros I M. assert (A := i_pend P s I y x). unfold pend in *. clear I.
    destruct M as [i f fs s1 fr rest E H -> Hp Hp' | i pk s1 fr E H -> Hp'].
    - rewrite (zsum_perm _ _ _ Hp) in A. rewrite (zsum_perm _ _ _ Hp'). clear Hp Hp' E.
      cases_f H; cbn [w_pend zsum app] in *; simpl fol in *; rewrite ?Z.add_0_l in *; try exact A;
        try (match type of A with context [zb ?b] => pose proof (zb_bound b) end; lia);
        unfold eupd.
      + destruct (ev_eqb_spec y (EExt n e)); [|exact A]. subst. simpl. unfold ce at 1.
        match goal with |- context [zb ?b] => pose proof (zb_bound b) end. lia.
      + destruct (ev_eqb_spec y (EPost p)).
        * subst. rewrite ev_eqb_refl. cbn [zsum andb]. unfold ce at 1. lia.
        * destruct (ev_eqb_spec (EPost p) y); [congruence|]. simpl. lia.
      + destruct (ev_eqb_spec y (EPost t)).
        * subst. rewrite ev_eqb_refl. cbn [zsum andb]. unfold ce at 1. lia.
        * destruct (ev_eqb_spec (EPost t) y); [congruence|]. simpl. lia.
    - rewrite (zsum_perm _ _ _ Hp'). cases_i H; simpl in *; lia.
  Qed.

  Lemma in_collect s t f : In f (frames s) -> w_collect t f = 1 -> 1 <= zsum (w_collect t) (frames s).
  Proof. intros Hf <-. apply in_w; auto. intro; apply w_nn. Qed.

  Lemma ctr_base s x : Inv P U s -> 1 <= base s x -> 1 <= ctr s x.
  Proof.
    intros I B. rewrite (i_acc P s I). pose proof (edges_nn P s I x).
    nnw w_notify x s. nnw w_follow x s. lia.
  Qed.

  Lemma ni_refl t : ni t t = 1.
  Proof. unfold ni. now rewrite Nat.eqb_refl. Qed.
  Lemma ce_refl t : ce t t = 1.
  Proof. unfold ce. now rewrite ev_eqb_refl. Qed.

  (** events are incremented only before they are reached *)
  Lemma inc_ok s f e : Inv P U s -> In f (frames s) ->
    match f with
    | FBody (Some t) (IEvent _ :: _) => e = EPost t
    | FInitUp t | FDep4 t _ _ _ _ => e = EPre t
    | FPar3 _ q => e = EPost q
    | FNotify x _ => e = x
    | _ => False
    end -> 1 <= ctr s e.
  Proof.
    intros I Hf He. assert (FOK := i_frames P s I f Hf).
    destruct f as [[t|] [|[]]| |t| | | | | |t p r it rs| | |t q|x k| | | | | | |]; try easy; subst e.
    - apply ctr_base; auto. simpl. assert (B := in_w s (is_body (Some t)) _ (w_nn4 (Some t)) Hf).
      simpl in B. rewrite Nat.eqb_refl in B. simpl in B. apply (body_facts P s I) in B. lia.
    - apply ctr_base; auto. simpl. assert (B := in_w s (w_up t) _ (fun g => proj1 (proj2 (w_nn t g))) Hf).
      simpl in B. rewrite ni_refl in B. apply (up_facts P W s I) in B. nnw w_collect t s. lia.
    - apply ctr_base; auto. simpl. pose proof (in_collect s t _ Hf (ni_refl t)) as C.
      apply (collect_facts P W s I) in C. lia.
    - apply ctr_base; auto. simpl. pose proof (in_collect s t _ Hf (ni_refl t)) as C.
      apply (collect_facts P W s I) in C. simpl in FOK. destruct FOK as [Ep _].
      pose proof (i_guard P s I t q Ep). pose proof (f_end P s I q). pose proof (f_start P s I q). pose proof (f_exec P s I q). lia.
    - rewrite (i_acc P s I). pose proof (edges_nn P s I x). pose proof (base_nn P W s I x).
      nnw w_follow x s. assert (B := in_w s (w_notify x) _ (fun g => proj1 (w_nn2 x g)) Hf).
      simpl in B. rewrite ce_refl in B. lia.
  Qed.

  Lemma pres_reach s s' x : Inv P U s -> moves P s s' ->
    (ctr s' x = 0 /\ zsum (v_reach x) (log s') = 1) \/
    (1 <= ctr s' x /\ zsum (v_reach x) (log s') = 0).
  Proof.
    intros I M. assert (A := i_reach P s I x).
    destruct M as [i f fs s1 fr rest E H -> Hp Hp' | i pk s1 fr E H -> Hp'].
    - assert (Hf : In f (frames s)) by (apply (Permutation_in _ (Permutation_sym Hp)); now left).
      assert (C := fun e => inc_ok s f e I Hf). clear I Hp Hp' E Hf.
      cases_f H; unfold inc; simpl in *; rewrite ?Z.add_0_l; try exact A;
        try specialize (C _ eq_refl);
        rewrite ?(eupd_ce P NW), ?(eupd_dec P NW); unfold ce; rewrite ?(wrap_id P NW) in *;
        match goal with |- context [ev_eqb ?a x] => destruct (ev_eqb_spec a x); [subst x|] end; cbn [zb]; zcmp; lia.
    - cases_i H; simpl; rewrite ?Z.add_0_l; exact A.
  Qed.
End Pres.
