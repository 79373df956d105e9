(** Preservation of the invariant, part 2: tokens, events, locks. *)
From Coq Require Import Bool List Arith NArith ZArith Lia Permutation Sorting.Sorted.
From Verif Require Import AccessModel AccessSpec AccessProof UserModel UserProof SchedModel SchedSpec SchedBase SchedInv1 SchedInv2 SchedInv3.
Import ListNotations.
Open Scope Z_scope.

Ltac nnl w t l := let N := fresh "sl" in assert (N : 0 <= zsum (w t) l) by
  (apply nn_v; intro; first [apply w_nn | apply w_nn2 | apply w_nn4]).
Ltac signsl t l :=
  nnl w_sub t l; nnl w_up t l; nnl w_collect t l; nnl w_ninit t l; nnl w_nexec t l; nnl w_run t l; nnl w_token t l.

Section Pres.
  Context (P : prog) {U : front} (W : wfc P U) (NW : p_wrap P = false).

  Lemma pres_nexec s s' t : Inv P U s -> moves P s s' ->
    zsum (w_nexec t) (frames s') <= zsum (v_exec t) (log s').
  Proof.
    intros I M. assert (A := i_nexec P s I t). clear I.
    destruct M as [i f fs s1 fr rest E H -> Hp Hp' | i pk s1 fr E H -> Hp'].
    - rewrite (zsum_perm _ _ _ Hp) in A. rewrite (zsum_perm _ _ _ Hp'). clear Hp Hp' E.
      cases_f H; rewrite ?zsum_app; simpl in *; unfold ni in *;
        repeat match goal with |- context [zb (Nat.eqb ?a ?b)] => pose proof (zb_bound (Nat.eqb a b)); generalize dependent (zb (Nat.eqb a b)); intros end;
        try lia; try fin.
      all: pose proof (zb_bound (Nat.eqb t0 t)); lia.
    - rewrite (zsum_perm _ _ _ Hp'). clear Hp' E. cases_i H; simpl in *; lia.
  Qed.

  Lemma ob_step s s1 f fr rest i fs t :
    Inv P U s -> fstep P s f = Some (s1, fr) ->
    let s' := set_thr s1 (set_nth i (fr ++ fs) (thr s)) in
    Permutation (frames s) (f :: rest) -> Permutation (frames s') (fr ++ rest) ->
    ob s' t = ob s t + delta s f (EPre t)
              + (zsum (w_collect t) fr - w_collect t f)
              + (zsum (w_notify (EPre t)) fr - w_notify (EPre t) f)
              - (zsum (w_nexec t) fr - w_nexec t f)
              + (zsum (w_follow (EPre t)) fr - w_follow (EPre t) f).
  Proof.
    intros I H s' Hp Hp'. unfold ob. subst s'. rewrite (edges_step P W s s1 f fr rest i fs (EPre t) I H Hp Hp').
    rewrite ?(zsum_perm _ _ _ Hp), ?(zsum_perm _ _ _ Hp'), ?zsum_app. simpl. lia.
  Qed.

  Lemma ob_idle s s1 pk fr i t :
    istep s pk = Some (s1, fr) ->
    let s' := set_thr s1 (set_nth i fr (thr s)) in
    Permutation (frames s') (fr ++ frames s) ->
    ob s' t = ob s t.
  Proof.
    intros H s' Hp'. unfold ob. subst s'. rewrite (edges_idle s s1 pk fr i _ H Hp').
    rewrite ?(zsum_perm _ _ _ Hp'), ?zsum_app. cases_i H; simpl; unfold ce; simpl; lia.
  Qed.

  Lemma tok_iff T A B : T = (if (1 <=? A) && (B =? 0) then 1 else 0) <->
    (1 <= A /\ B = 0 /\ T = 1 \/ (A < 1 \/ B <> 0) /\ T = 0).
  Proof.
    destruct (Z.leb_spec 1 A), (Z.eqb_spec B 0); simpl; split; intros; lia.
  Qed.

  Lemma pres_tok s s' t : Inv P U s -> moves P s s' ->
    tok s' t = if (1 <=? zsum (v_init t) (log s')) && (ob s' t =? 0) then 1 else 0.
  Proof.
    intros I M. assert (A := i_tok P s I t). apply tok_iff in A. apply tok_iff.
    assert (C := ctr_pre P s I t). assert (N := i_nexec P s I t). assert (UP := i_up P s I t).
    assert (O := ob_nn P s I t). assert (L := law_phase P s (i_laws P s I) t).
    assert (S1 := f_spawn P W s I t). assert (NI := notify_split t (frames s)). assert (OG := ob_ge P s I t).
    signs t s.
    destruct M as [i f fs s1 fr rest E H -> Hp Hp' | i pk s1 fr E H -> Hp'].
    - rewrite (ob_step s s1 f fr rest i fs t I H Hp Hp').
      unfold tok in *. rewrite (zsum_perm _ _ _ Hp').
      signsl t rest. assert (NR := notify_split t rest).
      rewrite ?(zsum_perm _ _ _ Hp) in *. clear Hp Hp' E I.
      cases_f H; unfold delta; rewrite ?zsum_app, ?(wrap_id P NW) in *; simpl in *;
        repeat match goal with E : (_ =? _) = _ |- _ => rewrite E end;
        unfold ce, ni in *; simpl in *; rewrite ?Z.add_0_l, ?Z.add_0_r, ?Z.sub_0_r in *; try solve [exact A]; try lia;
        repeat match goal with
        | |- context [Nat.eqb ?a ?b] => destruct (Nat.eqb_spec a b); try subst; simpl in *
        end; try lia;
        repeat match goal with
        | |- context [Z.eqb ?a ?b] => destruct (Z.eqb_spec a b); simpl in *
        end; try lia; repeat match goal with E : Z.eqb _ _ = _ |- _ => rewrite ?E in *; simpl zb in *; apply Z.eqb_eq in E || apply Z.eqb_neq in E end; rewrite ?andb_false_r, ?andb_true_r in *; simpl zb in *; try lia.
      + subst st. change (0 =? 1) with false in *. destruct e as [c| | | |]; try lia. destruct k; try lia.
        rewrite andb_false_r in *. simpl zb in *. lia.
      + replace (match e0 with EPre _ | _ => 0 end) with 0 by (destruct e0; reflexivity). lia.
    - rewrite (ob_idle s s1 pk fr i t H Hp'). unfold tok in *. rewrite (zsum_perm _ _ _ Hp'). clear I Hp' E.
      cases_i H; law_tac; lia.
  Qed.
End Pres.
