(** Happens-before in every interleaving of several threads of the user. *)
From Coq Require Import Bool List Arith NArith ZArith Lia Permutation Sorting.Sorted.
From Verif Require Import AccessModel AccessSpec AccessProof UserModel UserProof SchedModel SchedSpec SchedBase SchedInv1 SchedInv2 SchedInv3 SchedInv4 SchedInv5 SchedInv6 SchedInv7 SchedInv8 SchedFront SchedThm SchedSeq SchedMany SchedFree NestSpec SchedNest HbModel HbSpec HbBase HbInv HbStep HbGlob HbFrame HbThm HbRace.
Import ListNotations.
Open Scope Z_scope.

(** every execution of the threads [ms] with its history *)
Inductive fhist (P : prog) (ms : list (list instr)) (n : nat) : state -> list rec -> Prop :=
| fhist_init : fhist P ms n (init_many P ms n) []
| fhist_step s tr i c s' : fhist P ms n s tr -> end_ok P s i -> step P s i c = Some s' ->
    fhist P ms n s' (tr ++ [mkrec P s i c s']).

Section Free.
  Context (P : prog) (ms : list (list instr)) (W : wf_any P ms) (NW : p_wrap P = false) (n : nat).
  Context (ND : forall t, NoDup (uniq P t)).
  Notation FF := (fun ord : nat -> list nat => mkFront ms (fun r => rk_of (ord r))).

  Lemma hreach_ext r1 r2 s tr : (forall k t, r1 k t = r2 k t) -> hreach P (mkFront ms r1) n s tr -> hreach P (mkFront ms r2) n s tr.
  Proof.
    intros E R. induction R as [|s tr i c s' R IH G PO H].
    - exact (hreach_init P (mkFront ms r2) n).
    - apply hreach_step; auto. intros o t r rs is fs Q p Hp Lt Hr. apply (PO o t r rs is fs Q p Hp); auto.
      simpl in *. now rewrite !E.
  Qed.

  Lemma fhist_hreach s tr : fhist P ms n s tr ->
    exists k ord, freach P ms n k s ord /\ forall tl, hreach P (FF (fun r => ord r ++ tl r)) n s tr.
  Proof.
    induction 1 as [|s tr i c s' H (k & ord & R & HR) E1 E2].
    - exists 0%nat, (fun _ => []). split; [constructor|]. intros tl. exact (hreach_init P (FF tl) n).
    - exists (S k), (fun r => ord r ++ enters s i r). split; [econstructor; eauto|].
      intros tl. apply hreach_step; auto.
      + apply (hreach_ext (fun r => rk_of (ord r ++ (enters s i r ++ tl r)))); [intros; now rewrite app_assoc|].
        exact (HR (fun r => enters s i r ++ tl r)).
      + apply (entry_push P ms W NW n); auto. eapply freach_entry; eauto.
  Qed.

  Lemma fhist_front s tr : fhist P ms n s tr -> exists k ord, freach P ms n k s ord /\ hreach P (FF ord) n s tr.
  Proof.
    intros H. destruct (fhist_hreach s tr H) as (k & ord & R & HR). exists k, ord. split; auto.
    apply (hreach_ext (fun r => rk_of (ord r ++ []))); [|exact (HR (fun _ => []))]. intros. now rewrite app_nil_r.
  Qed.

  Theorem free_threads_hb s tr p t d e m k l1 l2 : fhist P ms n s tr -> comes_before P ms p t -> tasks_conflict P p t ->
    within P p d -> within P t e ->
    does tr m l1 -> made_by P l1 = Some d -> does tr k l2 -> made_by P l2 = Some e -> hb tr m k.
  Proof.
    intros FH B C Wd We D1 A1 D2 A2. destruct (fhist_front s tr FH) as (j & ord & R & H). assert (WU := wff P ms W ord).
    assert (Ep := before_parent P ms W p t B). destruct (conflict_on P WU p t Ep C) as [r S].
    assert (St : started s t).
    { destruct (acts_from P WU NW n s tr H k l2 e D2 A2) as (x & Dx & _).
      destruct (start_in P WU NW n s tr H t e x We Dx) as (i & Di & _). apply in_exec.
      assert (Q := HbGlob.does_log P s tr (H_glob P WU NW n s tr H) i _ Di). apply in_start in Q.
      pose proof (f_start P s (H_inv P WU NW n s tr H) t). lia. }
    destruct (e_thread P ms n s ord (freach_entry P ms W NW n ND j s ord R) p t r B) as [_ Lt].
    - eapply started_entered; eauto. eapply (ser_on_right P WU); eauto.
    - eapply (ser_on_left P WU); eauto.
    - exact (siblings_hb P WU NW n s tr H r p t d e m k l1 l2 Lt S Wd We D1 A1 D2 A2).
  Qed.
End Free.
