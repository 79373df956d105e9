(** Task bodies that wait for all the tasks they emplace: their children are always in place
    when the body ends. *)
From Coq Require Import Bool List Arith NArith ZArith Lia Permutation.
From Verif Require Import AccessModel AccessSpec AccessProof UserModel UserProof SchedModel SchedSpec SchedBase SchedInv1 SchedInv2 SchedInv3 SchedInv8 SchedFront SchedThm SchedLive SchedTerm SchedMany SchedValue SchedFree PauseModel PauseSpec PauseProof PauseInv PauseThm.
Import ListNotations.
Open Scope Z_scope.

(** every task that a body emplaces is waited for there *)
Definition fork_join (P : prog) : Prop := forall t c, In (ISpawn c) (body P (Some t)) -> In (IGet c) (body P (Some t)).

(** as [yreach], without the condition on the ends of bodies *)
Inductive yall (P : prog) (ms : list (list instr)) (n : nat) (a : bool) : nat -> ystate -> (nat -> list nat) -> Prop :=
| yall_init : yall P ms n a 0 (yinit P ms n) (fun _ => [])
| yall_step k y ord i c y' : yall P ms n a k y ord -> visit_ok y i -> (a = true -> take_ok y i) -> ystep P y i c = Some y' ->
    yall P ms n a (S k) y' (fun r => ord r ++ yenters y i r).

Section Got.
  Context (P : prog) {U : front} (W : wfc P U) (NW : p_wrap P = false).

  Lemma join_inits n s q c : fork_join P -> mreach P U n s -> In (FBody (Some q) []) (frames s) -> parent P c = Some q -> In (LSpawn c) (log s) -> In (LInit c) (log s).
  Proof.
    intros FJ R Hf Hp Hs. assert (I := mreach_Inv P W NW n s R).
    apply in_spawn in Hs. apply (sp_body P W s I) in Hs. rewrite Hp in Hs. apply spawns_In in Hs. apply FJ in Hs.
    destruct (mr_got P n s R _ Hf) as (m & pre & Em & E & A). simpl in Em. rewrite app_nil_r in E. subst m. rewrite <- E in A.
    apply A in Hs. apply in_split in Hs as (l1 & l2 & L).
    destruct (mr_get_waits P W NW n s c l1 l2 R L) as (s0 & R0 & L0 & EN & _).
    apply in_end in EN. assert (I0 := mreach_Inv P W NW n s0 R0).
    assert (In (LInit c) (log s0)).
    { apply in_init. pose proof (f_end P s0 I0 c). pose proof (f_start P s0 I0 c). pose proof (f_exec_init P s0 I0 c). lia. }
    rewrite L, <- L0. apply in_or_app. right. right. exact H.
  Qed.
End Got.

Section Join.
  Context (P : prog) (ms : list (list instr)) (W : wf_any P ms) (NW : p_wrap P = false).
  Context (ND : forall t, NoDup (uniq P t)).

  Theorem join_covers n a k y ord : fork_join P -> yall P ms n a k y ord -> yreach P ms n a k y ord.
  Proof.
    intros FJ. induction 1 as [|k y ord i c y' _ R VO TO H]; [constructor|]. apply (yreach_step P ms n a k y ord i c); auto.
    intros q gs E d Hp Hs. destruct (pause_refines P ms W NW ND n a k y ord R) as (k' & n' & s & ord' & R' & EQ & C & T).
    rewrite <- (sm_log _ _ _ (co_sim y s C)) in *.
    eapply (join_inits P (wff P ms W ord') NW n' s q d FJ); eauto; [eapply freach_mreach; eauto|].
    apply (seen_frame y s (FBody (Some q) []) C). eapply top_in; eauto.
  Qed.
End Join.
