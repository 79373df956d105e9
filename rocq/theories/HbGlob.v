(** The knowledge invariant is kept by every step: histories and objects. *)
From Coq Require Import Bool List Arith NArith ZArith Lia Permutation Sorting.Sorted.
From Verif Require Import AccessModel AccessSpec AccessProof UserModel UserProof SchedModel SchedSpec SchedBase SchedInv1 SchedInv2 SchedInv3 SchedInv4 SchedInv5 SchedInv6 SchedInv7 SchedInv8 SchedFront SchedThm HbModel HbSpec HbBase HbInv HbStep.
Import ListNotations.
Open Scope Z_scope.

Section Closed.
  Context (P : prog) {U : front} (W : wfc P U) (NW : p_wrap P = false).
  Context (s : state) (tr : list rec) (I : Inv P U s) (G : HGlob P U s tr).

  Lemma sp_in t : sp s t <-> In (LSpawn t) (log s).
  Proof. apply in_spawn. Qed.
  Lemma log_does l : In l (log s) -> exists m, does tr m l.
  Proof. apply (h_log _ _ _ _ G). Qed.
  Lemma does_log m l : does tr m l -> In l (log s).
  Proof. intros D. apply (h_log _ _ _ _ G). eauto. Qed.

  (** what a completed task waited for is known to whoever knows its completion *)
  Lemma reach_end n q : does tr n (LReach (EPost q)) -> to tr n (LEnd q).
  Proof. apply (h_reach _ _ _ _ G). Qed.

  Lemma end_start n q : does tr n (LEnd q) -> exists m, does tr m (LStart q) /\ hbe tr m n.
  Proof.
    intros D. assert (L := does_log _ _ D). apply in_end in L. pose proof (f_end P s I q).
    assert (L2 : 1 <= zsum (v_start q) (log s)) by lia. apply in_start, log_does in L2 as [m Dm].
    exists m. split; auto. destruct (h_end _ _ _ _ G n m q _ D Dm eq_refl); [now left|now right].
  Qed.

  Lemma reach_start n q : does tr n (LReach (EPost q)) -> to tr n (LStart q).
  Proof.
    intros D. destruct (reach_end n q D) as (m & Dm & B). destruct (end_start m q Dm) as (k & Dk & B2).
    exists k. split; auto. destruct B2 as [->|B2]; auto. eapply hb_trans; eauto.
  Qed.

  Lemma reach_down n r q p : (rk U r p < rk U r q)%nat -> sp s p -> ser_on P r p q ->
    does tr n (LReach (EPost q)) -> to tr n (LReach (EPost p)).
  Proof.
    intros Hlt Hp Hs D. destruct (reach_start n q D) as (m & Dm & B).
    destruct (proj2 (h_start _ _ _ _ G m q Dm) r p Hlt Hp Hs) as (k & Dk & B2). exists k. split; auto. eapply hb_trans; eauto.
  Qed.

  (** the counter of a task that may be executed knows everything the task waited for *)
  Lemma taken_edge p t : 1 <= zsum (v_init t) (log s) -> ob s t = 0 -> sp s p -> edge s p t ->
    1 <= taken s (EPost p).
  Proof.
    intros Hi Ho Hp He. unfold edge in He.
    assert (E0 : eff s (EPost p) (EPre t) <= 0).
    { assert (eff s (EPost p) (EPre t) <= edges s (EPre t)).
      { unfold edges. apply (zsum_ge (fun y => eff s y (EPre t))); [intros; exact (eff_nn P s I _ _)|].
        apply ce_pos. rewrite srcs_post. unfold sp in Hp. lia. }
      pose proof (edges_nn P s I (EPre t)). pose proof (nexec_le_notify s t). signs t s.
      nnw w_follow (EPre t) s. unfold ob in Ho. lia. }
    assert (P0 : pend s (EPost p) (EPre t) = 0).
    { destruct (Z.eq_dec (pend s (EPost p) (EPre t)) 0); auto. exfalso.
      pose proof (pend_nn s (EPost p) (EPre t)). assert (L : 0 < pend s (EPost p) (EPre t)) by lia.
      apply zsum_pos_ex in L as (g & Hg & L). destruct g; simpl in L; try lia.
      - destruct (Nat.eqb_spec p0 p), (Nat.eqb_spec t0 t); simpl in L; try lia. subst.
        pose proof (collect_facts P W s I t (in_collect s t _ Hg (ni_refl t))). lia.
      - rewrite andb_false_r in L. simpl in L. lia. }
    unfold eff in E0. rewrite P0 in E0. apply ce_pos in He.
    destruct (Z.eqb_spec (taken s (EPost p)) 0) as [e|e]; [lia|].
    pose proof (f_take P s I (EPost p)). unfold taken in *. lia.
  Qed.

  Lemma notify_inst_ge x k j : inst s j (FNotify x k) -> 1 <= zsum (w_notify x) (frames s).
  Proof.
    intros Hi. apply inst_in in Hi. assert (B := in_w s (w_notify x) _ (fun g => proj1 (w_nn2 x g)) Hi).
    simpl in B. now rewrite ce_refl in B.
  Qed.
  Lemma follow_inst_ge y x l j : inst s j (FFollow y l) -> In x l -> 1 <= zsum (w_follow x) (frames s).
  Proof.
    intros Hi Hx. apply inst_in in Hi. assert (B := in_w s (w_follow x) _ (fun g => proj1 (proj2 (w_nn2 x g))) Hi).
    simpl in B. apply ce_pos in Hx. lia.
  Qed.

  Lemma nexec_other t l : In (FNotify (EPre t) NCall) l ->
    1 <= zsum (w_notify (EPre t)) l - zsum (w_nexec t) l.
  Proof.
    assert (N : forall f, 0 <= w_notify (EPre t) f - w_nexec t f).
    { intros f. destruct f; simpl; try lia. destruct e; unfold ce, ni; simpl; try lia; try pose proof (zb_bound (Nat.eqb t0 t)); destruct k; lia. }
    assert (E : zsum (w_notify (EPre t)) l - zsum (w_nexec t) l = zsum (fun f => w_notify (EPre t) f - w_nexec t f) l).
    { induction l; simpl; lia. }
    intros Hi. rewrite E. assert (B := zsum_ge (fun f => w_notify (EPre t) f - w_nexec t f) l _ (fun f _ => N f) Hi).
    cbv beta in B. simpl in B. rewrite ce_refl in B. lia.
  Qed.

  Lemma known_edge p t : 1 <= zsum (v_init t) (log s) -> ob s t = 0 -> sp s p -> edge s p t ->
    O tr (OCtr (EPre t)) (LReach (EPost p)).
  Proof.
    intros Hi Ho Hp He. assert (T := taken_edge p t Hi Ho Hp He).
    destruct (h_edge _ _ _ _ G (EPost p) (EPre t) He T) as [H|[(j & l & Hj & Hx)|(j & Hj & _)]]; auto; exfalso.
    - assert (B := follow_inst_ge _ _ _ _ Hj Hx). pose proof (edges_nn P s I (EPre t)). pose proof (nexec_le_notify s t). signs t s.
      unfold ob in Ho. lia.
    - assert (B := nexec_other t (frames s) (inst_in _ _ _ Hj)). pose proof (edges_nn P s I (EPre t)). signs t s.
      nnw w_follow (EPre t) s. unfold ob in Ho. lia.
  Qed.

  Lemma ready_known t : 1 <= zsum (v_init t) (log s) -> ob s t = 0 -> pk P U s (O tr (OCtr (EPre t))) t.
  Proof.
    intros Hi Ho. destruct (h_init _ _ _ _ G t Hi) as [H1 H2]. split; auto. intros r p Hlt Hp S.
    destruct (H2 r p Hlt Hp S) as [C|[C|(q & Hq & S1 & S2 & Sq & C)]]; auto.
    - now apply known_edge.
    - apply (O_down tr _ (LReach (EPost q))).
      + intros m D. apply (reach_down m r q p); auto. lia.
      + now apply known_edge.
  Qed.

  Lemma tok_init t : 1 <= tok s t -> 1 <= zsum (v_init t) (log s) /\ ob s t = 0.
  Proof.
    intros T. rewrite (i_tok P s I) in T.
    destruct (Z.leb_spec 1 (zsum (v_init t) (log s))), (Z.eqb_spec (ob s t) 0); simpl in T; try lia.
  Qed.

  Lemma tok_frame t g : In g (frames s) -> w_token t g = 1 -> 1 <= tok s t.
  Proof.
    intros Hg E. assert (B := in_w s (w_token t) _ (fun g => proj1 (proj2 (proj2 (proj2 (proj2 (proj2 (proj2 (w_nn t g)))))))) Hg).
    rewrite E in B. unfold tok. signs t s. lia.
  Qed.

  (** tasks whose submission is over, here *)
  Definition past (t : nat) : Prop := sp s t /\ forall o rs is, ~ In (FSub o t rs is) (frames s).

  Lemma past_init t : 1 <= zsum (v_init t) (log s) -> past t.
  Proof. intros H. signs t s. apply (past_sub P W s t I). lia. Qed.
  Lemma past_exec t : 1 <= zsum (v_exec t) (log s) -> past t.
  Proof. intros H. apply past_init. pose proof (f_exec_init P s I t). lia. Qed.
  Lemma past_tok t : 1 <= tok s t -> past t.
  Proof. intros H. apply past_init. now apply tok_init. Qed.
  Lemma past_collect t g : In g (frames s) -> w_collect t g = 1 -> past t.
  Proof. intros Hg E. pose proof (in_collect s t g Hg E). signs t s. apply (past_sub P W s t I). lia. Qed.
  Lemma past_ninit t : In (FNotify (EPre t) NInit) (frames s) -> past t.
  Proof.
    intros Hg. assert (B1 := in_w s (w_ninit t) _ (fun g => proj1 (proj2 (proj2 (proj2 (w_nn t g))))) Hg).
    simpl in B1. rewrite ni_refl in B1. signs t s. apply (past_sub P W s t I). lia.
  Qed.
  Lemma past_up t : In (FInitUp t) (frames s) -> past t.
  Proof.
    intros Hg. assert (B1 := in_w s (w_up t) _ (fun g => proj1 (proj2 (w_nn t g))) Hg).
    simpl in B1. rewrite ni_refl in B1. signs t s. apply (past_sub P W s t I). lia.
  Qed.
  Lemma past_run t : In (FRun t) (frames s) -> past t.
  Proof.
    intros Hg. assert (B1 := in_w s (w_run t) _ (fun g => proj1 (proj2 (proj2 (proj2 (proj2 (proj2 (w_nn t g))))))) Hg).
    simpl in B1. rewrite ni_refl in B1. signs t s. apply past_exec. rewrite (law_exec P s (i_laws P s I) t). lia.
  Qed.
End Closed.

(** ** Monotonicity in the state *)
Section Mono.
  Context (P : prog) {U : front} (W : wfc P U) (s s' : state) (I : Inv P U s) (M : moves P s s').

  Lemma past_back t r p : past s t -> (rk U r p < rk U r t)%nat -> ser_on P r p t -> sp s' p -> sp s p.
  Proof.
    intros [T NS] Hlt S Hp. eapply (sp_back P W s s' p t r); eauto; [apply S|eapply ser_on_left; eauto|eapply ser_on_right; eauto].
  Qed.

  Lemma pk_mono (X X' : lev -> Prop) t : past s t -> (forall l, X l -> X' l) -> pk P U s X t -> pk P U s' X' t.
  Proof. intros T HX [H1 H2]. split; auto. intros r p Hlt Hp S. apply HX, (H2 r); auto. eapply past_back; eauto. Qed.

  Lemma kcov_mono (X X' : lev -> Prop) r p t : (forall l, X l -> X' l) -> kcov P U s X r p t -> kcov P U s' X' r p t.
  Proof.
    intros HX [H|[H|(q & Hq & H1 & H2 & H3 & H4)]]; [left; auto|right; left; eapply fol_mono; eauto|].
    right. right. exists q. split; auto. split; auto. split; auto. split; [eapply sp_mono; eauto|eapply fol_mono; eauto].
  Qed.

  Lemma kall_mono (X X' : lev -> Prop) t : past s t -> (forall l, X l -> X' l) -> kall P U s X t -> kall P U s' X' t.
  Proof. intros T HX H r p Hlt Hp S. eapply kcov_mono; eauto. apply H; auto. eapply past_back; eauto. Qed.

  Lemma kdone_mono (X X' : lev -> Prop) t rem : past s t -> (forall l, X l -> X' l) -> kdone P U s X t rem -> kdone P U s' X' t rem.
  Proof.
    intros T HX (pre & E & H). exists pre. split; auto. intros r Hr p Hlt Hp S. eapply kcov_mono; eauto. eapply H; eauto.
    eapply past_back; eauto.
  Qed.

  Lemma kmid_mono (X X' : lev -> Prop) r t mid : (forall l, X l -> X' l) -> kmid P U s X r t mid -> kmid P U s' X' r t mid.
  Proof. intros HX H p k Hi S. eapply kcov_mono; eauto. Qed.
End Mono.
