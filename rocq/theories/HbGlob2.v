(** The knowledge invariant is kept by every step: histories and objects (continued). *)
From Coq Require Import Bool List Arith NArith ZArith Lia Permutation Sorting.Sorted.
From Verif Require Import AccessModel AccessSpec AccessProof UserModel UserProof SchedModel SchedSpec SchedBase SchedInv1 SchedInv2 SchedInv3 SchedInv4 SchedInv5 SchedInv6 SchedInv7 SchedInv8 SchedFront SchedThm HbModel HbSpec HbBase HbInv HbStep HbGlob.
Import ListNotations.
Open Scope Z_scope.

Section Step.
  Context (P : prog) {U : front} (W : wfc P U) (NW : p_wrap P = false) (n : nat).
  Context (s : state) (tr : list rec) (i : nat) (s' : state) (a : rec).
  Context (R : mreach P U n s) (R' : mreach P U n s') (M : moves P s s') (HM : hmove P s i s' a).
  Context (G : HGlob P U s tr) (F : forall j f, inst s j f -> kframe P U s tr j f).
  Notation tr' := (tr ++ [a]).
  Notation moved := (moved P s i s' a).
  Let I : Inv P U s := mreach_Inv P W NW n s R.
  Let I' : Inv P U s' := mreach_Inv P W NW n s' R'.

  Lemma Kold j l : K tr j l -> K tr' j l. Proof. apply K_old. Qed.
  Lemma Oold x l : O tr x l -> O tr' x l. Proof. apply O_old. Qed.
  Lemma toK l : K tr i l -> to tr' (length tr) l.
  Proof. intros H. apply to_K. now rewrite (hm_who P s i s' a HM). Qed.
  Lemma Kown l : In l (r_log a) -> K tr' i l.
  Proof. intros H. rewrite <- (hm_who P s i s' a HM). now apply K_own. Qed.
  Lemma OK x l : In x (r_rel a) -> K tr' i l -> O tr' x l.
  Proof. intros H1 H2. apply O_K; auto. now rewrite (hm_who P s i s' a HM). Qed.
  Lemma Kacq x l : In x (r_acq a) -> O tr x l -> K tr' i l.
  Proof. intros H1 H2. rewrite <- (hm_who P s i s' a HM). eapply K_acq; eauto. Qed.

  Lemma log_in l : In l (log s') <-> In l (r_log a) \/ In l (log s).
  Proof. rewrite (hm_log P s i s' a HM). apply in_app_iff. Qed.

  Lemma log_old l : In l (log s) -> In l (log s').
  Proof. intros. apply log_in. auto. Qed.

  (** a step of the body of [t] *)
  Definition body_frame (t : nat) (f : frame) : Prop := f = FRun t \/ exists is, f = FBody (Some t) is.

  Lemma actor_cause l t : In l (r_log a) -> actor P l = Some t ->
    exists f fs s1 fr, moved f fs s1 fr /\ cause s f s1 l /\ body_frame t f.
  Proof.
    intros Hl Ha. destruct (hm_cause P s i s' a HM l Hl) as [(f & fs & s1 & fr & Mv & C)|(x & e & ->)]; [|discriminate].
    exists f, fs, s1, fr. split; auto. split; auto. assert (Hf := moved_in _ _ _ _ _ _ _ _ _ Mv).
    destruct l; simpl in Ha; try discriminate; simpl in C.
    - destruct C as (o & is & ->). destruct (spawn_facts P W s I _ _ _ Hf) as [E _]. rewrite Ha in E. subst o. right. eauto.
    - injection Ha as ->. subst. now left.
    - subst. destruct C as (is & ->). right. eauto.
    - injection Ha as ->. subst. right. eauto.
  Qed.

  Lemma body_unended t f : In f (frames s) -> body_frame t f -> zsum (v_end t) (log s) = 0.
  Proof.
    intros Hf [->|[is ->]].
    - assert (B1 := in_w s (w_run t) _ (fun g => proj1 (proj2 (proj2 (proj2 (proj2 (proj2 (w_nn t g))))))) Hf).
      simpl in B1. rewrite ni_refl in B1. pose proof (law_exec P s (i_laws P s I) t). pose proof (f_exec P s I t). pose proof (f_end P s I t). lia.
    - assert (B1 := in_w s (is_body (Some t)) _ (fun g => w_nn4 (Some t) g) Hf). simpl in B1. rewrite Nat.eqb_refl in B1. simpl in B1.
      pose proof (body_facts P s I t B1). lia.
  Qed.

  Lemma run_unstarted t : In (FRun t) (frames s) -> zsum (v_start t) (log s) = 0.
  Proof.
    intros Hf. assert (B1 := in_w s (w_run t) _ (fun g => proj1 (proj2 (proj2 (proj2 (proj2 (proj2 (w_nn t g))))))) Hf).
    simpl in B1. rewrite ni_refl in B1. pose proof (law_exec P s (i_laws P s I) t). pose proof (f_exec P s I t). pose proof (f_start P s I t). lia.
  Qed.

  Lemma body_started t is : In (FBody (Some t) is) (frames s) -> zsum (v_start t) (log s) = 1.
  Proof.
    intros Hf. assert (B1 := in_w s (is_body (Some t)) _ (fun g => w_nn4 (Some t) g) Hf). simpl in B1. rewrite Nat.eqb_refl in B1. simpl in B1.
    pose proof (body_facts P s I t B1). lia.
  Qed.

  (** earlier steps of the same body are before this one *)
  Lemma own_before t is m l : inst s i (FBody (Some t) is) -> does tr m l -> actor P l = Some t -> hb tr' m (length tr).
  Proof.
    intros Hi (b & Eb & Hb) Ha. assert (Ow := F _ _ Hi m b l Eb Hb Ha).
    eapply hb_po; [apply nth_old; exact Eb|apply nth_new|eapply nth_bound; eauto|].
    now rewrite Ow, (hm_who P s i s' a HM).
  Qed.

  Lemma g_log l : In l (log s') <-> exists m, does tr' m l.
  Proof.
    rewrite log_in. split.
    - intros [H|H]; [exists (length tr); now apply does_new|].
      apply (h_log _ _ _ _ G) in H as [m H]. exists m. now apply does_old.
    - intros [m H]. apply does_inv in H as [H|[_ H]]; auto. right. apply (h_log _ _ _ _ G). eauto.
  Qed.

  Lemma g_actor m l t : does tr' m l -> actor P l = Some t -> 1 <= zsum (v_start t) (log s').
  Proof.
    intros D Ha. apply does_inv in D as [D|[_ D]].
    - apply in_start, log_old, in_start. eapply (h_actor _ _ _ _ G); eauto.
    - destruct (actor_cause l t D Ha) as (f & fs & s1 & fr & Mv & C & [->|[is ->]]).
      + apply in_start, log_in. left.
        destruct l; simpl in Ha; try discriminate; simpl in C.
        * destruct C as (? & ? & C). discriminate.
        * injection Ha as ->. auto.
        * destruct C as (? & C). discriminate.
      + apply in_start, log_old, in_start. rewrite (body_started t is); [lia|]. eapply moved_in; eauto.
  Qed.

  Lemma past_started t : In (LStart t) (log s) -> past s t.
  Proof. intros H. apply in_start in H. apply (past_exec P W s I). pose proof (f_start P s I t). lia. Qed.

  Lemma g_start m t : does tr' m (LStart t) -> pk P U s' (to tr' m) t.
  Proof.
    intros D. apply does_inv in D as [D|[-> D]].
    - eapply (pk_mono P W s s' I M (to tr m)); eauto using to_old.
      + apply past_started. apply (h_log _ _ _ _ G). eauto.
      + apply (h_start _ _ _ _ G); auto.
    - destruct (hm_cause P s i s' a HM _ D) as [(f & fs & s1 & fr & Mv & C)|(x & e & Hx)]; [|discriminate].
      simpl in C. subst f. eapply (pk_mono P W s s' I M (K tr i)).
      + apply (past_run P W s I). eapply moved_in; eauto.
      + apply toK.
      + exact (F _ _ (moved_inst _ _ _ _ _ _ _ _ _ Mv)).
  Qed.

  (** the step that reaches an event: nothing is left to be counted *)
  Lemma reach_step e : In (LReach e) (r_log a) -> exists k fs s1 fr, moved (FNotify e k) fs s1 fr /\ ctr s' e = 0.
  Proof.
    intros D. destruct (hm_cause P s i s' a HM _ D) as [(f & fs & s1 & fr & Mv & C)|(x & y & Hx)]; [|discriminate].
    simpl in C. destruct C as [[k ->] C]. exists k, fs, s1, fr. split; auto.
    rewrite (mv_eq _ _ _ _ _ _ _ _ _ Mv). exact C.
  Qed.

  Lemma zero_notify e k j : ctr s' e = 0 -> inst s' j (FNotify e k) -> False.
  Proof.
    intros Z0 Hi. rewrite (i_acc P s' I') in Z0. pose proof (base_nn P W s' I' e). pose proof (edges_nn P s' I' e).
    nnw w_follow e s'. assert (B := notify_inst_ge s' _ _ _ Hi). lia.
  Qed.
  Lemma zero_follow e y l j : ctr s' e = 0 -> inst s' j (FFollow y l) -> In e l -> False.
  Proof.
    intros Z0 Hi Hl. rewrite (i_acc P s' I') in Z0. pose proof (base_nn P W s' I' e). pose proof (edges_nn P s' I' e).
    nnw w_notify e s'. assert (B := follow_inst_ge s' _ _ _ _ Hi Hl). lia.
  Qed.

  Lemma acq_notify e k fs s1 fr : moved (FNotify e k) fs s1 fr -> In (OCtr e) (r_acq a) /\ In (OCtr e) (r_rel a).
  Proof. intros Mv. rewrite (mv_acq _ _ _ _ _ _ _ _ _ Mv), (mv_rel _ _ _ _ _ _ _ _ _ Mv). simpl. auto. Qed.

  Lemma new_only l l' f fs s1 fr : moved f fs s1 fr -> In l (r_log a) -> In l' (r_log a) -> cause s f s1 l'.
  Proof.
    intros Mv _ Hl. destruct (hm_cause P s i s' a HM _ Hl) as [(f2 & fs2 & s2 & fr2 & Mv2 & C)|(x & y & ->)]; [|exact Logic.I].
    assert (E1 := mv_top _ _ _ _ _ _ _ _ _ Mv). assert (E2 := mv_top _ _ _ _ _ _ _ _ _ Mv2). rewrite E1 in E2. injection E2 as <- <-.
    assert (E3 := mv_step _ _ _ _ _ _ _ _ _ Mv). assert (E4 := mv_step _ _ _ _ _ _ _ _ _ Mv2). rewrite E3 in E4. injection E4 as <- <-. exact C.
  Qed.

  Lemma g_reach m t : does tr' m (LReach (EPost t)) -> to tr' m (LEnd t).
  Proof.
    intros D. apply does_inv in D as [D|[-> D]]; [apply to_old; now apply (h_reach _ _ _ _ G)|].
    destruct (reach_step _ D) as (k & fs & s1 & fr & Mv & Z0).
    assert (V : In (LEnd t) (log s)).
    { assert (Rc : rc s' t) by (apply in_reach, log_in; auto). apply (rc_end P s' I') in Rc.
      assert (Rc1 : 1 <= zsum (v_end t) (log s')) by lia. apply in_end, log_in in Rc1 as [H|H]; auto.
      assert (C := new_only _ _ _ _ _ _ Mv D H). simpl in C. discriminate. }
    apply in_end in V. destruct (acq_notify _ _ _ _ _ Mv) as [A _].
    destruct (h_post _ _ _ _ G t V) as [H|[j Hj]]; [eapply to_O; eauto|].
    destruct (survive P s i s' a HM _ _ Hj) as [Hj'|(-> & _)]; [destruct (zero_notify _ _ _ Z0 Hj')|].
    apply toK. exact (F _ _ Hj).
  Qed.

  Lemma child_taken c q : completed s' q -> parent P c = Some q -> sp s' c ->
    In (EPost q) (fol s' (EPost c)) /\ 1 <= taken s' (EPost c).
  Proof.
    intros C Hpar Hs. 
    apply in_reach in C. assert (Hx := rc_end P s' I' q C). unfold sp in Hs.
    assert (Hg := i_guard P s' I' c q Hpar ltac:(lia)).
    assert (Hl := mr_link_child P W NW n s' c q R' Hpar).
    nnw w_ninit c s'. assert (0 <= zsum (w_par3 c) (frames s')).
    { apply nn_v. intros g. destruct g; simpl; try lia. apply zb_bound. }
    specialize (Hl ltac:(lia)). split; auto.
    eapply (mr_reached_after P W NW n s' q); eauto.
    pose proof (pend_nn s' (EPost c) (EPost q)). destruct (Z.eq_dec (pend s' (EPost c) (EPost q)) 0); auto.
    assert (L : 0 < pend s' (EPost c) (EPost q)) by lia. apply zsum_pos_ex in L as (g & Hg' & L).
    destruct g; simpl in L; try lia.
    - rewrite andb_false_r in L. simpl in L. lia.
    - destruct (Nat.eqb_spec t c); [subst|simpl in L; lia].
      pose proof (collect_facts P W s' I' c (in_collect s' c _ Hg' (ni_refl c))). lia.
  Qed.

  Lemma sp_new c : sp s' c -> sp s c \/ exists o is fs s1 fr, moved (FBody o (ISpawn c :: is)) fs s1 fr.
  Proof.
    intros Hs. apply in_spawn, log_in in Hs as [Hs|Hs]; [right|left; now apply in_spawn].
    destruct (hm_cause P s i s' a HM _ Hs) as [(f & fs & s1 & fr & Mv & C)|(x & y & Hx)]; [|discriminate].
    simpl in C. destruct C as (o & is & ->). exists o, is, fs, s1, fr. exact Mv.
  Qed.

  Lemma g_child m q c : does tr' m (LReach (EPost q)) -> parent P c = Some q -> sp s' c -> to tr' m (LReach (EPost c)).
  Proof.
    intros D Hpar Hs. apply does_inv in D as [D|[-> D]].
    - apply to_old. apply (h_child _ _ _ _ G m q c D Hpar). destruct (sp_new c Hs) as [|(o & is & fs & s1 & fr & Mv)]; auto.
      exfalso. assert (Hf := moved_in _ _ _ _ _ _ _ _ _ Mv). destruct (spawn_facts P W s I _ _ _ Hf) as [E _].
      rewrite Hpar in E. subst o. assert (E0 := body_unended q _ Hf (or_intror (ex_intro _ _ eq_refl))).
      assert (Rc : rc s q) by (apply in_reach, (h_log _ _ _ _ G); eauto). apply (rc_end P s I) in Rc. lia.
    - destruct (reach_step _ D) as (k & fs & s1 & fr & Mv & Z0).
      assert (C : completed s' q) by (apply log_in; auto).
      destruct (child_taken c q C Hpar Hs) as [Hl T].
      assert (Hl0 : In (EPost q) (fol s (EPost c))).
      { assert (E := mv_step _ _ _ _ _ _ _ _ _ Mv). rewrite (mv_eq _ _ _ _ _ _ _ _ _ Mv) in Hl. simpl in Hl.
        destruct (eff_fol _ _ _ _ _ _ _ E Hl) as [|[(x1 & x2 & x3 & x4 & x5 & Q & _)|[(x1 & x2 & Q & _)|(x1 & x2 & x3 & Q & _)]]]; auto; discriminate. }
      assert (T0 : 1 <= taken s (EPost c)).
      { apply in_take, log_in in T as [T|T]; [|now apply in_take]. assert (C2 := new_only _ _ _ _ _ _ Mv D T).
        simpl in C2. destruct C2. discriminate. }
      destruct (acq_notify _ _ _ _ _ Mv) as [A _].
      destruct (h_edge _ _ _ _ G _ _ Hl0 T0) as [H|[(j & l & Hj & Hx)|(j & Hj & HK)]]; [eapply to_O; eauto| |].
      + destruct (survive P s i s' a HM _ _ Hj) as [Hj'|(-> & fs2 & s2 & fr2 & Mv2)]; [destruct (zero_follow _ _ _ _ Z0 Hj' Hx)|].
        assert (E1 := mv_top _ _ _ _ _ _ _ _ _ Mv). rewrite (mv_top _ _ _ _ _ _ _ _ _ Mv2) in E1. discriminate.
      + destruct (survive P s i s' a HM _ _ Hj) as [Hj'|(-> & _)]; [destruct (zero_notify _ _ _ Z0 Hj')|]. now apply toK.
  Qed.

  Lemma g_end m k t l : does tr' m (LEnd t) -> does tr' k l -> actor P l = Some t -> k = m \/ hb tr' k m.
  Proof.
    intros D D2 Ha. apply does_inv in D as [D|[-> D]].
    - apply does_inv in D2 as [D2|[-> D2]].
      + destruct (h_end _ _ _ _ G m k t l D D2 Ha); auto. right. now apply hb_old.
      + exfalso. destruct (actor_cause l t D2 Ha) as (f & fs & s1 & fr & Mv & _ & B).
        assert (E0 := body_unended t f (moved_in _ _ _ _ _ _ _ _ _ Mv) B).
        assert (V : In (LEnd t) (log s)) by (apply (h_log _ _ _ _ G); eauto). apply in_end in V. lia.
    - apply does_inv in D2 as [D2|[-> D2]]; [|now left]. right.
      destruct (hm_cause P s i s' a HM _ D) as [(f & fs & s1 & fr & Mv & C)|(x & y & Hx)]; [|discriminate].
      simpl in C. subst f. eapply own_before; eauto. eapply moved_inst; eauto.
  Qed.

  Lemma g_act m k t l : does tr' m l -> actor P l = Some t -> does tr' k (LStart t) -> k = m \/ hb tr' k m.
  Proof.
    intros D Ha D2. apply does_inv in D as [D|[-> D]].
    - apply does_inv in D2 as [D2|[-> D2]].
      + destruct (h_act _ _ _ _ G m k t l D Ha D2); auto. right. now apply hb_old.
      + exfalso. assert (V := h_actor _ _ _ _ G m l t D Ha).
        destruct (hm_cause P s i s' a HM _ D2) as [(f & fs & s1 & fr & Mv & C)|(x & y & Hx)]; [|discriminate].
        simpl in C. subst f. rewrite (run_unstarted t (moved_in _ _ _ _ _ _ _ _ _ Mv)) in V. lia.
    - apply does_inv in D2 as [D2|[-> D2]]; [|now left]. right.
      destruct (actor_cause l t D Ha) as (f & fs & s1 & fr & Mv & _ & [->|[is ->]]).
      + exfalso. assert (V : In (LStart t) (log s)) by (apply (h_log _ _ _ _ G); eauto). apply in_start in V.
        rewrite (run_unstarted t (moved_in _ _ _ _ _ _ _ _ _ Mv)) in V. lia.
      + apply (own_before t is k (LStart t)); auto. eapply moved_inst; eauto.
  Qed.

  Lemma g_get m c : does tr' m (LGet c) -> to tr' m (LEnd c).
  Proof.
    intros D. apply does_inv in D as [D|[-> D]]; [apply to_old; now apply (h_get _ _ _ _ G)|].
    destruct (hm_cause P s i s' a HM _ D) as [(f & fs & s1 & fr & Mv & C)|(x & y & Hx)]; [|discriminate].
    simpl in C. destruct C as [(o & is & ->) Z0].
    assert (V : 1 <= zsum (v_end c) (log s) /\ zsum (w_notify (ERSet c)) (frames s) = 0).
    { rewrite (i_acc P s I) in Z0. simpl in Z0. pose proof (edges_nn P s I (ERSet c)).
      nnw w_notify (ERSet c) s. nnw w_follow (ERSet c) s.
      pose proof (f_end P s I c). pose proof (f_start P s I c). pose proof (f_exec P s I c). lia. }
    destruct V as [V Zn]. destruct (h_rset _ _ _ _ G c V) as [H|[j Hj]].
    - eapply to_O; eauto. rewrite (mv_acq _ _ _ _ _ _ _ _ _ Mv). simpl. destruct o; now left.
    - exfalso. assert (B := notify_inst_ge s _ _ _ Hj). lia.
  Qed.

  Lemma g_bar m k p : does tr' m LBarrier -> does tr' k (LSpawn p) -> (k < m)%nat -> parent P p = None ->
    to tr' m (LReach (EPost p)).
  Proof.
    intros D D2 L Hpar. apply does_inv in D as [D|[-> D]].
    - assert (Lm : (m < length tr)%nat) by (destruct D as (b & Eb & _); eapply nth_bound; eauto).
      apply does_inv in D2 as [D2|[-> D2]]; [|lia]. apply to_old. eapply (h_bar _ _ _ _ G); eauto.
    - destruct (hm_cause P s i s' a HM _ D) as [(f & fs & s1 & fr & Mv & C)|(x & y & Hx)]; [|discriminate].
      simpl in C. destruct C as [(o & is & ->) Z0].
      apply does_inv in D2 as [D2|[-> D2]]; [|lia].
      assert (Sb : submitted s p) by (apply (h_log _ _ _ _ G); eauto).
      assert (Fr := mr_empty_all_free P W NW n s None R Z0 p Hpar Sb).
      assert (Ok := h_free _ _ _ _ G p Fr). rewrite Hpar in Ok.
      eapply to_O; [|exact Ok]. rewrite (mv_acq _ _ _ _ _ _ _ _ _ Mv). simpl. destruct o; now left.
  Qed.

  Lemma g_self e : In (LReach e) (log s') -> O tr' (OCtr e) (LReach e).
  Proof.
    intros H. apply log_in in H as [H|H]; [|apply O_old; now apply (h_self _ _ _ _ G)].
    destruct (reach_step _ H) as (k & fs & s1 & fr & Mv & _). destruct (acq_notify _ _ _ _ _ Mv) as [_ Rl].
    apply OK; auto. now apply Kown.
  Qed.

  Lemma users_cases r : users s' r = users s r \/
    exists f fs s1 fr, moved f fs s1 fr /\
    ((exists o c rs is, f = FSub o c (r :: rs) is /\ users s' r = (c, length rs) :: users s r) \/
    (exists t rs, f = FDelete t (r :: rs) /\ lck s r = false /\ users s' r = without (t, length rs) (users s r))).
  Proof.
    destruct (same_or_moved P s i s' a HM (fun s => users s r)) as [E|(f & fs & s1 & fr & Mv & E)]; auto.
    - intros c s1 fr H. cases_i H; easy.
    - destruct (eff_users P s f s1 fr r (mv_step _ _ _ _ _ _ _ _ _ Mv)) as [E2|[(o & c & rs & is & -> & E2)|(t & rs & -> & L & E2)]].
      + left. congruence.
      + right. eexists _, fs, s1, fr. split; [exact Mv|]. left. exists o, c, rs, is. split; congruence.
      + right. eexists _, fs, s1, fr. split; [exact Mv|]. right. exists t, rs. split; auto. split; congruence.
  Qed.

  Lemma g_users t r k : ent P t r k -> sp s' t ->
      (forall o rs is, In (FSub o t rs is) (frames s') -> (length rs <= k)%nat) ->
      In (t, k) (users s' r) \/ O tr' (OLck r) (LReach (EPost t)).
  Proof.
    intros He Hs Hf. destruct (i_present P s' I' t r k He Hs Hf) as [|Rc]; auto.
    assert (Pa : past s t).
    { apply (past_init P W s I). eapply (exec_ready P s s' t); eauto. now apply (rc_exec P s' I'). }
    destruct Pa as [Hs0 NS].
    destruct (h_users _ _ _ _ G t r k He Hs0) as [H|H]; [intros o rs is Hi; destruct (NS _ _ _ Hi)| |right; now apply O_old].
    destruct (users_cases r) as [E|(f & fs & s1 & fr & Mv & [(o & c & rs & is & -> & E)|(t0 & rs & -> & L & E)])]; rewrite E.
    - now left.
    - left. now right.
    - destruct (entry_eqb_spec (t, k) (t0, length rs)) as [Q|Q]; [|left; now apply in_without].
      injection Q as -> ->. right. apply OK.
      + rewrite (mv_rel _ _ _ _ _ _ _ _ _ Mv). now left.
      + apply K_old. exact (F _ _ (moved_inst _ _ _ _ _ _ _ _ _ Mv)).
  Qed.

  Lemma fol_cases y x : In x (fol s' y) -> In x (fol s y) \/ (taken s y = 0 /\ exists f fs s1 fr, moved f fs s1 fr /\
    ~ (exists e k, f = FNotify3 e 0 k)).
  Proof.
    intros Hx. destruct (same_or_moved P s i s' a HM (fun s => fol s y)) as [E|(f & fs & s1 & fr & Mv & E)]; auto.
    - intros c s1 fr H. cases_i H; easy.
    - left. now rewrite <- E.
    - rewrite E in Hx. assert (Hf := moved_in _ _ _ _ _ _ _ _ _ Mv).
      destruct (eff_fol _ _ _ _ _ _ _ (mv_step _ _ _ _ _ _ _ _ _ Mv) Hx) as [|[(t & p & r & it & rs & -> & -> & _)|[(t & q & -> & -> & _)|(t & e & is & -> & -> & _)]]]; auto;
        right; (split; [|eexists _, fs, s1, fr; split; [exact Mv|intros (e0 & k0 & Q); discriminate]]).
      + eapply (dep_facts P W s I). exact (i_frames P s I _ Hf).
      + assert (C := collect_facts P W s I t (in_collect s t _ Hf (ni_refl t))). unfold taken. tauto.
      + eapply (event_facts P W s I); eauto.
  Qed.

  Lemma taken_cases y : 1 <= taken s' y -> 1 <= taken s y \/ exists k fs s1 fr, moved (FNotify3 y 0 k) fs s1 fr.
  Proof.
    intros T. apply in_take, log_in in T as [T|T]; [right|left; now apply in_take].
    destruct (hm_cause P s i s' a HM _ T) as [(f & fs & s1 & fr & Mv & C)|(x & z & Hx)]; [|discriminate].
    simpl in C. destruct C as [k ->]. eauto.
  Qed.

  Lemma one_moved f fs s1 fr f2 fs2 s2 fr2 : moved f fs s1 fr -> moved f2 fs2 s2 fr2 -> f = f2 /\ fs = fs2 /\ s1 = s2 /\ fr = fr2.
  Proof.
    intros Mv Mv2. assert (E1 := mv_top _ _ _ _ _ _ _ _ _ Mv). assert (E2 := mv_top _ _ _ _ _ _ _ _ _ Mv2). rewrite E1 in E2. injection E2 as <- <-.
    assert (E3 := mv_step _ _ _ _ _ _ _ _ _ Mv). assert (E4 := mv_step _ _ _ _ _ _ _ _ _ Mv2). rewrite E3 in E4. injection E4 as <- <-. auto.
  Qed.

  Lemma g_edge y x : In x (fol s' y) -> 1 <= taken s' y ->
      O tr' (OCtr x) (LReach y) \/ (exists j l, inst s' j (FFollow y l) /\ In x l) \/
      (exists j, inst s' j (FNotify x NCall) /\ K tr' j (LReach y)).
  Proof.
    intros Hx T. destruct (taken_cases y T) as [T0|(k & fs & s1 & fr & Mv)].
    - destruct (fol_cases y x Hx) as [H|[Z0 _]]; [|lia].
      destruct (h_edge _ _ _ _ G y x H T0) as [H1|[(j & l & Hj & Hl)|(j & Hj & HK)]]; [left; now apply O_old| |].
      + destruct (survive P s i s' a HM _ _ Hj) as [Hj'|(-> & fs & s1 & fr & Mv)]; [right; left; eauto|].
        assert (E := mv_step _ _ _ _ _ _ _ _ _ Mv). destruct l as [|x0 l]; [easy|]. simpl in E. injection E as <- <-.
        destruct Hl as [->|Hl].
        * right. right. exists i. split; [eapply moved_new; eauto; now left|]. apply K_old.
          exact (proj1 (F _ _ Hj)).
        * right. left. exists i, l. split; auto. eapply moved_new; eauto. simpl. auto.
      + destruct (survive P s i s' a HM _ _ Hj) as [Hj'|(-> & fs & s1 & fr & Mv)].
        * right. right. exists j. split; auto. now apply K_old.
        * left. destruct (acq_notify _ _ _ _ _ Mv) as [_ Rl]. apply OK; auto. now apply K_old.
    - assert (E := mv_step _ _ _ _ _ _ _ _ _ Mv). simpl in E. injection E as <- <-.
      right. left. exists i, (fol s y). split; [eapply moved_new; eauto; now left|].
      destruct (fol_cases y x Hx) as [H|(_ & f & fs2 & s2 & fr2 & Mv2 & N)]; auto.
      destruct (one_moved _ _ _ _ _ _ _ _ Mv Mv2) as [<- _]. destruct N. eauto.
  Qed.

  Lemma g_init t : 1 <= zsum (v_init t) (log s') -> O tr' (OCtr (EPre t)) (LSpawn t) /\ kall P U s' (O tr' (OCtr (EPre t))) t.
  Proof.
    intros H. apply in_init, log_in in H as [H|H].
    - destruct (hm_cause P s i s' a HM _ H) as [(f & fs & s1 & fr & Mv & C)|(x & z & Hx)]; [|discriminate].
      simpl in C. subst f. destruct (F _ _ (moved_inst _ _ _ _ _ _ _ _ _ Mv)) as [H1 H2].
      destruct (acq_notify _ _ _ _ _ Mv) as [_ Rl]. split; [apply OK; auto; now apply K_old|].
      eapply (kall_mono P W s s' I M (K tr i)); eauto.
      + apply (past_ninit P W s I). eapply moved_in; eauto.
      + intros l Hl. apply OK; auto. now apply K_old.
    - apply in_init in H. destruct (h_init _ _ _ _ G t H) as [H1 H2]. split; [now apply O_old|].
      eapply (kall_mono P W s s' I M (O tr (OCtr (EPre t)))); eauto using O_old. now apply (past_init P W s I).
  Qed.

  Lemma g_rdy t : In t (rdy s') -> pk P U s' (O tr' (ORdy t)) t.
  Proof.
    intros Hi. assert (OLD : In t (rdy s) -> pk P U s' (O tr' (ORdy t)) t).
    { intros H. eapply (pk_mono P W s s' I M (O tr (ORdy t))); eauto using O_old.
      - apply (past_tok P W s I). unfold tok. signs t s. apply ni_pos in H. lia.
      - now apply (h_rdy _ _ _ _ G). }
    destruct HM as [f fs s1 fr new E Fs Es Ea El|c s1 fr new E Fs Es Ea El].
    - assert (Mv : moved f fs s1 fr) by (split; auto; rewrite Ea; auto).
      rewrite Es in Hi. simpl in Hi. destruct (eff_rdy _ _ _ _ _ _ Fs Hi) as [H|(k & -> & Nk)]; auto.
      assert (Hf := moved_in _ _ _ _ _ _ _ _ _ Mv).
      eapply (pk_mono P W s s' I M (K tr i)).
      + apply (past_tok P W s I). eapply (tok_frame s); eauto. simpl. now rewrite Nat.eqb_refl.
      + intros l Hl. apply OK; [|now apply K_old]. rewrite (mv_rel _ _ _ _ _ _ _ _ _ Mv). simpl. destruct k; [easy|now left..].
      + exact (proj2 (F _ _ (moved_inst _ _ _ _ _ _ _ _ _ Mv)) t eq_refl eq_refl).
    - apply OLD. rewrite Es in Hi. simpl in Hi. clear -Fs Hi. cases_i Fs; simpl in Hi; auto. eapply in_remove_nth; eauto.
  Qed.

  Lemma g_emp t : In t (emp s') -> O tr' (OEmp t) (LSpawn t).
  Proof.
    intros Hi. assert (OLD : In t (emp s) -> O tr' (OEmp t) (LSpawn t)) by (intros H; apply O_old; now apply (h_emp _ _ _ _ G)).
    destruct HM as [f fs s1 fr new E Fs Es Ea El|c s1 fr new E Fs Es Ea El].
    - assert (Mv : moved f fs s1 fr) by (split; auto; rewrite Ea; auto).
      rewrite Es in Hi. simpl in Hi. destruct (eff_emp _ _ _ _ _ _ Fs Hi) as [H|(o & is & ->)]; auto.
      apply OK; [rewrite (mv_rel _ _ _ _ _ _ _ _ _ Mv); now left|]. apply K_old.
      exact (proj1 (F _ _ (moved_inst _ _ _ _ _ _ _ _ _ Mv))).
    - apply OLD. rewrite Es in Hi. simpl in Hi. clear -Fs Hi. cases_i Fs; simpl in Hi; auto. eapply in_remove_nth; eauto.
  Qed.

  Lemma end_step t : In (LEnd t) (r_log a) -> inst s' i (FNotify (ERSet t) NCall) /\ inst s' i (FNotify (EPost t) NBody).
  Proof.
    intros H. destruct (hm_cause P s i s' a HM _ H) as [(f & fs & s1 & fr & Mv & C)|(x & z & Hx)]; [|discriminate].
    simpl in C. subst f. assert (E := mv_step _ _ _ _ _ _ _ _ _ Mv). simpl in E. injection E as <- <-.
    split; eapply moved_new; eauto; simpl; auto.
  Qed.

  Lemma g_post t : 1 <= zsum (v_end t) (log s') ->
      O tr' (OCtr (EPost t)) (LEnd t) \/ exists j, inst s' j (FNotify (EPost t) NBody).
  Proof.
    intros H. apply in_end, log_in in H as [H|H].
    - right. exists i. now apply end_step.
    - apply in_end in H. destruct (h_post _ _ _ _ G t H) as [H1|[j Hj]]; [left; now apply O_old|].
      destruct (survive P s i s' a HM _ _ Hj) as [Hj'|(-> & fs & s1 & fr & Mv)]; [right; eauto|].
      left. destruct (acq_notify _ _ _ _ _ Mv) as [_ Rl]. apply OK; auto. apply K_old. exact (F _ _ Hj).
  Qed.

  Lemma g_rset t : 1 <= zsum (v_end t) (log s') ->
      O tr' (OCtr (ERSet t)) (LEnd t) \/ exists j, inst s' j (FNotify (ERSet t) NCall).
  Proof.
    intros H. apply in_end, log_in in H as [H|H].
    - right. exists i. now apply end_step.
    - apply in_end in H. destruct (h_rset _ _ _ _ G t H) as [H1|[j Hj]]; [left; now apply O_old|].
      destruct (survive P s i s' a HM _ _ Hj) as [Hj'|(-> & fs & s1 & fr & Mv)]; [right; eauto|].
      left. destruct (acq_notify _ _ _ _ _ Mv) as [_ Rl]. apply OK; auto. apply K_old. exact (F _ _ Hj).
  Qed.

  Lemma g_own k m b c l l2 t : nth_error tr' k = Some b -> nth_error tr' m = Some c -> In l (r_log b) -> In l2 (r_log c) ->
    actor P l = Some t -> actor P l2 = Some t -> r_who b = r_who c.
  Proof.
    assert (Q : forall d l l2 m, In l (r_log a) -> nth_error tr m = Some d -> In l2 (r_log d) -> actor P l = Some t -> actor P l2 = Some t -> r_who d = i).
    { intros d l0 l3 m0 H1 E H2 A1 A2. destruct (actor_cause l0 t H1 A1) as (f & fs & s1 & fr & Mv & _ & [->|[is ->]]).
      - exfalso. assert (V := h_actor _ _ _ _ G m0 l3 t (ex_intro _ d (conj E H2)) A2).
        rewrite (run_unstarted t (moved_in _ _ _ _ _ _ _ _ _ Mv)) in V. lia.
      - exact (F _ _ (moved_inst _ _ _ _ _ _ _ _ _ Mv) m0 d l3 E H2 A2). }
    intros E1 E2 H1 H2 A1 A2. apply nth_inv in E1 as [E1|[_ E1]]; apply nth_inv in E2 as [E2|[_ E2]]; try subst b; try subst c.
    - eapply (h_own _ _ _ _ G k m); eauto.
    - rewrite (hm_who P s i s' a HM). eapply Q; eauto.
    - rewrite (hm_who P s i s' a HM). symmetry. eapply Q; eauto.
    - reflexivity.
  Qed.

  Lemma g_used m t : does tr' m (LReach (ERGet t)) -> to tr' m (LGet t) \/ to tr' m (LDrop t).
  Proof.
    intros D. apply does_inv in D as [D|[-> D]].
    { destruct (h_used _ _ _ _ G m t D); [left|right]; now apply to_old. }
    destruct (reach_step _ D) as (k & fs & s1 & fr & Mv & Z0).
    assert (V : 1 <= zsum (v_use t) (log s)).
    { assert (V : 1 <= zsum (v_use t) (log s')).
      { rewrite (i_acc P s' I') in Z0. simpl in Z0. pose proof (edges_nn P s' I' (ERGet t)).
        nnw w_notify (ERGet t) s'. nnw w_follow (ERGet t) s'. lia. }
      apply in_use in V. apply in_use. rewrite !log_in in V. destruct V as [[V|V]|[V|V]]; auto;
        assert (C := new_only _ _ _ _ _ _ Mv D V); simpl in C.
      - destruct C as [(o & is & C) _]. discriminate.
      - destruct C as (o & is & C). discriminate. }
    destruct (acq_notify _ _ _ _ _ Mv) as [A _].
    destruct (h_rget _ _ _ _ G t V) as [[H|H]|[j Hj]]; [left; eapply to_O; eauto|right; eapply to_O; eauto|].
    destruct (survive P s i s' a HM _ _ Hj) as [Hj'|(-> & _)]; [destruct (zero_notify _ _ _ Z0 Hj')|].
    destruct (F _ _ Hj); [left|right]; now apply toK.
  Qed.

  Lemma g_rget t : 1 <= zsum (v_use t) (log s') ->
      (O tr' (OCtr (ERGet t)) (LGet t) \/ O tr' (OCtr (ERGet t)) (LDrop t)) \/ exists j, inst s' j (FNotify (ERGet t) NCall).
  Proof.
    intros V. apply in_use in V. rewrite !log_in in V.
    assert (C : 1 <= zsum (v_use t) (log s) \/ exists f fs s1 fr, moved f fs s1 fr /\ ((exists o is, f = FBody o (IGet t :: is)) \/ exists o is, f = FBody o (IDrop t :: is))).
    { destruct V as [[V|V]|[V|V]]; [|left; apply in_use; auto| |left; apply in_use; auto]; right;
        (destruct (hm_cause P s i s' a HM _ V) as [(f & fs & s1 & fr & Mv & C)|(x & z & Hx)]; [|discriminate]); simpl in C;
        exists f, fs, s1, fr; (split; [exact Mv|]); [left; tauto|right; exact C]. }
    destruct C as [C|(f & fs & s1 & fr & Mv & C)].
    - destruct (h_rget _ _ _ _ G t C) as [[H1|H1]|[j Hj]]; [left; left; now apply O_old|left; right; now apply O_old|].
      destruct (survive P s i s' a HM _ _ Hj) as [Hj'|(-> & fs & s1 & fr & Mv)]; [right; eauto|].
      left. destruct (acq_notify _ _ _ _ _ Mv) as [_ Rl].
      destruct (F _ _ Hj); [left|right]; apply OK; auto; now apply K_old.
    - right. exists i. eapply moved_new; eauto. assert (E := mv_step _ _ _ _ _ _ _ _ _ Mv).
      destruct C as [(o & is & ->)|(o & is & ->)]; destruct o; simpl in E; try (destruct (_ =? 0); [|discriminate]); injection E as <- <-; now left.
  Qed.

  Lemma g_cdn t e : e = EPost t \/ e = ERGet t -> 1 <= zsum (v_take e) (log s') ->
      O tr' (OCdn t) (LReach e) \/ (exists j l, inst s' j (FFollow e l)) \/
      (exists j, inst s' j (FRemove t) /\ K tr' j (LReach e)).
  Proof.
    intros Et T. destruct (taken_cases e T) as [T0|(k & fs & s1 & fr & Mv)].
    - destruct (h_cdn _ _ _ _ G t e Et T0) as [H|[(j & l & Hj)|(j & Hj & HK)]]; [left; now apply O_old| |].
      + destruct (survive P s i s' a HM _ _ Hj) as [Hj'|(-> & fs & s1 & fr & Mv)]; [right; left; eauto|].
        assert (E := mv_step _ _ _ _ _ _ _ _ _ Mv). destruct l as [|x0 l].
        * right. right. exists i. split; [|apply K_old; exact (proj1 (F _ _ Hj))].
          eapply moved_new; eauto. destruct Et as [-> | ->]; simpl in E; injection E as <- <-; now left.
        * simpl in E. injection E as <- <-. right. left. exists i, l. eapply moved_new; eauto. simpl. auto.
      + destruct (survive P s i s' a HM _ _ Hj) as [Hj'|(-> & fs & s1 & fr & Mv)].
        * right. right. exists j. split; auto. now apply K_old.
        * left. apply OK; [|now apply K_old]. rewrite (mv_rel _ _ _ _ _ _ _ _ _ Mv). simpl. destruct (_ =? 1); now left.
    - assert (E := mv_step _ _ _ _ _ _ _ _ _ Mv). simpl in E. injection E as <- <-.
      right. left. exists i, (fol s e). eapply moved_new; eauto. now left.
  Qed.

  (** the step that frees a task knows that its post event and its result-get event were reached *)
  Lemma free_knows t e : e = EPost t \/ e = ERGet t -> In (LFree t) (r_log a) -> to tr' (length tr) (LReach e) /\ In (OTcn (parent P t)) (r_rel a).
  Proof.
    intros Et H.
    destruct (hm_cause P s i s' a HM _ H) as [(f & fs & s1 & fr & Mv & C)|(x & z & Hx)]; [|discriminate].
    simpl in C. destruct C as [-> C1]. assert (Hf := moved_in _ _ _ _ _ _ _ _ _ Mv).
    assert (NN : forall g, 0 <= w_removing t g) by (intros g; apply w_nn).
    assert (B := in_w s (w_removing t) _ NN Hf). simpl in B. rewrite ni_refl in B.
    assert (L := law_remove P s (i_laws P s I) t). pose proof (f_take P s I (EPost t)). pose proof (f_take P s I (ERGet t)).
    pose proof (f_reach P s I (EPost t)). pose proof (f_reach P s I (ERGet t)).
    assert (T : 1 <= zsum (v_take e) (log s)) by (destruct Et as [-> | ->]; lia).
    assert (W1 : zsum (w_removing t) (frames s) = 1) by lia.
    assert (Only : forall j g, inst s j g -> w_removing t g = 1 -> j = i /\ g = FRemove t).
    { intros j g Hj E1. destruct (Nat.eq_dec j i) as [->|Nj].
      - split; auto. destruct Hj as (st & Es & Hj). rewrite (mv_top _ _ _ _ _ _ _ _ _ Mv) in Es. injection Es as <-.
        destruct Hj as [Hj|Hj]; [now symmetry|exfalso].
        assert (TW := two_insts (w_removing t) s i (FRemove t) fs i g NN (mv_top _ _ _ _ _ _ _ _ _ Mv)).
        simpl in TW. rewrite ni_refl, E1, W1 in TW. assert (Q : inst s i g) by (exists (FRemove t :: fs); split; [apply Mv|now right]).
        specialize (TW Q (or_intror Hj)). lia.
      - exfalso. assert (TW := two_insts (w_removing t) s i (FRemove t) fs j g NN (mv_top _ _ _ _ _ _ _ _ _ Mv) Hj (or_introl Nj)).
        simpl in TW. rewrite ni_refl, E1, W1 in TW. lia. }
    assert (Aq : In (OCdn t) (r_acq a) /\ In (OTcn (parent P t)) (r_rel a)).
    { rewrite (mv_acq _ _ _ _ _ _ _ _ _ Mv), (mv_rel _ _ _ _ _ _ _ _ _ Mv). simpl. rewrite C1. simpl. auto. }
    destruct Aq as [Aq Rl]. split; auto.
    destruct (h_cdn _ _ _ _ G t e Et T) as [Q|[(j & l & Hj)|(j & Hj & HK)]].
    - eapply to_O; eauto.
    - exfalso. destruct (Only j _ Hj) as [_ Q]; [destruct Et as [-> | ->]; simpl; apply ni_refl|discriminate].
    - destruct (Only j _ Hj) as [-> _]; [simpl; apply ni_refl|]. now apply toK.
  Qed.

  Lemma g_dead m t : does tr' m (LFree t) -> to tr' m (LReach (EPost t)) /\ to tr' m (LReach (ERGet t)).
  Proof.
    intros D. apply does_inv in D as [D|[-> D]].
    - destruct (h_dead _ _ _ _ G m t D). split; now apply to_old.
    - split; eapply free_knows; eauto.
  Qed.

  Lemma g_free t : In (LFree t) (log s') -> O tr' (OTcn (parent P t)) (LReach (EPost t)).
  Proof.
    intros H. apply log_in in H as [H|H]; [|apply O_old; now apply (h_free _ _ _ _ G)].
    destruct (free_knows t _ (or_introl eq_refl) H) as [H1 H2]. apply OK; auto.
    rewrite <- (hm_who P s i s' a HM). now apply K_to.
  Qed.

  Lemma glob_step : HGlob P U s' tr'.
  Proof.
    split; intros.
    - apply g_log.
    - eapply g_actor; eauto.
    - now apply g_start.
    - now apply g_reach.
    - eapply g_child; eauto.
    - eapply g_end; eauto.
    - eapply g_act; eauto.
    - eapply (g_own n0 m); eauto.
    - now apply g_used.
    - now apply g_dead.
    - now apply g_get.
    - eapply g_bar; eauto.
    - now apply g_self.
    - now apply g_users.
    - now apply g_edge.
    - now apply g_init.
    - now apply g_rdy.
    - now apply g_emp.
    - now apply g_post.
    - now apply g_rset.
    - now apply g_rget.
    - now apply g_cdn.
    - now apply g_free.
  Qed.
End Step.
