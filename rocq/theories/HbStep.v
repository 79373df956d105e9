(** Effects of single steps, for the knowledge invariant. *)
From Coq Require Import Bool List Arith NArith ZArith Lia Permutation Sorting.Sorted.
From Verif Require Import AccessModel AccessSpec AccessProof UserModel UserProof SchedModel SchedSpec SchedBase SchedInv1 SchedInv2 SchedInv3 SchedInv4 SchedInv5 SchedInv6 SchedInv7 SchedInv8 SchedFront SchedThm HbModel HbSpec HbBase HbInv.
Import ListNotations.
Open Scope Z_scope.

(** ** Threads and frames *)
Lemma concat_split {A} (l : list (list A)) : forall i x, nth_error l i = Some x ->
  exists r, Permutation (concat l) (x ++ r) /\ forall j y, j <> i -> nth_error l j = Some y -> incl y r.
Proof.
  induction l as [|a l IH]; intros [|i] x; simpl; try discriminate.
  - intros H; injection H as ->. exists (concat l). split; [easy|]. intros [|j] y Hj E z Hz; [easy|].
    apply in_concat. exists y. split; auto. eapply nth_error_In; eauto.
  - intros H. destruct (IH i x H) as (r & H1 & H2). exists (a ++ r). split.
    + rewrite H1. rewrite Permutation_app_swap_app. easy.
    + intros [|j] y Hj E z Hz; simpl in E.
      * injection E as ->. apply in_or_app. auto.
      * apply in_or_app. right. eapply (H2 j y); eauto.
Qed.

Lemma inst_in s j f : inst s j f -> In f (frames s).
Proof. intros (st & E & H). apply in_concat. exists st. split; auto. eapply nth_error_In; eauto. Qed.

Lemma in_inst s f : In f (frames s) -> exists j, inst s j f.
Proof.
  intros H. apply in_concat in H as (st & Hs & H). apply In_nth_error in Hs as [j E]. exists j, st. auto.
Qed.

(** two frames of different places count twice *)
Lemma two_insts (w : frame -> Z) s i f fs j g : (forall x, 0 <= w x) -> nth_error (thr s) i = Some (f :: fs) ->
  inst s j g -> (j <> i \/ In g fs) -> w f + w g <= zsum w (frames s).
Proof.
  intros N E (st & Ej & Hg) D. destruct (concat_split (thr s) i _ E) as (r & Hp & Hr).
  unfold frames. rewrite (zsum_perm w _ _ Hp). simpl. rewrite zsum_app.
  pose proof (nn_v w fs N). pose proof (nn_v w r N).
  assert (C : In g fs \/ In g r).
  { destruct D as [D|D]; [|auto]. right. eapply Hr; eauto. }
  destruct C as [C|C].
  - pose proof (zsum_ge w fs g (fun x _ => N x) C). lia.
  - pose proof (zsum_ge w r g (fun x _ => N x) C). lia.
Qed.

(** ** What a step of a frame may add *)
  Definition cause (s : state) (f : frame) (s1 : state) (l : lev) : Prop :=
    match l with
    | LSpawn c => exists o is, f = FBody o (ISpawn c :: is)
    | LInit t => f = FNotify (EPre t) NInit
    | LStart t => f = FRun t
    | LAct o a => exists is, f = FBody o (IAct a :: is)
    | LEnd t => f = FBody (Some t) []
    | LReach e => (exists k, f = FNotify e k) /\ ctr s1 e = 0
    | LTake e => exists k, f = FNotify3 e 0 k
    | LFree t => f = FRemove t /\ cdn s t = 1
    | LDrop c => exists o is, f = FBody o (IDrop c :: is)
    | LGet c => (exists o is, f = FBody o (IGet c :: is)) /\ ctr s (ERSet c) = 0
    | LBarrier => (exists o is, f = FBody o (IBarrier :: is)) /\ tcn s None = 0
    | _ => True
    end.

  Lemma causes P s f s1 fr : fstep P s f = Some (s1, fr) ->
    exists l, log s1 = l ++ log s /\ forall x, In x l -> cause s f s1 x.
  Proof.
    intros H.
    cases_f H; simpl;
      first [ exists []; split; [reflexivity|easy]
            | eexists [_]; split; [reflexivity|]; intros x [<-|[]]; simpl; zcmp; eauto 6
            | eexists [_; _]; split; [reflexivity|]; intros x [<-|[<-|[]]]; simpl; zcmp; eauto 6 ].
    all: try (subst; eauto; fail).
    all: unfold eupd; rewrite ?ev_eqb_refl; simpl; rewrite ?Nat.eqb_refl; eauto.
    all: split; eauto; rewrite ?Nat.eqb_refl; auto.
  Qed.

  Lemma eff_fol P s f s1 fr y x : fstep P s f = Some (s1, fr) -> In x (fol s1 y) -> In x (fol s y) \/
    (exists t p r it rs, f = FDep3 t p r it rs /\ y = EPost p /\ x = EPre t) \/
    (exists t q, f = FPar2 t q /\ y = EPost t /\ x = EPost q) \/
    (exists t e is, f = FBody (Some t) (IEvent e :: is) /\ y = EExt t e /\ x = EPost t).
  Proof.
    intros H Hx. cases_f H; simpl in Hx; auto; unfold eupd in Hx;
      match type of Hx with context [ev_eqb ?a ?b] => destruct (ev_eqb_spec a b); [subst|auto] end;
      destruct Hx as [<-|Hx]; auto; right; eauto 12.
  Qed.

  Lemma eff_rdy P s f s1 fr t : fstep P s f = Some (s1, fr) -> In t (rdy s1) -> In t (rdy s) \/ exists k, f = FNotify2 (EPre t) 1 k /\ k <> NInit.
  Proof.
    intros H Hx. cases_f H; simpl in Hx; auto; destruct Hx as [<-|Hx]; auto; right; zcmp; subst; eexists; split; eauto; discriminate.
  Qed.

  Lemma eff_emp P s f s1 fr t : fstep P s f = Some (s1, fr) -> In t (emp s1) -> In t (emp s) \/ exists o is, f = FSub o t [] is.
  Proof.
    intros H Hx. cases_f H; simpl in Hx; auto; destruct Hx as [<-|Hx]; auto; right; eauto.
  Qed.

  Lemma eff_users P s f s1 fr r : fstep P s f = Some (s1, fr) -> users s1 r = users s r \/
    (exists o c rs is, f = FSub o c (r :: rs) is /\ users s1 r = (c, length rs) :: users s r) \/
    (exists t rs, f = FDelete t (r :: rs) /\ lck s r = false /\ users s1 r = without (t, length rs) (users s r)).
  Proof.
    intros H. cases_f H; simpl; auto; unfold upd; match goal with |- context [Nat.eqb ?a ?b] => destruct (Nat.eqb_spec a b); [subst|auto] end.
    - right. left. eauto 8.
    - right. right. eauto 8.
  Qed.

(** ** A step with its label *)
Inductive hmove (P : prog) (s : state) (i : nat) (s' : state) (a : rec) : Prop :=
| hm_frame f fs s1 fr new :
    nth_error (thr s) i = Some (f :: fs) -> fstep P s f = Some (s1, fr) ->
    s' = set_thr s1 (set_nth i (fr ++ fs) (thr s)) ->
    a = mkRec i (acq P s f) (rel P s f) new -> log s' = new ++ log s -> hmove P s i s' a
| hm_idle c s1 fr new :
    nth_error (thr s) i = Some [] -> istep s c = Some (s1, fr) ->
    s' = set_thr s1 (set_nth i fr (thr s)) ->
    a = mkRec i (acq_idle s c) [] new -> log s' = new ++ log s -> hmove P s i s' a.

Lemma step_hmove P s i c s' : step P s i c = Some s' -> hmove P s i s' (mkrec P s i c s').
Proof.
  intros H. assert (M := step_moves P s i c s' H). destruct (log_mono P s s' M) as [new Hl].
  unfold mkrec. rewrite Hl, firstn_log. unfold step in H.
  destruct (nth_error (thr s) i) as [[|f fs]|] eqn:E; [| |discriminate].
  - destruct (istep s c) as [[s1 fr]|] eqn:F; [|discriminate]. injection H as <-. eapply hm_idle; eauto.
  - destruct (fstep P s f) as [[s1 fr]|] eqn:F; [|discriminate]. injection H as <-. eapply hm_frame; eauto.
Qed.

Lemma set_nth_inst s i st st' : nth_error (thr s) i = Some st ->
  forall s1 j g, inst (set_thr s1 (set_nth i st' (thr s))) j g <->
  (j = i /\ In g st') \/ (j <> i /\ inst s j g).
Proof.
  intros E s1 j g. unfold inst. simpl. rewrite nth_set_nth, E. destruct (Nat.eqb_spec i j).
  - subst. split; [intros (x & Ex & Hx); injection Ex as <-; auto|].
    intros [[_ H]|[H _]]; [eauto|easy].
  - split; [intros H; right; split; auto|]. intros [[H _]|[_ H]]; [congruence|auto].
Qed.

(** ** One step: the moving frame *)
Record moved (P : prog) (s : state) (i : nat) (s' : state) (a : rec) f fs s1 fr : Prop := mkMoved {
  mv_top : nth_error (thr s) i = Some (f :: fs);
  mv_step : fstep P s f = Some (s1, fr);
  mv_eq : s' = set_thr s1 (set_nth i (fr ++ fs) (thr s));
  mv_acq : r_acq a = acq P s f;
  mv_rel : r_rel a = rel P s f
}.

Section One.
  Context (P : prog) (s : state) (i : nat) (s' : state) (a : rec) (HM : hmove P s i s' a).
  Notation moved := (moved P s i s' a).

  Lemma hm_who : r_who a = i.
  Proof. destruct HM as [f fs s1 fr new ? ? ? -> ?|c s1 fr new ? ? ? -> ?]; reflexivity. Qed.

  Lemma hm_log : log s' = r_log a ++ log s.
  Proof. destruct HM as [f fs s1 fr new ? ? ? -> ?|c s1 fr new ? ? ? -> ?]; assumption. Qed.

  Lemma moved_in f fs s1 fr : moved f fs s1 fr -> In f (frames s).
  Proof. intros Mv. apply (inst_in s i). exists (f :: fs). split; [apply (mv_top _ _ _ _ _ _ _ _ _ Mv)|now left]. Qed.

  Lemma moved_inst f fs s1 fr : moved f fs s1 fr -> inst s i f.
  Proof. intros Mv. exists (f :: fs). split; [apply (mv_top _ _ _ _ _ _ _ _ _ Mv)|now left]. Qed.

  Lemma moved_new f fs s1 fr g : moved f fs s1 fr -> In g fr -> inst s' i g.
  Proof.
    intros Mv Hg. rewrite (mv_eq _ _ _ _ _ _ _ _ _ Mv).
    apply (set_nth_inst s i _ (fr ++ fs) (mv_top _ _ _ _ _ _ _ _ _ Mv)). left. split; auto. apply in_or_app. auto.
  Qed.

  Lemma hm_cause l : In l (r_log a) -> (exists f fs s1 fr, moved f fs s1 fr /\ cause s f s1 l) \/ exists t e, l = LFire t e.
  Proof.
    intros Hl. destruct HM as [f fs s1 fr new E F Es Ea El|c s1 fr new E F Es Ea El]; subst a; simpl in Hl.
    - left. exists f, fs, s1, fr. split; [split; auto|].
      destruct (causes P s f s1 fr F) as (l0 & E0 & C). apply C. subst s'. simpl in El. rewrite E0 in El.
      apply app_inv_tail in El. now subst.
    - right. subst s'. assert (C : new = [] \/ exists t e, new = [LFire t e]).
      { clear -El F. cases_i F; simpl in El.
        - left. symmetry. now apply (app_inv_tail (log s) [] new).
        - left. symmetry. now apply (app_inv_tail (log s) [] new).
        - right. exists n, n0. symmetry. apply (app_inv_tail (log s) [_] new). exact El. }
      destruct C as [->|(t & e & ->)]; [easy|]. destruct Hl as [<-|[]]. eauto.
  Qed.

  (** frames that stay, frames that move *)
  Lemma survive j g : inst s j g -> inst s' j g \/ (j = i /\ exists fs s1 fr, moved g fs s1 fr).
  Proof.
    intros (st & Es & Hg). destruct HM as [f fs s1 fr new E F Es' Ea El|c s1 fr new E F Es' Ea El].
    - destruct (Nat.eq_dec j i) as [->|n].
      + rewrite E in Es. injection Es as <-. destruct Hg as [->|Hg].
        * right. split; auto. exists fs, s1, fr. subst a. split; auto.
        * left. subst s'. apply (set_nth_inst s i _ (fr ++ fs) E). left. split; auto. apply in_or_app. auto.
      + left. subst s'. apply (set_nth_inst s i _ (fr ++ fs) E). right. split; auto. exists st. auto.
    - left. subst s'. apply (set_nth_inst s i _ fr E). right. split; [|exists st; auto].
      intros ->. rewrite E in Es. injection Es as <-. easy.
  Qed.

  Inductive origin (j : nat) (g : frame) : Prop :=
  | or_new f fs s1 fr : moved f fs s1 fr -> j = i -> In g fr -> origin j g
  | or_idle c s1 fr : j = i -> istep s c = Some (s1, fr) -> In g fr -> s' = set_thr s1 (set_nth i fr (thr s)) ->
      r_acq a = acq_idle s c -> r_rel a = [] -> r_log a = [] \/ (exists k, c = PExt k) -> origin j g
  | or_old : inst s j g -> (forall f fs s1 fr, moved f fs s1 fr -> j <> i \/ In g fs) -> origin j g.

  Lemma origins j g : inst s' j g -> origin j g.
  Proof.
    intros Hg. destruct HM as [f fs s1 fr new E F Es' Ea El|c s1 fr new E F Es' Ea El].
    - rewrite Es' in Hg. apply (set_nth_inst s i _ (fr ++ fs) E) in Hg as [[-> Hg]|[n Hg]].
      + apply in_app_or in Hg as [Hg|Hg].
        * eapply or_new; eauto. split; eauto; now rewrite Ea.
        * apply or_old; [exists (f :: fs); split; auto; now right|].
          intros f2 fs2 s2 fr2 Mv. right. pose proof (mv_top _ _ _ _ _ _ _ _ _ Mv) as E2. rewrite E in E2. injection E2 as <- <-. easy.
      + apply or_old; auto.
    - rewrite Es' in Hg. apply (set_nth_inst s i _ fr E) in Hg as [[-> Hg]|[n Hg]].
      + eapply or_idle; eauto; try (now rewrite Ea). rewrite Ea, Es' in *. simpl in *. clear -F El. cases_i F; simpl in El; eauto.
        * left. symmetry. now apply (app_inv_tail (log s) [] new).
        * left. symmetry. now apply (app_inv_tail (log s) [] new).
      + apply or_old; auto.
  Qed.

  (** no lock is released by anyone but its holder *)
  Lemma same_or_moved {B} (g : state -> B) : (forall c s1 fr, istep s c = Some (s1, fr) -> g s1 = g s) ->
    (forall x v, g (set_thr x v) = g x) ->
    g s' = g s \/ exists f fs s1 fr, moved f fs s1 fr /\ g s' = g s1.
  Proof.
    intros Hi Ht. destruct HM as [f fs s1 fr new E F Es' Ea El|c s1 fr new E F Es' Ea El]; subst s'; rewrite Ht.
    - right. exists f, fs, s1, fr. split; [|easy]. subst a. split; auto.
    - left. eauto.
  Qed.
End One.
