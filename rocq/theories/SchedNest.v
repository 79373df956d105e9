(** Parallel execution of nested tasks equals running each of them where it is
    emplaced. *)
From Coq Require Import Bool List Arith NArith ZArith Lia Permutation Sorting.Sorted.
From Verif Require Import AccessModel AccessSpec AccessProof UserModel UserProof SchedModel SchedSpec SchedBase SchedInv1 SchedInv2 SchedInv3 SchedInv4 SchedInv5 SchedInv6 SchedInv7 SchedInv8 SchedFront SchedThm SchedLive SchedTerm SchedSeq SchedMany SchedValue NestSpec.
Import ListNotations.
Open Scope nat_scope.

(** ** Lists with the same elements in different order *)
Definition prec {A} (l : list A) (x y : A) : Prop := exists l1 l2 l3, l = l1 ++ x :: l2 ++ y :: l3.

Ltac assoc := repeat first [rewrite <- app_assoc | rewrite <- app_comm_cons]; try reflexivity.

Lemma prec_cons {A} (l : list A) z x y : prec l x y -> prec (z :: l) x y.
Proof. intros (a & b & c & ->). now exists (z :: a), b, c. Qed.
Lemma prec_app {A} (l m : list A) x y :
  prec (l ++ m) x y -> prec l x y \/ prec m x y \/ (In x l /\ In y m).
Proof.
  revert m. induction l as [|z l IH]; intros m H; [simpl in H; auto|].
  destruct H as ([|z' a] & b & c & E); simpl in E; injection E as E1 E.
  - subst z. assert (Y : In y (l ++ m)) by (rewrite E, in_app_iff; simpl; auto).
    apply in_app_or in Y as [Y|Y].
    + left. apply in_split in Y as (u & v & ->). now exists [], u, v.
    + right. right. split; [now left|exact Y].
  - subst z'. destruct (IH m) as [Q|[Q|[Q1 Q2]]].
    + rewrite E. now exists a, b, c.
    + left. now apply prec_cons.
    + auto.
    + right. right. split; [now right|auto].
Qed.
Lemma prec_head {A} (l : list A) x y : In y l -> prec (x :: l) x y.
Proof. intros H. apply in_split in H as (a & b & ->). now exists [], a, b. Qed.
Lemma prec_mid {A} (p1 p2 : list A) z x y : prec (p1 ++ p2) x y -> prec (p1 ++ z :: p2) x y.
Proof.
  intros H. apply prec_app in H as [(a & b & c & ->)|[(a & b & c & ->)|[H1 H2]]].
  - exists a, b, (c ++ z :: p2). assoc.
  - exists (p1 ++ z :: a), b, c. assoc.
  - apply in_split in H1 as (a & b & ->). apply in_split in H2 as (c & d & ->).
    exists a, (b ++ z :: c), d. assoc.
Qed.

(** an operation with its task and its number within the task *)
Definition top : Type := (nat * nat) * act.
Definition untag (x : top) : nat * act := (fst (fst x), snd x).
Definition indep (x y : top) : Prop := fst (fst x) <> fst (fst y) /\ ~ acts_conflict (snd x) (snd y).

Section Trace.
  Context (S : semantics) (OK : sensible S).

  Lemma to_front x p1 : forall p2, (forall y, In y p1 -> indep y x) -> forall g m,
    same_result (exec S (map untag (p1 ++ x :: p2)) g m) (exec S (map untag (x :: p1 ++ p2)) g m).
  Proof.
    induction p1 as [|y p1 IH]; intros p2 H g m; [apply same_refl|].
    eapply same_trans.
    - cbn [app map]. apply exec_cons. intros g' m'. apply IH. intros; apply H; now right.
    - destruct (H y (or_introl eq_refl)) as [D C]. cbn [map app]. apply (swap S OK); auto.
  Qed.

  Lemma reorder l : forall p, NoDup p -> Permutation p l ->
    (forall x y, prec p x y -> prec l y x -> indep x y) ->
    forall g m, same_result (exec S (map untag p) g m) (exec S (map untag l) g m).
  Proof.
    induction l as [|x l IH]; intros p N Pm H g m.
    - apply Permutation_sym, Permutation_nil in Pm. subst. apply same_refl.
    - assert (X : In x p) by (apply (Permutation_in _ (Permutation_sym Pm)); now left).
      apply in_split in X as (p1 & p2 & ->).
      assert (Pm' : Permutation (p1 ++ p2) l) by (apply Permutation_sym, (Permutation_cons_app_inv p1 p2) with x; now apply Permutation_sym).
      eapply same_trans; [apply to_front|].
      + intros y Hy. apply H.
        * apply in_split in Hy as (a & b & ->). exists a, b, p2. assoc.
        * apply prec_head. apply (Permutation_in _ Pm'). apply in_or_app. auto.
      + cbn [map]. apply exec_cons. intros g' m'. apply IH; auto.
        * now apply NoDup_remove_1 in N.
        * intros y z Q1 Q2. apply H; [now apply prec_mid|now apply prec_cons].
  Qed.
End Trace.

(** ** The order on the spot *)
(** what is needed of the program: every task has one parent, which comes before it *)
Record wfo (P : prog) : Prop := {
  o_parent : forall o c, In (ISpawn c) (body P o) -> parent P c = o;
  o_lt : forall q c, In (ISpawn c) (body P (Some q)) -> q < c;
  o_once : forall o, NoDup (spawns (body P o))
}.
Lemma wfw_wfo P : wfa P -> wfo P.
Proof. intros W. split; try apply W. intros o. exact (m_once P (wf_wfc P W) o). Qed.
Coercion wfw_wfo : wfa >-> wfo.

Section Order.
  Context (P : prog) (W : wfo P).

  Lemma spawn_in c b : In c (spawns b) <-> In (ISpawn c) b.
  Proof. apply spawns_In. Qed.

  Lemma within_le q t : within P q t -> q <= t.
  Proof. induction 1 as [|b c H IH S]; auto. apply (o_lt P W) in S. lia. Qed.
  Lemma within_trans a b c : within P a b -> within P b c -> within P a c.
  Proof. intros H. induction 1; auto. econstructor; eauto. Qed.
  Lemma within_first q t : within P q t -> t = q \/ exists c, In (ISpawn c) (body P (Some q)) /\ within P c t.
  Proof.
    induction 1 as [|b c H IH S]; auto. right. destruct IH as [->|(d & D & Wd)].
    - exists c. split; auto. constructor.
    - exists d. split; auto. econstructor; eauto.
  Qed.
  (** ancestors of a task form a chain *)
  Lemma within_chain a t : within P a t -> forall b, within P b t -> within P a b \/ within P b a.
  Proof.
    induction 1 as [|x t H IH S]; intros b Hb; auto.
    inversion Hb as [|y t' Hy Sy]; subst.
    - left. econstructor; eauto.
    - apply (o_parent P W) in S, Sy. rewrite S in Sy. injection Sy as ->. auto.
  Qed.
  Lemma siblings_apart o a b t : In (ISpawn a) (body P o) -> In (ISpawn b) (body P o) -> a <> b ->
    within P a t -> within P b t -> False.
  Proof.
    assert (X : forall a b, In (ISpawn a) (body P o) -> In (ISpawn b) (body P o) -> a <> b -> within P a b -> False).
    { intros x y Hx Hy D H. inversion H as [|z y' Hz Sz]; subst; [easy|].
      apply (o_parent P W) in Sz as E1. pose proof (o_parent P W _ _ Hy) as E2. rewrite E1 in E2. subst o.
      apply within_le in Hz. apply (o_lt P W) in Hx. lia. }
    intros Ha Hb D Wa Wb. destruct (within_chain a t Wa b Wb) as [Q|Q]; [exact (X a b Ha Hb D Q)|].
    exact (X b a Hb Ha (not_eq_sym D) Q).
  Qed.

  (** the spot order, with tags *)
  Inductive tspot : option nat -> nat -> list instr -> list top -> Prop :=
  | t_nil o i : tspot o i [] []
  | t_main i a b l : tspot None (S i) b l -> tspot None i (IAct a :: b) l
  | t_act t i a b l : tspot (Some t) (S i) b l -> tspot (Some t) i (IAct a :: b) (((t, i), a) :: l)
  | t_spawn o i c b l1 l2 : tspot (Some c) 0 (body P (Some c)) l1 -> tspot o i b l2 -> tspot o i (ISpawn c :: b) (l1 ++ l2)
  | t_other o i j b l : (forall a, j <> IAct a) -> (forall c, j <> ISpawn c) -> tspot o i b l -> tspot o i (j :: b) l.

  Lemma tag_spot o b l : on_the_spot P o b l -> forall i, exists l', tspot o i b l' /\ map untag l' = l.
  Proof.
    induction 1 as [o|a b l H IH|t a b l H IH|o c b l1 l2 H1 IH1 H2 IH2|o j b l N1 N2 H IH]; intros i.
    - exists []. split; [constructor|auto].
    - destruct (IH (S i)) as (l' & A & <-). exists l'. split; [now constructor|auto].
    - destruct (IH (S i)) as (l' & A & <-). exists (((t, i), a) :: l'). split; [now constructor|auto].
    - destruct (IH1 0) as (l1' & A1 & <-). destruct (IH2 i) as (l2' & A2 & <-).
      exists (l1' ++ l2'). split; [now constructor|apply map_app].
    - destruct (IH i) as (l' & A & <-). exists l'. split; [now constructor|auto].
  Qed.

  Lemma acts_app a b : acts_of (a ++ b) = acts_of a ++ acts_of b.
  Proof. induction a as [|[] a IH]; simpl; auto. now rewrite IH. Qed.
  Lemma acts_in a b : In a (acts_of b) <-> In (IAct a) b.
  Proof. induction b as [|[] b IH]; simpl; split; intros; try tauto; intuition (try congruence); try (right; tauto). Qed.

  Definition item (o : option nat) (i : nat) (b : list instr) (x : top) : Prop :=
    (exists t k, o = Some t /\ fst x = (t, i + k) /\ nth_error (acts_of b) k = Some (snd x)) \/
    (exists c t k, In (ISpawn c) b /\ within P c t /\ fst x = (t, k) /\
                   nth_error (acts_of (body P (Some t))) k = Some (snd x)).

  Lemma spot_items o i b l : tspot o i b l -> forall x, In x l <-> item o i b x.
  Proof.
    unfold item. induction 1 as [o i|i a b l H IH|t i a b l H IH|o i c b l1 l2 H1 IH1 H2 IH2|o i j b l N1 N2 H IH]; intros x.
    - split; [easy|]. intros [(t & k & _ & _ & E)|(c & t & k & [] & _)]. destruct k; discriminate.
    - rewrite IH. split.
      + intros [(t & k & Z & _)|(c & t & k & A)]; [discriminate|]. right. exists c, t, k. simpl. tauto.
      + intros [(t & k & Z & _)|(c & t & k & [A|A] & B)]; [discriminate|discriminate|]. right. exists c, t, k. tauto.
    - simpl In. rewrite IH. split.
      + intros [<-|[(u & k & A & B & C)|(c & u & k & A)]].
        * left. exists t, 0. simpl. now rewrite Nat.add_0_r.
        * left. exists u, (S k). simpl. rewrite B. split; auto. split; auto. f_equal; lia.
        * right. exists c, u, k. simpl. tauto.
      + intros [(u & k & A & B & C)|(c & u & k & [A|A] & B)].
        * injection A as <-. destruct k as [|k].
          -- left. destruct x as [[]]; simpl in *. injection B as -> ->. injection C as ->. now rewrite Nat.add_0_r.
          -- right. left. exists t, k. split; auto. split; auto. rewrite B. f_equal; lia.
        * discriminate.
        * right. right. exists c, u, k. tauto.
    - rewrite in_app_iff, IH1, IH2. split.
      + intros [[(u & k & A & B & C)|(d & u & k & A & B & C)]|[(u & k & A & B & C)|(d & u & k & A & B & C)]].
        * injection A as <-. right. exists c, c, k. split; [now left|]. split; [constructor|]. auto.
        * right. exists c, u, k. split; [now left|]. split; auto. apply within_trans with d; auto.
          econstructor; [constructor|auto].
        * left. exists u, k. auto.
        * right. exists d, u, k. split; [now right|]. auto.
      + intros [(u & k & A & B & C)|(d & u & k & [A|A] & B & C)].
        * right. left. exists u, k. auto.
        * injection A as <-. left. apply within_first in B as [->|(d & D & Wd)].
          -- left. exists c, k. auto.
          -- right. exists d, u, k. auto.
        * right. right. exists d, u, k. auto.
    - rewrite IH. split.
      + intros [(u & k & A & B & C)|(d & u & k & A & B)].
        * left. exists u, k. split; auto. split; auto. destruct j; auto. now destruct (N1 a).
        * right. exists d, u, k. simpl. tauto.
      + intros [(u & k & A & B & C)|(d & u & k & [A|A] & B)].
        * left. exists u, k. split; auto. split; auto. destruct j; auto. now destruct (N1 a).
        * now destruct (N2 d).
        * right. exists d, u, k. tauto.
  Qed.

  (** [y] comes before [x] on the spot *)
  Inductive earlier : top -> top -> Prop :=
  | e_same t i j a b : i < j -> earlier ((t, i), a) ((t, j), b)
  | e_own u j b t i a pre c post : body P (Some u) = pre ++ ISpawn c :: post -> j < length (acts_of pre) ->
      within P c t -> earlier ((u, j), b) ((t, i), a)
  | e_after u j b t i a pre c post : body P (Some t) = pre ++ ISpawn c :: post -> length (acts_of pre) <= i ->
      within P c u -> earlier ((u, j), b) ((t, i), a)
  | e_sib u j b t i a o pre u' mid t' post : body P o = pre ++ ISpawn u' :: mid ++ ISpawn t' :: post ->
      within P u' u -> within P t' t -> earlier ((u, j), b) ((t, i), a).

  Lemma earlier_inv u j b t i a : earlier ((u, j), b) ((t, i), a) ->
    (u = t /\ j < i) \/
    (exists pre c post, body P (Some u) = pre ++ ISpawn c :: post /\ j < length (acts_of pre) /\ within P c t) \/
    (exists pre c post, body P (Some t) = pre ++ ISpawn c :: post /\ length (acts_of pre) <= i /\ within P c u) \/
    (exists o pre u' mid t' post, body P o = pre ++ ISpawn u' :: mid ++ ISpawn t' :: post /\ within P u' u /\ within P t' t).
  Proof. intros H. inversion H; subst; eauto 12. Qed.

  Lemma spawn_apart o pre u mid t post : body P o = pre ++ ISpawn u :: mid ++ ISpawn t :: post -> u <> t.
  Proof.
    intros E. assert (Z := o_once P W o). rewrite E in Z. clear -Z.
    assert (Q : forall a b, spawns (a ++ b) = spawns a ++ spawns b).
    { induction a as [|[] a IH]; intros; simpl; auto. now rewrite IH. }
    rewrite Q in Z. simpl in Z. rewrite Q in Z. simpl in Z. apply NoDup_remove_2 in Z. intros ->. apply Z.
    rewrite !in_app_iff. simpl. auto.
  Qed.

  Lemma earlier_irrefl x : ~ earlier x x.
  Proof.
    assert (X : forall y z, earlier y z -> y <> z); [|intros H; exact (X x x H eq_refl)]. clear x.
    intros ? ? [t i j a b L|u j b t i a pre c post H0 L0 H5|u j b t i a pre c post H0 L0 H5|u j b t i a o pre u' mid t' post H0 H4 H5] E;
      injection E; intros; subst; [lia|..].
    - apply within_le in H5. assert (L : In (ISpawn c) (body P (Some t))) by (rewrite H0, in_app_iff; simpl; auto).
      apply (o_lt P W) in L. lia.
    - apply within_le in H5. assert (L : In (ISpawn c) (body P (Some t))) by (rewrite H0, in_app_iff; simpl; auto).
      apply (o_lt P W) in L. lia.
    - apply (siblings_apart o u' t' t); auto.
      + rewrite H0, in_app_iff; simpl; auto.
      + rewrite H0, in_app_iff; simpl. rewrite in_app_iff; simpl; auto.
      + now apply spawn_apart in H0.
  Qed.

  Lemma spot_prec o i b l : tspot o i b l -> forall pre, body P o = pre ++ b -> i = length (acts_of pre) ->
    forall y x, prec l y x -> earlier y x.
  Proof.
    assert (NX : forall (pre : list instr) j b, (pre ++ [j]) ++ b = pre ++ j :: b) by (intros; now rewrite <- app_assoc).
    induction 1 as [o i|i a b l H IH|t i a b l H IH|o i c b l1 l2 H1 IH1 H2 IH2|o i j b l N1 N2 H IH]; intros pre E Ei y x Q.
    - destruct Q as (l1 & l2 & l3 & Q). destruct l1; discriminate.
    - apply (IH (pre ++ [IAct a])); auto; [rewrite E; symmetry; apply NX|]. rewrite acts_app, app_length. simpl. lia.
    - destruct Q as ([|z l1] & l2 & l3 & Q); simpl in Q; injection Q as Q1 Q2.
      + subst y. assert (X : In x l) by (rewrite Q2, in_app_iff; simpl; auto).
        apply (spot_items _ _ _ _ H) in X as [(u & k & A & B & C)|(d & u & k & A & B & C & D)].
        * injection A as <-. destruct x as [[] ?]. simpl in B. injection B as -> ->. apply e_same. lia.
        * destruct x as [[] ?]. simpl in C. injection C as -> ->.
          apply in_split in A as (b1 & b2 & A). eapply (e_own t i a u k) with (pre := pre ++ IAct a :: b1) (c := d) (post := b2); auto.
          -- rewrite E, A. assoc.
          -- rewrite acts_app, app_length. simpl. lia.
      + apply (IH (pre ++ [IAct a])); auto.
        * rewrite E. symmetry. apply NX.
        * rewrite acts_app, app_length. simpl. lia.
        * exists l1, l2, l3. auto.
    - apply prec_app in Q as [Q|[Q|[Q1 Q2]]].
      + apply (IH1 []); auto.
      + apply (IH2 (pre ++ [ISpawn c])); auto; [rewrite E; symmetry; apply NX|].
        rewrite acts_app, app_length. simpl. lia.
      + assert (Y : exists u k, fst y = (u, k) /\ within P c u).
        { apply (spot_items _ _ _ _ H1) in Q1 as [(u & k & A & B & C)|(d & u & k & A & B & C & D)].
          - injection A as <-. exists c, (0 + k). split; auto. constructor.
          - exists u, k. split; auto. apply within_trans with d; auto. econstructor; [constructor|auto]. }
        destruct Y as (u & k & Ey & Wu). destruct y as [? yb], x as [? xa]. simpl in Ey. subst.
        apply (spot_items _ _ _ _ H2) in Q2 as [(t & k' & A & B & C)|(d & t & k' & A & B & C & D)]; simpl in *.
        * subst. eapply e_after with (pre := pre) (c := c) (post := b); eauto. lia.
        * subst. apply in_split in A as (b1 & b2 & ->).
          eapply e_sib with (pre := pre) (u' := c) (mid := b1) (t' := d) (post := b2); eauto.
    - apply (IH (pre ++ [j])); auto; [rewrite E; symmetry; apply NX|].
      rewrite acts_app, app_length. simpl. destruct j; simpl; try lia. now destruct (N1 a).
  Qed.

  Lemma not_nodup {A} (l : list A) : (forall x, ~ prec l x x) -> NoDup l.
  Proof.
    induction l as [|x l IH]; intros H; constructor.
    - intros X. apply (H x). now apply prec_head.
    - apply IH. intros y Q. apply (H y). now apply prec_cons.
  Qed.

  Lemma spot_NoDup l : tspot None 0 (p_main P) l -> NoDup l.
  Proof.
    intros H. apply not_nodup. intros x Q. apply (earlier_irrefl x).
    exact (spot_prec None 0 _ l H [] eq_refl eq_refl x x Q).
  Qed.
End Order.

(** ** The history *)
Section Run.
  Context (P : prog) (W : wfa P) (NW : p_wrap P = false).
  Open Scope Z_scope.

  Lemma spawn_lt o pre u mid t post : body P o = pre ++ ISpawn u :: mid ++ ISpawn t :: post -> (u < t)%nat.
  Proof.
    intros E. assert (Z := wf_sorted P W o). rewrite E in Z. clear -Z.
    assert (Q : forall a b, spawns (a ++ b) = spawns a ++ spawns b).
    { induction a as [|[] a IH]; intros; simpl; auto. now rewrite IH. }
    rewrite Q in Z. simpl in Z. rewrite Q in Z. simpl in Z.
    induction (spawns pre) as [|x l IH]; simpl in Z; inversion Z; subst; auto.
    rewrite Forall_forall in H2. apply H2. rewrite in_app_iff; simpl; auto.
  Qed.

  Fixpoint tperformed (l : list lev) : list top :=
    match l with
    | [] => []
    | LAct (Some t) a :: l => tperformed l ++ [((t, length (done t l)), a)]
    | _ :: l => tperformed l
    end.
  Lemma tperformed_untag l : map untag (tperformed l) = performed l.
  Proof. induction l as [|[] l IH]; simpl; auto. destruct t; auto. now rewrite map_app, IH. Qed.

  Lemma in_tperformed t i a l : In ((t, i), a) (tperformed l) <-> nth_error (done t l) i = Some a.
  Proof.
    induction l as [|x l IH]; [simpl; split; [easy|destruct i; discriminate]|].
    destruct x; simpl; auto. destruct t0 as [u|]; auto. rewrite in_app_iff, IH. simpl.
    destruct (Nat.eqb_spec u t) as [->|d].
    - split.
      + intros [H|[H|[]]].
        * rewrite nth_error_app1; auto. apply nth_error_Some. congruence.
        * injection H as <- <-. rewrite nth_error_app2, Nat.sub_diag; auto.
      + intros H. destruct (Nat.lt_ge_cases i (length (done t l))) as [Q|Q].
        * rewrite nth_error_app1 in H by auto. auto.
        * rewrite nth_error_app2 in H by auto. right. left.
          destruct (i - length (done t l))%nat as [|k] eqn:E; simpl in H; [|destruct k; discriminate].
          injection H as <-. repeat f_equal. lia.
    - rewrite app_nil_r. split; [|auto]. intros [H|[H|[]]]; auto. congruence.
  Qed.

  Lemma sp_within n s q t : greach P n s -> within P q t -> sp s t -> sp s q.
  Proof.
    intros R. induction 1 as [|b c H IH S]; auto. intros Q. apply IH.
    assert (I := greach_Inv P W NW n s R). assert (E := wf_parent P W _ _ S).
    assert (X := sp_parent P W s I c Q). rewrite E in X. simpl in X.
    apply exec_sp with (P := P) (n := n); auto. pose proof (f_start P s I b). lia.
  Qed.

  Lemma rc_within n s q t : greach P n s -> within P q t -> rc s q -> sp s t -> rc s t.
  Proof.
    intros R. induction 1 as [|b c H IH S]; auto. intros Q Sc.
    assert (I := greach_Inv P W NW n s R). assert (E := wf_parent P W _ _ S).
    apply in_reach. eapply (children_first P W NW n s c b); eauto.
    - apply in_reach. apply IH; auto. eapply sp_within; eauto. econstructor; [constructor|eauto].
    - now apply in_spawn.
  Qed.

  Lemma exec_within n s q t : greach P n s -> within P q t -> 1 <= zsum (v_exec t) (log s) -> 1 <= zsum (v_exec q) (log s).
  Proof.
    intros R. induction 1 as [|b c H IH S]; auto. intros Q. apply IH.
    assert (I := greach_Inv P W NW n s R). assert (E := wf_parent P W _ _ S).
    assert (X := sp_parent P W s I c (exec_sp P W NW n s c R Q)). rewrite E in X. simpl in X.
    pose proof (f_start P s I b). lia.
  Qed.

  (** conflicts of nested tasks are conflicts of the tasks they belong to *)
  Lemma lift_one (CC : children_covered P) (IP : inner_private P) q c t :
    In (ISpawn c) (body P (Some q)) -> ~ within P q t ->
    user_is_serial (user P c) (user P t) = true -> user_is_serial (user P q) (user P t) = true.
  Proof.
    intros S N H. apply user_is_serial_spec in H as (ac & ao & Ha & Hb & H).
    destruct (le_lt_dec (r_scope (a_res ac)) (u_scope (user P q))) as [l|l].
    - exact (child_conflict_lifts _ _ _ ac ao (CC q c S) Ha Hb H l).
    - exfalso. apply N. apply ra_is_serial_inv in H as [E _].
      exact (IP q c ac S Ha l t ao Hb (eq_sym E)).
  Qed.
  Lemma lift_within (CC : children_covered P) (IP : inner_private P) q c t :
    within P q c -> ~ within P q t ->
    user_is_serial (user P c) (user P t) = true -> user_is_serial (user P q) (user P t) = true.
  Proof.
    induction 1 as [|b c H IH S]; auto. intros N Q. apply IH; auto. apply (lift_one CC IP b c); auto.
    intros X. apply N. eapply within_trans; eauto.
  Qed.

  Lemma split_prefix (A B : list instr) (x : instr) a c post s0 :
    A ++ ISpawn c :: post = B ++ x :: s0 -> x = IAct a -> (length (acts_of B) < length (acts_of A))%nat -> In (ISpawn c) s0.
  Proof.
    revert B. induction A as [|y A IH]; intros B E -> L; simpl in *; [lia|].
    destruct B as [|z B]; simpl in E; injection E as -> E.
    - rewrite <- E, in_app_iff. simpl. auto.
    - apply (IH B); auto. destruct z; simpl in L; lia.
  Qed.

  Definition run_ok (x y : top) : Prop := earlier P y x -> indep x y.

  Lemma done_nth n s t k a : greach P n s -> nth_error (done t (log s)) k = Some a ->
    nth_error (acts_of (body P (Some t))) k = Some a.
  Proof.
    intros R Ht. assert (I := greach_Inv P W NW n s R). destruct (done_ok P W NW n s R t) as (D1 & D2 & D3).
    pose proof (f_start P s I t). pose proof (f_exec P s I t). pose proof (f_end P s I t).
    destruct (Z.eq_dec (zsum (v_start t) (log s)) 0) as [e|e]; [rewrite D1 in Ht by easy; destruct k; discriminate|].
    destruct (Z_le_dec 1 (zsum (v_end t) (log s))) as [l|l]; [now rewrite <- D3|].
    assert (LB := law_body P s (i_laws P s I) t).
    assert (Q0 : 0 < zsum (is_body (Some t)) (frames s)) by lia. apply zsum_pos_ex in Q0 as (f & Hf' & Q').
    assert (is_body (Some t) f = 1).
    { assert (is_body (Some t) f <= 1) by (unfold is_body; destruct f; try lia; match goal with |- zb ?b <= 1 => destruct b; simpl; lia end). lia. }
    rewrite <- (D2 f Hf' ltac:(auto)). rewrite nth_error_app1; auto. apply nth_error_Some. congruence.
  Qed.

  (** what has been waited for *)
  Lemma joined_ended n s b t : mreach P (single P) n s -> (forall c, In (IGet c) b -> In (LGet c) (log s)) -> joined P b t -> ended s t.
  Proof.
    intros R A. induction 1 as [c H|c d H IH S].
    - exact (got_ended P W NW n s c R (A c H)).
    - apply (got_ended P W NW n s d R). exact (mr_end_got P n s c d R IH S).
  Qed.
  Lemma longer_prefix (A B x y : list instr) : A ++ x = B ++ y -> (length (acts_of A) < length (acts_of B))%nat -> exists r, B = A ++ r.
  Proof.
    revert B. induction A as [|a A IH]; intros B E L; [exists B; reflexivity|].
    destruct B as [|b B]; simpl in L; [lia|]. simpl in E. injection E as -> E.
    destruct (IH B E) as [r ->]; [|exists r; reflexivity]. destruct b; simpl in L; lia.
  Qed.
  Lemma nth_act_split b k a : nth_error (acts_of b) k = Some a -> exists x y, b = x ++ IAct a :: y /\ length (acts_of x) = k.
  Proof.
    revert k. induction b as [|j b IH]; intros k H; [destruct k; discriminate|].
    assert (X : (forall a0, j <> IAct a0) -> nth_error (acts_of b) k = Some a -> exists x y, j :: b = x ++ IAct a :: y /\ length (acts_of x) = k).
    { intros N Q. destruct (IH k Q) as (x & y & -> & L). exists (j :: x), y. split; [reflexivity|]. destruct j; simpl; auto. now destruct (N a0). }
    destruct j; try (apply X; [discriminate|exact H]). simpl in H. destruct k as [|k].
    - injection H as ->. exists [], b. auto.
    - destruct (IH k H) as (x & y & -> & L). exists (IAct a0 :: x), y. simpl. auto.
  Qed.
  (** an operation that is done has its gets behind it *)
  Lemma done_gets n s t k x a y : greach P n s -> body P (Some t) = x ++ IAct a :: y -> length (acts_of x) = k ->
    nth_error (done t (log s)) k = Some a -> forall c, In (IGet c) x -> In (LGet c) (log s).
  Proof.
    intros R E L H c Hc. assert (I := greach_Inv P W NW n s R). assert (MR := greach_mreach P W NW n s R).
    destruct (done_ok P W NW n s R t) as (D1 & D2 & D3).
    destruct (Z.eq_dec (zsum (v_start t) (log s)) 0) as [e|e]; [rewrite D1 in H by easy; destruct k; discriminate|].
    destruct (Z_le_dec 1 (zsum (v_end t) (log s))) as [l|l].
    { apply (mr_end_got P n s t c MR); [now apply in_end|]. rewrite E. apply in_or_app. auto. }
    pose proof (f_start P s I t). pose proof (f_exec P s I t). pose proof (f_end P s I t).
    assert (LB := law_body P s (i_laws P s I) t).
    assert (Q0 : 0 < zsum (is_body (Some t)) (frames s)) by lia. apply zsum_pos_ex in Q0 as (f & Hf' & Q').
    assert (Q1 : is_body (Some t) f = 1).
    { assert (is_body (Some t) f <= 1) by (unfold is_body; destruct f; try lia; match goal with |- zb ?b <= 1 => destruct b; simpl; lia end). lia. }
    assert (D := D2 f Hf' Q1). assert (G := mr_got P n s MR f Hf').
    assert (X : exists pre is, body P (Some t) = pre ++ is /\ (forall c, In (IGet c) pre -> In (LGet c) (log s)) /\ left_of f = is).
    { destruct f; simpl in Q1; try lia; unfold zb in Q1; destruct o as [o'|]; simpl in Q1; try lia;
        destruct (Nat.eqb_spec o' t) as [->|]; try lia; destruct G as (m & pre & C & Em & A); simpl in C; subst m; exists pre; eexists; split; eauto. }
    destruct X as (pre & is & EB & A & LF). rewrite LF in D. rewrite EB, acts_app in D.
    assert (LD : length (done t (log s)) = length (acts_of pre)) by (apply (f_equal (@length _)) in D; rewrite !app_length in D; lia).
    assert (K : (k < length (acts_of pre))%nat) by (rewrite <- LD; apply nth_error_Some; congruence).
    rewrite E in EB. destruct (longer_prefix _ _ _ _ EB) as [r ->]; [lia|]. apply A. apply in_or_app. auto.
  Qed.

  Lemma tpairs n s : children_covered P -> inner_private P -> keeps_clear P -> behaved P -> greach P n s ->
    ForallOrdPairs run_ok (tperformed (log s)).
  Proof.
    intros CC IP KO BH. induction 1 as [|s i c s' R IH G H]; [constructor|].
    assert (I := greach_Inv P W NW n s R). assert (M := step_moves P s i c s' H).
    destruct M as [j f fs s1 fr rest E H1 -> Hp Hp' | j pk s1 fr E H1 -> Hp'].
    - assert (Hf : In f (frames s)) by (apply (Permutation_in _ (Permutation_sym Hp)); now left).
      assert (X : forall q a s0, f = FBody (Some q) (IAct a :: s0) ->
                  ForallOrdPairs run_ok (tperformed (log s) ++ [((q, length (done q (log s))), a)])).
      { intros u b s0 ->. apply fop_snoc; auto. intros [[t k] a] Ht Er.
        apply in_tperformed in Ht. assert (Ht' : In a (done t (log s))) by (eapply nth_error_In; eauto).
        destruct (done_body P W NW n s t a R Ht') as [Ha Ex].
        assert (Q : is_body (Some u) (FBody (Some u) (IAct b :: s0)) = 1) by (simpl; now rewrite Nat.eqb_refl).
        assert (Sf := law_suffix P s (i_laws P s I) _ Hf). apply piece_body in Sf.
        assert (Hb : In (IAct b) (body P (Some u))) by (now apply suffix_In in Sf).
        destruct (done_ok P W NW n s R u) as (_ & DU & _). specialize (DU _ Hf Q). cbn [left_of] in DU.
        assert (B1 : 1 <= zsum (is_body (Some u)) (frames s)) by (rewrite <- Q; apply in_w; auto; intro; apply w_nn4).
        apply (body_facts P s I) in B1. destruct B1 as (_ & B2 & B3 & B4).
        assert (S1 : sp s t) by (eapply exec_sp; eauto). assert (S2 : sp s u) by (eapply exec_sp; eauto; lia).
        destruct Sf as (pre' & Sf).
        assert (LU : length (done u (log s)) = length (acts_of pre')).
        { rewrite Sf, acts_app in DU. simpl in DU. apply (f_equal (@length _)) in DU. rewrite !app_length in DU. simpl in DU. lia. }
        apply earlier_inv in Er as [(-> & L1)|[(pre & c1 & post & E1 & L1 & W1)|[(pre & c1 & post & E1 & L1 & W1)|(o & pre & u1 & mid & t1 & post & E1 & WU & WT)]]].
        - (* same task *) exfalso. assert (k < length (done t (log s)))%nat by (apply nth_error_Some; congruence). lia.
        - (* [t] comes from a later instruction of [u] *)
          exfalso. rewrite LU in L1. rewrite Sf in E1. symmetry in E1.
          assert (Y := split_prefix _ _ _ b c1 post s0 E1 eq_refl L1).
          assert (Sc := sp_within n s c1 t R W1 S1).
          assert (Pc : parent P c1 = Some u).
          { apply (wf_parent P W (Some u) c1). rewrite Sf, in_app_iff. right; right; exact Y. }
          pose proof (law_spawn P s (i_laws P s I) c1) as LS. rewrite Pc in LS.
          pose proof (spawns_once P W c1 (Some u)). pose proof (f_startedz P s I (Some u)).
          assert (Z1 : n_spawn c1 (FBody (Some u) (IAct b :: s0)) <= zsum (n_spawn c1) (frames s))
            by (apply in_w; auto; intro; apply w_nn).
          assert (Z2 : 1 <= n_spawn c1 (FBody (Some u) (IAct b :: s0)))
            by (unfold n_spawn; simpl; apply spawns_In, ni_pos in Y; lia).
          unfold sp in Sc. nia.
        - (* [u] was emplaced by [t] before *)
          assert (Hk := done_nth n s t k a R Ht).
          rewrite E1, acts_app in Hk. simpl in Hk. rewrite nth_error_app2 in Hk by auto.
          destruct (nth_act_split _ _ _ Hk) as (mid & post2 & -> & Lm).
          split; simpl.
          { assert (c1 <= u)%nat by (now apply (within_le P W)).
            assert (t < c1)%nat by (apply (wf_lt P W); rewrite E1, in_app_iff; simpl; auto). lia. }
          destruct (KO t _ c1 mid a post2 u b E1 W1 Hb) as [J|J]; [exfalso|exact J].
          assert (EN : ended s u).
          { apply (joined_ended n s mid u (greach_mreach P W NW n s R)); auto. intros x Hx.
            apply (done_gets n s t k (pre ++ ISpawn c1 :: mid) a post2 R); auto.
            - rewrite E1. rewrite <- app_assoc. reflexivity.
            - rewrite acts_app, app_length. simpl. lia.
            - apply in_or_app. right. now right. }
          apply in_end in EN. lia.
        - (* both belong to different tasks of one space *)
          assert (Iu : In (ISpawn u1) (body P o)) by (rewrite E1, in_app_iff; simpl; auto).
          assert (It : In (ISpawn t1) (body P o)) by (rewrite E1, in_app_iff; simpl; rewrite in_app_iff; simpl; auto).
          assert (Lt : (u1 < t1)%nat) by (exact (spawn_lt o pre u1 mid t1 post E1)).
          pose proof (siblings_apart P W o u1 t1) as AP.
          assert (NU : forall x, within P u1 x -> within P t1 x -> False) by (intros x; apply AP; auto; lia).
          split; [simpl; intros ->; eauto|]. simpl. intros C.
          assert (SE : user_is_serial (user P u1) (user P t1) = true).
          { assert (X1 : user_is_serial (user P u) (user P t) = true).
            { rewrite user_is_serial_sym. apply (conflict_serial P). eapply acts_tasks; eauto. }
            assert (X2 : user_is_serial (user P u1) (user P t) = true) by (apply (lift_within CC IP u1 u t WU); auto; intros X3; eauto).
            rewrite user_is_serial_sym in X2 |- *. apply (lift_within CC IP t1 t u1 WT); auto.
            intros X3. apply (NU u1); auto. constructor. }
          assert (RC : rc s u1).
          { apply (i_order_all P W s I t1).
            - exact (exec_within n s t1 t R WT Ex).
            - intros r. exact Lt.
            - exact (sp_within n s u1 u R WU S2).
            - split; auto. rewrite (wf_parent P W _ _ Iu), (wf_parent P W _ _ It). reflexivity. }
          apply (rc_within n s u1 u R WU) in RC; auto. apply (rc_end P s I) in RC. lia. }
      clear -IH H1 X.
      cases_f H1; cbn [log set_thr add_log set_users set_lck set_ctr set_fol set_emp set_rdy set_ext set_cdn set_tcn inc tperformed] in *; auto.
      eapply X; eauto.
    - cases_i H1; cbn [log set_thr add_log set_users set_lck set_ctr set_fol set_emp set_rdy set_ext set_cdn set_tcn inc tperformed] in *; auto.
  Qed.

  Lemma fop_prec {A} (Q : A -> A -> Prop) l x y : ForallOrdPairs Q l -> prec l x y -> Q x y.
  Proof.
    intros F (a & b & c & ->). induction a as [|z a IH]; simpl in F; inversion F; subst; auto.
    rewrite Forall_forall in H1. apply H1. rewrite in_app_iff. simpl. auto.
  Qed.

  Lemma tperformed_NoDup l : NoDup (tperformed l).
  Proof.
    induction l as [|x l IH]; [constructor|]. destruct x; simpl; auto. destruct t; auto.
    apply (Permutation_NoDup (Permutation_cons_append _ _)). constructor; auto. intros X. apply in_tperformed in X.
    assert (Q : nth_error (done n l) (length (done n l)) <> None) by congruence. apply nth_error_Some in Q. lia.
  Qed.

  (** when everybody is done, the tasks that ran are those of the program *)
  Lemma final_tasks n s : greach P n s -> frames s = [FBody None []] -> (forall t, sp s t -> rc s t) ->
    forall t, sp s t <-> exists c, In (ISpawn c) (p_main P) /\ within P c t.
  Proof.
    intros R F D. assert (I := greach_Inv P W NW n s R).
    assert (K : forall o c, startedz s o = 1 -> In (ISpawn c) (body P o) -> sp s c).
    { intros o c So H. assert (LS := law_spawn P s (i_laws P s I) c). rewrite (wf_parent P W _ _ H), F, So in LS.
      apply spawns_In, ni_pos in H. simpl zsum in LS. unfold n_spawn in LS. simpl zsum in LS. unfold sp. lia. }
    intros t. split.
    - induction t as [t IH] using lt_wf_ind. intros Q. assert (B := sp_body P W s I t Q).
      apply spawns_In in B. destruct (parent P t) as [q|] eqn:E.
      + destruct (IH q) as (c & C1 & C2); [exact (wf_lt P W q t B)| |].
        * apply (sp_within n s q t R); auto. econstructor; [constructor|exact B].
        * exists c. split; auto. econstructor; eauto.
      + exists t. split; [exact B|constructor].
    - intros (c & C1 & C2). induction C2 as [|b t C2 IH S]; [exact (K None c eq_refl C1)|].
      apply (K (Some b)); auto. simpl. apply D in IH. apply (rc_end P s I) in IH.
      pose proof (f_end P s I b). pose proof (f_start P s I b). pose proof (f_exec P s I b). lia.
  Qed.

  Lemma spot_body o b : (forall c, In (ISpawn c) b -> exists l, on_the_spot P (Some c) (body P (Some c)) l) ->
    exists l, on_the_spot P o b l.
  Proof.
    induction b as [|j b IH]; intros H; [exists []; constructor|].
    destruct IH as (l & L); [intros; apply H; now right|].
    destruct j as [a|c|c|c|e|].
    - destruct o as [t|]; [exists ((t, a) :: l)|exists l]; now constructor.
    - destruct (H c (or_introl eq_refl)) as (l1 & L1). exists (l1 ++ l). now constructor.
    - exists l. now constructor.
    - exists l. now constructor.
    - exists l. now constructor.
    - exists l. now constructor.
  Qed.

  Lemma sp_bounded s : exists N, forall t, sp s t -> (t < N)%nat.
  Proof.
    unfold sp. induction (log s) as [|x l (N & IH)]; [exists 0%nat; simpl; lia|].
    exists (N + match x with LSpawn t => S t | _ => 0 end)%nat. intros t H. cbn [zsum] in H.
    destruct (Z_le_dec 1 (zsum (v_spawn t) l)) as [q|q]; [apply IH in q; lia|].
    destruct x; simpl in H; try lia. unfold ni in H. destruct (Nat.eqb_spec t0 t); simpl in H; lia.
  Qed.

  Lemma spot_exists (Q : nat -> Prop) N : (forall t, Q t -> (t < N)%nat) ->
    (forall t c, Q t -> In (ISpawn c) (body P (Some t)) -> Q c) ->
    forall k t, (N <= t + k)%nat -> Q t -> exists l, on_the_spot P (Some t) (body P (Some t)) l.
  Proof.
    intros B C. induction k as [|k IH]; intros t L Ht; [apply B in Ht; lia|].
    apply spot_body. intros c Hc. apply IH; [|eapply C; eauto].
    apply (wf_lt P W) in Hc. lia.
  Qed.

  Theorem nested_done n s : children_covered P -> inner_private P -> keeps_clear P -> behaved P -> greach P n s ->
    frames s = [FBody None []] -> (forall t, submitted s t -> completed s t) ->
    (exists l, on_the_spot P None (p_main P) l) /\
    forall l S g m, on_the_spot P None (p_main P) l -> sensible S ->
    same_result (exec S (performed (log s)) g m) (exec S l g m).
  Proof.
    intros CC IP KO BH R F D. assert (I := greach_Inv P W NW n s R).
    assert (D' : forall t, sp s t -> rc s t).
    { intros t Ht. apply in_reach. apply D. now apply in_spawn. }
    assert (T := final_tasks n s R F D').
    split.
    - destruct (sp_bounded s) as (B & HB). apply spot_body. intros c Hc.
      apply (spot_exists (fun t => sp s t) B HB) with (k := B); [|lia|].
      + intros t c' Ht Hc'. apply T in Ht as (d & D1 & D2). apply T. exists d. split; auto. econstructor; eauto.
      + apply T. exists c. split; auto. constructor.
    - intros l S g m L OK. destruct (tag_spot P None _ l L 0%nat) as (l' & L' & <-).
      rewrite <- tperformed_untag. apply (reorder S OK).
      + apply tperformed_NoDup.
      + apply NoDup_Permutation; [apply tperformed_NoDup|exact (spot_NoDup P W l' L')|].
        intros [[t k] a]. rewrite in_tperformed, (spot_items P None 0 (p_main P) l' L'). unfold item. simpl. split.
        * intros H. right. destruct (done_body P W NW n s t a R) as [_ Ex]; [eapply nth_error_In; eauto|].
          assert (Sp := exec_sp P W NW n s t R Ex). destruct (proj1 (T t) Sp) as (c & C1 & C2).
          exists c, t, k. repeat split; auto. destruct (done_ok P W NW n s R t) as (_ & _ & C). rewrite C in H; auto.
          apply D' in Sp. apply (rc_end P s I) in Sp. lia.
        * intros [(t' & k' & Z & _)|(c & t' & k' & C1 & C2 & C3 & C4)]; [discriminate|]. injection C3 as <- <-.
          assert (Sp : sp s t) by (apply T; eauto). destruct (done_ok P W NW n s R t) as (_ & _ & C). rewrite C; auto.
          apply D' in Sp. apply (rc_end P s I) in Sp. lia.
      + intros x y Q1 Q2. assert (O := fop_prec run_ok _ x y (tpairs n s CC IP KO BH R) Q1). apply O.
        exact (spot_prec P None 0 _ l' L' [] eq_refl eq_refl y x Q2).
  Qed.
End Run.

(** a body that never does anything that conflicts with what it emplaced before *)
Lemma off_clear P : keeps_off P -> keeps_clear P.
Proof.
  intros KO q pre c mid a post t b E Wt Hb. right. apply (KO q pre c (mid ++ IAct a :: post) a t b E); auto.
  apply in_or_app. right. now left.
Qed.

Theorem nested_result P (W : wf P) (NW : p_wrap P = false) n s : (1 <= n)%nat -> (forall t, patient P t) ->
  children_covered P -> inner_private P -> keeps_off P -> behaved P -> greach P n s -> stuck P s ->
  In (FBody None []) (frames s) ->
  (exists l, on_the_spot P None (p_main P) l) /\
  forall l S g m, on_the_spot P None (p_main P) l -> sensible S ->
  same_result (exec S (performed (log s)) g m) (exec S l g m).
Proof.
  intros N PA CC IP KO BH R ST Hm.
  destruct (gprogress P W NW n s N PA R ST) as (D & _ & is & F & _).
  assert (is = []). { rewrite F in Hm. destruct Hm as [Hm|[]]. now injection Hm. } subst is.
  apply (nested_done P W NW n s); auto; [now apply off_clear|]. intros t Ht. now apply D.
Qed.
