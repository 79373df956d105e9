(** Weak memory: the spin lock hands memory over; the condition variable. *)
From Coq Require Import Bool List Arith Lia.
From Verif Require Import RelaxModel.
Import ListNotations.

Lemma newest_app {A} (d : A) l x : newest d (l ++ [x]) = x.
Proof. unfold newest. apply last_last. Qed.
Lemma upd_same {A} (f : nat -> A) i x : upd f i x i = x.
Proof. unfold upd. now rewrite Nat.eqb_refl. Qed.
Lemma upd_other {A} (f : nat -> A) i j x : j <> i -> upd f i x j = f j.
Proof. unfold upd. intros H. destruct (j =? i) eqn:E; auto. apply Nat.eqb_eq in E. congruence. Qed.

(** ** Spin lock *)
Definition upto (s : slock) (v : view) : Prop := forall x, length (data s x) = S (v x).
Definition below (s : slock) (v : view) : Prop := forall x, v x < length (data s x).
Lemma top_app l m d t p : top (mkL (l ++ [m]) d t p) = m.
Proof. apply newest_app. Qed.
Record linv (s : slock) : Prop := mkLI {
  l_hold : fst (top s) = true -> exists i, pcs s i = In_;
  l_free : fst (top s) = false -> (forall i, pcs s i <> In_) /\ upto s (snd (top s));
  l_one : forall i j, pcs s i = In_ -> pcs s j = In_ -> i = j;
  l_tv : forall i, below s (tv s i);
  l_msg : below s (snd (top s));
  l_cur : forall i, pcs s i = In_ -> upto s (tv s i) }.

Lemma linv_step s a s' : linv s -> sl_step s a s' -> linv s'.
Proof.
  intros [H F O T M C] ST. destruct ST.
  - assert (ND : forall j, upd (pcs s) i Cas j = In_ -> pcs s j = In_).
    { intros j. unfold upd. destruct (j =? i); [discriminate|auto]. }
    constructor; simpl.
    + intros Q. destruct (H Q) as (j & P). exists j. rewrite upd_other; auto. congruence.
    + intros Q. destruct (F Q) as (A & B). split; auto. intros j P. apply (A j); auto.
    + intros j k P P'. exact (O j k (ND j P) (ND k P')).
    + exact T.
    + exact M.
    + intros j P. exact (C j (ND j P)).
  - destruct (F H1) as (A & B).
    assert (ND : forall j, upd (pcs s) i In_ j = In_ -> j = i).
    { intros j. unfold upd. destruct (j =? i) eqn:E; [now apply Nat.eqb_eq in E|intros P; exfalso; exact (A j P)]. }
    constructor; rewrite ?top_app; simpl.
    + intros _. exists i. apply upd_same.
    + discriminate.
    + intros j k P P'. now rewrite (ND j P), (ND k P').
    + intros j x. unfold upd. destruct (j =? i); [|apply T]. simpl. unfold join. specialize (B x). specialize (T i x). simpl. lia.
    + exact M.
    + intros j P. rewrite (ND j P), upd_same. intros x. simpl. unfold join. specialize (B x). specialize (T i x). lia.
  - assert (ND : forall j, upd (pcs s) i Spin j = In_ -> pcs s j = In_).
    { intros j. unfold upd. destruct (j =? i); [discriminate|auto]. }
    constructor; simpl.
    + intros Q. destruct (H Q) as (j & P). exists j. rewrite upd_other; auto. congruence.
    + intros Q. destruct (F Q) as (A & B). split; auto. intros j P. apply (A j); auto.
    + intros j k P P'. exact (O j k (ND j P) (ND k P')).
    + exact T.
    + exact M.
    + intros j P. exact (C j (ND j P)).
  - assert (ND : forall j, upd (pcs s) i (if b then Spin else Cas) j = In_ -> pcs s j = In_).
    { intros j. unfold upd. destruct (j =? i); [destruct b; discriminate|auto]. }
    constructor; simpl.
    + intros Q. destruct (H Q) as (j & P). exists j. rewrite upd_other; auto. congruence.
    + intros Q. destruct (F Q) as (A & B). split; auto. intros j P. apply (A j); auto.
    + intros j k P P'. exact (O j k (ND j P) (ND k P')).
    + exact T.
    + exact M.
    + intros j P. exact (C j (ND j P)).
  - assert (ND : forall j, upd (pcs s) i Out j <> In_).
    { intros j. unfold upd. destruct (j =? i) eqn:E; [discriminate|]. intros P. apply Nat.eqb_neq in E. apply E. auto. }
    constructor; rewrite ?top_app; simpl.
    + discriminate.
    + intros _. split; auto. exact (C i H0).
    + intros j k P. exfalso. exact (ND j P).
    + exact T.
    + exact (T i).
    + intros j P. exfalso. exact (ND j P).
  - assert (K : k = tv s i x).
    { specialize (C i H0 x). apply Nat.le_antisymm; auto. assert (L : k < length (data s x)) by (apply nth_error_Some; congruence). lia. }
    assert (U : forall y, upd (tv s i) x k y = tv s i y).
    { intros y. unfold upd. destruct (y =? x) eqn:E; auto. apply Nat.eqb_eq in E. congruence. }
    constructor; simpl; auto.
    + intros j y. unfold upd at 1. destruct (j =? i) eqn:E; [|apply T]. rewrite U. apply T.
    + intros j P y. simpl. unfold upd at 1. destruct (j =? i) eqn:E; [|now apply C]. rewrite U. now apply C.
  - assert (LD : forall y, length (upd (data s) x (data s x ++ [v]) y) = length (data s y) + if y =? x then 1 else 0).
    { intros y. unfold upd. destruct (y =? x) eqn:E; [apply Nat.eqb_eq in E; subst; rewrite app_length; simpl; lia|lia]. }
    constructor; simpl; auto.
    + intros Q. exfalso. destruct (F Q) as (A & _). exact (A i H0).
    + intros j y. simpl. rewrite LD. unfold upd at 1. destruct (j =? i) eqn:E.
      * unfold upd. destruct (y =? x) eqn:E'; [apply Nat.eqb_eq in E'; subst; lia|]. specialize (T i y). lia.
      * specialize (T j y). lia.
    + intros y. simpl. rewrite LD. specialize (M y). unfold top in *. simpl in *. lia.
    + intros j P. rewrite (O j i P H0), upd_same. intros y. simpl. rewrite LD. unfold upd.
      destruct (y =? x) eqn:E'; [apply Nat.eqb_eq in E'; subst; lia|]. specialize (C i H0 y). lia.
Qed.
Lemma linv_reach s t : sl_reach s t -> linv s.
Proof.
  induction 1; [|eapply linv_step; eauto]. constructor; try (simpl; discriminate).
  - intros _. split; [discriminate|]. intros x. reflexivity.
  - intros i x. simpl. apply Nat.lt_0_1.
  - intros x. simpl. apply Nat.lt_0_1.
Qed.

(** the last value written before, by whomever; 0 at the beginning *)
Fixpoint last_write (t : list slab) (x : nat) : nat :=
  match t with
  | [] => 0
  | LWrite _ y v :: t => if y =? x then v else last_write t x
  | _ :: t => last_write t x
  end.
Lemma data_last s t x : sl_reach s t -> newest 0 (data s x) = last_write t x.
Proof.
  induction 1 as [|s t a s' R IH ST]; [reflexivity|]. destruct ST; simpl; auto.
  unfold upd. rewrite (Nat.eqb_sym x0 x). destruct (x =? x0) eqn:E; auto. apply newest_app.
Qed.
Lemma newest_nth {A} (d : A) l : forall k v, length l = S k -> nth_error l k = Some v -> newest d l = v.
Proof.
  intros k v L N. destruct (exists_last (l := l)) as (l' & y & ->); [destruct l; discriminate|].
  rewrite newest_app. rewrite app_length in L. simpl in L. rewrite nth_error_app2 in N; [|lia].
  replace (k - length l') with 0 in N by lia. simpl in N. congruence.
Qed.
Lemma read_latest s t i x v s' : sl_reach s t -> sl_step s (LRead i x v) s' -> v = last_write t x.
Proof.
  intros R ST. inversion ST; subst. pose proof (l_cur s (linv_reach s t R) i H3 x) as C.
  rewrite <- (data_last s t x R). symmetry. apply (newest_nth 0 (data s x) (tv s i x)); auto.
  assert (L : k < length (data s x)) by (apply nth_error_Some; congruence).
  replace (tv s i x) with k by lia. auto.
Qed.

(** ** Condition variable *)
Lemma put_in {A} (l : list A) : forall i x y, nth_error l i = Some y -> In x (put l i x).
Proof. induction l as [|z l IH]; intros [|i] x y E; try discriminate; simpl; eauto. Qed.
Lemma put_keep {A} (l : list A) : forall i x y z, nth_error l i = Some y -> In z l -> z <> y -> In z (put l i x).
Proof.
  induction l as [|a l IH]; intros [|i] x y z E H N; try discriminate; simpl in *.
  - injection E as ->. destruct H; [congruence|auto].
  - destruct H; eauto.
Qed.
Lemma put_inv {A} (l : list A) : forall i x z, In z (put l i x) -> z = x \/ In z l.
Proof. induction l as [|a l IH]; intros [|i] x z H; simpl in *; auto. - destruct H; auto. - destruct H as [H|H]; auto. destruct (IH i x z H); auto. Qed.
Fixpoint tot {A} (f : A -> nat) (l : list A) : nat := match l with [] => 0 | x :: l => f x + tot f l end.
Lemma tot_put {A} (f : A -> nat) (l : list A) : forall i x y, nth_error l i = Some y -> tot f (put l i x) + f y = tot f l + f x.
Proof.
  induction l as [|z l IH]; intros [|i] x y E; try discriminate; simpl in *; [injection E as ->; lia|].
  specialize (IH i x y E). lia.
Qed.
Lemma tot_app {A} (f : A -> nat) l m : tot f (l ++ m) = tot f l + tot f m.
Proof. induction l as [|x l IH]; simpl; auto. rewrite IH. lia. Qed.
Lemma tot_in {A} (f : A -> nat) l x : In x l -> f x <= tot f l.
Proof. induction l as [|y l IH]; simpl; intros []; [subst; lia|]. specialize (IH H). lia. Qed.

Definition b2n (b : bool) := if b then 1 else 0.
Definition wholds (p : wpc) : bool := match p with WPred | WBlock | WUnlock => true | _ => false end.
Definition nholds (p : npc * nat) : nat := match fst p with NNotify | NUnlock => 1 | _ => 0 end.
(** has found the queue empty and not yet been told otherwise *)
Definition bound (p : wpc) : bool := match p with WGather | WReset => false | _ => true end.

Record cinv (s : cv) : Prop := mkCI {
  c_len : 0 < length (sw s);
  c_wv : wv s < length (sw s);
  c_mv : mv s < length (sw s);
  c_nv : forall p v, In (p, v) (ns s) -> v < length (sw s);
  c_mtx : b2n (wholds (pc s)) + tot nholds (ns s) = b2n (mtx s);
  c_hold : wholds (pc s) = true -> mv s <= wv s;
  (* work has not been overlooked *)
  c_work : bound (pc s) = true -> 0 < q s -> flag s = true -> exists v, In (NCas, v) (ns s);
  (* the lowered flag will be seen *)
  c_block : pc s = WBlock -> flag s = false -> In (NLock, length (sw s) - 1) (ns s);
  c_sleep : pc s = WAsleep -> flag s = false -> In (NLock, length (sw s) - 1) (ns s) \/ exists v, In (NNotify, v) (ns s);
  c_note : flag s = false -> (exists p, In (p, length (sw s) - 1) (ns s) /\ (p = NLock \/ p = NNotify \/ p = NUnlock))
            \/ mv s = length (sw s) - 1 \/ wv s = length (sw s) - 1 }.

Lemma flag_top s : flag s = false -> nth_error (sw s) (length (sw s) - 1) = Some false.
Proof.
  unfold flag, newest. intros F. destruct (exists_last (l := sw s)) as (l & b & E); [intros E; rewrite E in F; discriminate|].
  rewrite E in *. rewrite last_last in F. subst b. rewrite app_length. simpl. rewrite nth_error_app2; [|lia].
  replace (length l + 1 - 1 - length l) with 0 by lia. reflexivity.
Qed.
Lemma flag_app s b v m x k p l : flag (mkC (sw s ++ [b]) v m x k p l) = b.
Proof. apply newest_app. Qed.

Lemma cinv_init : cinv cv_init.
Proof. constructor; simpl; try discriminate; auto; try contradiction; lia. Qed.

Lemma cinv_worker s s' : cinv s -> wstep s s' -> cinv s'.
Proof.
  intros [LN WV MV NV MX HO WO BL SL NO] ST. destruct ST.
  - rewrite H in *. constructor; simpl; auto; discriminate.
  - rewrite H in *. constructor; simpl; auto; try discriminate. intros _ Q. lia.
  - assert (K : k < length (sw s)) by (apply nth_error_Some; congruence).
    rewrite H in *. destruct b; constructor; simpl; auto; try discriminate;
      intros F; destruct (NO F) as [N|[N|N]]; auto; right; right; lia.
  - assert (WP : wholds (pc s) = false) by (destruct H as [-> | ->]; auto).
    assert (BP : bound (pc s) = true) by (destruct H as [-> | ->]; auto).
    rewrite WP, H0 in MX. simpl in MX.
    constructor; simpl; auto; try discriminate; try lia.
    intros F. destruct (NO F) as [N|[N|N]]; auto. right; right. simpl in *. lia.
  - assert (K : k < length (sw s)) by (apply nth_error_Some; congruence).
    assert (NT : mtx s = true -> forall p v, In (p, v) (ns s) -> p <> NNotify /\ p <> NUnlock).
    { rewrite H in MX. simpl in MX. intros X p v IN. rewrite X in MX. simpl in MX.
      pose proof (tot_in nholds (ns s) (p, v) IN) as TI. destruct p; unfold nholds at 1 in TI; simpl in TI; split; congruence || lia. }
    assert (X : mtx s = true) by (rewrite H in MX; simpl in MX; destruct (mtx s); auto; simpl in MX; lia).
    rewrite H in *. specialize (HO eq_refl). simpl in MX.
    destruct b; constructor; simpl; auto; try discriminate; try lia.
    + intros _ F. change (flag (wset s k WBlock)) with (flag s) in F.
      assert (KL : k <> length (sw s) - 1) by (intros ->; rewrite (flag_top s F) in H1; discriminate).
      destruct (NO F) as [(p & IN & N)|[N|N]]; try lia. destruct (NT X p _ IN) as (A & B). destruct N as [->|[->| ->]]; auto; congruence.
    + intros F. destruct (NO F) as [N|[N|N]]; auto. right; right. simpl in *. lia.
    + intros F. destruct (NO F) as [N|[N|N]]; auto. right; right. simpl in *. lia.
  - rewrite H in *. assert (X : mtx s = true) by (simpl in MX; destruct (mtx s); auto; simpl in MX; lia). rewrite X in MX. simpl in MX.
    specialize (HO eq_refl).
    constructor; simpl; auto; try discriminate; try lia.
    intros F. destruct (NO F) as [N|[N|N]]; auto; simpl in *; lia.
  - rewrite H in *. assert (X : mtx s = true) by (simpl in MX; destruct (mtx s); auto; simpl in MX; lia). rewrite X in MX. simpl in MX.
    specialize (HO eq_refl).
    constructor; simpl; auto; try discriminate; try lia.
    intros F. destruct (NO F) as [N|[N|N]]; auto; simpl in *; lia.
  - rewrite H in *. constructor; simpl; rewrite ?app_length; simpl; auto; try discriminate; try lia.
    + intros p v IN. specialize (NV p v IN). lia.
Qed.

Lemma cinv_note s l s' : cinv s -> nstep s l s' -> l <> LStale -> cinv s'.
Proof.
  intros [LN WV MV NV MX HO WO BL SL NO] ST NS.
  assert (PI : forall i p v n, nth_error (ns s) i = Some n -> forall p' v', In (p', v') (put (ns s) i (p, v)) -> v < length (sw s) -> v' < length (sw s)).
  { intros i p v n E p' v' IN L. apply put_inv in IN as [[= -> ->]|IN]; auto. eapply NV; eauto. }
  destruct ST.
  - assert (TP := tot_put nholds (ns s) i (NCas, v) _ H). unfold nholds in TP at 2 4. simpl in TP.
    assert (KP := fun z => put_keep (ns s) i (NCas, v) _ z H).
    assert (V := NV _ _ (nth_error_In _ _ H)).
    constructor; simpl; auto.
    + intros p v' IN. eapply PI; eauto.
    + lia.
    + intros _ _ _. exists v. eapply put_in; eauto.
    + intros P F. apply KP; auto; discriminate.
    + intros P F. destruct (SL P F) as [N|(x & N)]; [left|right; exists x]; apply KP; auto; discriminate.
    + intros F. destruct (NO F) as [(p & IN & N)|N]; auto. left. exists p. split; auto. apply KP; auto. destruct N as [->|[->| ->]]; discriminate.
  - assert (TP := tot_put nholds (ns s) i (NLock, length (sw s)) _ H). unfold nholds in TP at 2 4. simpl in TP.
    assert (KP := fun z => put_keep (ns s) i (NLock, length (sw s)) _ z H).
    assert (PN := put_in (ns s) i (NLock, length (sw s)) _ H).
    constructor; simpl; rewrite ?app_length; simpl; try lia; auto.
    + intros p v' IN. apply put_inv in IN as [[= -> ->]|IN]; [lia|]. specialize (NV _ _ IN). lia.
    + intros _ _ F. rewrite flag_app in F. discriminate.
    + intros P F. replace (length (sw s) + 1 - 1) with (length (sw s)) by lia. auto.
    + intros P F. left. replace (length (sw s) + 1 - 1) with (length (sw s)) by lia. auto.
    + intros F. left. replace (length (sw s) + 1 - 1) with (length (sw s)) by lia. exists NLock. auto.
  - destruct (flag s) eqn:FL; [congruence|].
    assert (TP := tot_put nholds (ns s) i (NLock, k) _ H). unfold nholds in TP at 2 4. simpl in TP.
    assert (KP := fun z => put_keep (ns s) i (NLock, k) _ z H).
    assert (K : k < length (sw s)) by (apply nth_error_Some; congruence).
    constructor; simpl; auto.
    + intros p v' IN. eapply PI; eauto.
    + lia.
    + intros _ _ F. change (flag (nset s i NLock k)) with (flag s) in F. congruence.
    + intros P F. apply KP; auto; discriminate.
    + intros P F. destruct (SL P eq_refl) as [N|(x & N)]; [left|right; exists x]; apply KP; auto; discriminate.
    + intros F. destruct (NO eq_refl) as [(p & IN & N)|N]; auto. left. exists p. split; auto. apply KP; auto. destruct N as [->|[->| ->]]; discriminate.
  - assert (TP := tot_put nholds (ns s) i (NNotify, Nat.max v (mv s)) _ H). unfold nholds in TP at 2 4. simpl in TP.
    assert (KP := fun z => put_keep (ns s) i (NNotify, Nat.max v (mv s)) _ z H).
    assert (PN := put_in (ns s) i (NNotify, Nat.max v (mv s)) _ H).
    assert (V := NV _ _ (nth_error_In _ _ H)). rewrite H0 in MX. simpl in MX.
    assert (WH : wholds (pc s) = false) by (destruct (wholds (pc s)); auto; simpl in MX; lia).
    constructor; simpl; auto.
    + intros p v' IN. eapply PI; eauto. lia.
    + lia.
    + intros B Q F. destruct (WO B Q F) as (x & N). exists x. apply KP; auto; discriminate.
    + intros P. rewrite P in WH. discriminate.
    + intros P F. right. eauto.
    + intros F. destruct (NO F) as [(p & IN & N)|N]; auto. left.
      destruct (Nat.eq_dec v (length (sw s) - 1)) as [Ev|Ev].
      * exists NNotify. split; auto. replace (length (sw s) - 1) with (Nat.max v (mv s)) by lia. auto.
      * exists p. split; auto. apply KP; auto. intros [= -> E]. auto.
  - assert (TP := tot_put nholds (ns s) i (NUnlock, v) _ H). unfold nholds in TP at 2 4. simpl in TP.
    assert (KP := fun z => put_keep (ns s) i (NUnlock, v) _ z H).
    assert (PN := put_in (ns s) i (NUnlock, v) _ H).
    assert (V := NV _ _ (nth_error_In _ _ H)).
    assert (MH : wholds (match pc s with WAsleep => WRelock | p => p end) = wholds (pc s)) by (destruct (pc s); auto).
    assert (BH : bound (match pc s with WAsleep => WRelock | p => p end) = bound (pc s)) by (destruct (pc s); auto).
    constructor; simpl; rewrite ?MH, ?BH; auto.
    + intros p v' IN. eapply PI; eauto.
    + lia.
    + intros B Q F. destruct (WO B Q F) as (x & N). exists x. apply KP; auto; discriminate.
    + intros P F. apply KP; [|discriminate]. apply BL; auto. destruct (pc s); auto; discriminate.
    + intros P. destruct (pc s); discriminate.
    + intros F. destruct (NO F) as [(p & IN & N)|N]; auto. left.
      destruct (Nat.eq_dec v (length (sw s) - 1)) as [Ev|Ev].
      * exists NUnlock. split; auto. now rewrite <- Ev.
      * exists p. split; auto. apply KP; auto. congruence.
  - assert (TP := tot_put nholds (ns s) i (NDone, v) _ H). unfold nholds in TP at 2 4. simpl in TP.
    assert (KP := fun z => put_keep (ns s) i (NDone, v) _ z H).
    assert (V := NV _ _ (nth_error_In _ _ H)).
    assert (TI := tot_in nholds (ns s) _ (nth_error_In _ _ H)). unfold nholds in TI at 1. simpl in TI.
    assert (X : mtx s = true /\ wholds (pc s) = false) by (destruct (mtx s), (wholds (pc s)); simpl in MX; auto; lia).
    destruct X as (X & WH). rewrite X, WH in MX. simpl in MX.
    constructor; simpl; auto.
    + lia.
    + intros p v' IN. eapply PI; eauto.
    + rewrite WH. simpl. lia.
    + congruence.
    + intros B Q F. destruct (WO B Q F) as (x & N). exists x. apply KP; auto; discriminate.
    + intros P F. apply KP; [|discriminate]. apply BL; auto.
    + intros P F. destruct (SL P F) as [N|(x & N)]; [left|right; exists x]; apply KP; auto; discriminate.
    + intros F. destruct (NO F) as [(p & IN & N)|N]; [|right; lia].
      destruct (Nat.eq_dec v (length (sw s) - 1)) as [Ev|Ev]; [right; left; lia|].
      left. exists p. split; auto. apply KP; auto. congruence.
Qed.

Lemma cinv_step s l s' : cinv s -> step s l s' -> fresh l -> cinv s'.
Proof.
  intros I ST F. destruct ST; [eapply cinv_worker; eauto|eapply cinv_note; eauto| |].
  - destruct I as [LN WV MV NV MX HO WO BL SL NO]. constructor; simpl; auto.
    + intros p v' IN. apply in_app_or in IN as [IN|[[= <- <-]|[]]]; auto. eapply NV; eauto.
    + rewrite tot_app. simpl. lia.
    + intros B Q FL. destruct (WO B Q FL) as (x & N). exists x. apply in_or_app; auto.
    + intros P FL. apply in_or_app; auto.
    + intros P FL. destruct (SL P FL) as [N|(x & N)]; [left|right; exists x]; apply in_or_app; auto.
    + intros FL. destruct (NO FL) as [(p & IN & N)|N]; auto. left. exists p. split; auto. apply in_or_app; auto.
  - destruct I as [LN WV MV NV MX HO WO BL SL NO]. rewrite H in *. constructor; simpl; auto; discriminate.
Qed.
Lemma cinv_reach s : reach fresh s -> cinv s.
Proof. induction 1; [apply cinv_init|eapply cinv_step; eauto]. Qed.

Lemma quiet_done s : cinv s -> quiet s -> mtx s = wholds (pc s).
Proof.
  intros I (Q1 & Q2). pose proof (c_mtx s I) as M.
  assert (N : forall p v, In (p, v) (ns s) -> nholds (p, v) = 0).
  { intros p v IN. destruct (In_nth_error _ _ IN) as (i & E). destruct p; auto; exfalso; eapply Q2.
    - eapply n_notify; eauto.
    - eapply n_unlock; eauto. }
  assert (T : tot nholds (ns s) = 0).
  { clear -N. induction (ns s) as [|[p v] l IH]; simpl; auto. rewrite (N p v); simpl; auto. apply IH. intros p' v' IN. apply N. simpl; auto. }
  rewrite T in M. destruct (mtx s), (wholds (pc s)); simpl in M; auto; lia.
Qed.
Lemma wv_value s : cinv s -> exists b, nth_error (sw s) (wv s) = Some b.
Proof.
  intros I. pose proof (c_wv s I). destruct (nth_error (sw s) (wv s)) eqn:E; eauto. apply nth_error_None in E. lia.
Qed.
Lemma quiet_sleeps s : cinv s -> quiet s -> pc s = WAsleep.
Proof.
  intros I Q. pose proof (quiet_done s I Q) as MT. destruct (wv_value s I) as (b & B). destruct Q as (Q1 & Q2).
  destruct (pc s) eqn:P; auto; exfalso; simpl in MT.
  - destruct (q s) eqn:QQ; eapply Q1; [apply w_empty|eapply w_take]; eauto.
  - eapply Q1. eapply w_spin; eauto.
  - eapply Q1. eapply w_lock; eauto.
  - eapply Q1. eapply w_pred; eauto.
  - eapply Q1. eapply w_block; eauto.
  - eapply Q1. eapply w_lock; eauto.
  - eapply Q1. eapply w_unlock; eauto.
  - eapply Q1. eapply w_reset; eauto.
Qed.
Lemma quiet_no_work s : cinv s -> quiet s -> q s = 0.
Proof.
  intros I Q. pose proof (quiet_sleeps s I Q) as P. pose proof (quiet_done s I Q) as MT. rewrite P in MT. simpl in MT.
  destruct (q s) as [|k] eqn:QQ; auto. exfalso. destruct Q as (Q1 & Q2).
  destruct (flag s) eqn:F.
  - destruct (c_work s I) as (v & IN); auto; [now rewrite P|lia|]. destruct (In_nth_error _ _ IN) as (i & E).
    eapply Q2. eapply n_cas; eauto.
  - destruct (c_sleep s I P F) as [IN|(v & IN)]; destruct (In_nth_error _ _ IN) as (i & E); eapply Q2; [eapply n_lock|eapply n_notify]; eauto.
Qed.
