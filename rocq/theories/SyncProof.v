(** Spin lock, condition variable, worker loop: proofs. *)
From Coq Require Import Bool List Arith NArith Lia Permutation.
From Verif Require Import SyncModel.
Import ListNotations.

Lemma upd_len {A} (l : list A) : forall i x, length (upd l i x) = length l.
Proof. induction l as [|y l IH]; intros [|i] x; simpl; auto. Qed.
Lemma upd_same {A} (l : list A) : forall i x y, nth_error l i = Some y -> nth_error (upd l i x) i = Some x.
Proof. induction l as [|z l IH]; intros [|i] x y H; simpl in *; try discriminate; eauto. Qed.
Lemma upd_other {A} (l : list A) : forall i j x, i <> j -> nth_error (upd l i x) j = nth_error l j.
Proof. induction l as [|z l IH]; intros [|i] [|j] x H; simpl in *; auto; try congruence. Qed.
Lemma upd_in {A} (l : list A) : forall i x y, nth_error l i = Some y -> In x (upd l i x).
Proof. intros i x y H. eapply nth_error_In. eapply upd_same. eauto. Qed.
Lemma upd_keep {A} (l : list A) : forall i x y z, nth_error l i = Some y -> In z l -> z <> y -> In z (upd l i x).
Proof.
  intros i x y z H I D. apply In_nth_error in I as (j & J). destruct (Nat.eq_dec i j) as [->|N]; [congruence|].
  eapply nth_error_In. rewrite upd_other; eauto.
Qed.

(** number of elements satisfying [p] *)
Fixpoint cnt {A} (p : A -> bool) (l : list A) : nat :=
  match l with [] => 0 | x :: l => (if p x then 1 else 0) + cnt p l end.
Lemma cnt_app {A} (p : A -> bool) l l' : cnt p (l ++ l') = cnt p l + cnt p l'.
Proof. induction l; simpl; lia. Qed.
Lemma cnt_upd {A} (p : A -> bool) (l : list A) : forall i x y, nth_error l i = Some y ->
  cnt p (upd l i x) + (if p y then 1 else 0) = cnt p l + (if p x then 1 else 0).
Proof.
  induction l as [|z l IH]; intros [|i] x y H; simpl in *; try discriminate.
  - injection H as ->. lia.
  - specialize (IH i x y H). lia.
Qed.
Lemma cnt_pos {A} (p : A -> bool) l x : In x l -> p x = true -> 0 < cnt p l.
Proof. induction l as [|y l IH]; simpl; intros H Q; [easy|]. destruct H as [->|H]; [rewrite Q; lia|specialize (IH H Q); lia]. Qed.
Lemma cnt_nth {A} (p : A -> bool) (l : list A) : forall i j x y, nth_error l i = Some x -> nth_error l j = Some y -> i <> j ->
  p x = true -> p y = true -> 2 <= cnt p l.
Proof.
  induction l as [|z l IH]; intros [|i] [|j] x y Hi Hj D Px Py; simpl in *; try discriminate; try congruence.
  - injection Hi as ->. rewrite Px. pose proof (cnt_pos p l y (nth_error_In _ _ Hj) Py). lia.
  - injection Hj as ->. rewrite Py. pose proof (cnt_pos p l x (nth_error_In _ _ Hi) Px). lia.
  - specialize (IH i j x y Hi Hj ltac:(congruence) Px Py). lia.
Qed.

(** ** Spin lock *)
Definition isin (p : spc) : bool := match p with SIn => true | _ => false end.
(** holder after a history *)
Fixpoint holder (l : list (nat * bool)) (h : option nat) : option (option nat) :=
  match l with
  | [] => Some h
  | (i, true) :: l => match h with None => holder l (Some i) | Some _ => None end
  | (i, false) :: l => match h with Some j => if i =? j then holder l None else None | None => None end
  end.
Lemma holder_app l : forall h l', holder (l ++ l') h = match holder l h with Some h' => holder l' h' | None => None end.
Proof.
  induction l as [|[i []] l IH]; intros h l'; simpl; auto; destruct h; auto. destruct (i =? n); auto.
Qed.
Definition sl_inv (s : slock) : Prop :=
  exists h, holder (sl_log s) None = Some h /\
  (forall i, nth_error (sl_pc s) i = Some SIn <-> h = Some i) /\
  sl_state s = match h with Some _ => true | None => false end.
Lemma sl_inv_reach n s : sl_reach n s -> sl_inv s.
Proof.
  induction 1 as [|s i weak s' R IH E].
  - exists None. simpl. split; auto. split; auto. intros i. split; [|discriminate]. intros H. apply nth_error_In, repeat_spec in H. discriminate.
  - destruct IH as (h & Hh & Hp & Hs). unfold sl_step in E. destruct (nth_error (sl_pc s) i) as [p|] eqn:P; [|discriminate].
    assert (Keep : forall q, q <> SIn -> p <> SIn -> forall j, nth_error (upd (sl_pc s) i q) j = Some SIn <-> h = Some j).
    { intros q Q1 Q2 j. rewrite <- Hp. destruct (Nat.eq_dec i j) as [<-|D]; [|now rewrite upd_other].
      rewrite (upd_same _ _ _ _ P), P. split; congruence. }
    destruct p; [| destruct (sl_state s) eqn:St; simpl in E; [|destruct weak; simpl in E] | |]; injection E as <-; unfold sl_inv; simpl.
    + exists h. split; auto. split; auto. apply Keep; discriminate.
    + exists h. split; auto. split; auto. apply Keep; discriminate.
    + exists h. split; auto. split; auto. apply Keep; discriminate.
    + destruct h as [h|]; [discriminate|]. exists (Some i). split; [now rewrite holder_app, Hh|]. split; auto.
      intros j. destruct (Nat.eq_dec i j) as [<-|D].
      * rewrite (upd_same _ _ _ _ P). tauto.
      * rewrite upd_other by auto. rewrite Hp. split; [discriminate|congruence].
    + exists h. split; auto. split; auto. apply Keep; [destruct (sl_state s); discriminate|discriminate].
    + assert (h = Some i) as -> by now apply Hp. exists None. split; [rewrite holder_app, Hh; simpl; now rewrite Nat.eqb_refl|]. split; auto.
      intros j. split; [|discriminate]. destruct (Nat.eq_dec i j) as [<-|D].
      * rewrite (upd_same _ _ _ _ P). discriminate.
      * rewrite upd_other by auto. rewrite Hp. congruence.
Qed.

(** ** Condition variable and worker loop *)
Definition holds (p : wpc) : bool := match p with WPred _ | WBlock _ | WUnlock _ => true | _ => false end.
Definition nholds (p : ppc) : bool := match p with PNotify | PUnlock => true | _ => false end.
Definition b2n (b : bool) : nat := if b then 1 else 0.
(** inside [cv.wait()] *)
Definition waiting (p : wpc) : bool :=
  match p with WSpin _ | WLoad _ | WLock _ | WPred _ | WBlock _ | WAsleep _ | WRelock _ | WUnlock _ | WStore => true | _ => false end.

Definition pushes (h : list hev) : list nat := flat_map (fun e => match e with HPush t => [t] | _ => [] end) h.
Definition takes (h : list hev) : list nat := flat_map (fun e => match e with HTake _ t => [t] | _ => [] end) h.
Definition isnote (e : hev) : bool := match e with HNotify true => true | _ => false end.
Definition isret (e : hev) : bool := match e with HReturn => true | _ => false end.

Record inv (T : N) (s : st) : Prop := mkInv {
  i_mtx : b2n (holds (pc s)) + cnt nholds (ns s) = b2n (mtx s);
  i_sleep : (exists n, pc s = WBlock n \/ pc s = WAsleep n) -> sw s = false -> In PLock (ns s) \/ In PNotify (ns s);
  i_store : (pc s = WStore \/ exists n, pc s = WUnlock n) -> sw s = false;
  i_count : forall n, pc s = WSpin n -> (n <= T)%N \/ sw s = false;
  i_rq : rq s <> [] -> sw s = true -> match pc s with GReady | WExec _ | LEnd => False | _ => True end -> In PCas (ns s);
  i_eq : eq_ s <> [] -> sw s = true -> match pc s with GReady | GEmpl | WExec _ | LEnd => False | _ => True end -> In PCas (ns s);
  i_stop : stopf s = true -> sw s = true -> waiting (pc s) = true -> In PCas (ns s);
  i_note : cnt isnote (hist s) = cnt isret (hist s) + b2n (negb (sw s));
  i_items : Permutation (pushes (hist s)) (takes (hist s) ++ rq s ++ eq_ s)
}.

Lemma take_spec k l : match take k l with
  | Some (t, q) => Permutation l (t :: q)
  | None => l = []
  end.
Proof.
  revert k. induction l as [|x l IH]; intros k; [destruct k; reflexivity|]. simpl. destruct k as [|k]; [apply Permutation_refl|].
  specialize (IH k). simpl. destruct (take k l) as [[y l']|]; auto. rewrite IH. apply perm_swap.
Qed.
Lemma take_nil k l t q : take k l = Some (t, q) -> l <> [].
Proof. intros H ->. discriminate. Qed.

Ltac hy := unfold pushes, takes in *; rewrite ?flat_map_app in *; simpl in *; rewrite ?app_nil_r in *.

Lemma perm_take (a : list nat) l r t q : Permutation l (t :: q) -> Permutation (a ++ l ++ r) ((a ++ [t]) ++ q ++ r).
Proof.
  intros H. rewrite <- app_assoc. apply Permutation_app_head. rewrite H. simpl. apply perm_skip. reflexivity.
Qed.
Lemma perm_take2 (a : list nat) l r t q : Permutation r (t :: q) -> Permutation (a ++ l ++ r) ((a ++ [t]) ++ l ++ q).
Proof.
  intros H. rewrite <- app_assoc. apply Permutation_app_head. rewrite H. simpl. symmetry. apply Permutation_middle.
Qed.

Ltac triv := auto; try easy; try (intros; discriminate); try (intros [? [?|?]]; discriminate); try (intros [?|[? ?]]; discriminate).
Lemma inv_init T : inv T init.
Proof. constructor; simpl; triv. Qed.

Lemma inv_worker T c s s' : inv T s -> wstep T c s = Some s' -> inv T s'.
Proof.
  intros I E. destruct I as [M SL SR CT RQ EQ SP NO IT].
  unfold wstep in E. destruct (pc s) eqn:P; simpl in *.
  - (* LCheck *)
    destruct (stopf s) eqn:ST; injection E as <-; constructor; simpl; triv.
    + rewrite !cnt_app. simpl. lia.
    + hy. auto.
    + intros n H. injection H as <-. left. lia.
    + congruence.
  - (* WSpin *)
    destruct (sw s) eqn:W; [destruct (T <? incr c0)%N eqn:Q|]; injection E as <-; constructor; simpl; triv; try congruence.
    intros n H. injection H as <-. apply N.ltb_ge in Q. auto.
  - (* WLoad *)
    destruct (sw s) eqn:W; injection E as <-; constructor; simpl; rewrite ?W; triv; try congruence.
  - (* WLock *)
    destruct (mtx s) eqn:MX; [discriminate|]. injection E as <-. constructor; simpl in *; triv.
  - (* WPred *)
    destruct (sw s) eqn:W; injection E as <-; constructor; simpl; rewrite ?W; triv; try congruence.
  - (* WBlock *)
    injection E as <-. constructor; simpl; auto; try easy; try (intros; discriminate);
      try (intros [H|[n H]]; discriminate).
    + destruct (mtx s); simpl in *; lia.
    + intros _ W. apply SL; eauto.
  - discriminate.
  - (* WRelock *)
    destruct (mtx s) eqn:MX; [discriminate|]. injection E as <-. constructor; simpl in *; triv.
  - (* WUnlock *)
    assert (W : sw s = false) by eauto. injection E as <-. constructor; simpl; triv.
    destruct (mtx s); simpl in *; lia.
  - (* WStore *)
    assert (W : sw s = false) by auto. injection E as <-. constructor; simpl; triv.
    + rewrite !cnt_app, NO, W. simpl. lia.
    + hy. auto.
  - (* GReady *)
    destruct c as [|t|k|k r]; try discriminate. pose proof (take_spec k (rq s)) as TS. destruct (take k (rq s)) as [[t q]|] eqn:TK.
    + injection E as <-. constructor; simpl; triv.
      * rewrite !cnt_app. simpl. lia.
      * hy. rewrite IT. now apply perm_take.
    + injection E as <-. constructor; simpl; triv.
  - (* GEmpl *)
    destruct c as [|t|k|k r]; try discriminate. pose proof (take_spec k (eq_ s)) as TS. destruct (take k (eq_ s)) as [[t q]|] eqn:TK.
    + injection E as <-. destruct r; (constructor; simpl; triv; [rewrite !cnt_app; simpl; lia|hy; rewrite IT; now apply perm_take2]).
    + injection E as <-. constructor; simpl; triv.
  - (* GSteal *)
    destruct c as [|t|k|k r].
    + injection E as <-. constructor; simpl; triv.
    + injection E as <-. constructor; simpl; triv.
    + pose proof (take_spec k (rq s)) as TS. destruct (take k (rq s)) as [[t q]|] eqn:TK; [|discriminate].
      injection E as <-. constructor; simpl; triv.
      * rewrite !cnt_app. simpl. lia.
      * hy. rewrite IT. now apply perm_take.
    + pose proof (take_spec k (eq_ s)) as TS. destruct (take k (eq_ s)) as [[t q]|] eqn:TK; [|discriminate].
      assert (NN := take_nil _ _ _ _ TK).
      injection E as <-. destruct r; (constructor; simpl; triv; [rewrite !cnt_app; simpl; lia|hy; rewrite IT; now apply perm_take2]).
  - (* WExec *)
    injection E as <-. constructor; simpl; triv.
  - discriminate.
Qed.

Lemma inv_notifier T i s s' : inv T s -> nstep i s = Some s' -> inv T s'.
Proof.
  intros I E. destruct I as [M SL SR CT RQ EQ SP NO IT]. unfold nstep in E.
  destruct (nth_error (ns s) i) as [p|] eqn:P; [|discriminate].
  pose proof (fun x => cnt_upd nholds (ns s) i x p P) as CN.
  pose proof (fun x => upd_in (ns s) i x p P) as UI.
  pose proof (fun x z => upd_keep (ns s) i x p z P) as UK.
  destruct p as [[t|t| |]| | | | |]; try discriminate.
  - injection E as <-. specialize (CN PCas). simpl in CN. constructor; simpl; auto; try lia.
    + intros A B. destruct (SL A B) as [Q|Q]; [left|right]; apply UK; auto; discriminate.
    + rewrite !cnt_app. simpl. lia.
    + hy. rewrite IT, <- !app_assoc. apply Permutation_app_head, Permutation_app_head, Permutation_app_comm.
  - injection E as <-. specialize (CN PCas). simpl in CN. constructor; simpl; auto; try lia.
    + intros A B. destruct (SL A B) as [Q|Q]; [left|right]; apply UK; auto; discriminate.
    + rewrite !cnt_app. simpl. lia.
    + hy. rewrite IT, <- !app_assoc. reflexivity.
  - injection E as <-. specialize (CN PCas). simpl in CN. constructor; simpl; auto; try lia.
    intros A B. destruct (SL A B) as [Q|Q]; [left|right]; apply UK; auto; discriminate.
  - injection E as <-. specialize (CN PCas). simpl in CN. constructor; simpl; auto; try lia.
    intros A B. destruct (SL A B) as [Q|Q]; [left|right]; apply UK; auto; discriminate.
  - injection E as <-. specialize (CN PLock). simpl in CN. constructor; simpl; auto; try lia; try discriminate.
    + rewrite !cnt_app, NO. simpl. destruct (sw s); simpl; lia.
    + hy. auto.
  - destruct (mtx s) eqn:MX; [discriminate|]. injection E as <-. specialize (CN PNotify). simpl in CN, M. constructor; simpl; auto; try lia.
    + intros A B C. apply UK; auto; discriminate.
    + intros A B C. apply UK; auto; discriminate.
    + intros A B C. apply UK; auto; discriminate.
  - assert (MX : holds (pc s) = false).
    { pose proof (cnt_pos nholds (ns s) PNotify (nth_error_In _ _ P) eq_refl). destruct (holds (pc s)), (mtx s); simpl in M; auto; lia. }
    injection E as <-. specialize (CN PUnlock). simpl in CN. constructor; simpl; auto.
    + destruct (pc s); simpl in *; lia.
    + destruct (pc s); try (intros (n & [Q|Q]); discriminate).
    + destruct (pc s); auto; intros [Q|[n Q]]; discriminate.
    + destruct (pc s); auto; intros n Q; try discriminate.
    + intros A B C. apply UK; [|discriminate]. apply RQ; auto. now destruct (pc s).
    + intros A B C. apply UK; [|discriminate]. apply EQ; auto. now destruct (pc s).
    + intros A B C. apply UK; [|discriminate]. apply SP; auto. now destruct (pc s).
  - injection E as <-. specialize (CN PDone). simpl in CN.
    pose proof (cnt_pos nholds (ns s) PUnlock (nth_error_In _ _ P) eq_refl). constructor; simpl; auto.
    + destruct (mtx s); simpl in *; lia.
    + intros A B. destruct (SL A B) as [Q|Q]; [left|right]; apply UK; auto; discriminate.
    + intros A B C. apply UK; auto; discriminate.
    + intros A B C. apply UK; auto; discriminate.
    + intros A B C. apply UK; auto; discriminate.
Qed.

Lemma inv_step T m s s' : inv T s -> step T m s = Some s' -> inv T s'.
Proof.
  intros I E. destruct m as [c| |k|i|[] k]; simpl in E.
  - eauto using inv_worker.
  - destruct I as [M SL SR CT RQ EQ SP NO IT]. destruct (pc s) eqn:P; try discriminate. injection E as <-.
    constructor; simpl in *; triv.
  - destruct I as [M SL SR CT RQ EQ SP NO IT]. injection E as <-. constructor; simpl; auto.
    + rewrite cnt_app. simpl. lia.
    + intros A B. rewrite !in_app_iff. destruct (SL A B); auto.
    + intros A B C. rewrite in_app_iff. auto.
    + intros A B C. rewrite in_app_iff. auto.
    + intros A B C. rewrite in_app_iff. auto.
  - eauto using inv_notifier.
  - destruct I as [M SL SR CT RQ EQ SP NO IT]. pose proof (take_spec k (rq s)) as TS. destruct (take k (rq s)) as [[t q]|] eqn:TK; [|discriminate].
    assert (NN := take_nil _ _ _ _ TK). injection E as <-. constructor; simpl; auto.
    + rewrite !cnt_app. simpl. lia.
    + hy. rewrite IT. now apply perm_take.
  - destruct I as [M SL SR CT RQ EQ SP NO IT]. pose proof (take_spec k (eq_ s)) as TS. destruct (take k (eq_ s)) as [[t q]|] eqn:TK; [|discriminate].
    assert (NN := take_nil _ _ _ _ TK). injection E as <-. constructor; simpl; auto.
    + rewrite !cnt_app. simpl. lia.
    + hy. rewrite IT. now apply perm_take2.
Qed.
Lemma inv_reach T s : reach T s -> inv T s.
Proof. induction 1; eauto using inv_init, inv_step. Qed.

(** *** Progress *)
(** no thread that exists can take a step of its own *)
Definition quiet (T : N) (s : st) : Prop := (forall c, wstep T c s = None) /\ forall i, nstep i s = None.

Lemma quiet_notifiers T s : inv T s -> quiet T s -> mtx s = false /\ (forall p, In p (ns s) -> p = PDone).
Proof.
  intros I [QW QN].
  assert (A : forall p, In p (ns s) -> p = PDone \/ (p = PLock /\ mtx s = true)).
  { intros p H. apply In_nth_error in H as (i & H). specialize (QN i). unfold nstep in QN. rewrite H in QN.
    destruct p as [[]| | | | |]; try discriminate; auto. destruct (mtx s); [auto|discriminate]. }
  assert (B : mtx s = false).
  { destruct (mtx s) eqn:MX; auto. assert (M := i_mtx _ _ I). rewrite MX in M.
    assert (C : cnt nholds (ns s) = 0).
    { clear - A. induction (ns s) as [|p l IH]; auto. simpl. rewrite IH by (intros; apply A; now right).
      destruct (A p (or_introl eq_refl)) as [->|[-> _]]; auto. }
    destruct (holds (pc s)) eqn:Hd; [|simpl in M; lia]. specialize (QW CNone). unfold wstep in QW. destruct (pc s); discriminate. }
  split; auto. intros p H. destruct (A p H) as [?|[_ ?]]; auto. congruence.
Qed.

Lemma quiet_worker T s : inv T s -> quiet T s ->
  pc s = LEnd \/ exists n, pc s = WAsleep n /\ sw s = true.
Proof.
  intros I Q. destruct (quiet_notifiers T s I Q) as [MX ND]. destruct Q as [QW QN].
  assert (SL := i_sleep _ _ I).
  pose proof (QW CNone) as Q1. pose proof (QW (CReady 0)) as Q2. pose proof (QW (CEmpl 0 true)) as Q3. clear QW. unfold wstep in *.
  destruct (pc s) eqn:P; auto; try (exfalso; clear SL; rewrite ?MX in *; discriminate).
  - exfalso. destruct (stopf s); discriminate.
  - exfalso. destruct (sw s), (T <? incr c)%N; discriminate.
  - right. exists c. split; auto. destruct (sw s) eqn:W; auto. exfalso. destruct (SL (ex_intro _ c (or_intror eq_refl)) eq_refl) as [H|H]; apply ND in H; discriminate.
  - exfalso. destruct (take 0 (rq s)) as [[]|]; discriminate.
  - exfalso. destruct (take 0 (eq_ s)) as [[]|]; discriminate.
Qed.
Lemma quiet_no_work T s : inv T s -> quiet T s -> pc s <> LEnd -> rq s = [] /\ eq_ s = [] /\ stopf s = false.
Proof.
  intros I Q NE. destruct (quiet_worker T s I Q) as [H|(n & P & W)]; [now contradiction NE|].
  destruct (quiet_notifiers T s I Q) as [MX ND].
  assert (NC : ~ In PCas (ns s)) by (intros H; apply ND in H; discriminate). repeat split.
  - destruct (rq s) eqn:E; auto. exfalso. apply NC, (i_rq _ _ I); auto; rewrite ?E, ?P; easy.
  - destruct (eq_ s) eqn:E; auto. exfalso. apply NC, (i_eq _ _ I); auto; rewrite ?E, ?P; easy.
  - destruct (stopf s) eqn:E; auto. exfalso. apply NC, (i_stop _ _ I); auto; rewrite ?E, ?P; easy.
Qed.

(** *** Termination *)
Open Scope N_scope.
Section Measure.
  Variable T : N.
  Hypothesis TB : T < 4294967295.
  (** rank of the worker while the flag says "wait" / "do not wait" *)
  Definition rT (p : wpc) : N :=
    match p with
    | LEnd => 0 | WAsleep _ => 1 | WBlock _ => 2 | WPred _ => 3 | WLock _ | WRelock _ => 4 | WLoad _ => 5
    | WSpin c => 6 + (T + 1 - c) | LCheck => T + 8 | GSteal => T + 9 | GEmpl => T + 10 | GReady => T + 11 | WExec _ => T + 12
    | WUnlock _ | WStore => 0
    end.
  Definition rF (p : wpc) : N :=
    match p with
    | LEnd => 0 | WStore => 1 | WSpin _ => 2 | WUnlock _ => 3 | WPred _ => 4 | WLock _ | WRelock _ | WLoad _ => 5 | WAsleep _ => 6 | WBlock _ => 7
    | LCheck => 8 | GSteal => 9 | GEmpl => 10 | GReady => 11 | WExec _ => 12
    end.
  Definition nw (p : ppc) : N :=
    match p with PDone => 0 | PUnlock => 1 | PNotify => 5 | PLock => 6 | PCas => T + 40 | PStart _ => T + 45 end.
  Definition nsum (l : list ppc) : N := fold_right (fun p a => nw p + a) 0 l.
  Definition mu (s : st) : N :=
    nsum (ns s) + 4 * N.of_nat (length (rq s)) + 4 * N.of_nat (length (eq_ s)) + (if sw s then rT (pc s) else T + 20 + rF (pc s)).

  Lemma nsum_upd l : forall i x y, nth_error l i = Some y -> nsum (upd l i x) + nw y = nsum l + nw x.
  Proof.
    induction l as [|z l IH]; intros [|i] x y H; simpl in *; try discriminate.
    - injection H as ->. lia.
    - specialize (IH i x y H). lia.
  Qed.
  Lemma take_len k l t q : take k l = Some (t, q) -> length l = S (length q).
  Proof. intros H. pose proof (take_spec k l) as P. rewrite H in P. now apply Permutation_length in P. Qed.

  (** moves of the threads that exist, without spurious wake-ups and without
      tasks from elsewhere *)
  Definition internal (m : move) : Prop :=
    match m with MWorker (CForeign _) | MSpurious | MNew _ => False | _ => True end.

  Local Arguments nsum : simpl never.
  Lemma mu_step m s s' : inv T s -> internal m -> step T m s = Some s' -> mu s' < mu s.
  Proof.
    intros I IM E. destruct m as [c| |k|i|[] k]; simpl in E; try easy.
    - unfold wstep in E. assert (C := i_count _ _ I). assert (SR := i_store _ _ I). unfold mu. destruct (pc s) eqn:P; try discriminate.
      + destruct (stopf s); injection E as <-; cbn -[N.add N.mul N.sub N.of_nat]; destruct (sw s); cbn -[N.add N.mul N.sub N.of_nat]; lia.
      + destruct (sw s) eqn:W.
        * destruct (C _ eq_refl) as [L|L]; [|discriminate].
          assert (Q : incr c0 = c0 + 1) by (unfold incr; apply N.mod_small; lia). rewrite Q in E.
          destruct (N.ltb_spec T (c0 + 1)); injection E as <-; cbn -[N.add N.mul N.sub N.of_nat]; rewrite W; cbn -[N.add N.mul N.sub N.of_nat]; lia.
        * injection E as <-; cbn -[N.add N.mul N.sub N.of_nat]; rewrite W; cbn -[N.add N.mul N.sub N.of_nat]; lia.
      + destruct (sw s) eqn:W; injection E as <-; cbn -[N.add N.mul N.sub N.of_nat]; rewrite W; cbn -[N.add N.mul N.sub N.of_nat]; lia.
      + destruct (mtx s); [discriminate|]. injection E as <-; cbn -[N.add N.mul N.sub N.of_nat]; destruct (sw s); cbn -[N.add N.mul N.sub N.of_nat]; lia.
      + destruct (sw s) eqn:W; injection E as <-; cbn -[N.add N.mul N.sub N.of_nat]; rewrite W; cbn -[N.add N.mul N.sub N.of_nat]; lia.
      + injection E as <-; cbn -[N.add N.mul N.sub N.of_nat]; destruct (sw s); cbn -[N.add N.mul N.sub N.of_nat]; lia.
      + destruct (mtx s); [discriminate|]. injection E as <-; cbn -[N.add N.mul N.sub N.of_nat]; destruct (sw s); cbn -[N.add N.mul N.sub N.of_nat]; lia.
      + rewrite SR in * by eauto. injection E as <-; cbn -[N.add N.mul N.sub N.of_nat]. lia.
      + rewrite SR in * by eauto. injection E as <-; cbn -[N.add N.mul N.sub N.of_nat]. lia.
      + destruct c as [|t|k|k r]; try discriminate. destruct (take k (rq s)) as [[t q]|] eqn:TK.
        * apply take_len in TK. injection E as <-; cbn -[N.add N.mul N.sub N.of_nat]; rewrite TK; destruct (sw s); cbn -[N.add N.mul N.sub N.of_nat]; lia.
        * injection E as <-; cbn -[N.add N.mul N.sub N.of_nat]; destruct (sw s); cbn -[N.add N.mul N.sub N.of_nat]; lia.
      + destruct c as [|t|k|k r]; try discriminate. destruct (take k (eq_ s)) as [[t q]|] eqn:TK.
        * apply take_len in TK. injection E as <-; cbn -[N.add N.mul N.sub N.of_nat]; rewrite TK; destruct (sw s), r; cbn -[N.add N.mul N.sub N.of_nat]; lia.
        * injection E as <-; cbn -[N.add N.mul N.sub N.of_nat]; destruct (sw s); cbn -[N.add N.mul N.sub N.of_nat]; lia.
      + destruct c as [|t|k|k r]; try easy.
        * injection E as <-; cbn -[N.add N.mul N.sub N.of_nat]; destruct (sw s); cbn -[N.add N.mul N.sub N.of_nat]; lia.
        * destruct (take k (rq s)) as [[t q]|] eqn:TK; [|discriminate]. apply take_len in TK. injection E as <-; cbn -[N.add N.mul N.sub N.of_nat]; rewrite TK; destruct (sw s); cbn -[N.add N.mul N.sub N.of_nat]; lia.
        * destruct (take k (eq_ s)) as [[t q]|] eqn:TK; [|discriminate]. apply take_len in TK. injection E as <-; cbn -[N.add N.mul N.sub N.of_nat]; rewrite TK; destruct (sw s), r; cbn -[N.add N.mul N.sub N.of_nat]; lia.
      + injection E as <-; cbn -[N.add N.mul N.sub N.of_nat]; destruct (sw s); cbn -[N.add N.mul N.sub N.of_nat]; lia.
    - unfold nstep in E. destruct (nth_error (ns s) i) as [p|] eqn:P; [|discriminate].
      pose proof (fun x => nsum_upd (ns s) i x p P) as NS. unfold mu.
      destruct p as [[t|t| |]| | | | |]; try discriminate.
      + injection E as <-. specialize (NS PCas). cbn -[N.add N.mul N.sub N.of_nat] in *. rewrite app_length. cbn [length]. destruct (sw s); lia.
      + injection E as <-. specialize (NS PCas). cbn -[N.add N.mul N.sub N.of_nat] in *. rewrite app_length. cbn [length]. destruct (sw s); lia.
      + injection E as <-. specialize (NS PCas). cbn -[N.add N.mul N.sub N.of_nat] in *. destruct (sw s); lia.
      + injection E as <-. specialize (NS PCas). cbn -[N.add N.mul N.sub N.of_nat] in *. destruct (sw s); lia.
      + injection E as <-. specialize (NS PLock). cbn -[N.add N.mul N.sub N.of_nat] in *. assert (rF (pc s) <= 12) by (destruct (pc s); cbn -[N.add N.mul N.sub N.of_nat]; lia). destruct (sw s); lia.
      + destruct (mtx s); [discriminate|]. injection E as <-. specialize (NS PNotify). cbn -[N.add N.mul N.sub N.of_nat] in *. destruct (sw s); lia.
      + injection E as <-. specialize (NS PUnlock). cbn -[N.add N.mul N.sub N.of_nat] in *. destruct (sw s), (pc s); cbn -[N.add N.mul N.sub N.of_nat]; lia.
      + injection E as <-. specialize (NS PDone). cbn -[N.add N.mul N.sub N.of_nat] in *. destruct (sw s); lia.
    - destruct (take k (rq s)) as [[t q]|] eqn:TK; [|discriminate]. apply take_len in TK. injection E as <-. unfold mu. cbn -[N.add N.mul N.sub N.of_nat]. rewrite TK. destruct (sw s); lia.
    - destruct (take k (eq_ s)) as [[t q]|] eqn:TK; [|discriminate]. apply take_len in TK. injection E as <-. unfold mu. cbn -[N.add N.mul N.sub N.of_nat]. rewrite TK. destruct (sw s); lia.
  Qed.
  Lemma mu_exec ms : forall s s', inv T s -> Forall internal ms -> exec T ms s = Some s' -> N.of_nat (length ms) + mu s' <= mu s.
  Proof.
    induction ms as [|m ms IH]; intros s s' I F E; cbn [exec length] in *.
    - injection E as <-. lia.
    - destruct (step T m s) as [s1|] eqn:S1; [|discriminate]. inversion_clear F as [|? ? F1 F2].
      pose proof (mu_step m s s1 I F1 S1). pose proof (IH s1 s' (inv_step _ _ _ _ I S1) F2 E). lia.
  Qed.
End Measure.
Open Scope nat_scope.

Lemma exec_inv T ms : forall s s', inv T s -> exec T ms s = Some s' -> inv T s'.
Proof.
  induction ms as [|m ms IH]; intros s s' I E; simpl in E; [injection E as <-; auto|].
  destruct (step T m s) as [s1|] eqn:S1; [|discriminate]. eauto using inv_step.
Qed.
Lemma exec_reach T ms : forall s s', reach T s -> exec T ms s = Some s' -> reach T s'.
Proof.
  induction ms as [|m ms IH]; intros s s' I E; simpl in E; [injection E as <-; auto|].
  destruct (step T m s) as [s1|] eqn:S1; [|discriminate]. apply (IH s1); auto. exact (rs T s m s1 I S1).
Qed.

(** a wait that was notified: it keeps waiting with the flag down, or returned *)
Lemma notified_step T r m s s' : inv T s -> step T m s = Some s' ->
  (waiting (pc s) = true /\ sw s = false /\ cnt isret (hist s) = r) \/ r < cnt isret (hist s) ->
  (waiting (pc s') = true /\ sw s' = false /\ cnt isret (hist s') = r) \/ r < cnt isret (hist s').
Proof.
  intros I E [(W & F & R)|L].
  - destruct m as [c| |k|i|[] k]; simpl in E.
    + unfold wstep in E. destruct (pc s) eqn:P; try discriminate; rewrite ?F in E;
        try (injection E as <-; simpl; auto; fail); try (destruct (mtx s); [discriminate|]; injection E as <-; simpl; auto).
      injection E as <-. right. simpl. rewrite cnt_app. simpl. lia.
    + destruct (pc s); try discriminate. injection E as <-. simpl. auto.
    + injection E as <-. simpl. auto.
    + unfold nstep in E. destruct (nth_error (ns s) i) as [[[t|t| |]| | | | |]|]; try discriminate; try (injection E as <-; left; simpl; rewrite ?cnt_app; simpl; rewrite ?Nat.add_0_r; auto; fail).
      * destruct (mtx s); [discriminate|]. injection E as <-. left. simpl. auto.
      * injection E as <-. left. simpl. split; auto. now destruct (pc s).
    + destruct (take k (rq s)) as [[t q]|]; [|discriminate]. injection E as <-. left. simpl. rewrite cnt_app. simpl. rewrite Nat.add_0_r. auto.
    + destruct (take k (eq_ s)) as [[t q]|]; [|discriminate]. injection E as <-. left. simpl. rewrite cnt_app. simpl. rewrite Nat.add_0_r. auto.
  - right. assert (M : exists l, hist s' = hist s ++ l).
    { destruct m as [c| |k|i|[] k]; simpl in E.
      - unfold wstep in E. destruct (pc s), c; try discriminate; repeat match type of E with context [if ?b then _ else _] => destruct b | context [take ?k ?l] => destruct (take k l) as [[? ?]|] end;
          try discriminate; injection E as <-; simpl; eauto; exists []; now rewrite app_nil_r.
      - destruct (pc s); try discriminate. injection E as <-. exists []. simpl. now rewrite app_nil_r.
      - injection E as <-. exists []. simpl. now rewrite app_nil_r.
      - unfold nstep in E. destruct (nth_error (ns s) i) as [[[t|t| |]| | | | |]|]; try discriminate; repeat match type of E with context [if ?b then _ else _] => destruct b end;
          try discriminate; injection E as <-; simpl; eauto; exists []; now rewrite app_nil_r.
      - destruct (take k (rq s)) as [[t q]|]; [|discriminate]. injection E as <-. simpl. eauto.
      - destruct (take k (eq_ s)) as [[t q]|]; [|discriminate]. injection E as <-. simpl. eauto. }
    destruct M as (l & ->). rewrite cnt_app. lia.
Qed.
Lemma notified_exec T r ms : forall s s', inv T s -> exec T ms s = Some s' ->
  (waiting (pc s) = true /\ sw s = false /\ cnt isret (hist s) = r) \/ r < cnt isret (hist s) ->
  (waiting (pc s') = true /\ sw s' = false /\ cnt isret (hist s') = r) \/ r < cnt isret (hist s').
Proof.
  induction ms as [|m ms IH]; intros s s' I E H; simpl in E; [injection E as <-; auto|].
  destruct (step T m s) as [s1|] eqn:S1; [|discriminate]. exact (IH s1 s' (inv_step _ _ _ _ I S1) E (notified_step _ _ _ _ _ I S1 H)).
Qed.
