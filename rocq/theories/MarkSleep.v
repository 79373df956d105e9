(** The marks of the workers: what a mark tells about a worker, and what a search has seen. *)
From Coq Require Import Bool List Arith NArith ZArith Lia Permutation.
From Verif Require Import AccessModel AccessSpec UserModel SchedModel SchedSpec SchedBase SchedInv1 SchedLive PoolModel PoolProof MarkModel MarkProof MarkThm.
Import ListNotations.
Open Scope nat_scope.

(** ** A worker that executes is BUSY *)
Definition tidy (n : nat) (i : nat) (st : list frame) (td : list bool) : Prop :=
  stack_ok st /\ (td <> [] -> st = [] \/ exists t, st = [FExec t]).
Definition tidys (n : nat) (x : mpool) : Prop :=
  forall i st, nth_error (thr (core (pl x))) i = Some st -> tidy n i st (todo x i).

Lemma tidys_init P n m : tidys n (minit P n m).
Proof.
  intros [|i] st H; simpl in H.
  - injection H as <-. split; [simpl; repeat split; auto; easy|easy].
  - assert (st = []) as ->; [|split; simpl; auto].
    revert i H. induction (n + m); intros [|i] H; simpl in H; try discriminate; [congruence|eauto].
Qed.

Lemma tidy_case P n c mv v v' : pcase P n c mv v v' -> stack_ok (vst v) -> tidy n (actor mv) (vst v') (choresv n (actor mv) v mv v').
Proof.
  intros C S. destruct C as [i w f fs p s' fr W F|i st p w l0|w k W|w k t W|w k t W|w W|w W|w k W|w W|w k W|w W|w u k j t W V|w u k j t W V|i k p st NI (e & Es)];
    simpl in *; try (split; simpl; [repeat split; auto; easy|auto; intros; try easy; eauto]; fail).
  - assert (S' := fstep_stack P _ f s' fr fs F S). split; auto. destruct (is_worker n i); [|easy].
    destruct (fr ++ fs) as [|g gs]; [auto|]. destruct g; try easy. intros _. right. destruct S' as (X & _). rewrite (X eq_refl). eauto.
  - subst st. split; [|easy]. split; [auto|]. split; [intros g []|exact Logic.I].
Qed.

Lemma tidys_step P n m x k x' : minv n m x -> tidys n x -> mstep P n m x k = Some x' -> tidys n x'.
Proof.
  intros [I G O] T H. destruct k as [mv|w|i|i]; simpl in H.
  - destruct (idle_of x (actor mv)) eqn:Q; [|discriminate]. destruct (allows n m x mv) as [l|] eqn:L; [|discriminate].
    destruct (pstep P n m (pl x) mv) as [c'|] eqn:E; [|discriminate]. injection H as <-.
    destruct (pstep_view P n m _ _ _ I E) as (v & v' & A & B & C & D & F).
    intros j st Hj. simpl in Hj |- *. destruct (Nat.eq_dec j (actor mv)) as [->|Nj].
    + rewrite upd_eq, (chores_view n (pl x) mv c' v v' A B). destruct B as (B & _). rewrite B in Hj. injection Hj as <-.
      apply (tidy_case P n (pl x)); auto. destruct A as (A & _). exact (proj1 (T _ _ A)).
    + rewrite upd_ne by auto. destruct (D j Nj) as (D1 & _). rewrite D1 in Hj. exact (T j st Hj).
  - destruct (todo x w) as [|b l] eqn:E; [discriminate|]. injection H as <-. intros j st Hj. simpl in *.
    destruct (T j st Hj) as [A B]. split; auto. unfold upd. destruct (Nat.eqb_spec j w) as [->|]; auto. intros _. apply B. rewrite E. discriminate.
  - destruct (busy x i); [|discriminate]. injection H as <-. exact T.
  - destruct (idle_of x i); [|discriminate]. destruct (due (pl x) i); [|discriminate]. destruct (_ || _); [|discriminate]. destruct (lookstep n x i) as [[a l]|]; [|discriminate]. injection H as <-. exact T.
Qed.

Lemma tidys_run P n m g j x : msteps P n m g j x -> tidys n x.
Proof.
  intros H. induction H as [|j x k x' H IH _ E]; [apply tidys_init|].
  destruct (mark_run P n m g j x H) as (I & _). exact (tidys_step P n m x k x' I IH E).
Qed.

(** the frames of a body *)
Definition executes (f : frame) : bool := match f with FRun _ | FBody _ _ | FSub _ _ _ _ => true | _ => false end.

Lemma executing_marked P n m g j x w st f : msteps P n m g j x -> is_worker n w = true ->
  nth_error (thr (core (pl x))) w = Some st -> In f st -> executes f = true -> av x w = false.
Proof.
  intros H W E Hf Ef. destruct (mark_run P n m g j x H) as (I & _). assert (T := tidys_run P n m g j x H w st E).
  assert (G := mi_g n m x I w (mkView st (wp (pl x) w) (due (pl x) w)) ltac:(repeat split; auto)).
  destruct T as [_ T]. apply (gd_exec _ _ _ _ _ _ _ G); simpl; auto.
  - intros ->. easy.
  - destruct (wp (pl x) w) eqn:Pw; auto; exfalso;
      assert (C := gd_calm _ _ _ _ _ _ _ G W ltac:(simpl; congruence) f Hf); destruct f; discriminate.
  - destruct (todo x w) as [|b l]; auto. exfalso. destruct (T ltac:(discriminate)) as [->|(t & ->)]; [easy|].
    destruct Hf as [<-|[]]. discriminate.
Qed.

(** ** A sleeping worker is AVAILABLE or about to be woken, up to 32 workers *)
Definition sleeps (n : nat) (x : mpool) (w : nat) : Prop :=
  is_worker n w = true /\ nth_error (thr (core (pl x))) w = Some [] /\ wp (pl x) w = WWait /\ todo x w = [] /\ flag (pl x) w = false.
Definition owed (x : mpool) (w : nat) : Prop := exists i, srch x i = LGot w \/ busy x i = Some w \/ In w (due (pl x) i).
Definition known (n : nat) (x : mpool) : Prop := forall w, sleeps n x w -> av x w = true \/ owed x w.

Lemma low_32 n w : n <= 32 -> is_worker n w = true -> low w = true.
Proof.
  intros L W. unfold is_worker in W. apply andb_true_iff in W as [A B]. apply Nat.leb_le in A, B. unfold low.
  rewrite Nat.mod_small by lia. apply Nat.ltb_lt. lia.
Qed.

Lemma case_sleep P n c mv v v' : pcase P n c mv v v' -> is_worker n (actor mv) = true -> vst v' = [] -> vwp v' = WWait ->
  choresv n (actor mv) v mv v' = [] -> vst v = [] /\ vwp v = WWait /\ exists i, mv = MWake i.
Proof.
  intros C W E Ep T. destruct C as [i w f fs p s' fr Ww F|i st p w l0|w k Ww|w k t Ww|w k t Ww|w Ww|w Ww|w k Ww|w Ww|w k Ww|w Ww|w u k j t Ww V|w u k j t Ww V|i k p st NI (e & Es)];
    simpl in *; try discriminate; eauto.
  - rewrite W, E, Ep in T. discriminate.
  - congruence.
Qed.
(** wakeups on their way stay *)
Lemma case_due P n c mv v v' w : pcase P n c mv v v' -> In w (vdue v) -> exists u l, mv = MWake (actor mv) /\ vdue v = u :: l /\ vdue v' = l.
Proof. intros C H. destruct C; simpl in *; try easy. eauto. Qed.

Lemma known_step P n m x k x' : n <= 32 -> minv n m x -> known n x -> mstep P n m x k = Some x' -> known n x'.
Proof.
  intros N32 [I G O] K H w (W & E & Ep & T & Fl). destruct k as [mv|u|i|i]; simpl in H.
  - destruct (idle_of x (actor mv)) eqn:Q; [|discriminate]. destruct (allows n m x mv) as [l|] eqn:L; [|discriminate].
    destruct (pstep P n m (pl x) mv) as [c'|] eqn:Es; [|discriminate]. injection H as <-. simpl in *.
    destruct (pstep_view P n m _ _ _ I Es) as (v & v' & A & B & C & D & F).
    assert (TN : todo x (actor mv) = [] /\ busy x (actor mv) = None).
    { unfold idle_of in Q. destruct (todo x (actor mv)), (busy x (actor mv)); auto; discriminate. }
    destruct TN as [TN BN].
    (* it slept before *)
    assert (SL : nth_error (thr (core (pl x))) w = Some [] /\ wp (pl x) w = WWait /\ todo x w = []).
    { destruct (Nat.eq_dec w (actor mv)) as [->|Nw].
      - rewrite upd_eq, (chores_view n (pl x) mv c' v v' A B) in T. destruct B as (B1 & B2 & B3).
        destruct (case_sleep P n (pl x) mv v v' C W ltac:(congruence) ltac:(congruence) T) as (C1 & C2 & _).
        destruct A as (A1 & A2 & A3). repeat split; congruence.
      - rewrite upd_ne in T by auto. destruct (D w Nw) as (D1 & D2 & D3). repeat split; congruence. }
    destruct SL as (S1 & S2 & S3).
    destruct (flag (pl x) w) eqn:Fx.
    { exfalso. rewrite F in Fl. destruct mv; try congruence.
      - destruct (w =? _); congruence.
      - simpl in *. destruct (wp (pl x) w0) eqn:Pw; try congruence. destruct (Nat.eqb_spec w w0) as [->|]; [|congruence].
        (* the worker itself takes *)
        inversion C; subst; discriminate || (destruct A as (A1 & A2 & A3), B as (B1 & B2 & B3); simpl in *; congruence). }
    destruct (K w (conj W (conj S1 (conj S2 (conj S3 Fx))))) as [X|(i & X)]; [auto|right].
    destruct (Nat.eq_dec i (actor mv)) as [->|Ni].
    + exists (actor mv). cbn [srch busy pl]. rewrite !upd_eq. destruct X as [X|[X|X]]; [|congruence|].
      * (* claimed *)
        unfold allows in L. destruct mv as [i w'|i|w' k|w'|w' u k|i k]; simpl actor in *; rewrite ?X in L; try (injection L as <-; auto; fail); try discriminate.
        -- destruct (activates (pl x) i) eqn:Ac; [|injection L as <-; auto]. unfold marks. rewrite Ac.
           destruct (w =? w') eqn:Ew; [|discriminate]. apply Nat.eqb_eq in Ew as ->. auto.
        -- assert (Gx := mi_g n m x (Build_minv n m x I G O) _ _ A).
           destruct (steals n (pl x) w') as [[|k]|] eqn:Sx; try discriminate. injection L as <-. auto.
      * destruct A as (A1 & A2 & A3). rewrite A3 in X. destruct (case_due P n (pl x) mv v v' w C X) as (u & l' & M & U1 & U2).
        rewrite U1 in X. destruct B as (B1 & B2 & B3). destruct X as [->|X]; [|right; right; congruence].
        exfalso. rewrite F, M in Fl. rewrite A3, U1 in Fl. simpl in Fl. rewrite Nat.eqb_refl in Fl. discriminate.
    + exists i. cbn [srch busy pl]. rewrite !upd_ne by auto. destruct (D i Ni) as (D1 & D2 & D3). rewrite D3. exact X.
  - destruct (todo x u) as [|b l] eqn:Tu; [discriminate|]. injection H as <-. simpl in *. unfold upd in *.
    destruct (Nat.eqb_spec w u) as [->|Nu].
    + left. subst l. assert (V := G u (mkView [] WWait (due (pl x) u)) ltac:(repeat split; auto)).
      destruct (gd_wait _ _ _ _ _ _ _ V eq_refl) as [X|X]; congruence.
    + destruct (K w (conj W (conj E (conj Ep (conj T Fl))))); auto.
  - destruct (busy x i) as [u|] eqn:B; [|discriminate]. injection H as <-. simpl in *.
    destruct (K w (conj W (conj E (conj Ep (conj T Fl))))) as [X|(j & X)].
    + unfold upd. destruct (Nat.eqb_spec w u) as [->|Nu]; auto. right. exists i. simpl.
      assert (Hi : i < 1 + n + m) by (destruct (le_lt_dec (1 + n + m) i) as [Hi|]; auto; destruct (O i Hi) as (_ & _ & Y); congruence).
      destruct (sees_in n m (pl x) i I Hi) as (v & V). destruct (gd_busy _ _ _ _ _ _ _ (G i v V) u B) as [Y _].
      destruct V as (_ & _ & V). rewrite V, Y. simpl. auto.
    + right. destruct (Nat.eq_dec j i) as [->|Nj].
      * destruct X as [X|[X|X]]; [exists i; simpl; auto| |exists i; simpl; auto].
        rewrite B in X. injection X as ->. exists i. simpl.
        assert (Hi : i < 1 + n + m) by (destruct (le_lt_dec (1 + n + m) i) as [Hi|]; auto; destruct (O i Hi) as (_ & _ & Y); congruence).
        destruct (sees_in n m (pl x) i I Hi) as (v & V). destruct (gd_busy _ _ _ _ _ _ _ (G i v V) w B) as [Y _].
        destruct V as (_ & _ & V). rewrite V, Y. simpl. auto.
      * exists j. simpl. rewrite upd_ne by auto. exact X.
  - destruct (idle_of x i) eqn:Q; [|discriminate]. destruct (due (pl x) i) eqn:Du; [|discriminate].
    destruct (_ || _) eqn:S; [|discriminate]. destruct (lookstep n x i) as [[a l]|] eqn:L; [|discriminate]. injection H as <-. simpl in *.
    assert (Y : a w = true \/ l = LGot w \/ av x w = false).
    { unfold lookstep in L. destruct (srch x i) as [|[|p ps]|v ps|v|]; try discriminate; try (injection L as <- <-; destruct (av x w); auto; fail).
      - destruct (first_marked _ _ p); injection L as <- <-; destruct (av x w); auto.
      - destruct (activates (pl x) i); [|discriminate]. injection L as <- <-. unfold upd. destruct (Nat.eqb_spec w v) as [->|].
        + rewrite (low_32 n v N32 W). destruct (av x v); auto.
        + destruct (av x w); auto. }
    destruct (K w (conj W (conj E (conj Ep (conj T Fl))))) as [X|(j & X)].
    + destruct Y as [Y|[->|Y]]; [auto| |congruence]. right. exists i. simpl. rewrite upd_eq. auto.
    + right. exists j. simpl. destruct (Nat.eq_dec j i) as [->|Nj]; [|rewrite upd_ne by auto; exact X].
      destruct X as [X|X]; [|auto]. unfold lookstep in L. rewrite X in L. discriminate.
Qed.

Lemma known_run P n m g j x : n <= 32 -> msteps P n m g j x -> known n x.
Proof.
  intros N H. induction H as [|j x k x' H IH _ E].
  - intros w (W & _ & _ & T & _). simpl in T. rewrite W in T. discriminate.
  - destruct (mark_run P n m g j x H) as (I & _). exact (known_step P n m x k x' N I IH E).
Qed.

(** ** What a search has seen.  [sought P n m i l x]: thread [i] is searching in [x], [l] are the
    states since it has begun, the latest first. *)
Inductive sought (P : prog) (n m i : nat) : list mpool -> mpool -> Prop :=
| sought_begin j x x' : msteps P n m false j x -> srch x i = LNone -> mstep P n m x (KLook i) = Some x' -> sought P n m i [x] x'
| sought_on l x k x' : sought P n m i l x -> mstep P n m x k = Some x' -> srch x' i <> LNone -> sought P n m i (x :: l) x'.

(** whether the thread is a thief in the ready queues *)
Definition mode (c : pool) (i : nat) : bool := match wp c i with WStealReady _ => true | _ => false end.

(** [v] was seen not to have the mark wanted, or had nothing to be stolen *)
Definition ruled_out (n m i : nat) (want : bool) (y : mpool) (v : nat) : Prop :=
  av y v = negb want \/ want = false /\ bare n m (pl y) (loot (pl y) i) v = true.

Definition covers (n m i : nat) (l : list mpool) (x : mpool) : Prop :=
  forall v, is_worker n v = true -> activates (pl x) i = false \/ low v = true ->
  match srch x i with LGot _ => True | s => In v (remaining s) \/ exists y, In y l /\ ruled_out n m i (activates (pl x) i) y v end.

Lemma look_eq n x i a l v : lookstep n x i = Some (a, l) -> is_worker n v = true -> (activates (pl x) i = false \/ low v = true) ->
  In v (remaining (srch x i)) -> match l with LGot _ => True | s => In v (remaining s) \/ av x v = negb (activates (pl x) i) end.
Proof.
  unfold lookstep. intros H W B R. destruct (srch x i) as [|[|p ps]|u ps|u|] eqn:E; try discriminate; simpl in R.
  - easy.
  - easy.
  - destruct (first_marked x (activates (pl x) i) p) as [u|] eqn:F; injection H as <- <-.
    + left. simpl. apply in_app_or in R as [R|R]; [|right; apply in_or_app; auto].
      destruct (Nat.eq_dec v u) as [->|Nu]; [auto|]. right. apply in_or_app. left. unfold untried. apply filter_In. split; auto.
      destruct (Nat.eqb_spec v u); easy.
    + apply in_app_or in R as [R|R]; [|left; auto]. right. apply (find_none _ _ F) in R. destruct (av x v), (activates (pl x) i); auto; discriminate.
  - destruct (activates (pl x) i) eqn:A; [|discriminate]. injection H as <- <-.
    destruct (av x u && low u) eqn:Q; [exact Logic.I|]. destruct R as [<-|R]; [|left; auto]. right.
    destruct B as [B|B]; [discriminate|]. rewrite B, andb_true_r in Q. exact Q.
Qed.

Lemma steps_others P n m x k x' i : minv n m x -> mstep P n m x k = Some x' -> srch x' i <> LNone -> k <> KLook i ->
  activates (pl x') i = activates (pl x) i /\
  (srch x' i = srch x i \/
   activates (pl x) i = false /\ exists u ps, srch x i = LTry u ps /\ srch x' i = LLook ps /\ bare n m (pl x) (loot (pl x) i) u = true).
Proof.
  intros [I G O] H NN NK. destruct k as [mv|u|j|j]; simpl in H.
  - destruct (idle_of x (actor mv)) eqn:Q; [|discriminate]. destruct (allows n m x mv) as [l|] eqn:L; [|discriminate].
    destruct (pstep P n m (pl x) mv) as [c'|] eqn:Es; [|discriminate]. injection H as <-. simpl in *.
    destruct (pstep_view P n m _ _ _ I Es) as (v & v' & A & B & C & D & F).
    destruct (Nat.eq_dec i (actor mv)) as [->|Ni].
    + rewrite upd_eq in *. assert (Gx := G _ _ A). assert (AV := acts_view _ _ _ A). assert (SV := steals_view n _ _ _ A).
      assert (AV' := acts_view _ _ _ B). rewrite AV, AV'. unfold allows in L.
      destruct C as [i w f fs p s' fr W Ff|i st p w l0|w k W|w k t W|w k t W|w W|w W|w k W|w W|w k W|w W|w u k j t W V|w u k j t W V|i k p st NI (e & Es')];
        cbn [actor vst vwp vdue] in *; try (split; [reflexivity|]; injection L as <-; auto; fail).
      * exfalso. rewrite AV in L. destruct (actv (f :: fs)) eqn:Ac.
        -- destruct (srch x i); try discriminate; [destruct (_ =? _); [|discriminate]|]; injection L as <-; auto.
        -- injection L as <-. apply NN. apply (gd_none _ _ _ _ _ _ _ Gx); simpl; auto. unfold stlv. destruct (is_worker n i); auto.
      * split; [reflexivity|]. rewrite SV in L. unfold stlv in L. rewrite W in L. injection L as <-. auto.
      * split; [reflexivity|]. rewrite SV in L. unfold stlv in L. rewrite W in L. injection L as <-. auto.
      * split; [reflexivity|]. rewrite SV in L. unfold stlv in L. rewrite W in L. destruct (srch x w) as [|ps|u ps|u|]; try discriminate; [|injection L as <-; auto].
        destruct (bare n m (pl x) (loot (pl x) w) u) eqn:Bu; [|discriminate]. simpl in L. destruct (bare n m (pl x) (loot (pl x) w) w); [|discriminate].
        injection L as <-. right. split; [reflexivity|]. exists u, ps. auto.
      * exfalso. rewrite SV in L. unfold stlv in L. rewrite W in L. destruct (srch x w); try discriminate. injection L as <-. auto.
      * split; [reflexivity|]. rewrite SV in L. unfold stlv in L. rewrite W in L. destruct (srch x w) as [|ps|u ps|u|]; try discriminate; [|injection L as <-; auto].
        destruct (bare n m (pl x) (loot (pl x) w) u) eqn:Bu; [|discriminate]. simpl in L. destruct (bare n m (pl x) (loot (pl x) w) w); [|discriminate].
        injection L as <-. right. split; [reflexivity|]. exists u, ps. auto.
      * exfalso. rewrite SV in L. unfold stlv in L. rewrite W in L. destruct (srch x w); try discriminate. injection L as <-. auto.
      * exfalso. destruct (srch x w); try discriminate. destruct (_ || _); [|discriminate]. injection L as <-. auto.
      * exfalso. destruct (srch x w); try discriminate. destruct (_ || _); [|discriminate]. injection L as <-. auto.
      * exfalso. injection L as <-. apply NN. apply (gd_none _ _ _ _ _ _ _ Gx); simpl; auto. unfold stlv. now rewrite NI.
    + rewrite upd_ne by auto. split; auto. destruct (D i Ni) as (D1 & D2 & D3). unfold activates. now rewrite D1.
  - destruct (todo x u); [discriminate|]. injection H as <-. auto.
  - destruct (busy x j); [|discriminate]. injection H as <-. auto.
  - destruct (idle_of x j); [|discriminate]. destruct (due (pl x) j); [|discriminate]. destruct (_ || _); [|discriminate].
    destruct (lookstep n x j) as [[a l]|]; [|discriminate]. injection H as <-. simpl in *. rewrite upd_ne by congruence. auto.
Qed.

Lemma steps_mode P n m x k x' i : minv n m x -> mstep P n m x k = Some x' -> srch x' i <> LNone -> mode (pl x') i = mode (pl x) i.
Proof.
  intros [I G O] H NN. destruct k as [mv|u|j|j]; simpl in H.
  - destruct (idle_of x (actor mv)) eqn:Q; [|discriminate]. destruct (allows n m x mv) as [l|] eqn:L; [|discriminate].
    destruct (pstep P n m (pl x) mv) as [c'|] eqn:Es; [|discriminate]. injection H as <-. simpl in *.
    destruct (pstep_view P n m _ _ _ I Es) as (v & v' & A & B & C & D & F).
    destruct (Nat.eq_dec i (actor mv)) as [->|Ni].
    + rewrite upd_eq in *. assert (Gx := G _ _ A). assert (AV := acts_view _ _ _ A). assert (SV := steals_view n _ _ _ A).
      unfold mode. destruct A as (_ & -> & _), B as (_ & -> & _). unfold allows in L.
      destruct C as [i w f fs p s' fr W Ff|i st p w l0|w k W|w k t W|w k t W|w W|w W|w k W|w W|w k W|w W|w u k j t W V|w u k j t W V|i k p st NI (e & Es')];
        cbn [actor vst vwp vdue] in *; try reflexivity.
      * exfalso. rewrite AV in L. destruct (actv (f :: fs)) eqn:Ac.
        -- destruct (srch x i); try discriminate; [destruct (_ =? _); [|discriminate]|]; injection L as <-; auto.
        -- injection L as <-. apply NN. apply (gd_none _ _ _ _ _ _ _ Gx); simpl; auto. unfold stlv. destruct (is_worker n i); auto.
      * exfalso. rewrite SV in L. unfold stlv in L. rewrite W in L. injection L as <-. apply NN.
        apply (gd_none _ _ _ _ _ _ _ Gx); simpl; auto. unfold stlv. now rewrite W.
      * exfalso. rewrite SV in L. unfold stlv in L. rewrite W in L. destruct (srch x w); try discriminate. injection L as <-. auto.
      * exfalso. destruct (srch x w); try discriminate. destruct (_ || _); [|discriminate]. injection L as <-. auto.
    + destruct (D i Ni) as (D1 & D2 & D3). unfold mode. now rewrite D2.
  - destruct (todo x u); [discriminate|]. injection H as <-. reflexivity.
  - destruct (busy x j); [|discriminate]. injection H as <-. reflexivity.
  - destruct (idle_of x j); [|discriminate]. destruct (due (pl x) j); [|discriminate]. destruct (_ || _); [|discriminate].
    destruct (lookstep n x j) as [[a l]|]; [|discriminate]. injection H as <-. reflexivity.
Qed.

Lemma sought_run P n m i l x : sought P n m i l x -> (exists j, msteps P n m false j x) /\ forall y, In y l -> exists j, msteps P n m false j y.
Proof.
  intros H. induction H as [j x x' J S E|l x k x' H [[j J] IH] E NN].
  - split; [exists (Datatypes.S j); econstructor; eauto; discriminate|]. intros y [<-|[]]. eauto.
  - split; [exists (Datatypes.S j); econstructor; eauto; discriminate|]. intros y [<-|Y]; eauto.
Qed.

(** a thief does not change the kind of queue during a search *)
Lemma sought_mode P n m i l x : sought P n m i l x -> forall y, In y l -> mode (pl y) i = mode (pl x) i.
Proof.
  intros H. induction H as [j x x' J S E|l x k x' H IH E NN]; intros y Hy.
  - assert (M := steps_mode P n m x (KLook i) x' i (proj1 (mark_run _ _ _ _ _ _ J)) E). destruct Hy as [<-|[]]. symmetry. apply M.
    simpl in E. destruct (idle_of x i); [|discriminate]. destruct (due (pl x) i); [|discriminate]. destruct (_ || _); [|discriminate].
    unfold lookstep in E. rewrite S in E. injection E as <-. simpl. rewrite upd_eq. discriminate.
  - destruct (sought_run _ _ _ _ _ _ H) as ((j & J) & _). rewrite (steps_mode P n m x k x' i (proj1 (mark_run _ _ _ _ _ _ J)) E NN).
    destruct Hy as [<-|Hy]; auto.
Qed.

Lemma sought_covers P n m i l x : sought P n m i l x -> covers n m i l x.
Proof.
  intros H. induction H as [j x x' J S E|l x k x' H IH E NN].
  - intros v W B. simpl in E. destruct (idle_of x i); [|discriminate]. destruct (due (pl x) i); [|discriminate]. destruct (_ || _); [|discriminate].
    unfold lookstep in E. rewrite S in E. injection E as <-. simpl. rewrite upd_eq. left. simpl.
    assert (Hn : 1 <= n) by (apply is_worker_In, in_seq in W; lia).
    apply (Permutation_in _ (Permutation_sym (groups_all n _ (start_lt n i Hn)))). now apply is_worker_In.
  - destruct (sought_run _ _ _ _ _ _ H) as ((j & J) & _). assert (Ix := proj1 (mark_run _ _ _ _ _ _ J)).
    assert (DK : k = KLook i \/ k <> KLook i) by (destruct k as [mv|u|j0|j0]; try (right; discriminate); destruct (Nat.eq_dec j0 i) as [->|]; [auto|right; congruence]).
    destruct DK as [->|NK].
    2: { destruct (steps_others P n m x k x' i Ix E NN NK) as [SA SS]. intros v W B. rewrite SA in *. specialize (IH v W B).
      destruct SS as [->|(Af & u' & ps & S1 & S2 & S3)].
      - destruct (srch x i); auto; destruct IH as [IH|(y & Y & R)]; auto; right; exists y; split; auto; now right.
      - rewrite S2. rewrite S1 in IH. simpl in IH. destruct IH as [[<-|IH]|(y & Y & R)]; auto.
        + right. exists x. split; [now left|right; auto].
        + right. exists y. split; [now right|auto]. }
    intros v W B. simpl in E. destruct (idle_of x i); [|discriminate]. destruct (due (pl x) i); [|discriminate]. destruct (_ || _); [|discriminate].
    destruct (lookstep n x i) as [[a l']|] eqn:L; [|discriminate]. injection E as <-. simpl in *. rewrite upd_eq in *.
    specialize (IH v W B). assert (SN : forall u, srch x i <> LGot u) by (intros u Q; unfold lookstep in L; rewrite Q in L; discriminate).
    assert (IH' : In v (remaining (srch x i)) \/ exists y, In y l /\ ruled_out n m i (activates (pl x) i) y v).
    { destruct (srch x i) as [|ps|u ps|u|]; auto. now destruct (SN u). }
    destruct IH' as [IH'|(y & Y & R)].
    + assert (X := look_eq n x i a l' v L W B IH'). destruct l'; auto; (destruct X as [X|X]; [auto|]);
        right; exists x; (split; [now left|left; auto]).
    + destruct l'; auto; right; exists y; (split; [now right|auto]).
Qed.
