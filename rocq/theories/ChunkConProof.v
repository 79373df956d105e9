(** ChunkedList used by any number of threads: invariants. *)
From Coq Require Import Bool List Arith Lia.
From Verif Require Import ChunkConModel.
Import ListNotations.

Section ConProof.
Context {A : Type} (size : nat) (Hpos : 0 < size).
Notation cst := (@cst A).
Notation cpc := (@cpc A).

Lemma upd_eq : forall B (f : nat -> B) i x, upd f i x i = x.
Proof. intros. unfold upd. now rewrite Nat.eqb_refl. Qed.
Lemma upd_ne : forall B (f : nat -> B) i x j, j <> i -> upd f i x j = f j.
Proof. intros. unfold upd. apply Nat.eqb_neq in H. now rewrite H. Qed.
Lemma div_loc : forall c i, i < size -> (c * size + i) / size = c.
Proof. intros. rewrite Nat.div_add_l by lia. rewrite Nat.div_small by assumption. lia. Qed.
Lemma mod_loc : forall c i, i < size -> (c * size + i) mod size = i.
Proof. intros. rewrite Nat.add_comm, Nat.mod_add by lia. now apply Nat.mod_small. Qed.
Lemma loc_split : forall g, g = g / size * size + g mod size /\ g mod size < size.
Proof. intros g. split; [|apply Nat.mod_upper_bound; lia]. rewrite Nat.mul_comm. apply Nat.div_mod. lia. Qed.

(** ** Locations and chunks *)
Definition seeking (p : cpc) : bool := match p with PHead _ | PLoad _ _ | PAdd _ _ => true | _ => false end.
Record invA (s : cst) : Prop := {
  a_ref : forall t v c, pcs s t = PLoad v c \/ pcs s t = PAdd v c -> c < chunks s;
  a_grow : forall t v c, pcs s t = PGrow v c -> S c = chunks s /\ size < nxt s c;
  a_grow1 : forall t v c t' v' c', pcs s t = PGrow v c -> pcs s t' = PGrow v' c' -> t = t';
  a_old : forall c, S c < chunks s -> size < nxt s c;
  a_full : forall c, S c = chunks s -> size < nxt s c -> exists t v, pcs s t = PGrow v c;
  a_new : forall c, chunks s <= c -> nxt s c = 0;
  a_set : forall t v g, pcs s t = PSet v g -> g mod size < nxt s (g / size) /\ val s g = None;
  a_set1 : forall t v t' v' g, pcs s t = PSet v g -> pcs s t' = PSet v' g -> t = t';
  a_val : forall g, val s g <> None -> g mod size < nxt s (g / size);
  a_all : forall g, g mod size < nxt s (g / size) -> val s g = None -> exists t v, pcs s t = PSet v g;
  a_fresh : forall c, S c = chunks s -> nxt s c = 0 -> exists t, seeking (pcs s t) = true
}.
Lemma invA_init : invA c_init.
Proof. split; simpl; intros; try discriminate; try lia; try easy. destruct H; discriminate. Qed.

(** a step that only moves a thread that neither holds a location nor a chunk *)
Definition plain (p : cpc) : Prop := (forall v g, p <> PSet v g) /\ (forall v c, p <> PGrow v c).
Lemma invA_pc : forall s s' t, invA s -> chunks s' = chunks s -> nxt s' = nxt s -> val s' = val s ->
  (forall u, u <> t -> pcs s' u = pcs s u) -> plain (pcs s t) -> plain (pcs s' t) ->
  (forall v c, pcs s' t = PLoad v c \/ pcs s' t = PAdd v c -> c < chunks s) ->
  (seeking (pcs s t) = true -> seeking (pcs s' t) = true \/ chunks s = 0) -> invA s'.
Proof.
  intros s s' t I C N V O [P1 P2] [Q1 Q2] RF SK. split; rewrite ?C, ?N, ?V.
  - intros u v c H. destruct (Nat.eq_dec u t); [subst; eauto|]. rewrite O in H by assumption. eapply a_ref; eauto.
  - intros u v c H. destruct (Nat.eq_dec u t); [subst; now apply Q2 in H|]. rewrite O in H by assumption. eapply a_grow; eauto.
  - intros u v c u' v' c' H H'. destruct (Nat.eq_dec u t); [subst; now apply Q2 in H|]. destruct (Nat.eq_dec u' t); [subst; now apply Q2 in H'|].
    rewrite O in H by assumption. rewrite O in H' by assumption. eapply a_grow1; eauto.
  - apply I.
  - intros c H1 H2. destruct (a_full _ I c H1 H2) as (u & v & H). exists u, v. rewrite O; [assumption|]. intros ->. now apply P2 in H.
  - apply I.
  - intros u v g H. destruct (Nat.eq_dec u t); [subst; now apply Q1 in H|]. rewrite O in H by assumption. eapply a_set; eauto.
  - intros u v u' v' g H H'. destruct (Nat.eq_dec u t); [subst; now apply Q1 in H|]. destruct (Nat.eq_dec u' t); [subst; now apply Q1 in H'|].
    rewrite O in H by assumption. rewrite O in H' by assumption. eapply a_set1; eauto.
  - apply I.
  - intros g H1 H2. destruct (a_all _ I g H1 H2) as (u & v & H). exists u, v. rewrite O; [assumption|]. intros ->. now apply P1 in H.
  - intros c H1 H2. destruct (a_fresh _ I c H1 H2) as (u & H). destruct (Nat.eq_dec u t).
    + subst. exists t. destruct (SK H); [assumption|lia].
    + exists u. now rewrite O.
Qed.
Ltac plainp := split; intros; try discriminate; congruence.
Ltac pc_only I t E := apply (invA_pc _ _ t I); simpl; rewrite ?upd_eq, ?E; try reflexivity;
  [intros; now apply upd_ne|plainp|..].
Lemma invA_step : forall (s : cst) t l (s' : cst), invA s -> cstep size s t l s' -> invA s'.
Proof.
  intros s t l s' I H. inversion H; subst; clear H.
  - pc_only I t H0; [plainp|intros ? ? [X|X]; discriminate|discriminate].
  - pc_only I t H0.
    + destruct (chunks s); plainp.
    + intros v' c [X|X]; destruct (chunks s); inversion X; lia.
    + intros _. destruct (chunks s); auto.
  - (* c_first *) destruct (chunks s) as [|n] eqn:C.
    + split; cbn [chunks nxt val pcs].
      * intros u w c X. destruct (Nat.eq_dec u t); [subst; rewrite upd_eq in X; destruct X; discriminate|]. rewrite upd_ne in X by assumption. apply (a_ref _ I) in X. lia.
      * intros u w c X. destruct (Nat.eq_dec u t); [subst; rewrite upd_eq in X; discriminate|]. rewrite upd_ne in X by assumption. apply (a_grow _ I) in X. lia.
      * intros u w c u' w' c' X. destruct (Nat.eq_dec u t); [subst; rewrite upd_eq in X; discriminate|]. rewrite upd_ne in X by assumption. apply (a_grow _ I) in X. lia.
      * intros. lia.
      * intros c L X. rewrite (a_new _ I) in X by lia. lia.
      * intros. apply (a_new _ I). lia.
      * intros u w g X. destruct (Nat.eq_dec u t); [subst; rewrite upd_eq in X; discriminate|]. rewrite upd_ne in X by assumption. apply (a_set _ I) in X. assumption.
      * intros u w u' w' g X Y. destruct (Nat.eq_dec u t); [subst; rewrite upd_eq in X; discriminate|]. destruct (Nat.eq_dec u' t); [subst; rewrite upd_eq in Y; discriminate|].
        rewrite upd_ne in X, Y by assumption. eapply a_set1; eauto.
      * apply I.
      * intros g X. rewrite (a_new _ I) in X by lia. lia.
      * intros c _ _. exists t. rewrite upd_eq. reflexivity.
    + rewrite <- C. pc_only I t H0; [plainp|intros ? ? [X|X]; discriminate|discriminate].
  - pc_only I t H0.
    + destruct (nxt s c <=? size); plainp.
    + intros v' c' X. assert (c < chunks s) by (eapply a_ref; eauto). destruct (nxt s c <=? size); destruct X as [X|X]; inversion X; subst; assumption.
    + intros _. destruct (nxt s c <=? size); auto.
  - (* c_add *) assert (CL : c < chunks s) by (eapply a_ref; eauto).
    assert (OLD : S c < chunks s -> size < nxt s c) by apply (a_old _ I).
    set (p := if nxt s c <? size then PSet v (c * size + nxt s c) else if nxt s c =? size then PGrow v c else PHead v).
    split; cbn [chunks nxt val pcs].
    + intros u w c' X. destruct (Nat.eq_dec u t); [subst; rewrite upd_eq in X; unfold p in X; destruct (nxt s c <? size), (nxt s c =? size); destruct X; discriminate|].
      rewrite upd_ne in X by assumption. eapply a_ref; eauto.
    + intros u w c' X. destruct (Nat.eq_dec u t).
      * subst. rewrite upd_eq in X. unfold p in X. destruct (Nat.ltb_spec (nxt s c) size); [discriminate|]. destruct (Nat.eqb_spec (nxt s c) size) as [Y|Y]; [|discriminate].
        inversion X; subst. rewrite upd_eq. split; [|lia]. destruct (Nat.eq_dec (S c') (chunks s)); [assumption|]. assert (size < nxt s c') by (apply OLD; lia). lia.
      * rewrite upd_ne in X by assumption. destruct (a_grow _ I _ _ _ X). split; [assumption|]. unfold upd. destruct (c' =? c) eqn:Q; [apply Nat.eqb_eq in Q; subst; lia|assumption].
    + assert (K : forall u w c', u <> t -> pcs s u = PGrow w c' -> p <> PGrow v c).
      { intros u w c' _ X Y. destruct (a_grow _ I _ _ _ X) as [X1 X2]. unfold p in Y. destruct (Nat.ltb_spec (nxt s c) size); [discriminate|]. destruct (Nat.eqb_spec (nxt s c) size); [|discriminate].
        destruct (Nat.eq_dec (S c) (chunks s)); [assert (c = c') by lia; subst; lia|]. assert (size < nxt s c) by (apply OLD; lia). lia. }
      assert (K2 : forall w c', p = PGrow w c' -> p = PGrow v c).
      { intros w c'. unfold p. destruct (nxt s c <? size); [discriminate|]. now destruct (nxt s c =? size). }
      intros u w c1 u' w' c2 X Y. destruct (Nat.eq_dec u t) as [->|E1], (Nat.eq_dec u' t) as [->|E2]; [reflexivity| | |].
      * rewrite upd_eq in X. rewrite upd_ne in Y by assumption. exfalso. eapply K; eauto.
      * rewrite upd_eq in Y. rewrite upd_ne in X by assumption. exfalso. eapply K; eauto.
      * rewrite upd_ne in X, Y by assumption. eapply a_grow1; eauto.
    + intros c' X. apply (a_old _ I) in X. unfold upd. destruct (Nat.eqb_spec c' c); [subst; lia|assumption].
    + intros c' X Y. unfold upd in Y. destruct (Nat.eqb_spec c' c).
      * subst c'. destruct (Nat.eq_dec (nxt s c) size) as [Z|Z].
        -- exists t, v. rewrite upd_eq. unfold p. rewrite Z, Nat.ltb_irrefl, Nat.eqb_refl. reflexivity.
        -- destruct (a_full _ I c X ltac:(lia)) as (u & w & U). exists u, w. rewrite upd_ne; [assumption|]. intros ->. congruence.
      * destruct (a_full _ I c' X Y) as (u & w & U). exists u, w. rewrite upd_ne; [assumption|]. intros ->. congruence.
    + intros c' X. rewrite upd_ne by lia. now apply (a_new _ I).
    + intros u w g X. destruct (Nat.eq_dec u t).
      * subst. rewrite upd_eq in X. unfold p in X. destruct (Nat.ltb_spec (nxt s c) size) as [L|L]; [|destruct (nxt s c =? size); discriminate].
        inversion X; subst. rewrite div_loc, mod_loc, upd_eq by assumption. split; [lia|].
        destruct (val s (c * size + nxt s c)) eqn:V; [|reflexivity]. assert (Q := a_val _ I (c * size + nxt s c)). rewrite V, div_loc, mod_loc in Q by assumption.
        assert (nxt s c < nxt s c) by (apply Q; discriminate). lia.
      * rewrite upd_ne in X by assumption. destruct (a_set _ I _ _ _ X). split; [|assumption]. unfold upd. destruct (Nat.eqb_spec (g / size) c) as [Y|Y]; [rewrite <- Y; lia|assumption].
    + assert (K : forall u w g, pcs s u = PSet w g -> forall w', p <> PSet w' g).
      { intros u w g X w' Y. unfold p in Y. destruct (Nat.ltb_spec (nxt s c) size) as [L|L]; [|destruct (nxt s c =? size); discriminate].
        inversion Y; subst. destruct (a_set _ I _ _ _ X) as [Z _]. rewrite div_loc, mod_loc in Z by assumption. lia. }
      intros u w u' w' g X Y. destruct (Nat.eq_dec u t) as [->|E1], (Nat.eq_dec u' t) as [->|E2]; [reflexivity| | |].
      * rewrite upd_eq in X. rewrite upd_ne in Y by assumption. exfalso. eapply K; eauto.
      * rewrite upd_eq in Y. rewrite upd_ne in X by assumption. exfalso. eapply K; eauto.
      * rewrite upd_ne in X, Y by assumption. eapply a_set1; eauto.
    + intros g X. apply (a_val _ I) in X. unfold upd. destruct (Nat.eqb_spec (g / size) c) as [Y|Y]; [rewrite <- Y; lia|assumption].
    + intros g X V. unfold upd in X. destruct (Nat.eqb_spec (g / size) c) as [Y|Y].
      * destruct (Nat.eq_dec (g mod size) (nxt s c)) as [Z|Z].
        -- exists t, v. rewrite upd_eq. unfold p. destruct (loc_split g) as [G1 G2]. rewrite <- Z, <- Y.
           destruct (Nat.ltb_spec (g mod size) size); [|lia]. now rewrite <- G1.
        -- destruct (a_all _ I g) as (u & w & U); [rewrite Y; lia|assumption|]. exists u, w. rewrite upd_ne; [assumption|]. intros ->. congruence.
      * destruct (a_all _ I g X V) as (u & w & U). exists u, w. rewrite upd_ne; [assumption|]. intros ->. congruence.
    + intros c' X Y. unfold upd in Y. destruct (Nat.eqb_spec c' c); [discriminate|].
      assert (Z : size < nxt s c) by (apply OLD; lia). exists t. rewrite upd_eq. unfold p.
      destruct (Nat.ltb_spec (nxt s c) size); [lia|]. destruct (Nat.eqb_spec (nxt s c) size); [lia|reflexivity].
  - (* c_set *) destruct (a_set _ I _ _ _ H0) as [G1 G2]. split; cbn [chunks nxt val pcs].
    + intros u w c' X. destruct (Nat.eq_dec u t); [subst; rewrite upd_eq in X; destruct X; discriminate|]. rewrite upd_ne in X by assumption. eapply a_ref; eauto.
    + intros u w c' X. destruct (Nat.eq_dec u t); [subst; rewrite upd_eq in X; discriminate|]. rewrite upd_ne in X by assumption. eapply a_grow; eauto.
    + intros u w c1 u' w' c2 X Y. destruct (Nat.eq_dec u t); [subst; rewrite upd_eq in X; discriminate|]. destruct (Nat.eq_dec u' t); [subst; rewrite upd_eq in Y; discriminate|].
      rewrite upd_ne in X, Y by assumption. eapply a_grow1; eauto.
    + apply I.
    + intros c X Y. destruct (a_full _ I c X Y) as (u & w & U). exists u, w. rewrite upd_ne; [assumption|]. intros ->. congruence.
    + apply I.
    + intros u w h X. destruct (Nat.eq_dec u t); [subst; rewrite upd_eq in X; discriminate|]. rewrite upd_ne in X by assumption.
      destruct (a_set _ I _ _ _ X). split; [assumption|]. rewrite upd_ne; [assumption|]. intros ->. apply n. eapply a_set1; eauto.
    + intros u w u' w' h X Y. destruct (Nat.eq_dec u t); [subst; rewrite upd_eq in X; discriminate|]. destruct (Nat.eq_dec u' t); [subst; rewrite upd_eq in Y; discriminate|].
      rewrite upd_ne in X, Y by assumption. eapply a_set1; eauto.
    + intros h X. unfold upd in X. destruct (Nat.eqb_spec h g); [subst; assumption|]. now apply (a_val _ I).
    + intros h X Y. unfold upd in Y. destruct (Nat.eqb_spec h g); [discriminate|]. destruct (a_all _ I h X Y) as (u & w & U). exists u, w. rewrite upd_ne; [assumption|].
      intros ->. congruence.
    + intros c X Y. destruct (a_fresh _ I c X Y) as (u & U). exists u. rewrite upd_ne; [assumption|]. intros ->. rewrite H0 in U. discriminate.
  - (* c_grow *) destruct (a_grow _ I _ _ _ H0) as [G1 G2]. split; cbn [chunks nxt val pcs].
    + intros u w c' X. destruct (Nat.eq_dec u t); [subst; rewrite upd_eq in X; destruct X; discriminate|]. rewrite upd_ne in X by assumption. apply (a_ref _ I) in X. lia.
    + intros u w c' X. destruct (Nat.eq_dec u t); [subst; rewrite upd_eq in X; discriminate|]. rewrite upd_ne in X by assumption. exfalso. apply n. eapply a_grow1; eauto.
    + intros u w c1 u' w' c2 X Y. destruct (Nat.eq_dec u t); [subst; rewrite upd_eq in X; discriminate|]. rewrite upd_ne in X by assumption. exfalso. apply n. eapply a_grow1; eauto.
    + intros c' X. destruct (Nat.eq_dec (S c') (chunks s)); [|apply (a_old _ I); lia]. assert (c' = c) by lia. now subst.
    + intros c' X Y. rewrite (a_new _ I) in Y by lia. lia.
    + intros c' X. apply (a_new _ I). lia.
    + intros u w h X. destruct (Nat.eq_dec u t); [subst; rewrite upd_eq in X; discriminate|]. rewrite upd_ne in X by assumption. eapply a_set; eauto.
    + intros u w u' w' h X Y. destruct (Nat.eq_dec u t); [subst; rewrite upd_eq in X; discriminate|]. destruct (Nat.eq_dec u' t); [subst; rewrite upd_eq in Y; discriminate|].
      rewrite upd_ne in X, Y by assumption. eapply a_set1; eauto.
    + apply I.
    + intros h X Y. destruct (a_all _ I h X Y) as (u & w & U). exists u, w. rewrite upd_ne; [assumption|]. intros ->. congruence.
    + intros c' _ _. exists t. rewrite upd_eq. reflexivity.
  - pc_only I t H0; [plainp|intros ? ? [X|X]; discriminate|discriminate].
  - pc_only I t H0; [plainp|intros ? ? [X|X]; discriminate|discriminate].
  - pc_only I t H0; [plainp|intros ? ? [X|X]; discriminate|discriminate].
  - pc_only I t H0; [plainp|intros ? ? [X|X]; discriminate|discriminate].
  - pc_only I t H0; [plainp|intros ? ? [X|X]; discriminate|discriminate].
  - pc_only I t H0; [destruct (freed s (g / size) =? size - 1); plainp|intros ? ? [X|X]; destruct (freed s (g / size) =? size - 1); discriminate|discriminate].
  - pc_only I t H0; [plainp|intros ? ? [X|X]; discriminate|discriminate].
  - pc_only I t H0; [plainp|intros ? ? [X|X]; discriminate|discriminate].
  - pc_only I t H0; [destruct (chunks s); plainp|intros ? ? [X|X]; destruct (chunks s); discriminate|discriminate].
  - pc_only I t H0; [plainp|intros ? ? [X|X]; discriminate|discriminate].
  - pc_only I t H0; [plainp|intros ? ? [X|X]; discriminate|discriminate].
  - pc_only I t H0; [plainp|intros ? ? [X|X]; discriminate|discriminate].
  - pc_only I t H0; unfold back; [destruct (1 <=? i); plainp|intros ? ? [X|X]; destruct (1 <=? i); discriminate|discriminate].
  - pc_only I t H0; unfold back; [destruct (off s (c * size + i) <=? i); plainp|intros ? ? [X|X]; destruct (off s (c * size + i) <=? i); discriminate|discriminate].
  - pc_only I t H0; [destruct c as [|c]; [plainp|destruct (del s c); plainp]|intros ? ? [X|X]; destruct c as [|c]; try discriminate; destruct (del s c); discriminate|discriminate].
Qed.
Lemma creach_A : forall ok (s : cst), creach size ok s -> invA s.
Proof. induction 1; [apply invA_init|eapply invA_step; eauto]. Qed.

(** ** Removals *)
Definition busy_on (p : cpc) : option nat := match p with RRead g | RStore g _ | RFree g => Some g | _ => None end.
Definition counted (s : cst) (L : nat -> list nat) : Prop := forall c,
  NoDup (L c) /\ length (L c) = freed s c /\
  forall g, In g (L c) -> g / size = c /\ taken s g = true /\ forall t, busy_on (pcs s t) <> Some g.
Record invB (s : cst) : Prop := {
  b_taken : forall g, taken s g = true -> val s g <> None;
  b_none : forall g, val s g = None -> off s g = 1;
  b_live : forall g, val s g <> None -> taken s g = false -> off s g = 0;
  b_busy : forall t g, busy_on (pcs s t) = Some g -> taken s g = true;
  b_busy1 : forall t t' g, busy_on (pcs s t) = Some g -> busy_on (pcs s t') = Some g -> t = t';
  b_store : forall t g o, pcs s t = RStore g o -> 1 <= o;
  b_list : exists L, counted s L;
  b_erase : forall t c, pcs s t = RErase c -> size <= freed s c;
  b_del : forall c, del s c = true -> size <= freed s c
}.
Lemma invB_init : invB c_init.
Proof.
  split; simpl; intros; try discriminate; try easy. exists (fun _ => []). intros c. split; [constructor|]. split; [reflexivity|]. intros g [].
Qed.
(** steps that touch neither elements nor chunks, of a thread that removes nothing *)
Lemma invB_pc : forall s s' t, invB s -> freed s' = freed s -> del s' = del s -> off s' = off s -> val s' = val s -> taken s' = taken s ->
  (forall u, u <> t -> pcs s' u = pcs s u) -> busy_on (pcs s' t) = busy_on (pcs s t) ->
  (forall g o, pcs s' t = RStore g o -> 1 <= o) -> (forall c, pcs s' t <> RErase c) -> invB s'.
Proof.
  intros s s' t I F D O V T U B S E. split; rewrite ?F, ?D, ?O, ?V, ?T.
  - apply I. - apply I. - apply I.
  - intros u g H. destruct (Nat.eq_dec u t); [subst; rewrite B in H; eapply b_busy; eauto|]. rewrite U in H by assumption. eapply b_busy; eauto.
  - intros u u' g H H'. assert (K : forall w, busy_on (pcs s' w) = Some g -> busy_on (pcs s w) = Some g).
    { intros w X. destruct (Nat.eq_dec w t); [subst; congruence|]. now rewrite U in X. }
    eapply b_busy1; eauto.
  - intros u g o H. destruct (Nat.eq_dec u t); [subst; eauto|]. rewrite U in H by assumption. eapply b_store; eauto.
  - destruct (b_list _ I) as [L K]. exists L. intros c. destruct (K c) as (K1 & K2 & K3). split; [assumption|]. rewrite F, T. split; [assumption|].
    intros g Hg. destruct (K3 g Hg) as (a & b & d). split; [assumption|split; [assumption|]]. intros u. destruct (Nat.eq_dec u t); [subst; rewrite B; apply d|].
    rewrite U by assumption. apply d.
  - intros u c H. destruct (Nat.eq_dec u t); [subst; now apply E in H|]. rewrite U in H by assumption. eapply b_erase; eauto.
  - apply I.
Qed.
Ltac pcB I t E := apply (invB_pc _ _ t I); simpl; rewrite ?upd_eq, ?E; try reflexivity; [intros; now apply upd_ne|..].
Lemma invB_step : forall (s : cst) t l (s' : cst), invA s -> invB s -> cstep size s t l s' -> invB s'.
Proof.
  intros s t l s' IA I H. inversion H; subst; clear H.
  - pcB I t H0; discriminate.
  - pcB I t H0; destruct (chunks s); (reflexivity || discriminate).
  - pcB I t H0; discriminate.
  - pcB I t H0; destruct (nxt s c <=? size); (reflexivity || discriminate).
  - pcB I t H0; destruct (nxt s c <? size), (nxt s c =? size); (reflexivity || discriminate).
  - (* c_set *) destruct (a_set _ IA _ _ _ H0) as [_ G].
    assert (TG : taken s g = false) by (destruct (taken s g) eqn:X; [apply (b_taken _ I) in X; easy|reflexivity]).
    assert (B : busy_on (pcs s t) = None) by now rewrite H0.
    assert (U : forall u x, busy_on (upd (pcs s) t CIdle u) = Some x -> busy_on (pcs s u) = Some x).
    { intros u x X. destruct (Nat.eq_dec u t); [subst; rewrite upd_eq in X; discriminate|]. now rewrite upd_ne in X. }
    split; cbn [freed del off val taken pcs].
    + intros x X. destruct (Nat.eq_dec x g); [subst; congruence|]. rewrite upd_ne by assumption. now apply (b_taken _ I).
    + intros x X. destruct (Nat.eq_dec x g); [subst; rewrite upd_eq in X; discriminate|]. rewrite upd_ne in * by assumption. now apply (b_none _ I).
    + intros x X Y. destruct (Nat.eq_dec x g); [subst; now rewrite upd_eq|]. rewrite upd_ne in * by assumption. now apply (b_live _ I).
    + intros u x X. eapply b_busy; eauto.
    + intros u u' x X Y. eapply b_busy1; eauto.
    + intros u x o X. destruct (Nat.eq_dec u t); [subst; rewrite upd_eq in X; discriminate|]. rewrite upd_ne in X by assumption. eapply b_store; eauto.
    + destruct (b_list _ I) as [L K]. exists L. intros c. destruct (K c) as (K1 & K2 & K3). split; [assumption|]. split; [assumption|].
      intros x Hx. destruct (K3 x Hx) as (a & b & d). split; [assumption|split; [assumption|]]. intros u X. cbn [pcs] in X. apply U in X. now apply d in X.
    + intros u c X. destruct (Nat.eq_dec u t); [subst; rewrite upd_eq in X; discriminate|]. rewrite upd_ne in X by assumption. eapply b_erase; eauto.
    + apply I.
  - pcB I t H0; discriminate.
  - (* c_remove *) assert (VG : val s g <> None) by (unfold assigned in H1; now destruct (val s g)).
    assert (NB : forall u, busy_on (pcs s u) <> Some g) by (intros u X; apply (b_busy _ I) in X; congruence).
    split; cbn [freed del off val taken pcs].
    + intros x X. destruct (Nat.eq_dec x g); [now subst|]. rewrite upd_ne in X by assumption. now apply (b_taken _ I).
    + apply I.
    + intros x X Y. destruct (Nat.eq_dec x g); [subst; rewrite upd_eq in Y; discriminate|]. rewrite upd_ne in Y by assumption. now apply (b_live _ I).
    + intros u x X. destruct (Nat.eq_dec u t); [subst; rewrite upd_eq in X; injection X as <-; now rewrite upd_eq|]. rewrite upd_ne in X by assumption.
      unfold upd. destruct (x =? g); [reflexivity|]. eapply b_busy; eauto.
    + intros u u' x X Y. destruct (Nat.eq_dec u t) as [->|E1], (Nat.eq_dec u' t) as [->|E2]; [reflexivity| | |].
      * rewrite upd_eq in X. rewrite upd_ne in Y by assumption. injection X as <-. now apply NB in Y.
      * rewrite upd_eq in Y. rewrite upd_ne in X by assumption. injection Y as <-. now apply NB in X.
      * rewrite upd_ne in X, Y by assumption. eapply b_busy1; eauto.
    + intros u x o X. destruct (Nat.eq_dec u t); [subst; rewrite upd_eq in X; discriminate|]. rewrite upd_ne in X by assumption. eapply b_store; eauto.
    + destruct (b_list _ I) as [L K]. exists L. intros c. destruct (K c) as (K1 & K2 & K3). split; [assumption|]. split; [assumption|]. cbn [taken pcs].
      intros x Hx. destruct (K3 x Hx) as (a & b & d). split; [assumption|]. split; [unfold upd; now destruct (x =? g)|].
      intros u X. destruct (Nat.eq_dec u t); [subst; rewrite upd_eq in X; injection X as ->; congruence|]. rewrite upd_ne in X by assumption. now apply d in X.
    + intros u c X. destruct (Nat.eq_dec u t); [subst; rewrite upd_eq in X; discriminate|]. rewrite upd_ne in X by assumption. eapply b_erase; eauto.
    + apply I.
  - pcB I t H0; try discriminate. intros ? ? X. inversion X. lia.
  - pcB I t H0; try discriminate. intros ? ? X. inversion X. lia.
  - pcB I t H0; try discriminate. intros ? ? X. inversion X. lia.
  - (* c_store *) assert (TG : taken s g = true) by (apply (b_busy _ I t); now rewrite H0).
    assert (VG := b_taken _ I g TG). assert (OG := b_store _ I _ _ _ H0).
    assert (U : forall u, busy_on (upd (pcs s) t (RFree g) u) = busy_on (pcs s u)).
    { intros u. unfold upd. destruct (Nat.eqb_spec u t); [subst; now rewrite H0|reflexivity]. }
    split; cbn [freed del off val taken pcs].
    + apply I.
    + intros x X. destruct (Nat.eq_dec x g); [now subst|]. rewrite upd_ne by assumption. now apply (b_none _ I).
    + intros x X Y. destruct (Nat.eq_dec x g); [subst; congruence|]. rewrite upd_ne by assumption. now apply (b_live _ I).
    + intros u x. rewrite U. apply I.
    + intros u u' x. rewrite !U. apply I.
    + intros u x o' X. destruct (Nat.eq_dec u t); [subst; rewrite upd_eq in X; discriminate|]. rewrite upd_ne in X by assumption. eapply b_store; eauto.
    + destruct (b_list _ I) as [L K]. exists L. intros c. destruct (K c) as (K1 & K2 & K3). split; [assumption|]. split; [assumption|]. cbn [taken pcs].
      intros x Hx. destruct (K3 x Hx) as (a & b & d). split; [assumption|]. split; [assumption|]. intros u. rewrite U. apply d.
    + intros u c X. destruct (Nat.eq_dec u t); [subst; rewrite upd_eq in X; discriminate|]. rewrite upd_ne in X by assumption. eapply b_erase; eauto.
    + apply I.
  - (* c_free *) set (c0 := g / size). assert (TG : taken s g = true) by (apply (b_busy _ I t); now rewrite H0).
    set (p := if freed s c0 =? size - 1 then RErase c0 else CIdle). assert (BP : busy_on p = None) by (unfold p; now destruct (freed s c0 =? size - 1)).
    assert (U : forall u x, busy_on (upd (pcs s) t p u) = Some x -> u <> t /\ busy_on (pcs s u) = Some x).
    { intros u x X. destruct (Nat.eq_dec u t); [subst; rewrite upd_eq, BP in X; discriminate|]. now rewrite upd_ne in X. }
    assert (MONO : forall c, freed s c <= upd (freed s) c0 (S (freed s c0)) c) by (intros c; unfold upd; destruct (Nat.eqb_spec c c0); subst; lia).
    split; cbn [freed del off val taken pcs].
    + apply I. + apply I. + apply I.
    + intros u x X. apply U in X as [_ X]. eapply b_busy; eauto.
    + intros u u' x X Y. apply U in X as [_ X]. apply U in Y as [_ Y]. eapply b_busy1; eauto.
    + intros u x o' X. destruct (Nat.eq_dec u t); [subst; rewrite upd_eq in X; unfold p in X; destruct (freed s c0 =? size - 1); discriminate|]. rewrite upd_ne in X by assumption. eapply b_store; eauto.
    + destruct (b_list _ I) as [L K]. exists (upd L c0 (g :: L c0)). intros c. destruct (K c) as (K1 & K2 & K3). cbn [freed taken pcs].
      assert (W : forall x, In x (L c) -> forall u, busy_on (upd (pcs s) t p u) <> Some x).
      { intros x Hx u X. apply U in X as [_ X]. destruct (K3 x Hx) as (_ & _ & d). now apply d in X. }
      destruct (Nat.eq_dec c c0).
      * subst c. rewrite !upd_eq. split; [constructor; [|assumption]; intros X; destruct (K3 g X) as (_ & _ & d); apply (d t); now rewrite H0|].
        split; [simpl; lia|]. intros x [<-|Hx].
        -- split; [reflexivity|]. split; [assumption|]. intros u X. apply U in X as [X1 X2]. apply X1. eapply b_busy1; eauto. now rewrite H0.
        -- destruct (K3 x Hx) as (a & b & d). split; [assumption|split; [assumption|auto]].
      * rewrite !upd_ne by assumption. split; [assumption|split; [assumption|]]. intros x Hx. destruct (K3 x Hx) as (a & b & d). split; [assumption|split; [assumption|auto]].
    + intros u c X. destruct (Nat.eq_dec u t).
      * subst. rewrite upd_eq in X. unfold p in X. destruct (Nat.eqb_spec (freed s c0) (size - 1)); [|discriminate]. inversion X; subst. rewrite upd_eq. lia.
      * rewrite upd_ne in X by assumption. etransitivity; [eapply b_erase; eauto|apply MONO].
    + intros c X. etransitivity; [eapply b_del; eauto|apply MONO].
  - (* c_erase *) assert (FC := b_erase _ I _ _ H0).
    assert (U : forall u, busy_on (upd (pcs s) t CIdle u) = busy_on (pcs s u)).
    { intros u. unfold upd. destruct (Nat.eqb_spec u t); [subst; now rewrite H0|reflexivity]. }
    split; cbn [freed del off val taken pcs].
    + apply I. + apply I. + apply I.
    + intros u x. rewrite U. apply I.
    + intros u u' x. rewrite !U. apply I.
    + intros u x o' X. destruct (Nat.eq_dec u t); [subst; rewrite upd_eq in X; discriminate|]. rewrite upd_ne in X by assumption. eapply b_store; eauto.
    + destruct (b_list _ I) as [L K]. exists L. intros d. destruct (K d) as (K1 & K2 & K3). split; [assumption|]. split; [assumption|]. cbn [taken pcs].
      intros x Hx. destruct (K3 x Hx) as (a & b & e). split; [assumption|]. split; [assumption|]. intros u. rewrite U. apply e.
    + intros u d X. destruct (Nat.eq_dec u t); [subst; rewrite upd_eq in X; discriminate|]. rewrite upd_ne in X by assumption. eapply b_erase; eauto.
    + intros d X. destruct (Nat.eq_dec d c); [now subst|]. rewrite upd_ne in X by assumption. eapply b_del; eauto.
  - pcB I t H0; discriminate.
  - pcB I t H0; destruct (chunks s); (reflexivity || discriminate).
  - pcB I t H0; discriminate.
  - pcB I t H0; discriminate.
  - pcB I t H0; discriminate.
  - pcB I t H0; unfold back; destruct (1 <=? i); (reflexivity || discriminate).
  - pcB I t H0; unfold back; destruct (off s (c * size + i) <=? i); (reflexivity || discriminate).
  - pcB I t H0; destruct c as [|c]; try (reflexivity || discriminate); destruct (del s c); (reflexivity || discriminate).
Qed.
Lemma creach_B : forall ok (s : cst), creach size ok s -> invB s.
Proof. induction 1; [apply invB_init|]. eapply invB_step; eauto. eapply creach_A; eauto. Qed.
(** a deleted chunk holds removed elements only *)
Lemma del_taken : forall s, invB s -> forall c, del s c = true -> forall i, i < size -> taken s (c * size + i) = true.
Proof.
  intros s I c D i Hi. destruct (b_list _ I) as [L K]. destruct (K c) as (K1 & K2 & K3). assert (F := b_del _ I c D).
  assert (INC : incl (L c) (seq (c * size) size)).
  { intros g Hg. destruct (K3 g Hg) as (a & _). apply in_seq. destruct (loc_split g) as [G1 G2]. rewrite a in G1. lia. }
  assert (RI : incl (seq (c * size) size) (L c)) by (apply NoDup_length_incl; [assumption|rewrite seq_length; lia|assumption]).
  apply (K3 (c * size + i)). apply RI. apply in_seq. lia.
Qed.

(** ** Offsets lead over removed elements only *)
Definition leads (s : cst) (g o : nat) : Prop := o <= S (g mod size) /\ forall j, 1 <= j -> j < o -> taken s (g - j) = true.
Record invG (s : cst) : Prop := {
  g_off : forall g, val s g <> None -> off s g <> 0 -> leads s g (off s g);
  g_store : forall t g o, pcs s t = RStore g o -> leads s g o
}.
Lemma taken_step : forall (s : cst) t l (s' : cst), cstep size s t l s' -> forall g, taken s g = true -> taken s' g = true.
Proof. intros s t l s' H g T. inversion H; subst; simpl; auto. unfold upd. now destruct (g =? g0). Qed.
Lemma leads_step : forall (s : cst) t l (s' : cst) g o, cstep size s t l s' -> leads s g o -> leads s' g o.
Proof. intros s t l s' g o H [L1 L2]. split; [assumption|]. intros. eapply taken_step; eauto. Qed.
Lemma pred_mod : forall g, g mod size <> 0 -> (g - 1) mod size = g mod size - 1 /\ 1 <= g.
Proof.
  intros g H. destruct (loc_split g) as [G1 G2]. assert (1 <= g) by (destruct g; [rewrite Nat.mod_0_l in H; lia|lia]). split; [|assumption].
  replace (g - 1) with (g / size * size + (g mod size - 1)) by lia. apply mod_loc. lia.
Qed.
Lemma invG_step : forall (s : cst) t l (s' : cst), invB s -> invG s -> cstep size s t l s' -> l <> CGap -> invG s'.
Proof.
  intros s t l s' IB I H NG.
  assert (OLD : forall u g o, pcs s u = RStore g o -> leads s' g o) by (intros; eapply leads_step; eauto; eapply g_store; eauto).
  assert (K : off s' = off s -> (forall g, val s' g <> None -> off s g <> 0 -> val s g <> None) -> forall g, val s' g <> None -> off s' g <> 0 -> leads s' g (off s' g)).
  { intros E V g G1 G2. rewrite E in *. eapply leads_step; eauto. eapply g_off; eauto. }
  split.
  - inversion H; subst; try (apply K; [reflexivity|auto]; fail).
    + intros x X Y. simpl in *. destruct (Nat.eq_dec x g); [subst; rewrite upd_eq in Y; easy|]. rewrite upd_ne in * by assumption.
      eapply leads_step; eauto. eapply g_off; eauto.
    + intros x X Y. simpl in *. destruct (Nat.eq_dec x g); [subst; rewrite upd_eq in *|rewrite upd_ne in * by assumption].
      * eapply OLD; eauto.
      * eapply leads_step; eauto. eapply g_off; eauto.
  - intros u x o X. destruct (Nat.eq_dec u t).
    + subst. inversion H; subst; simpl in X; rewrite upd_eq in X; try discriminate;
        try (destruct (chunks s); discriminate); try (destruct (nxt s c <=? size); discriminate);
        try (destruct (nxt s c <? size), (nxt s c =? size); discriminate); try (unfold back in X; destruct (_ <=? _); discriminate); try (destruct (_ =? _); discriminate).
      * injection X as <- <-. split; [lia|]. intros. lia.
      * injection X as <- <-. assert (VV : val s (g - 1) <> None) by (unfold assigned in H2; now destruct (val s (g - 1))). destruct (pred_mod g H1) as [PM P1].
        destruct (Nat.eq_dec (off s (g - 1)) 0) as [Z|Z]; [rewrite Z; split; [lia|intros; lia]|].
        destruct (g_off _ I (g - 1) VV Z) as [L1 L2]. split; [lia|]. intros j J1 J2. simpl. destruct (Nat.eq_dec j 1).
        -- subst. destruct (taken s (g - 1)) eqn:T; [reflexivity|]. apply (b_live _ IB) in T; [easy|assumption].
        -- replace (g - j) with (g - 1 - (j - 1)) by lia. apply L2; lia.
      * easy.
      * destruct c as [|c]; [discriminate|]. destruct (del s c); discriminate.
    + assert (E : pcs s' u = pcs s u) by (inversion H; subst; simpl; now apply upd_ne). rewrite E in X. eauto.
Qed.

(** ** Iterations *)
Fixpoint asc (l : list nat) : Prop := match l with [] => True | x :: l => (forall y, In y l -> x < y) /\ asc l end.
Record good (s : cst) (bn : nat -> bool) (seen : list nat) (b : nat) : Prop := {
  gd_all : forall g, bn g = true -> taken s g = false -> b <= g -> In g seen;
  gd_low : forall g, In g seen -> b <= g;
  gd_asc : asc seen;
  gd_val : forall g, In g seen -> assigned s g = true;
  gd_bn : forall g, bn g = true -> assigned s g = true
}.
Definition it_ok (s : cst) (p : cpc) : Prop :=
  match p with
  | ILast bn c seen => c < chunks s /\ good s bn seen (S c * size)
  | IAt bn c i seen => c < chunks s /\ i < size /\ good s bn seen (c * size + i + 1)
  | IOlder bn c seen => c < chunks s /\ good s bn seen (c * size)
  | IDone bn seen => good s bn seen 0
  | _ => True
  end.
Definition invI (s : cst) : Prop := forall t, it_ok s (pcs s t).
Lemma assigned_step : forall (s : cst) t l (s' : cst), cstep size s t l s' -> forall g, assigned s g = true -> assigned s' g = true.
Proof. intros s t l s' H g T. inversion H; subst; simpl; auto. unfold assigned in *. simpl. unfold upd. now destruct (g =? g0). Qed.
Lemma good_step : forall (s : cst) t l (s' : cst) bn seen b, cstep size s t l s' -> good s bn seen b -> good s' bn seen b.
Proof.
  intros s t l s' bn seen b H G. split.
  - intros g B T L. apply (gd_all _ _ _ _ G); auto. destruct (taken s g) eqn:X; [|reflexivity]. apply (taken_step _ _ _ _ H) in X. congruence.
  - apply G. - apply G.
  - intros g X. eapply assigned_step; eauto. eapply gd_val; eauto.
  - intros g X. eapply assigned_step; eauto. eapply gd_bn; eauto.
Qed.
Lemma chunks_step : forall (s : cst) t l (s' : cst), cstep size s t l s' -> chunks s <= chunks s'.
Proof. intros s t l s' H. inversion H; subst; simpl; try lia. destruct (chunks s); lia. Qed.
Lemma good_down : forall (s : cst) bn seen b b', good s bn seen b -> b' <= b -> (forall g, b' <= g -> g < b -> bn g = true -> taken s g = true) -> good s bn seen b'.
Proof.
  intros s bn seen b b' G L K. split; try apply G.
  - intros g B T X. destruct (Nat.le_gt_cases b g); [now apply (gd_all _ _ _ _ G)|]. rewrite (K g X H B) in T. discriminate.
  - intros g X. apply (gd_low _ _ _ _ G) in X. lia.
Qed.
Lemma good_visit : forall (s : cst) bn seen b, good s bn seen (b + 1) -> assigned s b = true -> good s bn (b :: seen) b.
Proof.
  intros s bn seen b G V. split.
  - intros g B T X. destruct (Nat.eq_dec g b); [subst; now left|]. right. apply (gd_all _ _ _ _ G); auto. lia.
  - intros g [<-|X]; [lia|]. apply (gd_low _ _ _ _ G) in X. lia.
  - split; [|apply G]. intros y X. apply (gd_low _ _ _ _ G) in X. lia.
  - intros g [<-|X]; [assumption|]. now apply (gd_val _ _ _ _ G).
  - apply G.
Qed.
Lemma assigned_val : forall (s : cst) g, assigned s g = true -> val s g <> None.
Proof. intros s g. unfold assigned. now destruct (val s g). Qed.
Lemma back_ok : forall (s : cst) bn c i step seen, c < chunks s -> i < size -> 1 <= step -> step <= S i ->
  good s bn seen (c * size + i + 1 - step) -> it_ok s (back bn c i step seen).
Proof.
  intros s bn c i step seen C I S1 S2 G. unfold back. destruct (Nat.leb_spec step i); simpl.
  - split; [assumption|]. split; [lia|]. replace (c * size + (i - step) + 1) with (c * size + i + 1 - step) by lia. assumption.
  - split; [assumption|]. replace (c * size) with (c * size + i + 1 - step) by lia. assumption.
Qed.
Lemma invI_step : forall (s : cst) t l (s' : cst), invA s -> invB s -> invG s -> invI s -> cstep size s t l s' -> l <> CGap -> l <> CEmptyHead -> invI s'.
Proof.
  intros s t l s' IA IB IG I H NG NE u.
  assert (ST : forall p, it_ok s p -> it_ok s' p).
  { intros p P. assert (C := chunks_step _ _ _ _ H). destruct p; simpl in *; auto.
    - destruct P. split; [lia|]. eapply good_step; eauto.
    - destruct P as (a & b & d). split; [lia|split; [assumption|]]. eapply good_step; eauto.
    - destruct P. split; [lia|]. eapply good_step; eauto.
    - eapply good_step; eauto. }
  destruct (Nat.eq_dec u t) as [->|N]; [|assert (E : pcs s' u = pcs s u) by (inversion H; subst; simpl; now apply upd_ne); rewrite E; apply ST, I].
  assert (It := I t). inversion H; subst; simpl; rewrite ?upd_eq; try exact I0; try exact Logic.I;
    try (destruct (chunks s); exact Logic.I); try (destruct (nxt s c <=? size); exact Logic.I);
    try (destruct (nxt s c <? size), (nxt s c =? size); exact Logic.I); try (destruct (_ =? _); exact Logic.I); try congruence.
  - (* c_ihead *) apply ST. assert (G : forall b, (forall g, assigned s g = true -> g < b) -> good s (assigned s) [] b).
    { intros b K. split; simpl; try easy. intros g B _ L. apply K in B. lia. }
    assert (AL : forall g, assigned s g = true -> g < chunks s * size).
    { intros g X. apply assigned_val in X. apply (a_val _ IA) in X. destruct (Nat.le_gt_cases (chunks s) (g / size)) as [Y|Y]; [rewrite (a_new _ IA) in X by assumption; lia|].
      destruct (loc_split g) as [G1 G2]. nia. }
    destruct (chunks s) as [|c] eqn:C; simpl.
    + apply G. intros g X. apply AL in X. lia.
    + rewrite C. split; [lia|]. apply G. assumption.
  - (* c_ilast *) rewrite H0 in It. simpl in It. destruct It as [C G]. apply ST. simpl. split; [assumption|]. set (m := Nat.min (nxt s c) size). assert (1 <= m /\ m <= size) by (unfold m; lia).
    split; [lia|]. replace (c * size + (m - 1) + 1) with (c * size + m) by lia. eapply good_down; eauto; [nia|].
    intros g L1 L2 B. exfalso. apply (gd_bn _ _ _ _ G), assigned_val, (a_val _ IA) in B. assert (Q := loc_split g).
    assert (D : g / size = c) by (symmetry; apply (Nat.div_unique g size c (g - size * c)); nia). rewrite D in *. unfold m in *. lia.
  - (* c_ilast_none *) rewrite H0 in It. simpl in It. destruct It as [C G]. apply ST. simpl. eapply good_down; eauto; [lia|].
    intros g L1 L2 B. exfalso. apply (gd_bn _ _ _ _ G), assigned_val, (a_val _ IA) in B. rewrite Nat.div_small in B by lia. lia.
  - (* c_visit *) rewrite H0 in It. simpl in It. destruct It as (C & Ii & G). apply ST. apply back_ok; try lia; auto.
    replace (c * size + i + 1 - 1) with (c * size + i) by lia. apply good_visit; [assumption|].
    destruct (assigned s (c * size + i)) eqn:V; [reflexivity|]. assert (val s (c * size + i) = None) by (unfold assigned in V; now destruct (val s (c * size + i))).
    apply (b_none _ IB) in H2. lia.
  - (* c_skip *) rewrite H0 in It. simpl in It. destruct It as (C & Ii & G). apply ST. set (g0 := c * size + i) in *.
    destruct (val s g0) eqn:V.
    + destruct (g_off _ IG g0) as [L1 L2]; [congruence|assumption|]. unfold g0 in L1. rewrite mod_loc in L1 by assumption. fold g0 in L1. apply back_ok; try lia.
      apply (good_down _ _ _ _ _ G); [lia|]. intros g X Y B. destruct (Nat.eq_dec g g0) as [->|Z].
      * destruct (taken s g0) eqn:T; [reflexivity|]. apply (b_live _ IB) in T; [easy|congruence].
      * replace g with (g0 - (g0 - g)) by (unfold g0 in *; lia). apply L2; unfold g0 in *; lia.
    + rewrite (b_none _ IB g0 V). apply back_ok; try lia. apply (good_down _ _ _ _ _ G); [lia|]. intros g X Y B. exfalso.
      assert (g = g0) by (unfold g0; lia). subst. apply (gd_bn _ _ _ _ G), assigned_val in B. congruence.
  - (* c_older *) rewrite H0 in It. simpl in It. destruct It as (C & G). apply ST. destruct c as [|c]; simpl; [exact G|].
    destruct (del s c) eqn:D; simpl.
    + split; [lia|]. apply (good_down _ _ _ _ _ G); [lia|]. intros g X Y B. replace g with (c * size + (g - c * size)) by lia.
      apply del_taken; try assumption. simpl in Y. lia.
    + split; [lia|]. exact G.
Qed.
Lemma creach_I : forall ok (s : cst), creach size ok s -> (forall (s : cst) l, ok s l -> l <> CGap /\ l <> CEmptyHead) -> invG s /\ invI s.
Proof.
  intros ok s H K. induction H as [|s t l s' R [IG II] ST O].
  - split; [split; simpl; intros; easy|]. intros t. exact Logic.I.
  - destruct (K s l O). split; [eapply invG_step; eauto; eapply creach_B; eauto|].
    eapply invI_step; eauto; [eapply creach_A; eauto|eapply creach_B; eauto].
Qed.

(** ** Pushes one after the other *)
Definition serial_push (s : cst) (l : clab) : Prop := l = CPush -> forall t, pushing (pcs s t) = false.
Record invS (s : cst) : Prop := {
  s_one : forall t t', pushing (pcs s t) = true -> pushing (pcs s t') = true -> t = t';
  s_last : forall t v g, pcs s t = PSet v g -> nxt s (g / size) = S (g mod size)
}.
Lemma invS_step : forall (s : cst) t l (s' : cst), invS s -> cstep size s t l s' -> serial_push s l -> invS s'.
Proof.
  intros s t l s' I H O.
  assert (OT : forall u, u <> t -> pcs s' u = pcs s u) by (intros; inversion H; subst; simpl; now apply upd_ne).
  assert (K : (l = CPush \/ pushing (pcs s' t) = true -> l = CPush \/ pushing (pcs s t) = true)).
  { intros [|X]; [now left|]. inversion H; subst; auto; simpl in X; rewrite upd_eq in X; right; rewrite H0; auto; try discriminate.
    - destruct (_ =? _); discriminate.
    - destruct (chunks s); discriminate.
    - unfold back in X. destruct (_ <=? _); discriminate.
    - unfold back in X. destruct (_ <=? _); discriminate.
    - destruct c as [|c]; [discriminate|]. destruct (del s c); discriminate. }
  split.
  - intros u u' X Y. destruct (Nat.eq_dec u t) as [->|E1], (Nat.eq_dec u' t) as [->|E2]; [reflexivity| | |].
    + rewrite OT in Y by assumption. destruct (K (or_intror X)) as [Z|Z]; [rewrite (O Z) in Y; discriminate|]. eapply s_one; eauto.
    + rewrite OT in X by assumption. destruct (K (or_intror Y)) as [Z|Z]; [rewrite (O Z) in X; discriminate|]. eapply s_one; eauto.
    + rewrite OT in X, Y by assumption. eapply s_one; eauto.
  - intros u v g X. destruct (Nat.eq_dec u t) as [->|E1].
    + inversion H; subst; simpl in X; rewrite upd_eq in X; try discriminate;
        try (destruct (chunks s); discriminate); try (destruct (nxt s c <=? size); discriminate);
        try (unfold back in X; destruct (_ <=? _); discriminate); try (destruct (_ =? _); discriminate).
      * simpl. destruct (Nat.ltb_spec (nxt s c) size); [|destruct (nxt s c =? size); discriminate]. inversion X; subst.
        rewrite div_loc, mod_loc, upd_eq by assumption. reflexivity.
      * destruct c as [|c]; [discriminate|]. destruct (del s c); discriminate.
    + rewrite OT in X by assumption. assert (L := s_last _ I _ _ _ X). assert (PU : pushing (pcs s u) = true) by now rewrite X.
      assert (E : nxt s' = nxt s); [|now rewrite E]. inversion H; subst; try reflexivity. exfalso. apply E1. eapply s_one; eauto. now rewrite H0.
Qed.
Lemma creach_S : forall (ok : cst -> clab -> Prop) s, creach size ok s -> (forall (s : cst) l, ok s l -> serial_push s l) -> invS s.
Proof.
  intros ok s H K. induction H as [|s t l s' R IH ST O]; [split; simpl; intros; discriminate|]. eapply invS_step; eauto.
Qed.
Lemma serial_no_gap : forall (s : cst) t (s' : cst), invA s -> invB s -> invS s -> ~ cstep size s t CGap s'.
Proof.
  intros s t s' IA IB IS H. inversion H; subst. assert (TG : taken s g = true) by (apply (b_busy _ IB t); now rewrite H0).
  apply (b_taken _ IB), (a_val _ IA) in TG. destruct (pred_mod g H1) as [PM P1]. destruct (loc_split g) as [G1 G2].
  assert (D : (g - 1) / size = g / size). { replace (g - 1) with (g / size * size + (g mod size - 1)) by lia. apply div_loc. lia. }
  assert (VN : val s (g - 1) = None) by (unfold assigned in H2; now destruct (val s (g - 1))).
  destruct (a_all _ IA (g - 1)) as (u & v & U); [rewrite D; lia|assumption|]. apply (s_last _ IS) in U. rewrite D in U. lia.
Qed.
End ConProof.
