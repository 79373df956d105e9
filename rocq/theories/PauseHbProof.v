(** Happens-before across suspensions: the steps of a body that waits are ordered as if it had a
    thread of its own. *)
From Coq Require Import Bool List Arith NArith ZArith Lia Permutation.
From Verif Require Import AccessModel AccessSpec AccessProof UserModel UserProof SchedModel SchedSpec SchedBase SchedInv1 SchedInv2 SchedInv3 SchedInv8 SchedFront SchedThm SchedLive SchedTerm SchedMany SchedFree PauseModel PauseSpec PauseProof PauseInv PauseThm HbModel HbSpec HbBase HbFree PauseHb.
Import ListNotations.
Open Scope nat_scope.

(** ** What threads and objects know *)
Section Tr.
  Context (tr : list yrec).
  Definition yhbe (m n : nat) : Prop := m = n \/ yhb tr m n.
  Lemma yhbe_trans l m n : yhbe l m -> yhbe m n -> yhbe l n.
  Proof. intros [->|A] [->|B]; unfold yhbe; auto. right. eapply yhb_trans; eauto. Qed.
  (** step [m] is in the past of thread [i] *)
  Definition at_thr (m i : nat) : Prop := exists p a, nth_error tr p = Some a /\ r_who (y_rec a) = i /\ yhbe m p.
  (** whoever acquires [x] next has step [m] in its past *)
  Definition at_obj (m : nat) (x : obj) : Prop :=
    exists p a, nth_error tr p = Some a /\ In x (r_rel (y_rec a)) /\ yhbe m p /\ forall q r, p < q -> nth_error tr q = Some r -> ~ In x (y_set r).
End Tr.

Section Ext.
  Context (tr : list yrec) (b : yrec).
  Notation tr' := (tr ++ [b]).
  Notation N := (length tr).
  Lemma ynth_old m a : nth_error tr m = Some a -> nth_error tr' m = Some a.
  Proof. intros H. rewrite nth_error_app1; auto. apply nth_error_Some. congruence. Qed.
  Lemma ynth_new : nth_error tr' N = Some b.
  Proof. rewrite nth_error_app2, Nat.sub_diag by lia. reflexivity. Qed.
  Lemma ynth_inv m a : nth_error tr' m = Some a -> nth_error tr m = Some a \/ (m = N /\ a = b).
  Proof.
    intros H. destruct (Nat.lt_ge_cases m N) as [L|L]; [rewrite nth_error_app1 in H; auto|]. right.
    rewrite nth_error_app2 in H by auto. destruct (m - N) as [|k] eqn:E; simpl in H; [injection H as <-; split; auto; lia|destruct k; discriminate].
  Qed.
  Lemma ynth_bound m (a : yrec) : nth_error tr m = Some a -> m < N.
  Proof. intros H. apply nth_error_Some. congruence. Qed.
  Lemma yhb_old m n : yhb tr m n -> yhb tr' m n.
  Proof.
    induction 1 as [m n a c A B L E|m n a c x A B L X Y Z|l m n A IA B IB].
    - eapply yhb_po; eauto using ynth_old.
    - eapply yhb_sw; eauto using ynth_old. intros q r Lq Q. apply (Z q r Lq). apply ynth_inv in Q as [Q|[-> _]]; auto.
      apply ynth_bound in B. lia.
    - eapply yhb_trans; eauto.
  Qed.
  Lemma yhbe_old m n : yhbe tr m n -> yhbe tr' m n.
  Proof. intros [->|H]; [now left|right; now apply yhb_old]. Qed.
  Lemma thr_old m i : at_thr tr m i -> at_thr tr' m i.
  Proof. intros (p & a & A & B & C). exists p, a. split; [exact (ynth_old _ _ A)|]. split; auto. now apply yhbe_old. Qed.
  Lemma obj_old m x : ~ In x (y_set b) -> at_obj tr m x -> at_obj tr' m x.
  Proof.
    intros NS (p & a & A & B & C & D). exists p, a. split; [exact (ynth_old _ _ A)|]. split; auto. split; [now apply yhbe_old|].
    intros q r L Q. apply ynth_inv in Q as [Q|[-> ->]]; eauto.
  Qed.
  Lemma thr_new m : at_thr tr m (r_who (y_rec b)) -> yhb tr' m N.
  Proof.
    intros (p & a & A & B & C). assert (X : yhb tr' p N).
    { eapply yhb_po; [exact (ynth_old _ _ A)|apply ynth_new| |exact B]. exact (ynth_bound _ _ A). }
    destruct C as [->|C]; auto. eapply yhb_trans; [apply yhb_old; exact C|exact X].
  Qed.
  Lemma obj_new m x : In x (r_acq (y_rec b)) -> at_obj tr m x -> yhb tr' m N.
  Proof.
    intros Hx (p & a & A & B & C & D). assert (X : yhb tr' p N).
    { eapply yhb_sw; [exact (ynth_old _ _ A)|apply ynth_new|exact (ynth_bound _ _ A)|exact B|exact Hx|].
      intros q r L Q. apply ynth_inv in Q as [Q|[-> _]]; [apply (D q r); [lia|exact Q]|lia]. }
    destruct C as [->|C]; auto. eapply yhb_trans; [apply yhb_old; exact C|exact X].
  Qed.
  Lemma here_thr m : yhbe tr' m N -> at_thr tr' m (r_who (y_rec b)).
  Proof. intros H. exists N, b. split; [apply ynth_new|]. auto. Qed.
  Lemma here_obj m x : yhbe tr' m N -> In x (r_rel (y_rec b)) -> at_obj tr' m x.
  Proof.
    intros H Hx. exists N, b. split; [apply ynth_new|]. split; auto. split; auto. intros q r L Q. apply ynth_inv in Q as [Q|[-> _]]; [|lia].
    apply ynth_bound in Q. lia.
  Qed.
End Ext.

(** ** Where the threads of the other machine are *)
Inductive place := PReal (i : nat) | PSusp (t : nat).

Definition held (tr : list yrec) (y : ystate) (x : place) (m : nat) : Prop :=
  match x with
  | PReal i => at_thr tr m i
  | PSusp t =>
      (forall i g gs c, nth_error (ythr y) i = Some (g :: gs) -> pausing g = Some (t, c) -> at_thr tr m i) /\
      (sum wP t y = 0%Z -> at_obj tr m (OCtr (EPre t))) /\
      (forall i g gs, nth_error (ythr y) i = Some (g :: gs) -> wK t g = 1%Z -> at_thr tr m i) /\
      (In t (rdy (yst y)) -> at_obj tr m (ORdy t))
  end.

Record placed (y : ystate) (s : state) (pl : nat -> place) : Prop := {
  v_stack : forall j st, nth_error (thr s) j = Some st -> st <> [] ->
    match pl j with
    | PReal i => exists gs, nth_error (ythr y) i = Some gs /\ erase gs = st
    | PSusp t => exists is, In (t, is) (ycont y) /\ st = asleep (t, is)
    end;
  v_inj : forall j k st st', nth_error (thr s) j = Some st -> st <> [] -> nth_error (thr s) k = Some st' -> st' <> [] -> pl j = pl k -> j = k;
  v_real : forall i gs, nth_error (ythr y) i = Some gs -> erase gs <> [] -> exists j, pl j = PReal i /\ nth_error (thr s) j = Some (erase gs);
  v_susp : forall t is, In (t, is) (ycont y) -> exists j, pl j = PSusp t /\ nth_error (thr s) j = Some (asleep (t, is))
}.

(** [st]: history of the other machine; [phi]: where its steps are in [tr]; [vth]: the thread of
    the other machine that a step of [tr] belongs to *)
Record traced (P : prog) (y : ystate) (s : state) (st : list rec) (tr : list yrec) (phi : nat -> nat) (vth : nat -> option nat) (pl : nat -> place) : Prop := {
  p_in : forall m a, nth_error st m = Some a -> exists b, nth_error tr (phi m) = Some b /\ r_log (y_rec b) = r_log a /\
    incl (r_acq a) (r_acq (y_rec b)) /\ incl (r_rel a) (r_rel (y_rec b)) /\ vth (phi m) = Some (r_who a);
  p_mono : forall m n, m < n -> n < length st -> phi m < phi n;
  p_onto : forall p b, nth_error tr p = Some b -> r_log (y_rec b) <> [] -> exists m, m < length st /\ phi m = p;
  p_dom : forall p j, vth p = Some j -> p < length tr /\ j < length (thr s);
  p_po : forall p q j, vth p = Some j -> vth q = Some j -> p < q -> yhb tr p q;
  p_sw : forall m n a b x, nth_error st m = Some a -> nth_error st n = Some b -> m < n -> In x (r_rel a) -> In x (r_acq b) -> yhb tr (phi m) (phi n);
  p_held : forall p j stk, vth p = Some j -> nth_error (thr s) j = Some stk -> stk <> [] -> held tr y (pl j) p;
  p_set : forall p b x, nth_error tr p = Some b -> In x (y_set b) -> exists t, x = OCtr (EPre t) /\ In (LStart t) (log (yst y));
  p_turn : forall p t j stk g, of_body P tr p t -> nth_error (thr s) j = Some stk -> In g stk -> is_body (Some t) g = 1%Z -> vth p = Some j;
  p_turns : forall p q t, of_body P tr p t -> of_body P tr q t -> vth p = vth q;
  p_turned : forall p t, of_body P tr p t -> In (LStart t) (log (yst y)) /\ exists j, vth p = Some j
}.

(** the order of the other machine is that of [tr] *)
Lemma traced_hb P y s st tr phi vth pl : traced P y s st tr phi vth pl -> forall m n, hb st m n -> yhb tr (phi m) (phi n).
Proof.
  intros T. induction 1 as [m n a b A B L E|m n a b x A B L X Y|l m n A IA B IB].
  - destruct (p_in _ _ _ _ _ _ _ _ T m a A) as (a' & _ & _ & _ & _ & Va). destruct (p_in _ _ _ _ _ _ _ _ T n b B) as (b' & _ & _ & _ & _ & Vb).
    eapply (p_po _ _ _ _ _ _ _ _ T _ _ (r_who a)); eauto; [congruence|]. apply (p_mono _ _ _ _ _ _ _ _ T); auto. apply nth_error_Some. congruence.
  - eapply (p_sw _ _ _ _ _ _ _ _ T); eauto.
  - eapply yhb_trans; eauto.
Qed.

(** ** An idle thread more *)
Definition into {A} (pl : nat -> A) (j : nat) (x : A) : nat -> A := fun k => if Nat.eqb k j then x else pl k.
Lemma into_same {A} (pl : nat -> A) j x : into pl j x j = x. Proof. unfold into. now rewrite Nat.eqb_refl. Qed.
Lemma into_other {A} (pl : nat -> A) j x k : k <> j -> into pl j x k = pl k. Proof. intros H. unfold into. destruct (Nat.eqb_spec k j); congruence. Qed.

Lemma room_old s j stk : nth_error (thr (roomier s)) j = Some stk -> stk <> [] -> nth_error (thr s) j = Some stk /\ j <> length (thr s).
Proof.
  simpl. intros H N. destruct (Nat.lt_ge_cases j (length (thr s))) as [L|L]; [rewrite nth_error_app1 in H; auto; split; auto; lia|].
  rewrite nth_error_app2 in H by auto. destruct (j - length (thr s)) as [|k]; simpl in H; [congruence|destruct k; discriminate].
Qed.
Lemma room_new s j stk : nth_error (thr s) j = Some stk -> nth_error (thr (roomier s)) j = Some stk /\ j <> length (thr s).
Proof.
  simpl. intros H. assert (L : j < length (thr s)) by (apply nth_error_Some; congruence). rewrite nth_error_app1; auto. split; auto. lia.
Qed.

Lemma placed_room y s pl x : placed y s pl -> placed y (roomier s) (into pl (length (thr s)) x).
Proof.
  intros [A B C D]. split.
  - intros j st H N. destruct (room_old s j st H N) as [H' Nj]. rewrite into_other by auto. exact (A j st H' N).
  - intros j k st st' H N H' N' E. destruct (room_old s j st H N) as [H1 N1]. destruct (room_old s k st' H' N') as [H2 N2].
    rewrite !into_other in E by auto. eauto.
  - intros i gs H N. destruct (C i gs H N) as (j & E & G). exists j. apply room_new in G as [G Nj]. rewrite into_other; auto.
  - intros t is H. destruct (D t is H) as (j & E & G). exists j. apply room_new in G as [G Nj]. rewrite into_other; auto.
Qed.
Lemma traced_room P y s st tr phi vth pl x : traced P y s st tr phi vth pl -> traced P y (roomier s) st tr phi vth (into pl (length (thr s)) x).
Proof.
  intros [A1 A2 A3 A4 A5 A6 A7 A8 A9 A10 A11]. split; auto.
  - intros p j H. destruct (A4 p j H). split; auto. simpl. rewrite app_length. simpl. lia.
  - intros p j stk H H' N. destruct (room_old s j stk H' N) as [H1 N1]. rewrite into_other by auto. exact (A7 p j stk H H1 N).
  - intros p t j stk g H H' Hg. assert (N : stk <> []) by (intros ->; easy). destruct (room_old s j stk H' N) as [H1 N1]. eauto.
Qed.

(** ** Threads: a step that the other machine makes, and one that it does not make *)
Section Place.
  Context (y : ystate) (s : state) (pl : nat -> place) (V : placed y s pl).

  Lemma alone_at i j gs k st : nth_error (ythr y) i = Some gs -> nth_error (thr s) j = Some (erase gs) -> pl j = PReal i ->
    nth_error (thr s) k = Some st -> st <> [] -> pl k = PReal i -> k = j.
  Proof.
    intros E Ej Hj Ek N Hk. assert (X := v_stack _ _ _ V k st Ek N). rewrite Hk in X. destruct X as (gs' & E' & <-).
    rewrite E in E'. injection E' as <-. eapply (v_inj _ _ _ V); eauto. congruence.
  Qed.

  Lemma placed_vis i j gs0 gs1 u1 s1 : nth_error (ythr y) i = Some gs0 -> nth_error (thr s) j = Some (erase gs0) -> pl j = PReal i ->
    placed (mkY u1 (ycont y) (set_nth i gs1 (ythr y))) (set_thr s1 (set_nth j (erase gs1) (thr s))) pl.
  Proof.
    intros E Ej Hj. assert (U := alone_at i j gs0). split; cbn [thr set_thr ythr ycont].
    - intros k st Hk N. rewrite nth_set_nth, Ej in Hk. destruct (Nat.eqb_spec j k) as [<-|nk].
      + injection Hk as <-. rewrite Hj. exists gs1. split; auto. now rewrite nth_set_nth, Nat.eqb_refl, E.
      + assert (X := v_stack _ _ _ V k st Hk N). destruct (pl k) as [i'|t] eqn:Ek; auto. destruct X as (gs & X1 & X2). exists gs. split; auto.
        rewrite nth_set_nth. destruct (Nat.eqb_spec i i') as [<-|]; auto. exfalso. apply nk. symmetry. eapply (U k st); eauto.
    - intros k l st st' Hk N Hl N' Ek. rewrite nth_set_nth, Ej in Hk, Hl. destruct (Nat.eqb_spec j k) as [<-|nk], (Nat.eqb_spec j l) as [<-|nl]; auto.
      + symmetry. eapply (U l st'); eauto. congruence.
      + eapply (U k st); eauto. congruence.
      + eapply (v_inj _ _ _ V); eauto.
    - intros i' gs Hi N. rewrite nth_set_nth, E in Hi. destruct (Nat.eqb_spec i i') as [<-|ni].
      + injection Hi as <-. exists j. split; auto. now rewrite nth_set_nth, Nat.eqb_refl, Ej.
      + destruct (v_real _ _ _ V i' gs Hi N) as (k & Pk & Hk). exists k. split; auto. rewrite nth_set_nth. destruct (Nat.eqb_spec j k) as [<-|]; auto. congruence.
    - intros t is Hi. destruct (v_susp _ _ _ V t is Hi) as (k & Pk & Hk). exists k. split; auto. rewrite nth_set_nth. destruct (Nat.eqb_spec j k) as [<-|]; auto. congruence.
  Qed.

  Lemma placed_same i gs gs' u1 : nth_error (ythr y) i = Some gs -> erase gs' = erase gs ->
    placed (mkY u1 (ycont y) (set_nth i gs' (ythr y))) s pl.
  Proof.
    intros E Q. split; cbn [ythr ycont].
    - intros k st Hk N. assert (X := v_stack _ _ _ V k st Hk N). destruct (pl k) as [i'|t]; auto. destruct X as (hs & X1 & X2).
      rewrite nth_set_nth, E. destruct (Nat.eqb_spec i i') as [<-|]; eauto. exists gs'. split; auto. congruence.
    - exact (v_inj _ _ _ V).
    - intros i' hs Hi N. rewrite nth_set_nth, E in Hi. destruct (Nat.eqb_spec i i') as [<-|ni].
      + injection Hi as <-. rewrite Q in *. exact (v_real _ _ _ V i gs E N).
      + exact (v_real _ _ _ V i' hs Hi N).
    - exact (v_susp _ _ _ V).
  Qed.
End Place.

Lemma sum_step w t y u c i g gs fr : nth_error (ythr y) i = Some (g :: gs) ->
  sum w t (mkY u c (set_nth i (fr ++ gs) (ythr y))) = (sum w t y - w t g + zsum (w t) fr)%Z.
Proof.
  intros E. destruct (yfr_perm y i g gs fr E) as (rest & P1 & P2). unfold sum. unfold yframes at 1. cbn [ythr].
  rewrite (zsum_perm _ _ _ P1), (zsum_perm _ _ _ P2), !zsum_app. simpl. lia.
Qed.
Lemma sum_idle w t y u c i fr : nth_error (ythr y) i = Some [] ->
  sum w t (mkY u c (set_nth i fr (ythr y))) = (sum w t y + zsum (w t) fr)%Z.
Proof. intros E. unfold sum. unfold yframes at 1. cbn [ythr]. rewrite (zsum_perm _ _ _ (yid_perm y i fr E)), zsum_app. lia. Qed.

(** ** Suspended tasks *)
Lemma held_susp tr b y i st u1 c st' t m : nth_error (ythr y) i = Some st -> held tr y (PSusp t) m ->
  let tr' := tr ++ [b] in let y' := mkY u1 c (set_nth i st' (ythr y)) in
  (forall g gs d, st' = g :: gs -> pausing g = Some (t, d) -> at_thr tr' m i) ->
  (sum wP t y' = 0%Z -> at_obj tr' m (OCtr (EPre t))) ->
  (forall g gs, st' = g :: gs -> wK t g = 1%Z -> at_thr tr' m i) ->
  (In t (rdy u1) -> at_obj tr' m (ORdy t)) ->
  held tr' y' (PSusp t) m.
Proof.
  intros E (A & B & C & D) tr' y' H1 H2 H3 H4. unfold tr', y' in *. split; [|split; [|split]]; auto; cbn [ythr].
  - intros k g gs d Hk Hp. rewrite nth_set_nth, E in Hk. destruct (Nat.eqb_spec i k) as [<-|]; [injection Hk as ->; eauto|]. apply thr_old. eauto.
  - intros k g gs Hk Hp. rewrite nth_set_nth, E in Hk. destruct (Nat.eqb_spec i k) as [<-|]; [injection Hk as ->; eauto|]. apply thr_old. eauto.
Qed.
Lemma plain_top (l : list yframe) t : (forall h, In h l -> exists f, h = YF f) ->
  (forall g gs d, l = g :: gs -> pausing g = Some (t, d) -> False) /\ (forall g gs, l = g :: gs -> wK t g = 1%Z -> False).
Proof.
  intros H. split; [intros g gs d -> Q|intros g gs -> Q]; destruct (H g) as [f ->]; simpl; auto; discriminate.
Qed.
(** a step that does not concern [t] *)
Lemma held_plain tr b y i st u1 c st' t m : nth_error (ythr y) i = Some st -> held tr y (PSusp t) m ->
  ~ In (OCtr (EPre t)) (y_set b) -> ~ In (ORdy t) (y_set b) ->
  (forall g gs d, st' = g :: gs -> pausing g = Some (t, d) -> False) -> (forall g gs, st' = g :: gs -> wK t g = 1%Z -> False) ->
  sum wP t (mkY u1 c (set_nth i st' (ythr y))) = sum wP t y -> (In t (rdy u1) -> In t (rdy (yst y))) ->
  held (tr ++ [b]) (mkY u1 c (set_nth i st' (ythr y))) (PSusp t) m.
Proof.
  intros E H N1 N2 T1 T2 SP RD. apply (held_susp tr b y i st u1 c st' t m E H).
  - intros g gs d X1 X2. destruct (T1 g gs d X1 X2).
  - rewrite SP. intros Z. apply obj_old; auto. apply H. exact Z.
  - intros g gs X1 X2. destruct (T2 g gs X1 X2).
  - intros Z. apply obj_old; auto. apply H. auto.
Qed.

(** ** Histories *)
Lemma of_inv P tr b p t : of_body P (tr ++ [b]) p t -> of_body P tr p t \/
  (p = length tr /\ ((exists x, y_turn b = Some x /\ turn_of x = t) \/ exists l, In l (r_log (y_rec b)) /\ made_by P l = Some t)).
Proof.
  intros [(a & x & A & B & C)|(l & (a & A & B) & C)]; apply ynth_inv in A as [A|[-> ->]]; eauto 8; left; [left; exists a, x; auto|right; exists l; split; auto; exists a; auto].
Qed.

Section Hist.
  Context (P : prog) (y : ystate) (s : state) (st : list rec) (tr : list yrec) (phi : nat -> nat) (vth : nat -> option nat) (pl : nat -> place).
  Context (V : placed y s pl) (T : traced P y s st tr phi vth pl).

  Lemma vth_new : vth (length tr) = None.
  Proof. destruct (vth (length tr)) as [j|] eqn:E; auto. apply (p_dom _ _ _ _ _ _ _ _ T) in E. lia. Qed.
  Lemma turn_dom p t : of_body P tr p t -> p <> length tr.
  Proof. intros [(a & x & A & _)|(l & (a & A & _) & _)]; apply ynth_bound in A; lia. Qed.

  (** the other machine makes this step, too *)
  Lemma traced_vis i j gs0 gs1 u1 s1 a b :
    let y' := mkY u1 (ycont y) (set_nth i gs1 (ythr y)) in
    nth_error (ythr y) i = Some gs0 -> nth_error (thr s) j = Some (erase gs0) -> pl j = PReal i ->
    (erase gs0 = [] -> forall p, vth p <> Some j) ->
    r_who a = j -> r_who (y_rec b) = i -> r_log (y_rec b) = r_log a -> incl (r_acq a) (r_acq (y_rec b)) -> incl (r_rel a) (r_rel (y_rec b)) ->
    y_set b = [] -> y_turn b = None ->
    (forall t, In (OCtr (EPre t)) (r_acq a) -> ~ In (LStart t) (log (yst y))) ->
    incl (log (yst y)) (log u1) ->
    (forall t is m, In (t, is) (ycont y) -> held tr y (PSusp t) m -> held (tr ++ [b]) y' (PSusp t) m) ->
    (forall t g, In g (erase gs1) -> is_body (Some t) g = 1%Z ->
       (exists g0, In g0 (erase gs0) /\ is_body (Some t) g0 = 1%Z) \/ ~ In (LStart t) (log (yst y))) ->
    (forall l t, In l (r_log a) -> made_by P l = Some t -> In (LStart t) (log u1) /\
       ((exists g0, In g0 (erase gs0) /\ is_body (Some t) g0 = 1%Z) \/ ~ In (LStart t) (log (yst y))) /\
       (forall k stk g, nth_error (thr s) k = Some stk -> In g stk -> is_body (Some t) g = 1%Z -> k = j)) ->
    traced P y' (set_thr s1 (set_nth j (erase gs1) (thr s))) (st ++ [a]) (tr ++ [b])
      (into phi (length st) (length tr)) (into vth (length tr) (Some j)) pl.
  Proof.
    intros y' E Ej Hj FR Wa Wb LG IA IR YS YT NS LM HP NB NLA. destruct T as [A1 A2 A3 A4 A5 A6 A7 A8 A9 A10 A11].
    assert (PB : forall m a0, nth_error st m = Some a0 -> m <> length st /\ phi m < length tr /\ phi m <> length tr).
    { intros m a0 H. assert (Q := H). apply nth_bound in Q. destruct (A1 m a0 H) as (b0 & B & _). apply ynth_bound in B. lia. }
    assert (VO : forall p k, vth p = Some k -> p <> length tr) by (intros p k H; apply A4 in H; lia).
    assert (JB : j < length (thr s)) by (apply nth_error_Some; congruence).
    assert (NEW : forall p, vth p = Some j -> yhb (tr ++ [b]) p (length tr)).
    { intros p H. destruct (erase gs0) as [|f0 fs0] eqn:E0; [destruct (FR eq_refl p H)|]. apply thr_new. rewrite Wb.
      assert (X := A7 p j _ H Ej ltac:(discriminate)). now rewrite Hj in X. }
    split.
    - intros m a0 H. destruct (nth_inv st a m a0 H) as [H'|[-> ->]].
      + destruct (PB m a0 H') as (N1 & N2 & N3). rewrite (into_other phi) by auto. rewrite into_other by auto.
        destruct (A1 m a0 H') as (b0 & B & R). exists b0. split; auto. now apply ynth_old.
      + rewrite !into_same. exists b. split; [apply ynth_new|]. rewrite Wa. auto.
    - intros m n L Ln. rewrite app_length in Ln. simpl in Ln. assert (m <> length st) by lia. rewrite (into_other phi _ _ m) by auto.
      destruct (Nat.eq_dec n (length st)) as [->|Nn].
      + rewrite into_same. destruct (nth_error st m) as [a0|] eqn:Em; [apply (PB m a0 Em)|apply nth_error_None in Em; lia].
      + rewrite into_other by auto. apply A2; lia.
    - intros p b0 H NL. rewrite app_length. simpl. apply ynth_inv in H as [H|[-> ->]].
      + destruct (A3 p b0 H NL) as (m & Lm & <-). exists m. split; [lia|]. rewrite into_other; auto. lia.
      + exists (length st). split; [lia|]. apply into_same.
    - intros p k H. rewrite app_length. simpl. rewrite set_nth_length. destruct (Nat.eq_dec p (length tr)) as [->|Np].
      + rewrite into_same in H. injection H as <-. lia.
      + rewrite into_other in H by auto. apply A4 in H. lia.
    - intros p q k Hp Hq L. destruct (Nat.eq_dec q (length tr)) as [->|Nq].
      + rewrite into_same in Hq. injection Hq as <-. rewrite into_other in Hp by lia. auto.
      + rewrite into_other in Hq by auto. assert (p <> length tr) by (apply A4 in Hq; lia). rewrite into_other in Hp by auto. apply yhb_old. eauto.
    - intros m n a0 b0 x Hm Hn L Hx Hx'. destruct (nth_inv st a n b0 Hn) as [Hn'|[-> ->]].
      + assert (Hm' : nth_error st m = Some a0).
        { destruct (nth_inv st a m a0 Hm) as [Q|[-> _]]; auto. apply nth_bound in Hn'. lia. }
        destruct (PB m a0 Hm') as (N1 & _). destruct (PB n b0 Hn') as (N2 & _). rewrite !into_other by auto. apply yhb_old. eauto.
      + destruct (nth_inv st a m a0 Hm) as [Hm'|[-> _]]; [|lia]. destruct (PB m a0 Hm') as (N1 & N2 & _). rewrite into_same, into_other by auto.
        destruct (A1 m a0 Hm') as (b0 & B & _ & _ & RL & _).
        eapply yhb_sw; [exact (ynth_old tr b _ _ B)|apply ynth_new|exact N2|apply RL; exact Hx|apply IA; exact Hx'|].
        intros q r Lq Q HS. apply ynth_inv in Q as [Q|[-> _]]; [|lia]. destruct (A8 q r x Q HS) as (t & -> & St). exact (NS t Hx' St).
    - intros p k stk Hp Hk N. cbn [thr set_thr] in Hk. rewrite nth_set_nth, Ej in Hk. destruct (Nat.eq_dec p (length tr)) as [->|Np].
      + rewrite into_same in Hp. injection Hp as <-. rewrite Hj. simpl. rewrite <- Wb. apply here_thr. now left.
      + rewrite into_other in Hp by auto. destruct (Nat.eqb_spec j k) as [<-|nk].
        * rewrite Hj. simpl. rewrite <- Wb. apply here_thr. right. auto.
        * assert (X := A7 p k stk Hp Hk N). assert (Z := v_stack _ _ _ V k stk Hk N). destruct (pl k) as [i'|t]; [now apply thr_old|].
          destruct Z as (is & Z & _). now apply (HP t is).
    - intros p b0 x H Hx. apply ynth_inv in H as [H|[-> ->]]; [|now rewrite YS in Hx]. destruct (A8 p b0 x H Hx) as (t & -> & St). exists t. split; auto.
    - intros p t k stk g HT Hk Hg Hb. cbn [thr set_thr] in Hk. rewrite nth_set_nth, Ej in Hk. apply of_inv in HT as [HT|(-> & [(x & X & _)|(l & Hl & Hm)])]; [|congruence|].
      + rewrite into_other by exact (turn_dom p t HT). destruct (Nat.eqb_spec j k) as [<-|nk]; [|eauto]. injection Hk as <-.
        destruct (NB t g Hg Hb) as [(g0 & G1 & G2)|X]; [eauto|]. destruct X. apply (A11 p t HT).
      + rewrite into_same. f_equal. destruct (Nat.eqb_spec j k) as [<-|nk]; auto. rewrite LG in Hl. destruct (NLA l t Hl Hm) as (_ & _ & Q). symmetry. eauto.
    - assert (X : forall p l t, of_body P tr p t -> In l (r_log a) -> made_by P l = Some t -> vth p = Some j).
      { intros p l t HT Hl Hm. destruct (NLA l t Hl Hm) as (_ & [(g0 & G1 & G2)|X] & _); [eauto|]. destruct X. apply (A11 p t HT). }
      intros p q t Hp Hq. apply of_inv in Hp as [Hp|(-> & [(x & Y & _)|(l & Hl & Hm)])]; [|congruence|];
        apply of_inv in Hq as [Hq|(-> & [(x & Y & _)|(l' & Hl' & Hm')])]; try congruence; rewrite ?into_same, ?into_other by eauto using turn_dom; rewrite ?LG in *; eauto; symmetry; eauto.
    - intros p t HT. apply of_inv in HT as [HT|(-> & [(x & Y & _)|(l & Hl & Hm)])]; [|congruence|].
      + rewrite into_other by exact (turn_dom p t HT). destruct (A11 p t HT) as [S1 S2]. split; [apply LM; exact S1|exact S2].
      + rewrite into_same. split; [|eauto]. rewrite LG in Hl. apply (NLA l t Hl Hm).
  Qed.

  (** the other machine does not make this step; [x]: of which thread it is, if it leaves or takes up a body *)
  Lemma traced_inv y' pl' x b : 
    (forall j stk, nth_error (thr s) j = Some stk -> stk <> [] -> pl' j = pl j \/ (Some j = x /\ forall p, yhbe (tr ++ [b]) p (length tr) -> held (tr ++ [b]) y' (pl' j) p)) ->
    (forall j stk p, nth_error (thr s) j = Some stk -> stk <> [] -> held tr y (pl j) p -> pl' j = pl j -> held (tr ++ [b]) y' (pl' j) p) ->
    r_log (y_rec b) = [] -> log (yst y') = log (yst y) ->
    (forall o, In o (y_set b) -> exists t, o = OCtr (EPre t) /\ In (LStart t) (log (yst y))) ->
    match x with
    | None => y_turn b = None
    | Some j => (exists stk, nth_error (thr s) j = Some stk /\ stk <> [] /\
                   (forall t, option_map turn_of (y_turn b) = Some t -> In (LStart t) (log (yst y)) /\ (exists g, In g stk /\ is_body (Some t) g = 1%Z) /\
                      forall k stk' g, nth_error (thr s) k = Some stk' -> In g stk' -> is_body (Some t) g = 1%Z -> k = j)) /\
                (forall p, held tr y (pl j) p -> yhb (tr ++ [b]) p (length tr)) /\ pl' j <> pl j
    end ->
    traced P y' s st (tr ++ [b]) phi (into vth (length tr) x) pl'.
  Proof.
    intros H1 H2 LG LY HS HX. destruct T as [A1 A2 A3 A4 A5 A6 A7 A8 A9 A10 A11].
    assert (PB : forall m a0, nth_error st m = Some a0 -> phi m <> length tr).
    { intros m a0 H. destruct (A1 m a0 H) as (b0 & B & _). apply ynth_bound in B. lia. }
    assert (TB : forall p t, of_body P (tr ++ [b]) p t -> of_body P tr p t \/ p = length tr /\ exists j, x = Some j /\ option_map turn_of (y_turn b) = Some t).
    { intros p t HT. apply of_inv in HT as [HT|(-> & [(z & Z1 & Z2)|(l & Hl & _)])]; auto; [|rewrite LG in Hl; easy]. right. split; auto. destruct x as [j|]; [|congruence]. exists j. split; auto.
      rewrite Z1. simpl. now rewrite Z2. }
    assert (NEW : forall p j, vth p = Some j -> x = Some j -> yhb (tr ++ [b]) p (length tr)).
    { intros p j Hp ->. destruct HX as ((stk & K1 & K2 & _) & K3 & _). apply K3. eauto. }
    split.
    - intros m a0 H. rewrite into_other by eauto. destruct (A1 m a0 H) as (b0 & B & R). exists b0. split; auto. now apply ynth_old.
    - exact A2.
    - intros p b0 H NL. apply ynth_inv in H as [H|[-> ->]]; [eauto|]. congruence.
    - intros p k H. rewrite app_length. simpl. destruct (Nat.eq_dec p (length tr)) as [->|Np].
      + rewrite into_same in H. subst x. destruct HX as ((stk & K1 & _) & _). split; [lia|]. apply nth_error_Some. congruence.
      + rewrite into_other in H by auto. apply A4 in H. lia.
    - intros p q k Hp Hq L. destruct (Nat.eq_dec q (length tr)) as [->|Nq].
      + rewrite into_same in Hq. rewrite into_other in Hp by lia. eauto.
      + rewrite into_other in Hq by auto. assert (p <> length tr) by (apply A4 in Hq; lia). rewrite into_other in Hp by auto. apply yhb_old. eauto.
    - intros m n a0 b0 z Hm Hn L Hx Hx'. apply yhb_old. eauto.
    - intros p k stk Hp Hk N. destruct (Nat.eq_dec p (length tr)) as [->|Np].
      + rewrite into_same in Hp. subst x. destruct HX as (_ & _ & NE). destruct (H1 k stk Hk N) as [Q|[_ Q]]; [easy|]. apply Q. now left.
      + rewrite into_other in Hp by auto. destruct (H1 k stk Hk N) as [Q|[Q1 Q]]; [eauto|]. apply Q. right. eauto.
    - intros p b0 z H Hz. rewrite LY. apply ynth_inv in H as [H|[-> ->]]; eauto.
    - intros p t k stk g HT Hk Hg Hb. apply TB in HT as [HT|(-> & j & -> & HT)].
      + rewrite into_other by exact (turn_dom p t HT). eauto.
      + rewrite into_same. destruct HX as ((stk' & K1 & K2 & K3) & _). f_equal. symmetry. destruct (K3 t HT) as (_ & _ & K4). eauto.
    - assert (X : forall p j t, of_body P tr p t -> x = Some j -> option_map turn_of (y_turn b) = Some t -> vth p = Some j).
      { intros p j t HT -> HT'. destruct HX as ((stk' & K1 & K2 & K3) & _). destruct (K3 t HT') as (_ & (g & G1 & G2) & _). eauto. }
      intros p q t Hp Hq. apply TB in Hp as [Hp|(-> & j & Ej & Hp)]; apply TB in Hq as [Hq|(-> & j' & Ej' & Hq)]; rewrite ?into_same.
      + rewrite !into_other by eauto using turn_dom. eauto.
      + rewrite into_other by eauto using turn_dom. rewrite Ej'. eauto.
      + rewrite into_other by eauto using turn_dom. rewrite Ej. symmetry. eauto.
      + reflexivity.
    - intros p t HT. rewrite LY. apply TB in HT as [HT|(-> & j & -> & HT)].
      + rewrite into_other by exact (turn_dom p t HT). eauto.
      + rewrite into_same. split; eauto. destruct HX as ((stk' & K1 & K2 & K3) & _). apply (K3 t HT).
  Qed.
End Hist.

(** ** Lemmas on the other machine *)
Open Scope Z_scope.
Lemma fhist_idle P ms n s st : fhist P ms n s st -> fhist P ms (S n) (roomier s) st.
Proof.
  induction 1 as [|s st i c s' R IH G H].
  - assert (E : roomier (init_many P ms n) = init_many P ms (S n)).
    { unfold roomier, init_many, init. cbn [users lck ctr fol emp rdy ext cdn tcn log thr set_thr].
      now rewrite (repeat_last ([] : list frame) n), app_assoc. }
    rewrite E. constructor.
  - destruct (nth_error (thr s) i) as [stk|] eqn:E; [|unfold step in H; rewrite E in H; discriminate].
    assert (E2 : nth_error (thr (roomier s)) i = Some stk).
    { simpl. rewrite nth_error_app1; auto. apply nth_error_Some. congruence. }
    assert (S2 : step P (roomier s) i c = Some (roomier s')).
    { unfold step in *. rewrite E in H. rewrite E2. unfold roomier in *. destruct stk as [|f fs].
      - rewrite istep_thr. destruct (istep s c) as [[s1 fr]|]; [|discriminate]. injection H as <-. simpl.
        now rewrite (set_nth_app _ _ _ _ _ E).
      - rewrite fstep_thr. destruct (fstep P s f) as [[s1 fr]|]; [|discriminate]. injection H as <-. simpl.
        now rewrite (set_nth_app _ _ _ _ _ E). }
    assert (Q : mkrec P (roomier s) i c (roomier s') = mkrec P s i c s').
    { unfold mkrec. rewrite E, E2. destruct stk as [|f fs]; reflexivity. }
    rewrite <- Q. apply fhist_step; auto. intros q fs Eq cc. rewrite E2 in Eq. injection Eq as ->. exact (G q fs E cc).
Qed.

Lemma acq_sim P D s u f : sim D s u -> acq P s (seen f) = acq P u f.
Proof. intros S. destruct f; simpl; auto; [destruct e; reflexivity|]. now rewrite (sm_cdn D s u S). Qed.
Lemma rel_sim P D s u f : sim D s u -> rel P s (seen f) = rel P u f.
Proof.
  intros S. assert (X : forall p, ctr s (EPost p) = ctr u (EPost p)) by (intros p; exact (sm_ctr D s u S (EPost p) I)).
  destruct f; simpl; auto; rewrite ?X; auto; [destruct e; reflexivity|]. now rewrite (sm_cdn D s u S).
Qed.
Lemma body_new P u f u1 fr t g : fstep P u f = Some (u1, fr) -> In g (map seen fr) -> is_body (Some t) g = 1 -> is_body (Some t) (seen f) = 1 \/ f = FRun t.
Proof.
  intros H Hg Hb. apply in_map_iff in Hg as (h & <- & Hh).
  assert (Hb' : is_body (Some t) h = 1) by (destruct h; simpl in *; auto; destruct e; simpl in *; auto).
  enough (X : is_body (Some t) f = 1 \/ f = FRun t) by (destruct X as [X|X]; auto; left; destruct f; simpl in *; auto; destruct e; simpl in *; auto).
  clear Hb. unfold after_dep in *.
  cases_f H; simpl in *; repeat match goal with
    | Q : _ \/ _ |- _ => destruct Q
    | Q : False |- _ => destruct Q
    end; subst; simpl in *; try discriminate; auto.
  all: try (destruct o; simpl in *; auto; discriminate).
  all: try (right; f_equal; destruct (Nat.eqb_spec t0 t); [auto|discriminate]).
Qed.

(** ** A step *)
Section Ref.
  Context (P : prog) (ms : list (list instr)) (W : wf_any P ms) (NW : p_wrap P = false).
  Context (ND : forall t, NoDup (uniq P t)).

  Lemma started_rest n s k ord t : freach P ms n k s ord -> 1 <= zsum (v_start t) (log s) -> forall f, In f (frames s) -> ~ In (OCtr (EPre t)) (acq P s f).
  Proof.
    intros FR St f Hf HA. assert (R := freach_mreach P ms W NW n ND k s ord FR). cbv beta in R.
    assert (WU := wff P ms W ord). cbv beta in WU.
    assert (I := mreach_Inv P WU NW n s R). assert (NX := nx_reach P n s R).
    assert (LE := law_exec P s (i_laws P s I) t). signs t s. pose proof (f_exec P s I t) as Ex.
    assert (NE : zsum (w_nexec t) (frames s) = 0).
    { destruct (Z_lt_le_dec 0 (zsum (w_nexec t) (frames s))) as [l|l]; [|lia]. exfalso.
      apply zsum_pos_ex in l as (g & Hg & l). assert (g = FNotify (EPre t) NExec) as ->.
      { destruct g; simpl in l; try lia. destruct e; try lia. destruct k0; try lia. unfold ni in l.
        destruct (Nat.eqb_spec t0 t); [now subst|simpl in l; lia]. }
      apply in_frames in Hg as (j & stk & Ej & Hj). assert (N := NX j stk Ej).
      assert (Hr : In (FRun t) stk).
      { clear -Hj N. induction stk as [|g stk IH]; [easy|]. destruct N as [N1 N2]. destruct Hj as [->|Hj]; [|right; auto].
        subst stk. simpl. auto. }
      assert (Hq : In (FRun t) (frames s)) by (apply in_frames; eauto).
      assert (Q := in_w s (w_run t) _ (fun g => proj1 (proj2 (proj2 (proj2 (proj2 (proj2 (w_nn t g))))))) Hq).
      simpl in Q. unfold ni in Q. rewrite Nat.eqb_refl in Q. simpl in Q. lia. }
    assert (TK := i_tok P s I t). unfold tok in TK.
    assert (OB : ob s t = 0).
    { destruct ((1 <=? zsum (v_init t) (log s)) && (ob s t =? 0)) eqn:E; [|lia].
      apply andb_true_iff in E as [_ E]. now apply Z.eqb_eq in E. }
    assert (OG := ob_ge P s I t).
    assert (NI := f_exec_init P s I t). assert (LP := law_phase P s (i_laws P s I) t). assert (FS := f_spawn P WU s I t).
    pose proof (ni_nonneg t (emp s)).
    assert (AC : f = FInitUp t \/ (exists p r it rs, f = FDep4 t p r it rs) \/ exists kk, f = FNotify (EPre t) kk).
    { destruct f; simpl in HA; try easy; repeat (destruct HA as [HA|HA]; [try discriminate HA; injection HA; intros; subst; eauto 8|]); try easy.
      - destruct s0 as [|[] s0]; simpl in HA; destruct o; simpl in HA; try easy; repeat (destruct HA as [HA|HA]; [discriminate HA|]); easy.
      - destruct rs; simpl in HA; [easy|]. destruct HA as [HA|[]]. discriminate.
      - destruct rs; simpl in HA; [easy|]. destruct HA as [HA|[]]. discriminate.
      - destruct (_ =? 1); simpl in HA; repeat (destruct HA as [HA|HA]; [discriminate HA|]); easy. }
    destruct AC as [->|[(p & r & it & rs & ->)|(kk & ->)]].
    - pose proof (in_w s (w_up t) _ (fun g => proj1 (proj2 (w_nn t g))) Hf) as Q. simpl in Q. unfold ni in Q. rewrite Nat.eqb_refl in Q. simpl in Q. lia.
    - pose proof (in_w s (w_collect t) _ (fun g => proj1 (proj2 (proj2 (w_nn t g)))) Hf) as Q. simpl in Q. unfold ni in Q. rewrite Nat.eqb_refl in Q. simpl in Q. lia.
    - pose proof (in_w s (w_notify (EPre t)) _ (fun g => proj1 (w_nn2 (EPre t) g)) Hf) as Q. simpl in Q. unfold ce in Q. rewrite ev_eqb_refl in Q. simpl in Q. lia.
  Qed.
End Ref.
