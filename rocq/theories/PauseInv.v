(** Task bodies that wait for a future: who may resume a suspended task, and the correspondence
    with the machine in which a waiting body blocks its thread. *)
From Coq Require Import Bool List Arith NArith ZArith Lia Permutation.
From Verif Require Import AccessModel AccessSpec AccessProof UserModel UserProof SchedModel SchedSpec SchedBase SchedInv1 SchedInv2 SchedInv3 SchedInv8 SchedFront SchedThm SchedLive SchedTerm SchedMany SchedFree PauseModel PauseSpec PauseProof.
Import ListNotations.
Open Scope Z_scope.

(** ** Lists *)
Lemma busy_flat l : busy l = concat (map (fun st => busy [st]) l).
Proof. induction l as [|[|f st] l IH]; simpl in *; auto. now rewrite IH. Qed.
Lemma map_set_nth {A B} (f : A -> B) l : forall i v, map f (set_nth i v l) = set_nth i (f v) (map f l).
Proof. induction l as [|a l IH]; intros [|i] v; simpl; auto. now rewrite IH. Qed.
Lemma busy_set l i st st' : nth_error l i = Some st ->
  exists r, Permutation (busy l) (busy [st] ++ r) /\ Permutation (busy (set_nth i st' l)) (busy [st'] ++ r).
Proof.
  intros H. rewrite (busy_flat l), (busy_flat (set_nth i st' l)), map_set_nth.
  apply concat_set_nth. now rewrite nth_error_map, H.
Qed.
Lemma concat_busy l : concat (busy l) = concat l.
Proof. induction l as [|[|f st] l IH]; simpl; auto. now rewrite IH. Qed.
Lemma busy_app l m : busy (l ++ m) = busy l ++ busy m.
Proof. apply filter_app. Qed.
Lemma busy_in st l : In st (busy l) -> In st l /\ st <> [].
Proof. intros H. apply filter_In in H as [H1 H2]. split; auto. now destruct st. Qed.
Lemma concat_erase l : concat (map erase l) = erase (concat l).
Proof. induction l as [|a l IH]; simpl; auto. unfold erase in *. now rewrite flat_map_app, IH. Qed.
Lemma erase_app a b : erase (a ++ b) = erase a ++ erase b.
Proof. apply flat_map_app. Qed.
Lemma erase_yf l : erase (map YF l) = map seen l.
Proof. induction l as [|f l IH]; simpl; auto. now rewrite IH. Qed.
Lemma concat_perm {A} (l m : list (list A)) : Permutation l m -> Permutation (concat l) (concat m).
Proof.
  induction 1; simpl; auto.
  - now apply Permutation_app_head.
  - rewrite !app_assoc. apply Permutation_app_tail, Permutation_app_comm.
  - eapply Permutation_trans; eauto.
Qed.

Lemma grab_spec t l is l' : grab t l = Some (is, l') -> Permutation l ((t, is) :: l').
Proof.
  revert is l'. induction l as [|[q js] l IH]; intros is l'; simpl; [discriminate|].
  destruct (Nat.eqb_spec q t) as [->|].
  - intros H; injection H as <- <-. auto.
  - destruct (grab t l) as [[ks m]|] eqn:E; [|discriminate]. intros H; injection H as <- <-.
    specialize (IH _ _ eq_refl). rewrite IH. apply perm_swap.
Qed.
Lemma grab_in t l is : In (t, is) l -> exists js l', grab t l = Some (js, l').
Proof.
  induction l as [|[q js] l IH]; simpl; [easy|]. intros H. destruct (Nat.eqb_spec q t) as [->|n]; [eauto|].
  destruct H as [H|H]; [injection H as -> _; easy|]. destruct (IH H) as (ks & m & ->). eauto.
Qed.
Lemma away_in y t : away y t = true <-> exists is, In (t, is) (ycont y).
Proof.
  unfold away. rewrite existsb_exists. split.
  - intros ([q is] & H & E). apply Nat.eqb_eq in E. simpl in E. subst. eauto.
  - intros [is H]. exists (t, is). split; auto. apply Nat.eqb_refl.
Qed.
Lemma away_not y t : away y t = false -> forall is, ~ In (t, is) (ycont y).
Proof. intros H is Q. assert (away y t = true) by (apply away_in; eauto). congruence. Qed.
Lemma nodup_fst {A B} (l : list (A * B)) x a b : NoDup (map fst l) -> In (x, a) l -> In (x, b) l -> a = b.
Proof.
  induction l as [|[q c] l IH]; simpl; [easy|]. intros ND. inversion ND; subst.
  intros [H|H] [G|G]; try congruence; auto.
  - injection H as -> ->. destruct H1. apply in_map_iff. exists (x, b). auto.
  - injection G as -> ->. destruct H1. apply in_map_iff. exists (x, a). auto.
Qed.

Lemma filter_pick {A} (f : A -> bool) l : forall k x, nth_error l k = Some x -> f x = true ->
  exists k', nth_error (filter f l) k' = Some x /\ remove_nth k' (filter f l) = filter f (remove_nth k l).
Proof.
  induction l as [|a l IH]; intros [|k] x; simpl; try discriminate.
  - intros H Hx. injection H as ->. rewrite Hx. exists 0%nat. auto.
  - intros H Hx. destruct (IH k x H Hx) as (k' & A1 & A2). destruct (f a); [|eauto].
    exists (S k'). simpl. now rewrite A2.
Qed.
Lemma filter_drop {A} (f : A -> bool) l : forall k x, nth_error l k = Some x -> f x = false ->
  filter f (remove_nth k l) = filter f l.
Proof.
  induction l as [|a l IH]; intros [|k] x; simpl; try discriminate.
  - intros H Hx. injection H as ->. now rewrite Hx.
  - intros H Hx. rewrite (IH k x H Hx). reflexivity.
Qed.
Lemma filter_same {A} (f g : A -> bool) l : (forall x, In x l -> f x = g x) -> filter f l = filter g l.
Proof. induction l as [|a l IH]; simpl; auto. intros H. rewrite (H a) by auto. rewrite IH by auto. reflexivity. Qed.

(** ** Frames of the two machines *)
Lemma co_frames y s : corr y s ->
  Permutation (frames s) (erase (yframes y) ++ map (fun p => FBody (Some (fst p)) (snd p)) (ycont y)).
Proof.
  intros [_ H]. unfold frames. rewrite <- concat_busy. apply concat_perm in H. rewrite H, concat_app, concat_busy, concat_erase.
  apply Permutation_app_head. clear. induction (ycont y) as [|p l IH]; simpl; auto.
Qed.

Lemma seen_frame y s f : corr y s -> In (YF f) (yframes y) -> In (seen f) (frames s).
Proof.
  intros C H. apply (Permutation_in _ (Permutation_sym (co_frames y s C))). apply in_or_app. left.
  apply in_flat_map. exists (YF f). simpl. auto.
Qed.
Lemma asleep_frame y s t is : corr y s -> In (t, is) (ycont y) -> In (FBody (Some t) is) (frames s).
Proof.
  intros C H. apply (Permutation_in _ (Permutation_sym (co_frames y s C))). apply in_or_app. right.
  apply in_map_iff. exists (t, is). auto.
Qed.

Lemma body_pos s t is : In (FBody (Some t) is) (frames s) -> 1 <= zsum (is_body (Some t)) (frames s).
Proof.
  intros H. assert (Q := in_w s (is_body (Some t)) _ (w_nn4 (Some t)) H). simpl in Q. rewrite Nat.eqb_refl in Q. simpl in Q. exact Q.
Qed.

(** ** Weights *)
Definition wS t g := match g with YStore q _ | YInc q _ | YBack q => ni t q | _ => 0 end.
Definition wE t g := match g with YF (FFollow (ERSet _) l) => zsum (ce (EPre t)) l | _ => 0 end.
Definition wN t g := match g with YNote q => ni t q | _ => 0 end.
Definition wP t g := match g with YStore q _ | YCheck q _ | YPush q _ | YInc q _ | YUp q _ _ => ni t q | _ => 0 end.
Definition wQ t g := match g with YStore q _ | YCheck q _ | YPush q _ | YUp q _ false => ni t q | _ => 0 end.
Definition wU t g := match g with YUp q _ true => ni t q | _ => 0 end.
Definition wK t g := match g with YNote2 q st => zb (Nat.eqb q t && (st =? 1)) | YRes q | YBack q => ni t q | _ => 0 end.
Definition wB t g := match g with YBack q => ni t q | _ => 0 end.

Definition sum (w : nat -> yframe -> Z) (t : nat) (y : ystate) : Z := zsum (w t) (yframes y).

Lemma wts t g : 0 <= wS t g /\ 0 <= wE t g /\ 0 <= wN t g /\ 0 <= wP t g /\ 0 <= wQ t g /\ 0 <= wU t g /\ 0 <= wK t g /\
  0 <= wB t g /\ wP t g <= wQ t g + wU t g + wS t g /\ wQ t g + wU t g <= wP t g /\ wS t g <= wP t g + wB t g /\ wB t g <= wK t g /\ wB t g <= wS t g.
Proof.
  assert (N : forall q, 0 <= ni t q) by (intros; unfold ni; pose proof (zb_bound (Nat.eqb q t)); lia).
  assert (C : forall l, 0 <= zsum (ce (EPre t)) l) by (intros; apply ce_nonneg).
  destruct g as [f| | | | |q c []| | | | |]; simpl; try destruct f; simpl; try destruct e; simpl;
    repeat match goal with |- context [ni t ?q] => pose proof (N q); generalize dependent (ni t q); intros end;
    repeat match goal with |- context [zb ?b] => pose proof (zb_bound b); generalize dependent (zb b); intros end;
    try (pose proof (C l)); lia.
Qed.

Lemma sums t y : 0 <= sum wS t y /\ 0 <= sum wE t y /\ 0 <= sum wN t y /\ 0 <= sum wP t y /\ 0 <= sum wQ t y /\ 0 <= sum wU t y /\ 0 <= sum wK t y /\
  0 <= sum wB t y /\ sum wP t y <= sum wQ t y + sum wU t y + sum wS t y /\ sum wQ t y + sum wU t y <= sum wP t y /\
  sum wS t y <= sum wP t y + sum wB t y /\ sum wB t y <= sum wK t y /\ sum wB t y <= sum wS t y.
Proof.
  unfold sum. induction (yframes y) as [|g l IH]; simpl; [lia|]. pose proof (wts t g). lia.
Qed.

Lemma sum_in w t y g : (forall g, 0 <= w t g) -> In g (yframes y) -> w t g <= sum w t y.
Proof. intros N H. apply zsum_ge; auto. Qed.

(** edges to [t] that the notification of the result of [c] will find *)
Definition pd (u : state) (t c : nat) : Z := if taken u (ERSet c) =? 0 then zsum (ce (EPre t)) (fol u (ERSet c)) else 0.

(** a suspended task: counter, frames that have yet to set or count, edges, notifications,
    pausing frames, those among them without an edge, rights to resume *)
Definition phase (a : bool) (x S E N W Q K : Z) : Prop :=
  exists k, 0 <= k /\ (a = true -> k = 0) /\ x = 1 - S + E + N + k /\ 0 <= W <= 1 /\
  (W = 1 -> K = 0 /\ E + N + k <= 1 - Q) /\
  (W = 0 -> (E + N + k = 0 /\ K = 1) \/ (1 <= E + N + k /\ K = 0)).

Definition pausing (g : yframe) : option (nat * nat) :=
  match g with YStore t c | YCheck t c | YPush t c | YInc t c | YUp t c _ => Some (t, c) | _ => None end.

(** frames with nothing below *)
Definition alone (g : yframe) : bool := match g with YF _ | YNote _ | YNote2 _ _ => false | _ => true end.
Definition yshape (st : list yframe) : Prop :=
  match st with
  | [] => True
  | g :: gs => (forall h, In h gs -> exists f, h = YF f) /\ (alone g = true -> gs = [])
  end.

Definition pres (l : list ev) : Prop := forall x, In x l -> exists t, x = EPre t.

Record tokens (a : bool) (y : ystate) : Prop := {
  tk_nodup : NoDup (map fst (ycont y));
  tk_get : forall t is, In (t, is) (ycont y) -> exists c is', is = IGet c :: is';
  tk_susp : forall t c is, In (t, IGet c :: is) (ycont y) ->
    phase a (ctr (yst y) (EPre t)) (sum wS t y) (sum wE t y + pd (yst y) t c) (sum wN t y) (sum wP t y) (sum wQ t y)
            (sum wK t y + zsum (ni t) (rdy (yst y)));
  tk_free : forall t, away y t = false -> sum wE t y = 0 /\ sum wN t y = 0 /\ sum wP t y = 0 /\ sum wK t y = 0;
  tk_pd : forall t c, pd (yst y) t c <> 0 -> exists is, In (t, IGet c :: is) (ycont y);
  tk_on : forall g t c, In g (yframes y) -> pausing g = Some (t, c) -> exists is, In (t, IGet c :: is) (ycont y);
  tk_push : a = true -> forall t c, In (YPush t c) (yframes y) -> taken (yst y) (ERSet c) = 0;
  tk_fol : forall c, pres (fol (yst y) (ERSet c));
  tk_follow : forall c l, In (YF (FFollow (ERSet c) l)) (yframes y) -> pres l;
  tk_twice : forall t, ~ In (YTwice t) (yframes y);
  tk_shape : forall st, In st (ythr y) -> yshape st
}.
Arguments tk_nodup {a y} _.
Arguments tk_get {a y} _.
Arguments tk_susp {a y} _.
Arguments tk_free {a y} _.
Arguments tk_pd {a y} _.
Arguments tk_on {a y} _.
Arguments tk_push {a y} _.
Arguments tk_fol {a y} _.
Arguments tk_follow {a y} _.
Arguments tk_twice {a y} _.
Arguments tk_shape {a y} _.

(** ** Steps that leave the set of suspended tasks alone *)
Lemma sum_split w t y old rest : Permutation (yframes y) (old ++ rest) -> sum w t y = zsum (w t) old + zsum (w t) rest.
Proof. intros H. unfold sum. now rewrite (zsum_perm (w t) _ _ H), zsum_app. Qed.

Lemma tok_step a y y' old fr rest : tokens a y -> ycont y' = ycont y ->
  Permutation (yframes y) (old ++ rest) -> Permutation (yframes y') (fr ++ rest) ->
  (forall t c is, In (t, IGet c :: is) (ycont y) ->
    phase a (ctr (yst y) (EPre t)) (sum wS t y) (sum wE t y + pd (yst y) t c) (sum wN t y) (sum wP t y) (sum wQ t y)
            (sum wK t y + zsum (ni t) (rdy (yst y))) ->
    phase a (ctr (yst y') (EPre t)) (sum wS t y') (sum wE t y' + pd (yst y') t c) (sum wN t y') (sum wP t y') (sum wQ t y')
            (sum wK t y' + zsum (ni t) (rdy (yst y')))) ->
  (forall t, away y t = false -> zsum (wE t) fr = 0 /\ zsum (wN t) fr = 0 /\ zsum (wP t) fr = 0 /\ zsum (wK t) fr = 0) ->
  (forall t c, pd (yst y') t c <> 0 -> pd (yst y) t c <> 0 \/ exists is, In (t, IGet c :: is) (ycont y)) ->
  (forall g t c, In g fr -> pausing g = Some (t, c) -> exists is, In (t, IGet c :: is) (ycont y)) ->
  (a = true -> forall t c, In (YPush t c) (yframes y') -> taken (yst y') (ERSet c) = 0) ->
  (forall c, pres (fol (yst y') (ERSet c))) ->
  (forall c l, In (YF (FFollow (ERSet c) l)) fr -> pres l) ->
  (forall t, ~ In (YTwice t) fr) ->
  (forall st, In st (ythr y') -> yshape st) ->
  tokens a y'.
Proof.
  intros T EC Hp Hp' O1 O2 O3 O4 O5 O6 O7 O8 O9.
  assert (AW : forall t, away y' t = away y t) by (intros; unfold away; now rewrite EC).
  assert (IN : forall g, In g (yframes y') -> In g fr \/ In g (yframes y)).
  { intros g Hg. apply (Permutation_in _ Hp') in Hg. apply in_app_or in Hg as [Hg|Hg]; auto. right.
    apply (Permutation_in _ (Permutation_sym Hp)). apply in_or_app. auto. }
  split; auto.
  - rewrite EC. apply (tk_nodup T).
  - rewrite EC. apply (tk_get T).
  - rewrite EC. intros t c is H. apply (O1 t c is H). exact (tk_susp T t c is H).
  - intros t Ht. rewrite AW in Ht. destruct (O2 t Ht) as (A1 & A2 & A3 & A4). destruct (tk_free T t Ht) as (B1 & B2 & B3 & B4).
    rewrite !(sum_split _ t y' fr rest Hp'). rewrite !(sum_split _ t y old rest Hp) in *.
    assert (N : forall w, (forall g, 0 <= w t g) -> 0 <= zsum (w t) old /\ 0 <= zsum (w t) rest).
    { intros w Hw. split; apply zsum_nonneg; auto. }
    pose proof (N wE (fun g => ltac:(pose proof (wts t g); tauto))). pose proof (N wN (fun g => ltac:(pose proof (wts t g); tauto))).
    pose proof (N wP (fun g => ltac:(pose proof (wts t g); tauto))). pose proof (N wK (fun g => ltac:(pose proof (wts t g); tauto))). lia.
  - rewrite EC. intros t c H. apply O3 in H as [H|H]; auto. exact (tk_pd T t c H).
  - rewrite EC. intros g t c Hg E. apply IN in Hg as [Hg|Hg]; [eauto|]. exact (tk_on T g t c Hg E).
  - intros c l H. apply IN in H as [H|H]; [eauto|]. exact (tk_follow T c l H).
  - intros t H. apply IN in H as [H|H]; [exact (O8 t H)|]. exact (tk_twice T t H).
Qed.

Lemma in_set_nth {A} (l : list A) : forall i v x, In x (set_nth i v l) -> x = v \/ In x l.
Proof.
  induction l as [|a l IH]; intros [|i] v x; simpl; auto.
  - intros [H|H]; auto.
  - intros [H|H]; auto. apply IH in H as [H|H]; auto.
Qed.

Lemma shape_set y i g gs fr : (forall st, In st (ythr y) -> yshape st) -> nth_error (ythr y) i = Some (g :: gs) ->
  (fr = [] \/ exists h l, fr = h :: l /\ (forall x, In x l -> exists f, x = YF f) /\ (alone h = true -> l = [] /\ gs = [])) ->
  forall st, In st (set_nth i (fr ++ gs) (ythr y)) -> yshape st.
Proof.
  intros S E F st H. apply in_set_nth in H as [->|H]; auto.
  assert (Sg := S _ (nth_error_In _ _ E)). destruct Sg as [S1 _].
  destruct F as [->|(h & l & -> & F1 & F2)]; simpl.
  - destruct gs as [|h gs]; simpl; auto. split; [intros x Hx; apply S1; simpl; auto|].
    intros Hh. destruct (S1 h) as [f ->]; [simpl; auto|]. discriminate.
  - split.
    + intros x Hx. apply in_app_or in Hx as [Hx|Hx]; auto.
    + intros Hh. destruct (F2 Hh) as [-> ->]. reflexivity.
Qed.

Lemma shape_idle y i fr : (forall st, In st (ythr y) -> yshape st) ->
  (exists h l, fr = h :: l /\ (forall x, In x l -> exists f, x = YF f) /\ (alone h = true -> l = [])) ->
  forall st, In st (set_nth i fr (ythr y)) -> yshape st.
Proof.
  intros S (h & l & -> & F1 & F2) st H. apply in_set_nth in H as [->|H]; auto. simpl. split; auto.
Qed.

Lemma yf_zero t fr : zsum (wS t) (map YF fr) = 0 /\ zsum (wN t) (map YF fr) = 0 /\ zsum (wP t) (map YF fr) = 0 /\ zsum (wQ t) (map YF fr) = 0 /\
  zsum (wK t) (map YF fr) = 0.
Proof. induction fr as [|f fr IH]; simpl; [lia|]. lia. Qed.

(** one step of a frame *)
Lemma yfr_perm y i g gs fr : nth_error (ythr y) i = Some (g :: gs) ->
  exists rest, Permutation (yframes y) ([g] ++ rest) /\ Permutation (concat (set_nth i (fr ++ gs) (ythr y))) (fr ++ rest).
Proof.
  intros E. destruct (concat_set_nth _ _ _ (fr ++ gs) E) as (r & H1 & H2). exists (gs ++ r). unfold yframes. split.
  - exact H1.
  - rewrite app_assoc. exact H2.
Qed.
Lemma yid_perm y i fr : nth_error (ythr y) i = Some [] ->
  Permutation (concat (set_nth i fr (ythr y))) (fr ++ yframes y).
Proof.
  intros E. destruct (concat_set_nth _ _ _ fr E) as (r & H1 & H2). etransitivity; [exact H2|].
  apply Permutation_app_head. symmetry. exact H1.
Qed.

Definition taking (f : frame) : Prop := exists c k, f = FNotify3 (ERSet c) 0 k.

Lemma fnormal P D u f u1 fr : quiet D f -> ~ taking f -> fstep P u f = Some (u1, fr) ->
  (forall c, taken u1 (ERSet c) = taken u (ERSet c)) /\ (forall c l, ~ In (FFollow (ERSet c) l) fr) /\ (forall t, wE t (YF f) = 0).
Proof.
  intros Q NT H. split; [|split].
  - intros c. unfold taken. cases_f H; simpl in *; auto; try (destruct e; simpl; auto; lia).
    zcmp. subst. destruct e; simpl; auto. exfalso. apply NT. red. eauto.
  - intros c l Hl. cases_f H; simpl in *; repeat (destruct Hl as [Hl|Hl]; try discriminate Hl); auto.
    + injection Hl as -> <-. zcmp. subst. apply NT. red. eauto.
    + injection Hl as -> <-. easy.
  - intros t. destruct f; simpl; auto. destruct e; auto. destruct l; [reflexivity|easy].
Qed.

Lemma we_zero t fr : (forall c l, ~ In (FFollow (ERSet c) l) fr) -> zsum (wE t) (map YF fr) = 0.
Proof.
  intros H. apply zsum_zero. intros g Hg. apply in_map_iff in Hg as (f & <- & Hf). simpl. destruct f; auto. destruct e; auto.
  destruct (H t0 l Hf).
Qed.

Lemma yf_in g fr : In g (map YF fr) -> exists f, g = YF f /\ In f fr.
Proof. intros H. apply in_map_iff in H as (f & <- & Hf). eauto. Qed.

Lemma yf_shape fr gs : map YF fr = [] \/ exists h l, map YF fr = h :: l /\ (forall x, In x l -> exists f, x = YF f) /\ (alone h = true -> l = [] /\ gs = ([] : list yframe)).
Proof.
  destruct fr as [|f fr]; [now left|]. right. exists (YF f), (map YF fr). split; [reflexivity|]. split; [|discriminate].
  intros x Hx. apply yf_in in Hx as (g & -> & _). eauto.
Qed.

Section Keep.
  Context (a : bool) (y : ystate) (T : tokens a y).

  (** a step that concerns no suspended task *)
  Lemma tok_base P i f gs u1 fr : nth_error (ythr y) i = Some (YF f :: gs) -> fstep P (yst y) f = Some (u1, fr) ->
    quiet (away y) f -> ~ taking f -> tokens a (mkY u1 (ycont y) (set_nth i (map YF fr ++ gs) (ythr y))).
  Proof.
    intros E H Q NT. destruct (yfr_perm y i (YF f) gs (map YF fr) E) as (rest & Hp & Hp').
    destruct (feffect P (away y) (yst y) f u1 fr Q H) as [F1 F2]. destruct (fnormal P (away y) (yst y) f u1 fr Q NT H) as (F3 & F4 & F5).
    set (y' := mkY u1 (ycont y) (set_nth i (map YF fr ++ gs) (ythr y))).
    assert (PD : forall t c, pd u1 t c = pd (yst y) t c) by (intros; unfold pd; now rewrite F3, F2).
    apply (tok_step a y y' [YF f] (map YF fr) rest T eq_refl Hp Hp').
    - intros t c is Hc. assert (At : away y t = true) by (apply away_in; eauto). destruct (F1 t At) as [F6 F7].
      simpl yst. rewrite F6, F7, PD.
      rewrite !(sum_split _ t y' _ rest Hp'), !(sum_split _ t y _ rest Hp). destruct (yf_zero t fr) as (Z1 & Z2 & Z3 & Z4 & Z5).
      rewrite Z1, Z2, Z3, Z4, Z5, (we_zero t fr F4). cbn [zsum]. rewrite F5. simpl. auto.
    - intros t Ht. destruct (yf_zero t fr) as (Z1 & Z2 & Z3 & Z4 & Z5). rewrite (we_zero t fr F4). auto.
    - intros t c. simpl yst. rewrite PD. auto.
    - intros g t c Hg. apply yf_in in Hg as (h & -> & _). discriminate.
    - intros A t c Hy. simpl yst. rewrite F3. apply (tk_push T A t). apply (Permutation_in _ (Permutation_sym Hp)).
      apply (Permutation_in _ Hp') in Hy. apply in_app_or in Hy as [Hy|Hy]; [|apply in_or_app; auto].
      apply yf_in in Hy as (h & Hh & _). discriminate.
    - intros c. simpl yst. rewrite F2. apply (tk_fol T).
    - intros c l Hg. apply yf_in in Hg as (h & Hh & Hf). injection Hh as <-. destruct (F4 c l Hf).
    - intros t Hg. apply yf_in in Hg as (h & Hh & _). discriminate.
    - exact (shape_set y i _ gs _ (tk_shape T) E (yf_shape fr gs)).
  Qed.

  (** the notification of a result takes the followers *)
  Lemma tok_take i c k gs : nth_error (ythr y) i = Some (YF (FNotify3 (ERSet c) 0 k) :: gs) -> taken (yst y) (ERSet c) = 0 ->
    (a = true -> take_ok y i) ->
    tokens a (mkY (add_log (yst y) (LTake (ERSet c))) (ycont y) (set_nth i ([YF (FFollow (ERSet c) (fol (yst y) (ERSet c)))] ++ gs) (ythr y))).
  Proof.
    intros E TK OK. destruct (yfr_perm y i _ gs [YF (FFollow (ERSet c) (fol (yst y) (ERSet c)))] E) as (rest & Hp & Hp').
    set (y' := mkY _ _ _).
    assert (TN : forall q, taken (yst y') (ERSet q) = ni c q + taken (yst y) (ERSet q)).
    { intros q. unfold taken, y'. simpl. unfold ce, ni. simpl. now rewrite Nat.eqb_sym. }
    assert (TG : forall q, 0 <= taken (yst y) (ERSet q)).
    { intros q. unfold taken. apply zsum_nonneg. intros [] _; simpl; try lia. unfold ce. pose proof (zb_bound (ev_eqb e (ERSet q))). lia. }
    assert (PD : forall t q, pd (yst y') t q = if Nat.eqb q c then 0 else pd (yst y) t q).
    { intros t q. unfold pd. rewrite TN. unfold ni. destruct (Nat.eqb_spec q c) as [->|n]; simpl zb.
      - rewrite TK. reflexivity.
      - simpl fol. rewrite Z.add_0_l. reflexivity. }
    assert (EE : forall t : nat, zsum (wE t) [YF (FFollow (ERSet c) (fol (yst y) (ERSet c)))] + pd (yst y') t c = pd (yst y) t c).
    { intros t. rewrite PD, Nat.eqb_refl. unfold pd. rewrite TK. simpl. lia. }
    apply (tok_step a y y' [YF (FNotify3 (ERSet c) 0 k)] [YF (FFollow (ERSet c) (fol (yst y) (ERSet c)))] rest T eq_refl Hp Hp').
    - intros t q is Hq. rewrite !(sum_split _ t y' _ rest Hp'), !(sum_split _ t y _ rest Hp). simpl yst. cbn [ctr rdy add_log].
      assert (X : zsum (wE t) [YF (FFollow (ERSet c) (fol (yst y) (ERSet c)))] + pd (yst y') t q = pd (yst y) t q).
      { destruct (Nat.eqb_spec q c) as [->|n]; [exact (EE t)|]. rewrite PD. destruct (Nat.eqb_spec q c); [easy|].
        assert (Y : pd (yst y) t c = 0).
        { destruct (Z.eq_dec (pd (yst y) t c) 0); auto. destruct (tk_pd T t c) as [js Hj]; auto.
          assert (IGet q :: is = IGet c :: js) by (eapply nodup_fst; [apply (tk_nodup T)| |]; eauto). congruence. }
        unfold pd in Y. rewrite TK in Y. simpl in Y. simpl. lia. }
      rewrite <- X. simpl yst. generalize (pd (add_log (yst y) (LTake (ERSet c))) t q). intros z.
      cbn [zsum wS wE wN wP wQ wK]. intros H. 
      replace (zsum (ce (EPre t)) (fol (yst y) (ERSet c)) + 0 + zsum (wE t) rest + z) with (0 + 0 + zsum (wE t) rest + (zsum (ce (EPre t)) (fol (yst y) (ERSet c)) + 0 + z)) by lia. exact H.
    - intros t Ht. cbn [zsum wE wN wP wK].
      assert (Y : pd (yst y) t c = 0).
      { destruct (Z.eq_dec (pd (yst y) t c) 0); auto. destruct (tk_pd T t c) as [js Hj]; auto. destruct (away_not y t Ht _ Hj). }
      unfold pd in Y. rewrite TK in Y. simpl in Y. lia.
    - intros t q. rewrite PD. destruct (Nat.eqb q c); [lia|auto].
    - intros g t q [<-|[]]. discriminate.
    - intros A t q Hy. assert (Hy0 : In (YPush t q) (yframes y)).
      { apply (Permutation_in _ (Permutation_sym Hp)). apply (Permutation_in _ Hp') in Hy.
        apply in_app_or in Hy as [[Hy|[]]|Hy]; [discriminate|apply in_or_app; auto]. }
      rewrite TN. unfold ni. destruct (Nat.eqb_spec q c) as [->|n].
      + destruct (OK A c k gs E t Hy0).
      + simpl. exact (tk_push T A t q Hy0).
    - intros q. exact (tk_fol T q).
    - intros q l [H|[]]. injection H as <- <-. apply (tk_fol T).
    - intros t [H|[]]. discriminate.
    - apply (shape_set y i _ gs _ (tk_shape T) E). right. exists (YF (FFollow (ERSet c) (fol (yst y) (ERSet c)))), []. split; [reflexivity|].
      split; [easy|discriminate].
  Qed.

  (** ... and visits one *)
  Lemma tok_visit i c t l gs : nth_error (ythr y) i = Some (YF (FFollow (ERSet c) (EPre t :: l)) :: gs) ->
    tokens a (mkY (yst y) (ycont y) (set_nth i ([YNote t; YF (FFollow (ERSet c) l)] ++ gs) (ythr y))).
  Proof.
    intros E. destruct (yfr_perm y i _ gs [YNote t; YF (FFollow (ERSet c) l)] E) as (rest & Hp & Hp'). set (y' := mkY _ _ _).
    assert (PR : pres (EPre t :: l)).
    { apply (tk_follow T c). apply (Permutation_in _ (Permutation_sym Hp)). simpl. auto. }
    assert (CE : forall q, ce (EPre q) (EPre t) = ni q t) by reflexivity.
    apply (tok_step a y y' [YF (FFollow (ERSet c) (EPre t :: l))] [YNote t; YF (FFollow (ERSet c) l)] rest T eq_refl Hp Hp').
    - intros q d is Hq. rewrite !(sum_split _ q y' _ rest Hp'), !(sum_split _ q y _ rest Hp). simpl yst. cbn [zsum wS wE wN wP wQ wK].
      rewrite CE. intros (k & K1 & K2 & K3 & K4 & K5 & K6). exists k. split; [exact K1|]. split; [exact K2|]. repeat split; try lia; try (intros; lia).
    - intros q Hq. destruct (tk_free T q Hq) as (A1 & A2 & A3 & A4). rewrite !(sum_split _ q y _ rest Hp) in *. cbn [zsum wE wN wP wK] in *.
      rewrite CE in A1.
      assert (0 <= zsum (wE q) rest) by (apply zsum_nonneg; intros g _; pose proof (wts q g); lia).
      assert (0 <= ni q t) by (unfold ni; pose proof (zb_bound (Nat.eqb t q)); lia).
      pose proof (ce_nonneg (EPre q) l). lia.
    - auto.
    - intros g q d [<-|[<-|[]]]; discriminate.
    - intros A q d Hy. apply (tk_push T A q). apply (Permutation_in _ (Permutation_sym Hp)). apply (Permutation_in _ Hp') in Hy.
      apply in_app_or in Hy as [[Hy|[Hy|[]]]|Hy]; try discriminate. apply in_or_app. auto.
    - apply (tk_fol T).
    - intros d m [H|[H|[]]]; [discriminate|]. injection H as <- <-. intros x Hx. apply PR. simpl. auto.
    - intros q [H|[H|[]]]; discriminate.
    - apply (shape_set y i _ gs _ (tk_shape T) E). right. exists (YNote t), [YF (FFollow (ERSet c) l)]. split; [reflexivity|].
      split; [intros x [<-|[]]; eauto|discriminate].
  Qed.
End Keep.

(** ** Steps that concern one suspended task *)
Definition who (g : yframe) : option nat :=
  match g with
  | YF _ => None
  | YStore t _ | YCheck t _ | YPush t _ | YInc t _ | YUp t _ _ | YNote t | YNote2 t _ | YRes t | YBack t | YTwice t => Some t
  end.

Lemma who_zero g t q : who g = Some t -> q <> t -> wS q g = 0 /\ wE q g = 0 /\ wN q g = 0 /\ wP q g = 0 /\ wQ q g = 0 /\ wK q g = 0.
Proof.
  intros H N. assert (Z : ni q t = 0) by (unfold ni; destruct (Nat.eqb_spec t q); [congruence|reflexivity]).
  destruct g as [f| | | | |? ? []| | | | |]; simpl in *; try discriminate; injection H as ->; rewrite ?Z; repeat split; auto.
  destruct (Nat.eqb_spec t q); [congruence|reflexivity].
Qed.
Lemma who_zeros l t q : (forall g, In g l -> who g = Some t) -> q <> t ->
  zsum (wS q) l = 0 /\ zsum (wE q) l = 0 /\ zsum (wN q) l = 0 /\ zsum (wP q) l = 0 /\ zsum (wQ q) l = 0 /\ zsum (wK q) l = 0.
Proof.
  intros H N. repeat split; apply zsum_zero; intros g Hg; destruct (who_zero g t q (H g Hg) N) as (A1 & A2 & A3 & A4 & A5 & A6); assumption.
Qed.
Lemma who_we l t q : (forall g, In g l -> who g = Some t) -> zsum (wE q) l = 0.
Proof. intros H. apply zsum_zero. intros g Hg. apply H in Hg. destruct g; simpl in *; auto. discriminate. Qed.

Lemma lsums t l : 0 <= zsum (wS t) l /\ 0 <= zsum (wE t) l /\ 0 <= zsum (wN t) l /\ 0 <= zsum (wP t) l /\ 0 <= zsum (wQ t) l /\
  0 <= zsum (wU t) l /\ 0 <= zsum (wK t) l /\ 0 <= zsum (wB t) l /\ zsum (wP t) l <= zsum (wQ t) l + zsum (wU t) l + zsum (wS t) l /\
  zsum (wQ t) l + zsum (wU t) l <= zsum (wP t) l /\ zsum (wS t) l <= zsum (wP t) l + zsum (wB t) l /\ zsum (wB t) l <= zsum (wK t) l /\
  zsum (wB t) l <= zsum (wS t) l.
Proof. induction l as [|g l IH]; simpl; [lia|]. pose proof (wts t g). lia. Qed.

Lemma pd_nonneg u t c : 0 <= pd u t c.
Proof. unfold pd. destruct (taken u (ERSet c) =? 0); [apply ce_nonneg|lia]. Qed.
Lemma rdy_nonneg t l : 0 <= zsum (ni t) l.
Proof. apply zsum_nonneg. intros q _. unfold ni. pose proof (zb_bound (Nat.eqb q t)). lia. Qed.
Lemma ni_same t : ni t t = 1.
Proof. unfold ni. now rewrite Nat.eqb_refl. Qed.

Lemma eupd_eq {A} (f : ev -> A) x v : eupd f x v x = v.
Proof. unfold eupd. now rewrite ev_eqb_refl. Qed.
Lemma eupd_ne {A} (f : ev -> A) x v e : e <> x -> eupd f x v e = f e.
Proof. intros H. unfold eupd. destruct (ev_eqb_spec e x); auto. congruence. Qed.

Section One.
  Context (a : bool) (y : ystate) (T : tokens a y).

  Lemma tok_one i g gs fr u1 t c is : nth_error (ythr y) i = Some (g :: gs) -> In (t, IGet c :: is) (ycont y) ->
    who g = Some t -> (forall h, In h fr -> who h = Some t) -> log u1 = log (yst y) ->
    (forall q, q <> t -> ctr u1 (EPre q) = ctr (yst y) (EPre q) /\ zsum (ni q) (rdy u1) = zsum (ni q) (rdy (yst y))) ->
    (forall q d, q <> t -> zsum (ce (EPre q)) (fol u1 (ERSet d)) = zsum (ce (EPre q)) (fol (yst y) (ERSet d))) ->
    (forall d, pres (fol u1 (ERSet d))) ->
    (forall d, d <> c -> pd u1 t d = pd (yst y) t d) ->
    (forall rest, Permutation (yframes y) ([g] ++ rest) ->
      phase a (ctr (yst y) (EPre t)) (zsum (wS t) [g] + zsum (wS t) rest) (0 + zsum (wE t) rest + pd (yst y) t c) (zsum (wN t) [g] + zsum (wN t) rest)
        (zsum (wP t) [g] + zsum (wP t) rest) (zsum (wQ t) [g] + zsum (wQ t) rest) (zsum (wK t) [g] + zsum (wK t) rest + zsum (ni t) (rdy (yst y))) ->
      phase a (ctr u1 (EPre t)) (zsum (wS t) fr + zsum (wS t) rest) (0 + zsum (wE t) rest + pd u1 t c) (zsum (wN t) fr + zsum (wN t) rest)
        (zsum (wP t) fr + zsum (wP t) rest) (zsum (wQ t) fr + zsum (wQ t) rest) (zsum (wK t) fr + zsum (wK t) rest + zsum (ni t) (rdy u1))) ->
    (forall h q d, In h fr -> pausing h = Some (q, d) -> q = t /\ d = c) ->
    (a = true -> forall q d, In (YPush q d) fr -> taken (yst y) (ERSet d) = 0) ->
    (forall q, ~ In (YTwice q) fr) ->
    (fr = [] \/ exists h l, fr = h :: l /\ (forall x, In x l -> exists f, x = YF f) /\ (alone h = true -> l = [] /\ gs = [])) ->
    tokens a (mkY u1 (ycont y) (set_nth i (fr ++ gs) (ythr y))).
  Proof.
    intros E Hc Wg Wf LG O1 O2 O3 O4 PH O5 O6 O7 SH. destruct (yfr_perm y i g gs fr E) as (rest & Hp & Hp').
    assert (Wg' : forall h, In h [g] -> who h = Some t) by (intros h [<-|[]]; auto).
    assert (TN : forall d, taken u1 (ERSet d) = taken (yst y) (ERSet d)) by (intros; unfold taken; now rewrite LG).
    assert (PD : forall q d, q <> t -> pd u1 q d = pd (yst y) q d) by (intros; unfold pd; now rewrite TN, O2).
    set (y' := mkY u1 (ycont y) (set_nth i (fr ++ gs) (ythr y))).
    apply (tok_step a y y' [g] fr rest T eq_refl Hp Hp').
    - intros q d js Hq. rewrite !(sum_split _ q y' _ rest Hp'), !(sum_split _ q y _ rest Hp). simpl yst.
      rewrite (who_we fr t q Wf), (who_we [g] t q Wg').
      destruct (Nat.eq_dec q t) as [->|n].
      + assert (X : IGet d :: js = IGet c :: is) by (eapply nodup_fst; [apply (tk_nodup T)| |]; eauto). injection X as -> _.
        exact (PH rest Hp).
      + destruct (O1 q n) as [-> ->]. rewrite (PD q d n).
        destruct (who_zeros [g] t q Wg' n) as (-> & _ & -> & -> & -> & ->). destruct (who_zeros fr t q Wf n) as (-> & _ & -> & -> & -> & ->). auto.
    - intros q Hq. assert (n : q <> t) by (intros ->; exact (away_not y t Hq _ Hc)).
      destruct (who_zeros fr t q Wf n) as (_ & A1 & A2 & A3 & _ & A4). auto.
    - intros q d. simpl yst. destruct (Nat.eq_dec q t) as [->|n]; [|rewrite (PD q d n); auto].
      destruct (Nat.eq_dec d c) as [->|m]; [eauto|]. rewrite (O4 d m). auto.
    - intros h q d Hh Eh. destruct (O5 h q d Hh Eh) as [-> ->]. eauto.
    - intros A q d Hy. simpl yst. rewrite TN. apply (Permutation_in _ Hp') in Hy. apply in_app_or in Hy as [Hy|Hy]; [exact (O6 A q d Hy)|].
      apply (tk_push T A q). apply (Permutation_in _ (Permutation_sym Hp)). apply in_or_app. auto.
    - exact O3.
    - intros d l Hl. apply Wf in Hl. discriminate.
    - exact O7.
    - exact (shape_set y i g gs fr (tk_shape T) E SH).
  Qed.

  Lemma top_in i g gs : nth_error (ythr y) i = Some (g :: gs) -> In g (yframes y).
  Proof. intros E. apply nth_error_In in E. unfold yframes. apply in_concat. exists (g :: gs). simpl. auto. Qed.

  Lemma top_alone i g gs : nth_error (ythr y) i = Some (g :: gs) -> alone g = true -> gs = [].
  Proof. intros E A. apply nth_error_In in E. apply (tk_shape T) in E. destruct E as [_ H]. auto. Qed.

  Lemma who_away g t (w : nat -> yframe -> Z) : In g (yframes y) -> w = wN \/ w = wP \/ w = wK -> 1 <= w t g -> exists c is, In (t, IGet c :: is) (ycont y).
  Proof.
    intros Hg Hw H. destruct (away y t) eqn:A.
    - apply away_in in A as [is Hi]. destruct (tk_get T t is Hi) as (c & is' & ->). eauto.
    - exfalso. destruct (tk_free T t A) as (A1 & A2 & A3 & A4).
      assert (w t g <= sum w t y). { apply sum_in; auto. intros h. pose proof (wts t h). destruct Hw as [->|[->| ->]]; tauto. }
      destruct Hw as [->|[->| ->]]; lia.
  Qed.

  Ltac sh := right; eexists _, []; split; [reflexivity|]; split; [easy|]; intros _; split; [reflexivity|auto].
  Ltac sums0 := cbn [zsum wS wN wP wQ wK] in *; rewrite ?ni_same in *.

  Lemma tok_store i t c gs : nth_error (ythr y) i = Some (YStore t c :: gs) ->
    tokens a (mkY (set_ctr (yst y) (eupd (ctr (yst y)) (EPre t) 1)) (ycont y) (set_nth i ([YCheck t c] ++ gs) (ythr y))).
  Proof.
    intros E. destruct (tk_on T _ t c (top_in i _ gs E) eq_refl) as [is Hc]. assert (G := top_alone i _ gs E eq_refl).
    apply (tok_one i (YStore t c) gs [YCheck t c] _ t c is); auto; try solve [intros h [<-|[]]; auto].
    - intros q n. simpl. rewrite eupd_ne; [auto|congruence].
    - exact (tk_fol T).
    - intros rest Hp (k & K1 & K2 & K3 & K4 & K5 & K6). simpl ctr. rewrite eupd_eq. simpl rdy.
      change (pd (set_ctr (yst y) (eupd (ctr (yst y)) (EPre t) 1)) t c) with (pd (yst y) t c). sums0.
      pose proof (lsums t rest). pose proof (pd_nonneg (yst y) t c). pose proof (rdy_nonneg t (rdy (yst y))).
      exists k. split; [exact K1|]. split; [exact K2|]. repeat split; try lia; try (intros; lia).
    - intros h q d [<-|[]]. simpl. intros X; injection X as <- <-. auto.
    - intros A q d [X|[]]. discriminate.
    - intros q [X|[]]. discriminate.
    - sh.
  Qed.

  Lemma tok_check i t c gs : nth_error (ythr y) i = Some (YCheck t c :: gs) -> (ctr (yst y) (ERSet c) <> 0 -> taken (yst y) (ERSet c) = 0) ->
    tokens a (mkY (yst y) (ycont y) (set_nth i ([if ctr (yst y) (ERSet c) =? 0 then YUp t c false else YPush t c] ++ gs) (ythr y))).
  Proof.
    intros E TR. destruct (tk_on T _ t c (top_in i _ gs E) eq_refl) as [is Hc]. assert (G := top_alone i _ gs E eq_refl).
    apply (tok_one i (YCheck t c) gs _ _ t c is); auto.
    - intros h [<-|[]]. now destruct (ctr (yst y) (ERSet c) =? 0).
    - exact (tk_fol T).
    - intros rest Hp. destruct (ctr (yst y) (ERSet c) =? 0); sums0; auto.
    - intros h q d [<-|[]]. destruct (ctr (yst y) (ERSet c) =? 0); simpl; intros X; injection X as <- <-; auto.
    - intros A q d [X|[]]. destruct (Z.eqb_spec (ctr (yst y) (ERSet c)) 0); [discriminate|]. injection X as <- <-. auto.
    - intros q [X|[]]. destruct (ctr (yst y) (ERSet c) =? 0); discriminate.
    - sh.
  Qed.

  Lemma tok_push i t c gs : nth_error (ythr y) i = Some (YPush t c :: gs) ->
    tokens a (mkY (set_fol (yst y) (eupd (fol (yst y)) (ERSet c) (EPre t :: fol (yst y) (ERSet c)))) (ycont y) (set_nth i ([YInc t c] ++ gs) (ythr y))).
  Proof.
    intros E. destruct (tk_on T _ t c (top_in i _ gs E) eq_refl) as [is Hc]. assert (G := top_alone i _ gs E eq_refl).
    assert (FE : forall d, d <> c -> eupd (fol (yst y)) (ERSet c) (EPre t :: fol (yst y) (ERSet c)) (ERSet d) = fol (yst y) (ERSet d)) by (intros; apply eupd_ne; congruence).
    apply (tok_one i (YPush t c) gs [YInc t c] _ t c is); auto; try solve [intros h [<-|[]]; auto].
    - intros q d n. simpl. destruct (Nat.eq_dec d c) as [->|m]; [|now rewrite FE]. rewrite eupd_eq. simpl. unfold ce at 1. simpl.
      destruct (Nat.eqb_spec t q); [congruence|]. simpl. lia.
    - intros d x. simpl. destruct (Nat.eq_dec d c) as [->|m]; [|rewrite FE by auto; apply (tk_fol T)]. rewrite eupd_eq.
      intros [<-|H]; [eauto|]. exact (tk_fol T c x H).
    - intros d m. unfold pd. simpl. rewrite FE by auto. reflexivity.
    - intros rest Hp (k & K1 & K2 & K3 & K4 & K5 & K6). simpl ctr. simpl rdy. sums0.
      assert (PD : pd (set_fol (yst y) (eupd (fol (yst y)) (ERSet c) (EPre t :: fol (yst y) (ERSet c)))) t c =
                   if taken (yst y) (ERSet c) =? 0 then 1 + pd (yst y) t c else pd (yst y) t c).
      { unfold pd. change (taken (set_fol (yst y) (eupd (fol (yst y)) (ERSet c) (EPre t :: fol (yst y) (ERSet c)))) (ERSet c)) with (taken (yst y) (ERSet c)).
        destruct (taken (yst y) (ERSet c) =? 0); auto. simpl. rewrite eupd_eq. simpl. unfold ce at 1. simpl. rewrite Nat.eqb_refl. reflexivity. }
      rewrite PD. clear PD.
      pose proof (lsums t rest). pose proof (pd_nonneg (yst y) t c). pose proof (rdy_nonneg t (rdy (yst y))).
      destruct (Z.eqb_spec (taken (yst y) (ERSet c)) 0).
      + exists k. split; [exact K1|]. split; [exact K2|]. repeat split; try lia; try (intros; lia).
      + exists (k + 1). split; [lia|]. split.
        { intros A. destruct n. apply (tk_push T A t). exact (top_in i _ gs E). }
        repeat split; try lia; try (intros; lia).
    - intros h q d [<-|[]]. simpl. intros X; injection X as <- <-. auto.
    - intros A q d [X|[]]. discriminate.
    - intros q [X|[]]. discriminate.
    - sh.
  Qed.

  Lemma inc_ctr (P : prog) (NW : p_wrap P = false) u e : inc P u e = set_ctr u (eupd (ctr u) e (ctr u e + 1)).
  Proof. unfold inc. now rewrite (wrap_id P NW). Qed.

  Lemma tok_inc (P : prog) (NW : p_wrap P = false) i t c gs : nth_error (ythr y) i = Some (YInc t c :: gs) ->
    tokens a (mkY (inc P (yst y) (EPre t)) (ycont y) (set_nth i ([YUp t c true] ++ gs) (ythr y))).
  Proof.
    intros E. destruct (tk_on T _ t c (top_in i _ gs E) eq_refl) as [is Hc]. assert (G := top_alone i _ gs E eq_refl).
    rewrite (inc_ctr P NW). apply (tok_one i (YInc t c) gs [YUp t c true] _ t c is); auto; try solve [intros h [<-|[]]; auto].
    - intros q n. simpl. rewrite eupd_ne; [auto|congruence].
    - exact (tk_fol T).
    - intros rest Hp (k & K1 & K2 & K3 & K4 & K5 & K6). simpl ctr. rewrite eupd_eq. simpl rdy.
      change (pd (set_ctr (yst y) (eupd (ctr (yst y)) (EPre t) (ctr (yst y) (EPre t) + 1))) t c) with (pd (yst y) t c). sums0.
      pose proof (lsums t rest). pose proof (pd_nonneg (yst y) t c). pose proof (rdy_nonneg t (rdy (yst y))).
      exists k. split; [exact K1|]. split; [exact K2|]. repeat split; try lia; try (intros; lia).
    - intros h q d [<-|[]]. simpl. intros X; injection X as <- <-. auto.
    - intros A q d [X|[]]. discriminate.
    - intros q [X|[]]. discriminate.
    - sh.
  Qed.

  Lemma tok_up (P : prog) (NW : p_wrap P = false) i t c p gs : nth_error (ythr y) i = Some (YUp t c p :: gs) ->
    tokens a (mkY (inc P (yst y) (EPre t)) (ycont y) (set_nth i ([YNote t] ++ gs) (ythr y))).
  Proof.
    intros E. destruct (tk_on T _ t c (top_in i _ gs E) eq_refl) as [is Hc]. assert (G := top_alone i _ gs E eq_refl).
    rewrite (inc_ctr P NW). apply (tok_one i (YUp t c p) gs [YNote t] _ t c is); auto; try solve [intros h [<-|[]]; auto].
    - intros q n. simpl. rewrite eupd_ne; [auto|congruence].
    - exact (tk_fol T).
    - intros rest Hp (k & K1 & K2 & K3 & K4 & K5 & K6). simpl ctr. rewrite eupd_eq. simpl rdy.
      change (pd (set_ctr (yst y) (eupd (ctr (yst y)) (EPre t) (ctr (yst y) (EPre t) + 1))) t c) with (pd (yst y) t c). sums0.
      pose proof (lsums t rest). pose proof (pd_nonneg (yst y) t c). pose proof (rdy_nonneg t (rdy (yst y))).
      exists k. split; [exact K1|]. split; [exact K2|]. destruct p; rewrite ?ni_same in *; repeat split; try lia; try (intros; lia).
    - intros h q d [<-|[]]. discriminate.
    - intros A q d [X|[]]. discriminate.
    - intros q [X|[]]. discriminate.
    - sh.
  Qed.

  Lemma tok_note (P : prog) (NW : p_wrap P = false) i t gs : nth_error (ythr y) i = Some (YNote t :: gs) -> visit_ok y i ->
    let st := wrap P (ctr (yst y) (EPre t) - 1) in
    tokens a (mkY (set_ctr (yst y) (eupd (ctr (yst y)) (EPre t) st)) (ycont y) (set_nth i ([YNote2 t st] ++ gs) (ythr y))).
  Proof.
    intros E V. cbv zeta. rewrite (wrap_id P NW). destruct (who_away (YNote t) t wN (top_in i _ gs E)) as (c & is & Hc); [auto|simpl; rewrite ni_same; lia|].
    apply (tok_one i (YNote t) gs [YNote2 t (ctr (yst y) (EPre t) - 1)] _ t c is); auto; try solve [intros h [<-|[]]; auto].
    - intros q n. simpl. rewrite eupd_ne; [auto|congruence].
    - exact (tk_fol T).
    - intros rest Hp (k & K1 & K2 & K3 & K4 & K5 & K6). simpl ctr. rewrite eupd_eq. simpl rdy.
      change (pd (set_ctr (yst y) (eupd (ctr (yst y)) (EPre t) (ctr (yst y) (EPre t) - 1))) t c) with (pd (yst y) t c). sums0.
      assert (U : zsum (wU t) rest = 0).
      { apply zsum_zero. intros h Hh. destruct h as [f| | | | |q d []| | | | |]; simpl; auto. unfold ni. destruct (Nat.eqb_spec q t) as [->|]; auto.
        exfalso. apply (V t gs E d). apply (Permutation_in _ (Permutation_sym Hp)). simpl. auto. }
      rewrite Nat.eqb_refl. simpl andb.
      pose proof (lsums t rest). pose proof (pd_nonneg (yst y) t c). pose proof (rdy_nonneg t (rdy (yst y))).
      exists k. split; [exact K1|]. split; [exact K2|].
      destruct (Z.eqb_spec (ctr (yst y) (EPre t) - 1) 1); simpl zb; repeat split; try lia; try (intros; lia).
    - intros h q d [<-|[]]. discriminate.
    - intros A q d [X|[]]. discriminate.
    - intros q [X|[]]. discriminate.
    - right. eexists _, []. split; [reflexivity|]. split; [easy|]. discriminate.
  Qed.

  Lemma tok_note2 i t st gs : nth_error (ythr y) i = Some (YNote2 t st :: gs) ->
    tokens a (mkY (if st =? 1 then set_rdy (yst y) (t :: rdy (yst y)) else yst y) (ycont y) (set_nth i ([] ++ gs) (ythr y))).
  Proof.
    intros E. destruct (Z.eqb_spec st 1) as [->|n].
    - destruct (who_away (YNote2 t 1) t wK (top_in i _ gs E)) as (c & is & Hc); [auto|simpl; rewrite Nat.eqb_refl; simpl; lia|].
      apply (tok_one i (YNote2 t 1) gs [] _ t c is); auto; try easy.
      + intros q n. simpl. split; auto. unfold ni at 1. destruct (Nat.eqb_spec t q); [congruence|]. simpl. lia.
      + exact (tk_fol T).
      + intros rest Hp. change (pd (set_rdy (yst y) (t :: rdy (yst y))) t c) with (pd (yst y) t c). simpl ctr. simpl rdy. sums0.
        rewrite Nat.eqb_refl. simpl andb. change (zb true) with 1.
        replace (0 + zsum (wK t) rest + (1 + zsum (ni t) (rdy (yst y)))) with (1 + 0 + zsum (wK t) rest + zsum (ni t) (rdy (yst y))) by lia. auto.
    - destruct (yfr_perm y i _ gs [] E) as (rest & Hp & Hp').
      set (y' := mkY (yst y) (ycont y) (set_nth i ([] ++ gs) (ythr y))).
      apply (tok_step a y y' [YNote2 t st] [] rest T eq_refl Hp Hp'); auto; try easy.
      + intros q d js Hq. rewrite !(sum_split _ q y' _ rest Hp'), !(sum_split _ q y _ rest Hp). sums0. simpl yst.
        destruct (Z.eqb_spec st 1); [easy|]. rewrite andb_false_r. simpl. auto.
      + intros A q d Hy. apply (tk_push T A q). apply (Permutation_in _ (Permutation_sym Hp)). apply (Permutation_in _ Hp') in Hy. simpl in *. auto.
      + exact (tk_fol T).
      + apply (shape_set y i _ gs [] (tk_shape T) E). auto.
  Qed.

  Lemma tok_res (P : prog) (NW : p_wrap P = false) i t gs : nth_error (ythr y) i = Some (YRes t :: gs) ->
    tokens a (mkY (set_ctr (yst y) (eupd (ctr (yst y)) (EPre t) (wrap P (ctr (yst y) (EPre t) - 1)))) (ycont y) (set_nth i ([YBack t] ++ gs) (ythr y))).
  Proof.
    intros E. rewrite (wrap_id P NW). destruct (who_away (YRes t) t wK (top_in i _ gs E)) as (c & is & Hc); [auto|simpl; rewrite ni_same; lia|].
    assert (G := top_alone i _ gs E eq_refl).
    apply (tok_one i (YRes t) gs [YBack t] _ t c is); auto; try solve [intros h [<-|[]]; auto].
    - intros q n. simpl. rewrite eupd_ne; [auto|congruence].
    - exact (tk_fol T).
    - intros rest Hp (k & K1 & K2 & K3 & K4 & K5 & K6). simpl ctr. rewrite eupd_eq. simpl rdy.
      change (pd (set_ctr (yst y) (eupd (ctr (yst y)) (EPre t) (ctr (yst y) (EPre t) - 1))) t c) with (pd (yst y) t c). sums0.
      pose proof (lsums t rest). pose proof (pd_nonneg (yst y) t c). pose proof (rdy_nonneg t (rdy (yst y))).
      exists k. split; [exact K1|]. split; [exact K2|]. repeat split; try lia; try (intros; lia).
    - intros h q d [<-|[]]. discriminate.
    - intros A q d [X|[]]. discriminate.
    - intros q [X|[]]. discriminate.
    - sh.
  Qed.

  Lemma ni_nth t l : forall k q, nth_error l k = Some q -> zsum (ni t) l = ni t q + zsum (ni t) (remove_nth k l).
  Proof. induction l as [|x l IH]; intros [|k] q; simpl; try discriminate; intros H; [injection H as ->; lia|]. rewrite (IH k q H). lia. Qed.

  (** a worker takes a task *)
  Lemma tok_ready i k t : nth_error (ythr y) i = Some [] -> nth_error (rdy (yst y)) k = Some t ->
    tokens a (mkY (set_rdy (yst y) (remove_nth k (rdy (yst y)))) (ycont y) (set_nth i [if away y t then YRes t else YF (FExec t)] (ythr y))).
  Proof.
    intros E H. assert (Hp' := yid_perm y i [if away y t then YRes t else YF (FExec t)] E).
    set (y' := mkY _ _ _). assert (Hp : Permutation (yframes y) ([] ++ yframes y)) by (simpl; auto).
    apply (tok_step a y y' [] [if away y t then YRes t else YF (FExec t)] (yframes y) T eq_refl Hp Hp'); auto.
    - intros q d js Hq. assert (A : away y q = true) by (apply away_in; eauto).
      rewrite !(sum_split _ q y' _ (yframes y) Hp'), !(sum_split _ q y _ (yframes y) Hp). simpl yst. simpl rdy. simpl ctr.
      change (pd (set_rdy (yst y) (remove_nth k (rdy (yst y)))) q d) with (pd (yst y) q d).
      rewrite (ni_nth q (rdy (yst y)) k t H).
      destruct (Nat.eq_dec q t) as [->|n].
      + rewrite A. sums0. simpl wE. intros Z. replace (1 + 0 + zsum (wK t) (yframes y) + zsum (ni t) (remove_nth k (rdy (yst y))))
          with (0 + zsum (wK t) (yframes y) + (1 + zsum (ni t) (remove_nth k (rdy (yst y))))) by lia. simpl. rewrite Z.add_0_l in *. exact Z.
      + assert (N0 : ni q t = 0) by (unfold ni; destruct (Nat.eqb_spec t q); [congruence|reflexivity]).
        destruct (away y t); sums0; simpl wE; rewrite ?N0; simpl; auto.
    - intros q Hq. destruct (away y t) eqn:A; sums0; simpl; auto.
      assert (ni q t = 0) by (unfold ni; destruct (Nat.eqb_spec t q); [congruence|reflexivity]). lia.
    - intros g q d [<-|[]]. destruct (away y t); discriminate.
    - intros A q d Hy. apply (tk_push T A q). apply (Permutation_in _ Hp') in Hy. apply in_app_or in Hy as [[Hy|[]]|Hy]; auto.
      destruct (away y t); discriminate.
    - exact (tk_fol T).
    - intros d l [X|[]]. destruct (away y t); discriminate.
    - intros q [X|[]]. destruct (away y t); discriminate.
    - apply (shape_idle y i _ (tk_shape T)). eexists _, []. split; [reflexivity|]. split; [easy|auto].
  Qed.

  (** ... or begins one of the other things an idle worker does *)
  Lemma tok_idle i c u1 fr : nth_error (ythr y) i = Some [] -> istep (yst y) c = Some (u1, fr) -> (forall k, c <> PReady k) ->
    tokens a (mkY u1 (ycont y) (set_nth i (map YF fr) (ythr y))).
  Proof.
    intros E H NR. assert (Hp' := yid_perm y i (map YF fr) E).
    set (y' := mkY _ _ _). assert (Hp : Permutation (yframes y) ([] ++ yframes y)) by (simpl; auto).
    assert (F : ctr u1 = ctr (yst y) /\ rdy u1 = rdy (yst y) /\ fol u1 = fol (yst y) /\ (forall d, taken u1 (ERSet d) = taken (yst y) (ERSet d)) /\
                (exists h l, fr = h :: l) /\ (forall d l, ~ In (FFollow (ERSet d) l) fr)).
    { destruct c as [k|k|k]; [destruct (NR k); reflexivity| |]; simpl in H;
        [destruct (nth_error (emp (yst y)) k) as [x|]|destruct (nth_error (ext (yst y)) k) as [[x e]|]]; try discriminate; injection H as <- <-; simpl;
        (split; [reflexivity|]; split; [reflexivity|]; split; [reflexivity|]; split; [reflexivity|]; split; [eauto|]; intros ? ? [X|[]]; discriminate). }
    destruct F as (F1 & F2 & F3 & F4 & (h & l0 & F5) & F6).
    assert (PD : forall t d, pd u1 t d = pd (yst y) t d) by (intros; unfold pd; now rewrite F4, F3).
    apply (tok_step a y y' [] (map YF fr) (yframes y) T eq_refl Hp Hp'); auto.
    - intros q d js Hq. rewrite !(sum_split _ q y' _ (yframes y) Hp'), !(sum_split _ q y _ (yframes y) Hp). simpl yst. rewrite F1, F2, PD.
      destruct (yf_zero q fr) as (Z1 & Z2 & Z3 & Z4 & Z5). rewrite Z1, Z2, Z3, Z4, Z5, (we_zero q fr F6). simpl. auto.
    - intros q Hq. destruct (yf_zero q fr) as (Z1 & Z2 & Z3 & Z4 & Z5). rewrite (we_zero q fr F6). auto.
    - intros q d. simpl yst. rewrite PD. auto.
    - intros g q d Hg. apply yf_in in Hg as (f & -> & _). discriminate.
    - intros A q d Hy. simpl yst. rewrite F4. apply (tk_push T A q). apply (Permutation_in _ Hp') in Hy. apply in_app_or in Hy as [Hy|Hy]; auto.
      apply yf_in in Hy as (f & X & _). discriminate.
    - intros d. simpl yst. rewrite F3. apply (tk_fol T).
    - intros d l Hg. apply yf_in in Hg as (f & X & Hf). injection X as <-. destruct (F6 d l Hf).
    - intros q Hg. apply yf_in in Hg as (f & X & _). discriminate.
    - apply (shape_idle y i _ (tk_shape T)). rewrite F5. exists (YF h), (map YF l0). split; [reflexivity|]. split; [|discriminate].
      intros x Hx. apply yf_in in Hx as (f & -> & _). eauto.
  Qed.
End One.

(** ** A task is suspended, or goes on *)
Section Turn.
  Context (a : bool) (y : ystate) (T : tokens a y).

  Lemma tok_pause i t c is : nth_error (ythr y) i = Some [YF (FBody (Some t) (IGet c :: is))] ->
    away y t = false -> ctr (yst y) (EPre t) = 0 -> zsum (ni t) (rdy (yst y)) = 0 ->
    tokens a (mkY (yst y) ((t, IGet c :: is) :: ycont y) (set_nth i [YStore t c] (ythr y))).
  Proof.
    intros E A X R. destruct (yfr_perm y i _ [] [YStore t c] E) as (rest & Hp & Hp'). simpl app at 1 in Hp'.
    set (y' := mkY _ _ _). change (Permutation (yframes y') ([YStore t c] ++ rest)) in Hp'.
    assert (AW : forall q, away y' q = false -> q <> t /\ away y q = false).
    { intros q. unfold away, y'. simpl. intros H. apply orb_false_iff in H as [H1 H2]. apply Nat.eqb_neq in H1. auto. }
    assert (PT : forall d, pd (yst y) t d = 0).
    { intros d. destruct (Z.eq_dec (pd (yst y) t d) 0); auto. destruct (tk_pd T t d) as [js Hj]; auto. destruct (away_not y t A _ Hj). }
    assert (IN : forall g, In g (yframes y') -> g = YStore t c \/ In g (yframes y)).
    { intros g Hg. apply (Permutation_in _ Hp') in Hg as [<-|Hg]; auto. right. apply (Permutation_in _ (Permutation_sym Hp)). simpl. auto. }
    assert (SQ : forall w q, zsum (w q) [YStore t c] = 0 -> zsum (w q) [YF (FBody (Some t) (IGet c :: is))] = 0 -> sum w q y' = sum w q y).
    { intros w q H1 H2. now rewrite (sum_split w q y' _ rest Hp'), (sum_split w q y _ rest Hp), H1, H2. }
    split.
    - simpl. constructor; [|apply (tk_nodup T)]. intros H. apply in_map_iff in H as ([q js] & <- & H). exact (away_not y _ A js H).
    - intros q js [H|H]; [injection H as <- <-; eauto|exact (tk_get T q js H)].
    - intros q d js [H|H].
      + injection H as <- <- <-. simpl yst. rewrite X, R, PT.
        destruct (tk_free T t A) as (B1 & B2 & B3 & B4). rewrite !(sum_split _ t y' _ rest Hp'). rewrite (sum_split wE t y _ rest Hp) in B1. rewrite (sum_split wN t y _ rest Hp) in B2. rewrite (sum_split wP t y _ rest Hp) in B3. rewrite (sum_split wK t y _ rest Hp) in B4.
        cbn [zsum wS wE wN wP wQ wK] in *. rewrite ni_same in *. pose proof (lsums t rest). exists 0. repeat split; try lia; try (intros; lia).
      + assert (n : q <> t) by (intros ->; exact (away_not y t A _ H)).
        destruct (who_zeros [YStore t c] t q) as (Z1 & Z2 & Z3 & Z4 & Z5 & Z6); [intros g [<-|[]]; auto|exact n|].
        simpl yst. rewrite (SQ wS q), (SQ wE q), (SQ wN q), (SQ wP q), (SQ wQ q), (SQ wK q); try assumption; try reflexivity. exact (tk_susp T q d js H).
    - intros q Hq. apply AW in Hq as [n Hq]. destruct (tk_free T q Hq) as (B1 & B2 & B3 & B4).
      destruct (who_zeros [YStore t c] t q) as (Z1 & Z2 & Z3 & Z4 & Z5 & Z6); [intros g [<-|[]]; auto|exact n|].
      rewrite (SQ wE q), (SQ wN q), (SQ wP q), (SQ wK q); try assumption; try reflexivity. auto.
    - intros q d H. destruct (tk_pd T q d H) as [js Hj]. exists js. simpl. auto.
    - intros g q d Hg Eg. apply IN in Hg as [->|Hg].
      + injection Eg as <- <-. exists is. simpl. auto.
      + destruct (tk_on T g q d Hg Eg) as [js Hj]. exists js. simpl. auto.
    - intros Ha q d Hg. apply IN in Hg as [Hg|Hg]; [discriminate|]. exact (tk_push T Ha q d Hg).
    - exact (tk_fol T).
    - intros d l Hg. apply IN in Hg as [Hg|Hg]; [discriminate|]. exact (tk_follow T d l Hg).
    - intros q Hg. apply IN in Hg as [Hg|Hg]; [discriminate|]. exact (tk_twice T q Hg).
    - intros st Hs. apply in_set_nth in Hs as [->|Hs]; [|exact (tk_shape T st Hs)]. simpl. split; [easy|auto].
  Qed.

  Lemma tok_back i t is l : nth_error (ythr y) i = Some [YBack t] -> grab t (ycont y) = Some (is, l) ->
    ctr (yst y) (EPre t) = 0 /\ zsum (ni t) (rdy (yst y)) = 0 /\
    tokens a (mkY (yst y) l (set_nth i [YF (FBody (Some t) is)] (ythr y))).
  Proof.
    intros E G. assert (GP := grab_spec _ _ _ _ G).
    destruct (yfr_perm y i _ [] [YF (FBody (Some t) is)] E) as (rest & Hp & Hp'). simpl app at 1 in Hp'.
    set (y' := mkY _ _ _). change (Permutation (yframes y') ([YF (FBody (Some t) is)] ++ rest)) in Hp'.
    assert (I0 : In (t, is) (ycont y)) by (apply (Permutation_in _ (Permutation_sym GP)); simpl; auto).
    destruct (tk_get T t is I0) as (c & is' & ->).
    assert (ND : NoDup (t :: map fst l)).
    { change (t :: map fst l) with (map fst ((t, IGet c :: is') :: l)). eapply Permutation_NoDup; [apply Permutation_map; exact GP|apply (tk_nodup T)]. }
    inversion ND as [|? ? ND1 ND2]; subst.
    assert (KEEP : forall q js, In (q, js) (ycont y) -> q <> t -> In (q, js) l).
    { intros q js H n. apply (Permutation_in _ GP) in H as [H|H]; auto. congruence. }
    assert (BACK : forall q js, In (q, js) l -> q <> t /\ In (q, js) (ycont y)).
    { intros q js H. split; [|apply (Permutation_in _ (Permutation_sym GP)); simpl; auto]. intros ->. apply ND1. apply in_map_iff. exists (t, js). auto. }
    assert (PH := tk_susp T t c is' I0). destruct PH as (k & K1 & K2 & K3 & K4 & K5 & K6).
    assert (PH : ctr (yst y) (EPre t) = 0 /\ zsum (ni t) (rdy (yst y)) = 0 /\ pd (yst y) t c = 0 /\ zsum (wE t) rest = 0 /\ zsum (wN t) rest = 0 /\
                 zsum (wP t) rest = 0 /\ zsum (wK t) rest = 0).
    { rewrite !(sum_split _ t y _ rest Hp) in *. cbn [zsum wS wE wN wP wQ wK] in *. rewrite ni_same in *.
      pose proof (lsums t rest). pose proof (pd_nonneg (yst y) t c). pose proof (rdy_nonneg t (rdy (yst y))). lia. }
    clear K3 K4 K5 K6. destruct PH as (X & R & PT & B1 & B2 & B3 & B4).
    assert (AW : forall q, away y' q = false -> q = t \/ q <> t /\ away y q = false).
    { intros q H. destruct (Nat.eq_dec q t) as [->|n]; auto. right. split; auto. destruct (away y q) eqn:A; auto.
      apply away_in in A as [js Hj]. destruct (away_not y' q H js). exact (KEEP q js Hj n). }
    assert (IN : forall g, In g (yframes y') -> g = YF (FBody (Some t) (IGet c :: is')) \/ In g (yframes y)).
    { intros g Hg. apply (Permutation_in _ Hp') in Hg as [<-|Hg]; auto. right. apply (Permutation_in _ (Permutation_sym Hp)). simpl. auto. }
    assert (SQ : forall w q, zsum (w q) [YBack t] = 0 -> zsum (w q) [YF (FBody (Some t) (IGet c :: is'))] = 0 -> sum w q y' = sum w q y).
    { intros w q H1 H2. now rewrite (sum_split w q y' _ rest Hp'), (sum_split w q y _ rest Hp), H1, H2. }
    split; [exact X|]. split; [exact R|]. split.
    - exact ND2.
    - intros q js H. apply BACK in H as [_ H]. exact (tk_get T q js H).
    - intros q d js H. apply BACK in H as [n H].
      destruct (who_zeros [YBack t] t q) as (Z1 & Z2 & Z3 & Z4 & Z5 & Z6); [intros g [<-|[]]; auto|exact n|].
      simpl yst. rewrite (SQ wS q), (SQ wE q), (SQ wN q), (SQ wP q), (SQ wQ q), (SQ wK q); try assumption; try reflexivity. exact (tk_susp T q d js H).
    - intros q Hq. apply AW in Hq as [->|[n Hq]].
      + rewrite !(sum_split _ t y' _ rest Hp'). cbn [zsum wS wE wN wP wQ wK]. lia.
      + destruct (tk_free T q Hq) as (C1 & C2 & C3 & C4).
        destruct (who_zeros [YBack t] t q) as (Z1 & Z2 & Z3 & Z4 & Z5 & Z6); [intros g [<-|[]]; auto|exact n|].
        rewrite (SQ wE q), (SQ wN q), (SQ wP q), (SQ wK q); try assumption; try reflexivity. auto.
    - intros q d H. destruct (tk_pd T q d H) as [js Hj]. exists js. simpl. apply KEEP; auto. intros ->.
      assert (Z := nodup_fst _ _ _ _ (tk_nodup T) I0 Hj). injection Z as <- <-. auto.
    - intros g q d Hg Eg. apply (Permutation_in _ Hp') in Hg. destruct Hg as [<-|Hg]; [discriminate|].
      destruct (tk_on T g q d) as [js Hj]; auto; [apply (Permutation_in _ (Permutation_sym Hp)); simpl; auto|].
      exists js. apply KEEP; auto. intros ->.
      assert (1 <= wP t g) by (destruct g; simpl in *; try discriminate; injection Eg as -> ->; rewrite ni_same; lia).
      assert (wP t g <= zsum (wP t) rest) by (apply zsum_ge; auto; intros h; pose proof (wts t h); tauto). lia.
    - intros Ha q d Hg. apply IN in Hg as [Hg|Hg]; [discriminate|]. exact (tk_push T Ha q d Hg).
    - exact (tk_fol T).
    - intros d m Hg. apply IN in Hg as [Hg|Hg]; [discriminate|]. exact (tk_follow T d m Hg).
    - intros q Hg. apply IN in Hg as [Hg|Hg]; [discriminate|]. exact (tk_twice T q Hg).
    - intros st Hs. apply in_set_nth in Hs as [->|Hs]; [|exact (tk_shape T st Hs)]. simpl. split; [easy|discriminate].
  Qed.
End Turn.
