(** Accelerator streams: proofs. *)
From Coq Require Import Bool List Arith Lia Permutation.
From Verif Require Import StreamModel.
Import ListNotations.

Lemma fput_eq : forall A (f : nat -> A) i x, fput f i x i = x.
Proof. intros. unfold fput. now rewrite Nat.eqb_refl. Qed.
Lemma fput_neq : forall A (f : nat -> A) i j x, j <> i -> fput f i x j = f j.
Proof. intros. unfold fput. now destruct (Nat.eqb_spec j i). Qed.

(** ** Recordings *)
Definition onS (s : nat) (l : list (nat * nat)) : list nat :=
  map fst (filter (fun p => snd (snd p) =? s) (combine (seq 0 (length l)) l)).
Lemma combine_app : forall A B (l1 l2 : list A) (m1 m2 : list B),
  length l1 = length m1 -> combine (l1 ++ l2) (m1 ++ m2) = combine l1 m1 ++ combine l2 m2.
Proof.
  induction l1 as [|x l1 IH]; intros l2 [|y m1] m2 H; simpl in *; try easy. f_equal. apply IH. lia.
Qed.
Lemma onS_snoc : forall s l e s', onS s (l ++ [(e, s')]) = onS s l ++ (if s' =? s then [length l] else []).
Proof.
  intros. unfold onS. rewrite app_length, seq_app, combine_app by (now rewrite seq_length).
  rewrite filter_app, map_app. simpl. destruct (s' =? s); simpl; reflexivity.
Qed.
Lemma onS_in : forall s l r, In r (onS s l) <-> exists e, nth_error l r = Some (e, s).
Proof.
  intros s l. induction l as [|[e s'] l IH] using rev_ind; intros r.
  { simpl. split; [easy|intros [e H]; now destruct r]. }
  rewrite onS_snoc, in_app_iff, IH. split.
  - intros [[e' H]|H].
    + exists e'. rewrite nth_error_app1; [assumption|]. apply nth_error_Some. congruence.
    + destruct (Nat.eqb_spec s' s); [|easy]. destruct H as [<-|[]]. exists e.
      rewrite nth_error_app2 by lia. rewrite Nat.sub_diag. simpl. now subst.
  - intros [e' H]. destruct (lt_dec r (length l)) as [L|L].
    + left. exists e'. now rewrite nth_error_app1 in H.
    + right. rewrite nth_error_app2 in H by lia. destruct (r - length l) as [|k] eqn:E; simpl in H.
      * injection H as <- <-. rewrite Nat.eqb_refl. left. lia.
      * destruct k; discriminate.
Qed.
Lemma onS_lt : forall s l r, In r (onS s l) -> r < length l.
Proof. intros s l r H. apply onS_in in H. destruct H as [e H]. apply nth_error_Some. congruence. Qed.
Lemma onS_nodup : forall s l, NoDup (onS s l).
Proof.
  intros s l. induction l as [|[e s'] l IH] using rev_ind; [constructor|].
  rewrite onS_snoc. destruct (s' =? s); [|now rewrite app_nil_r].
  apply (Permutation_NoDup (Permutation_cons_append _ _)). constructor; [|assumption].
  intros H. apply onS_lt in H. lia.
Qed.
Lemma latest_snoc : forall e l e' s i r,
  latest e (l ++ [(e', s)]) i r = if e' =? e then Some (i + length l) else latest e l i r.
Proof.
  induction l as [|[e1 s1] l IH]; intros; simpl.
  - destruct (e' =? e); [f_equal; lia|reflexivity].
  - rewrite IH. destruct (e' =? e); [f_equal; lia|reflexivity].
Qed.

(** ** Invariant *)
Definition live (s : nat) (d : dev) : list (nat * nat) := if busy d s then tl (queues d s) else queues d s.
Definition held (s : nat) (d : dev) : list (nat * nat) := live s d ++ open d s.
Definition told_on (s : nat) (d : dev) : list nat :=
  filter (fun r => match nth_error (recs d) r with Some (_, s') => s' =? s | None => false end) (told d).

Record inv (d : dev) : Prop := {
  i_held : forall s e r, In (e, r) (held s d) ->
           nth_error (recs d) r = Some (e, s) /\ latest e (recs d) 0 None = Some r /\ e < fresh d /\ ~ In e (unused d);
  i_unused : NoDup (unused d) /\ forall e, In e (unused d) -> e < fresh d;
  i_perm : forall s, Permutation (on_stream s d) (told_on s d ++ map snd (held s d));
  i_done : forall r, In r (told d) -> done r d = true;
  i_busy : forall s, busy d s = true -> exists x q, queues d s = x :: q /\ In (snd x) (told d);
  i_nodup : NoDup (told d)
}.
Lemma i_busy' : forall d, inv d -> forall s, busy d s = true -> queues d s <> [].
Proof. intros d I s B. destruct (i_busy d I s B) as (x & q & -> & _). easy. Qed.

Lemma done_some : forall r d, done r d = true -> exists e s, nth_error (recs d) r = Some (e, s).
Proof. intros r d. unfold done. destruct (nth_error (recs d) r) as [[e s]|]; [eauto|easy]. Qed.

Lemma firstn_in_app : forall A (l m : list A) n x, In x (firstn n l) -> In x (firstn n (l ++ m)).
Proof. intros. rewrite firstn_app. apply in_app_iff. now left. Qed.
Lemma firstn_in_S : forall A (l : list A) n x, In x (firstn n l) -> In x (firstn (S n) l).
Proof.
  induction l as [|y l IH]; intros [|n] x H; simpl in *; try easy.
  destruct H as [H|H]; [now left|right]. now apply IH.
Qed.

Lemma existsb_in : forall l r, existsb (Nat.eqb r) l = true <-> In r l.
Proof.
  intros. rewrite existsb_exists. split.
  - intros (x & H & E). apply Nat.eqb_eq in E. now subst.
  - intros H. exists r. split; [assumption|apply Nat.eqb_refl].
Qed.
Lemma done_iff : forall r d,
  done r d = true <-> exists e s, nth_error (recs d) r = Some (e, s) /\ In r (firstn (fin d s) (on_stream s d)).
Proof.
  intros r d. unfold done. destruct (nth_error (recs d) r) as [[e s]|].
  - rewrite existsb_in. split; [eauto|]. intros (e' & s' & [= <- <-] & H). assumption.
  - split; [easy|]. now intros (e & s & H & _).
Qed.
Lemma done_mono : forall r d d' x,
  recs d' = recs d ++ x -> (forall s, fin d s <= fin d' s) -> done r d = true -> done r d' = true.
Proof.
  intros r d d' x R F H. apply done_iff in H. destruct H as (e & s & E & H). apply done_iff.
  exists e, s. split.
  - rewrite R, nth_error_app1; [assumption|]. apply nth_error_Some. congruence.
  - unfold on_stream in *. fold (onS s (recs d)) in H. fold (onS s (recs d')). rewrite R.
    assert (A : exists y, onS s (recs d ++ x) = onS s (recs d) ++ y).
    { clear. induction x as [|[e s'] x IH] using rev_ind.
      - exists []. now rewrite !app_nil_r.
      - destruct IH as [y IH]. rewrite app_assoc, onS_snoc, IH, <- app_assoc. eauto. }
    destruct A as [y ->]. apply firstn_in_app.
    assert (forall n m, n <= m -> In r (firstn n (onS s (recs d))) -> In r (firstn m (onS s (recs d)))) as M.
    { induction 1; [easy|]. intros. apply firstn_in_S. auto. }
    exact (M _ _ (F s) H).
Qed.

Lemma inv_init : inv dev_init.
Proof.
  split; simpl; try easy; [split; [constructor|easy]|constructor].
Qed.

(** the queue only names events once *)
Lemma held_unique : forall d, inv d -> forall s s' i j e r r',
  nth_error (held s d) i = Some (e, r) -> nth_error (held s' d) j = Some (e, r') -> s = s' /\ i = j /\ r = r'.
Proof.
  intros d I s s' i j e r r' H H'.
  destruct (i_held d I s e r (nth_error_In _ _ H)) as (A & B & _).
  destruct (i_held d I s' e r' (nth_error_In _ _ H')) as (A' & B' & _).
  assert (r = r') by congruence. subst r'. assert (s = s') by congruence. subst s'.
  split; [reflexivity|split; [|reflexivity]].
  assert (N : NoDup (map snd (held s d))).
  { assert (P := Permutation_NoDup (i_perm d I s) (onS_nodup s (recs d))).
    clear - P. induction (told_on s d) as [|x l IH]; [exact P|]. apply IH. now inversion P. }
  apply (NoDup_nth_error (map snd (held s d))); [assumption| |].
  - rewrite map_length. apply nth_error_Some. congruence.
  - rewrite (map_nth_error snd _ _ H). symmetry. exact (map_nth_error snd _ _ H').
Qed.

Lemma held_untold : forall d, inv d -> forall s e r, In (e, r) (held s d) -> ~ In r (told d).
Proof.
  intros d I s e r H T. destruct (i_held d I s e r H) as (A & _).
  assert (P := Permutation_NoDup (i_perm d I s) (onS_nodup s (recs d))).
  assert (T' : In r (told_on s d)).
  { unfold told_on. apply filter_In. split; [assumption|]. rewrite A. apply Nat.eqb_refl. }
  apply in_split in T'. destruct T' as (l1 & l2 & E). rewrite E, <- app_assoc in P. simpl in P.
  apply NoDup_remove_2 in P. apply P. rewrite !in_app_iff. right. right. apply in_map_iff. now exists (e, r).
Qed.

Lemma filter_ext_in' : forall A (f g : A -> bool) l, (forall x, In x l -> f x = g x) -> filter f l = filter g l.
Proof. intros. now apply filter_ext_in. Qed.

(** what allocation gives *)
Lemma ev_alloc_ok : forall d e d', inv d -> ev_alloc d = (e, d') ->
  e < fresh d' /\ fresh d <= fresh d' /\ ~ In e (unused d') /\ NoDup (unused d') /\
  (forall x, In x (unused d') -> In x (unused d)) /\
  (forall s r, ~ In (e, r) (held s d)) /\
  recs d' = recs d /\ fin d' = fin d /\ queues d' = queues d /\ open d' = open d /\ busy d' = busy d /\ told d' = told d.
Proof.
  intros d e d' I. unfold ev_alloc. destruct (i_unused d I) as [N L]. destruct (unused d) as [|e1 u] eqn:U; intros [= <- <-]; simpl.
  - repeat split; try lia; try easy; try constructor.
    intros s r H. apply (i_held d I) in H. lia.
  - inversion N; subst. repeat split; try easy; try now right.
    + apply L. now left.
    + intros s r H. apply (i_held d I) in H. destruct H as (_ & _ & _ & H). apply H. rewrite U. now left.
Qed.

Lemma inv_record : forall s d, inv d -> inv (record s d).
Proof.
  intros s d I. unfold record. destruct (ev_alloc d) as [e d'] eqn:E.
  destruct (ev_alloc_ok d e d' I E) as (Ef & Lf & Nu & Du & Iu & Nh & R & F & Q & O & B & T). clear E.
  assert (HD : forall s1, held s1 (mkDev (fresh d') (unused d') (recs d' ++ [(e, s)]) (fin d') (queues d')
                 (fput (open d') s ((e, length (recs d')) :: open d' s)) (busy d') (told d')) =
               live s1 d ++ (if s1 =? s then [(e, length (recs d))] else []) ++ open d s1).
  { intros s1. unfold held, live. simpl. rewrite R, Q, B, O. unfold fput.
    destruct (Nat.eqb_spec s1 s); [subst|]; reflexivity. }
  split.
  - intros s1 e1 r1 H. rewrite HD in H. cbn [recs fresh unused].
    apply in_app_iff in H. destruct H as [H|H]; [|apply in_app_iff in H; destruct H as [H|H]].
    1,3: assert (H1 : In (e1, r1) (held s1 d)) by (unfold held; apply in_app_iff; auto);
      destruct (i_held d I _ _ _ H1) as (A & B1 & C & D);
      rewrite R, nth_error_app1 by (apply nth_error_Some; congruence);
      split; [assumption|]; rewrite latest_snoc;
      destruct (Nat.eqb_spec e e1); [subst; exfalso; exact (Nh _ _ H1)|];
      split; [assumption|split; [lia|]]; intros X; apply D; auto.
    destruct (Nat.eqb_spec s1 s); [|easy]. subst. destruct H as [[= <- <-]|[]].
    rewrite R, nth_error_app2 by lia. rewrite Nat.sub_diag, latest_snoc, Nat.eqb_refl. simpl. auto.
  - cbn [unused fresh]. split; [assumption|]. intros x Hx. apply Iu in Hx. apply (i_unused d I) in Hx. lia.
  - intros s1.
    assert (TO : told_on s1 (mkDev (fresh d') (unused d') (recs d' ++ [(e, s)]) (fin d') (queues d')
                 (fput (open d') s ((e, length (recs d')) :: open d' s)) (busy d') (told d')) = told_on s1 d).
    { unfold told_on. cbn [recs told]. rewrite R, T. apply filter_ext_in'. intros r Hr.
      apply (i_done d I) in Hr. apply done_some in Hr. destruct Hr as (e0 & s0 & Hr).
      rewrite nth_error_app1 by (apply nth_error_Some; congruence). reflexivity. }
    rewrite HD, TO. clear TO HD. unfold on_stream. cbn [recs]. fold (onS s1 (recs d' ++ [(e, s)])).
    rewrite R, onS_snoc. assert (P := i_perm d I s1). unfold on_stream in P. fold (onS s1 (recs d)) in P.
    rewrite P. unfold held. rewrite !map_app, <- !app_assoc, (Nat.eqb_sym s1 s).
    apply Permutation_app_head, Permutation_app_head. rewrite Permutation_app_comm.
    destruct (s =? s1); simpl; rewrite ?R; apply Permutation_refl.
  - intros r Hr. cbn [told] in Hr. rewrite T in Hr. apply (done_mono r d _ [(e, s)]).
    + cbn [recs]. now rewrite R.
    + intros. cbn [fin]. rewrite F. lia.
    + now apply I.
  - cbn [busy queues told]. rewrite B, Q, T. apply I.
  - cbn [told]. rewrite T. apply I.
Qed.

Lemma tl_app : forall A (l m : list A), l <> [] -> tl (l ++ m) = tl l ++ m.
Proof. now intros A [|x l] m. Qed.

Lemma inv_push : forall s d, inv d -> inv (push s d).
Proof.
  intros s d I. unfold push. destruct (open d s) as [|x o] eqn:E; [assumption|].
  assert (HD : forall s1, Permutation (held s1 (mkDev (fresh d) (unused d) (recs d) (fin d) (fput (queues d) s (queues d s ++ [x]))
                    (fput (open d) s o) (busy d) (told d))) (held s1 d)).
  { intros s1. unfold held, live. cbn [queues open busy]. unfold fput. destruct (Nat.eqb_spec s1 s); [subst|reflexivity].
    rewrite E. assert (B := i_busy' d I s). destruct (busy d s).
    - rewrite tl_app, <- app_assoc by auto. reflexivity.
    - now rewrite <- app_assoc. }
  split.
  - intros s1 e r H. apply (Permutation_in _ (HD s1)) in H. exact (i_held d I _ _ _ H).
  - exact (i_unused d I).
  - intros s1. rewrite HD. exact (i_perm d I s1).
  - exact (i_done d I).
  - intros s1 H. cbn [queues busy told] in *. unfold fput. destruct (i_busy d I s1 H) as (y & q & E1 & E2).
    destruct (Nat.eqb_spec s1 s); [subst; rewrite E1; now exists y, (q ++ [x])|now exists y, q].
  - apply I.
Qed.

Lemma inv_progress : forall s d, inv d -> inv (progress s d).
Proof.
  intros s d I. unfold progress. destruct (fin d s <? _); [|assumption]. split; try apply I.
  intros r Hr. apply (done_mono r d _ []).
  - now rewrite app_nil_r.
  - intros s1. cbn [fin]. unfold fput. destruct (Nat.eqb_spec s1 s); subst; lia.
  - now apply I.
Qed.

Lemma told_on_snoc : forall s d d' r e s', recs d' = recs d -> told d' = told d ++ [r] -> nth_error (recs d) r = Some (e, s') ->
  told_on s d' = told_on s d ++ (if s' =? s then [r] else []).
Proof.
  intros s d d' r e s' R T H. unfold told_on. rewrite R, T, filter_app. simpl. rewrite H. now destruct (s' =? s).
Qed.

Lemma inv_poll_begin : forall s d, inv d -> inv (poll_begin s d).
Proof.
  intros s d I. unfold poll_begin. destruct (busy d s) eqn:B; [assumption|]. destruct (open d s) eqn:O; [|assumption].
  destruct (queues d s) as [|[e r] q] eqn:Q; [assumption|]. destruct (query e d) eqn:Y; [|assumption].
  assert (H0 : nth_error (held s d) 0 = Some (e, r)) by (unfold held, live; now rewrite B, Q).
  destruct (i_held d I _ _ _ (nth_error_In _ _ H0)) as (A1 & A2 & A3 & A4).
  set (d' := mkDev _ _ _ _ _ _ _ _).
  assert (HD : forall s1, held s1 d' = if s1 =? s then q else held s1 d).
  { intros s1. unfold held, live. cbn [d' queues open busy ev_free]. unfold fput. destruct (Nat.eqb_spec s1 s); [|reflexivity].
    subst. now rewrite Q, O, app_nil_r. }
  split.
  - intros s1 e1 r1 H. apply In_nth_error in H. destruct H as [i H].
    assert (K : exists i1, nth_error (held s1 d) i1 = Some (e1, r1) /\ (s1 <> s \/ i1 <> 0)).
    { rewrite HD in H. destruct (Nat.eqb_spec s1 s).
      - subst. exists (S i). split; [|auto]. unfold held, live. rewrite B, Q, O, app_nil_r. exact H.
      - eauto. }
    destruct K as (i1 & K & NE). destruct (i_held d I _ _ _ (nth_error_In _ _ K)) as (C1 & C2 & C3 & C4).
    cbn [d' recs fresh unused ev_free]. split; [assumption|]. split; [assumption|]. split; [assumption|].
    intros [X|X]; [|auto]. subst e1. destruct (held_unique d I _ _ _ _ _ _ _ H0 K) as (U1 & U2 & _). subst. tauto.
  - cbn [d' unused fresh ev_free]. destruct (i_unused d I) as [N L]. split; [now constructor|].
    intros x [<-|X]; auto.
  - intros s1. rewrite HD, (told_on_snoc s1 d d' r e s) by easy.
    change (on_stream s1 d') with (on_stream s1 d). rewrite (i_perm d I s1).
    destruct (Nat.eqb_spec s1 s); [subst; rewrite Nat.eqb_refl|].
    + unfold held, live. rewrite B, Q, O, app_nil_r, <- app_assoc. reflexivity.
    + destruct (Nat.eqb_spec s s1); [congruence|]. now rewrite app_nil_r.
  - intros r1 H. cbn [d' told] in H. apply in_app_iff in H. apply (done_mono r1 d _ []).
    + now rewrite app_nil_r.
    + intros. apply le_n.
    + destruct H as [H|[<-|[]]]; [now apply I|]. unfold query in Y. now rewrite A2 in Y.
  - intros s1 H. cbn [d' queues busy ev_free told] in *. unfold fput in H. destruct (Nat.eqb_spec s1 s).
    + subst. exists (e, r), q. split; [assumption|]. apply in_app_iff. right. now left.
    + destruct (i_busy d I s1 H) as (y & q1 & E1 & E2). exists y, q1. split; [assumption|]. apply in_app_iff. now left.
  - cbn [d' told]. apply (Permutation_NoDup (Permutation_cons_append _ _)). constructor; [|apply I].
    intros H. exact (held_untold d I s e r (nth_error_In _ _ H0) H).
Qed.

Lemma held_poll_end : forall s d s1, held s1 (poll_end s d) = held s1 d.
Proof.
  intros s d s1. unfold poll_end. destruct (busy d s) eqn:B; [|reflexivity]. destruct (open d s) eqn:O; [|reflexivity].
  unfold held, live. cbn [queues open busy]. unfold fput. destruct (Nat.eqb_spec s1 s); [|reflexivity].
  subst. now rewrite B.
Qed.

Lemma inv_poll_end : forall s d, inv d -> inv (poll_end s d).
Proof.
  intros s d I. assert (HD := held_poll_end s d). unfold poll_end in *. destruct (busy d s) eqn:B; [|assumption].
  destruct (open d s) eqn:O; [|assumption]. split.
  - intros s1 e r H. rewrite HD in H. exact (i_held d I _ _ _ H).
  - apply I.
  - intros s1. rewrite HD. exact (i_perm d I s1).
  - exact (i_done d I).
  - intros s1 H. cbn [queues busy told] in *. unfold fput in *. destruct (s1 =? s); [discriminate|now apply I].
  - apply I.
Qed.

(** an entry is in use from the recording until its notification *)
Lemma held_iff : forall d, inv d -> forall s e r,
  In (e, r) (held s d) <-> (In (e, r) (queues d s) /\ ~ In r (told d)) \/ In (e, r) (open d s).
Proof.
  intros d I s e r. split.
  - intros H. assert (U := held_untold d I s e r H). unfold held, live in H. apply in_app_iff in H.
    destruct H as [H|H]; [left|now right]. split; [|assumption].
    destruct (busy d s); [|assumption]. destruct (queues d s); [easy|now right].
  - intros H. unfold held, live. apply in_app_iff. destruct H as [[H U]|H]; [left|now right].
    destruct (busy d s) eqn:B; [|assumption]. destruct (i_busy d I s B) as (x & q & E1 & E2). rewrite E1 in *.
    destruct H as [->|H]; [easy|assumption].
Qed.

Lemma inv_step : forall d o, inv d -> inv (dstep d o).
Proof.
  intros d [s|s|s|s|s] I; simpl.
  - now apply inv_record.
  - now apply inv_push.
  - now apply inv_progress.
  - now apply inv_poll_begin.
  - now apply inv_poll_end.
Qed.
Lemma inv_fold : forall ops d, inv d -> inv (fold_left dstep ops d).
Proof. induction ops as [|o ops IH]; intros d I; simpl; [assumption|]. apply IH. now apply inv_step. Qed.
Lemma inv_runs : forall ops, inv (druns ops).
Proof. intros. apply inv_fold, inv_init. Qed.

(** ** In-order notification without nested dispatches on one stream *)
(** every recording happens while no other dispatch on the stream is open *)
Fixpoint unnested (ops : list dop) (d : dev) : Prop :=
  match ops with
  | [] => True
  | o :: ops => match o with DRecord s => open d s = [] | _ => True end /\ unnested ops (dstep d o)
  end.
Definition ordered (d : dev) : Prop :=
  forall s, on_stream s d = told_on s d ++ map snd (held s d) /\ length (open d s) <= 1.
Lemma ordered_record : forall s d, inv d -> open d s = [] -> ordered d -> ordered (record s d).
Proof.
  intros s d I O0 W s1. unfold record. destruct (ev_alloc d) as [e d'] eqn:E.
  destruct (ev_alloc_ok d e d' I E) as (Ef & Lf & Nu & Du & Iu & Nh & R & F & Q & O & B & T). clear E.
  cbn [open]. rewrite O. destruct (W s1) as [W1 W2]. split.
  2: { unfold fput. destruct (Nat.eqb_spec s1 s); [subst; rewrite O0; simpl; lia|assumption]. }
  unfold on_stream. cbn [recs]. fold (onS s1 (recs d' ++ [(e, s)])).
  rewrite R, onS_snoc. unfold on_stream in W1. fold (onS s1 (recs d)) in W1. rewrite W1.
  unfold told_on at 2. cbn [recs told]. rewrite <- app_assoc. f_equal.
  { unfold told_on. rewrite T. apply filter_ext_in'. intros r Hr.
    apply (i_done d I) in Hr. apply done_some in Hr. destruct Hr as (e0 & s0 & Hr).
    rewrite nth_error_app1 by (apply nth_error_Some; congruence). reflexivity. }
  unfold held, live. cbn [queues open busy]. rewrite Q, B. unfold fput.
  rewrite (Nat.eqb_sym s s1). destruct (Nat.eqb_spec s1 s); [subst; rewrite O0|]; rewrite ?app_nil_r, ?map_app; reflexivity.
Qed.
Lemma ordered_step : forall d o, inv d -> match o with DRecord s => open d s = [] | _ => True end ->
  ordered d -> ordered (dstep d o).
Proof.
  intros d [s|s|s|s|s] I H W; simpl.
  - now apply ordered_record.
  - intros s1. unfold push. destruct (open d s) as [|x o] eqn:E; [apply W|]. destruct (W s1) as [W1 W2].
    change (on_stream s1 _) with (on_stream s1 d) at 1. rewrite W1. clear W1. cbn [open].
    unfold told_on, held, live. cbn [recs told queues open busy]. unfold fput. destruct (Nat.eqb_spec s1 s); [subst|easy].
    rewrite E in *. simpl in W2. destruct o; [|simpl in W2; lia]. split; [|simpl; lia]. f_equal. f_equal.
    rewrite app_nil_r. assert (B := i_busy' d I s). destruct (busy d s); [rewrite tl_app by auto|]; reflexivity.
  - unfold progress. destruct (fin d s <? _); exact W.
  - unfold poll_begin. destruct (busy d s) eqn:B; [assumption|]. destruct (open d s) eqn:O; [|assumption].
    destruct (queues d s) as [|[e r] q] eqn:Q; [assumption|]. destruct (query e d) eqn:Y; [|assumption].
    assert (H0 : In (e, r) (held s d)) by (unfold held, live; rewrite B, Q; now left).
    destruct (i_held d I _ _ _ H0) as (A1 & _). set (d' := mkDev _ _ _ _ _ _ _ _). intros s1.
    destruct (W s1) as [W1 W2]. split; [|exact W2].
    rewrite (told_on_snoc s1 d d' r e s) by easy. change (on_stream s1 d') with (on_stream s1 d). rewrite W1, <- app_assoc.
    f_equal. unfold held, live. cbn [d' queues open busy ev_free]. unfold fput. rewrite (Nat.eqb_sym s s1).
    destruct (Nat.eqb_spec s1 s); [subst; rewrite B, Q, O; reflexivity|reflexivity].
  - intros s1. destruct (W s1) as [W1 W2]. rewrite held_poll_end. unfold poll_end.
    destruct (busy d s); [|now split]. destruct (open d s); now split.
Qed.
Lemma ordered_fold : forall ops d, inv d -> ordered d -> unnested ops d -> ordered (fold_left dstep ops d).
Proof.
  induction ops as [|o ops IH]; intros d I W U; simpl; [assumption|]. destruct U as [U1 U2].
  apply IH; [now apply inv_step|now apply ordered_step|assumption].
Qed.

(** ** Polling a quiet stream empties its queue *)
Fixpoint polls (s : nat) (n : nat) : list dop :=
  match n with O => [] | S n => DPollBegin s :: DPollEnd s :: polls s n end.
Lemma poll_round : forall s d e r q,
  busy d s = false -> open d s = [] -> queues d s = (e, r) :: q -> inv d ->
  let d' := dstep (dstep d (DPollBegin s)) (DPollEnd s) in
  (done r d = true -> busy d' s = false /\ open d' s = [] /\ queues d' s = q /\ told d' = told d ++ [r] /\ recs d' = recs d /\ fin d' = fin d) /\
  (done r d = false -> d' = d).
Proof.
  intros s d e r q B O Q I d'.
  assert (H0 : In (e, r) (held s d)) by (unfold held, live; rewrite B, Q; now left).
  destruct (i_held d I _ _ _ H0) as (A1 & A2 & _).
  assert (Y : query e d = done r d) by (unfold query; now rewrite A2).
  subst d'. simpl. unfold poll_begin. rewrite B, O, Q, Y. split; intros ->.
  - unfold poll_end. cbn [busy open queues ev_free recs fin told]. rewrite fput_eq, O. cbn [busy open queues ev_free recs fin told].
    rewrite !fput_eq, Q. auto 10.
  - unfold poll_end. now rewrite B.
Qed.
Lemma done_ext : forall r d d', recs d' = recs d -> fin d' = fin d -> done r d' = done r d.
Proof. intros r d d' R F. unfold done, on_stream. now rewrite R, F. Qed.
Lemma polls_drain : forall s q d, inv d -> busy d s = false -> open d s = [] -> queues d s = q ->
  (forall e r, In (e, r) q -> done r d = true) ->
  let d' := fold_left dstep (polls s (length q)) d in
  queues d' s = [] /\ told d' = told d ++ map snd q.
Proof.
  intros s q. induction q as [|[e r] q IH]; intros d I B O Q H; simpl.
  - split; [assumption|now rewrite app_nil_r].
  - destruct (poll_round s d e r q B O Q I) as [P _].
    destruct (P (H e r (or_introl eq_refl))) as (B1 & O1 & Q1 & T1 & R1 & F1).
    set (d1 := dstep (dstep d (DPollBegin s)) (DPollEnd s)) in *.
    change (poll_end s (poll_begin s d)) with d1.
    destruct (IH d1 (inv_step _ _ (inv_step _ _ I)) B1 O1 Q1) as [X1 X2].
    + intros e1 r1 H1. rewrite (done_ext r1 d d1 R1 F1). apply (H e1). now right.
    + split; [assumption|]. rewrite X2, T1, <- app_assoc. reflexivity.
Qed.
