(** Sums over frames and histories; how a step changes them. *)
From Coq Require Import Bool List Arith NArith ZArith Lia Permutation.
From Verif Require Import AccessModel AccessSpec AccessProof UserModel SchedModel SchedSpec.
Import ListNotations.
Open Scope Z_scope.

#[global] Arguments Z.add : simpl never.
#[global] Arguments Z.sub : simpl never.
#[global] Arguments Z.mul : simpl never.
#[global] Arguments Z.opp : simpl never.
#[global] Arguments Z.eqb : simpl never.
#[global] Arguments Z.leb : simpl never.
#[global] Arguments Z.of_nat : simpl never.

Definition zb (c : bool) : Z := if c then 1 else 0.
Lemma zb_bound c : 0 <= zb c <= 1. Proof. destruct c; simpl; lia. Qed.

Fixpoint zsum {A} (w : A -> Z) (l : list A) : Z :=
  match l with [] => 0 | x :: l => w x + zsum w l end.

Lemma zsum_app {A} (w : A -> Z) l m : zsum w (l ++ m) = zsum w l + zsum w m.
Proof. induction l; simpl; lia. Qed.

Lemma zsum_perm {A} (w : A -> Z) l m : Permutation l m -> zsum w l = zsum w m.
Proof. induction 1; simpl; lia. Qed.

Lemma zsum_nonneg {A} (w : A -> Z) l : (forall x, In x l -> 0 <= w x) -> 0 <= zsum w l.
Proof.
  induction l; simpl; intros H; [lia|].
  specialize (H a (or_introl eq_refl)) as H0. assert (0 <= zsum w l) by auto. lia.
Qed.

Lemma zsum_ge {A} (w : A -> Z) l x : (forall y, In y l -> 0 <= w y) -> In x l -> w x <= zsum w l.
Proof.
  induction l; simpl; [easy|]. intros H [->|Hx].
  - assert (0 <= zsum w l) by (apply zsum_nonneg; auto). lia.
  - assert (0 <= w a) by auto. assert (w x <= zsum w l) by auto. lia.
Qed.

Lemma zsum_ext {A} (v w : A -> Z) l : (forall x, In x l -> v x = w x) -> zsum v l = zsum w l.
Proof. induction l; simpl; intros H; [easy|]. rewrite H, IHl; auto. Qed.

Lemma zsum_zero {A} (w : A -> Z) l : (forall x, In x l -> w x = 0) -> zsum w l = 0.
Proof. induction l; simpl; intros H; [easy|]. rewrite H, IHl; auto. Qed.

Lemma zsum_pos_ex {A} (w : A -> Z) l : 0 < zsum w l -> exists x, In x l /\ 0 < w x.
Proof.
  induction l as [|a l IH]; simpl; [lia|]. intros H.
  destruct (Z_lt_le_dec 0 (w a)); [exists a; auto|].
  destruct IH as (x & ? & ?); [lia|]. exists x. auto.
Qed.

Lemma zsum_plus {A} (v w : A -> Z) l : zsum (fun x => v x + w x) l = zsum v l + zsum w l.
Proof. induction l; simpl; lia. Qed.

(** ** Frames *)
Definition frames (s : state) : list frame := concat (thr s).
Notation "'#f' w" := (fun s => zsum w (frames s)) (at level 10, w at level 9, only parsing).

Lemma concat_set_nth {A} (l : list (list A)) : forall i x y,
  nth_error l i = Some x ->
  exists r, Permutation (concat l) (x ++ r) /\ Permutation (concat (set_nth i y l)) (y ++ r).
Proof.
  induction l as [|a l IH]; intros [|i] x y; simpl; try discriminate.
  - intros H; injection H as ->. exists (concat l). auto.
  - intros H. destruct (IH i x y H) as (r & H1 & H2). exists (a ++ r).
    rewrite H1, H2. split; rewrite Permutation_app_swap_app; easy.
Qed.

(** What a step does, up to the order of frames. *)
Inductive moves (P : prog) (s s' : state) : Prop :=
| moves_frame i f fs s1 fr rest :
    nth_error (thr s) i = Some (f :: fs) ->
    fstep P s f = Some (s1, fr) ->
    s' = set_thr s1 (set_nth i (fr ++ fs) (thr s)) ->
    Permutation (frames s) (f :: rest) ->
    Permutation (frames s') (fr ++ rest) ->
    moves P s s'
| moves_idle i c s1 fr :
    nth_error (thr s) i = Some [] ->
    istep s c = Some (s1, fr) ->
    s' = set_thr s1 (set_nth i fr (thr s)) ->
    Permutation (frames s') (fr ++ frames s) ->
    moves P s s'.

Lemma step_moves P s i c s' : step P s i c = Some s' -> moves P s s'.
Proof.
  unfold step. destruct (nth_error (thr s) i) as [[|f fs]|] eqn:E; [| |discriminate].
  - destruct (istep s c) as [[s1 fr]|] eqn:F; [|discriminate]. intros H; injection H as <-.
    eapply moves_idle; eauto. unfold frames; simpl.
    destruct (concat_set_nth _ _ _ fr E) as (r & H1 & H2). etransitivity; [exact H2|]. apply Permutation_app_head. symmetry. exact H1.
  - destruct (fstep P s f) as [[s1 fr]|] eqn:F; [|discriminate]. intros H; injection H as <-.
    destruct (concat_set_nth _ _ _ (fr ++ fs) E) as (r & H1 & H2).
    apply (moves_frame P s _ i f fs s1 fr (fs ++ r) E F eq_refl); unfold frames; simpl.
    + exact H1.
    + rewrite app_assoc. exact H2.
Qed.

(** ** Removing from a bag *)
Lemma zsum_remove_nth {A} (w : A -> Z) l : forall k x,
  nth_error l k = Some x -> zsum w (remove_nth k l) = zsum w l - w x.
Proof.
  induction l as [|a l IH]; intros [|k] x; simpl; try discriminate.
  - intros H; injection H as ->. lia.
  - intros H. rewrite (IH _ _ H). lia.
Qed.

Lemma in_remove_nth {A} (l : list A) : forall k x, In x (remove_nth k l) -> In x l.
Proof.
  induction l as [|a l IH]; intros [|k] x; simpl; auto.
  intros [->|H]; eauto.
Qed.

(** ** Counting *)
Definition ni (t : nat) : nat -> Z := fun x => zb (Nat.eqb x t).

Lemma ev_eqb_spec a b : reflect (a = b) (ev_eqb a b).
Proof.
  destruct a, b; simpl; try (constructor; congruence).
  1-4: destruct (Nat.eqb_spec t t0); constructor; congruence.
  destruct (Nat.eqb_spec t t0), (Nat.eqb_spec e e0); simpl; constructor; congruence.
Qed.
Lemma ev_eqb_refl a : ev_eqb a a = true.
Proof. now destruct (ev_eqb_spec a a). Qed.
Definition ce (x : ev) : ev -> Z := fun y => zb (ev_eqb y x).

Lemma onat_eqb_spec a b : reflect (a = b) (onat_eqb a b).
Proof.
  destruct a, b; simpl; try (constructor; congruence).
  destruct (Nat.eqb_spec n n0); constructor; congruence.
Qed.

Lemma onat_eqb_sym a b : onat_eqb a b = onat_eqb b a.
Proof. destruct a, b; simpl; auto using Nat.eqb_sym. Qed.

Lemma ce_nonneg x l : 0 <= zsum (ce x) l.
Proof. apply zsum_nonneg. intros. unfold ce. pose proof (zb_bound (ev_eqb x0 x)). lia. Qed.

Lemma ce_pos x l : 0 < zsum (ce x) l <-> In x l.
Proof.
  split.
  - intros H. apply zsum_pos_ex in H as (y & Hy & H). unfold ce in H.
    destruct (ev_eqb_spec y x); simpl in H; [subst; auto|lia].
  - intros H. assert (ce x x <= zsum (ce x) l) as H1.
    { apply zsum_ge; auto. intros. unfold ce. pose proof (zb_bound (ev_eqb y x)). lia. }
    unfold ce in H1 at 1. rewrite ev_eqb_refl in H1. simpl in H1. lia.
Qed.

Lemma ni_nonneg x l : 0 <= zsum (ni x) l.
Proof. apply zsum_nonneg. intros. unfold ni. pose proof (zb_bound (Nat.eqb x0 x)). lia. Qed.

Lemma ni_pos x l : 0 < zsum (ni x) l <-> In x l.
Proof.
  split.
  - intros H. apply zsum_pos_ex in H as (y & Hy & H). unfold ni in H.
    destruct (Nat.eqb_spec y x); simpl in H; [subst; auto|lia].
  - intros H. assert (ni x x <= zsum (ni x) l) as H1.
    { apply zsum_ge; auto. intros. unfold ni. pose proof (zb_bound (Nat.eqb y x)). lia. }
    unfold ni in H1 at 1. rewrite Nat.eqb_refl in H1. simpl in H1. lia.
Qed.

(** ** Weights of history entries *)
Definition v_spawn t l := match l with LSpawn x => ni t x | _ => 0 end.
Definition v_init t l := match l with LInit x => ni t x | _ => 0 end.
Definition v_exec t l := match l with LExec x => ni t x | _ => 0 end.
Definition v_start t l := match l with LStart x => ni t x | _ => 0 end.
Definition v_end t l := match l with LEnd x => ni t x | _ => 0 end.
Definition v_reach e l := match l with LReach x => ce e x | _ => 0 end.
Definition v_take e l := match l with LTake x => ce e x | _ => 0 end.
Definition v_event t e l := match l with LEvent x y => zb (Nat.eqb x t && Nat.eqb y e) | _ => 0 end.
Definition v_fire t e l := match l with LFire x y => zb (Nat.eqb x t && Nat.eqb y e) | _ => 0 end.
Definition v_use t l := match l with LGet x | LDrop x => ni t x | _ => 0 end.
Definition v_free t l := match l with LFree x => ni t x | _ => 0 end.

(** ** Weights of frames *)
(** instructions left in a frame, with their owner *)
Definition left_of (f : frame) : list instr :=
  match f with FBody _ s | FSub _ _ _ s => s | _ => [] end.
Definition is_body (o : option nat) (f : frame) : Z :=
  match f with FBody o' _ | FSub o' _ _ _ => zb (onat_eqb o' o) | _ => 0 end.
Definition n_spawn (c : nat) (f : frame) : Z := zsum (ni c) (spawns (left_of f)).
Definition n_use (c : nat) (f : frame) : Z := Z.of_nat (uses c (left_of f)).
Definition n_create (t e : nat) (f : frame) : Z :=
  is_body (Some t) f * Z.of_nat (creates e (left_of f)).

Definition w_sub t f := match f with FSub _ c _ _ => ni t c | _ => 0 end.
Definition w_up t f := match f with FInitUp c => ni t c | _ => 0 end.
(** collecting dependencies, before the init notification is issued *)
Definition w_collect t f :=
  match f with
  | FInit c _ | FIter c _ _ _ | FDep1 c _ _ _ _ | FDep2 c _ _ _ _ | FDep3 c _ _ _ _ | FDep4 c _ _ _ _
  | FPar1 c _ | FPar2 c _ | FPar3 c _ => ni t c
  | _ => 0
  end.
Definition w_ninit t f := match f with FNotify (EPre c) NInit => ni t c | _ => 0 end.
Definition w_nexec t f := match f with FNotify (EPre c) NExec => ni t c | _ => 0 end.
Definition w_run t f := match f with FRun c => ni t c | _ => 0 end.
(** frames carrying the right to execute [t] *)
Definition w_token t f :=
  match f with
  | FNotify2 (EPre c) st _ => zb (Nat.eqb c t && (st =? 1))
  | FNotify3 (EPre c) st NInit => zb (Nat.eqb c t && (st =? 1))
  | FExec c => ni t c
  | _ => 0
  end.
Definition w_notify x f := match f with FNotify e _ => ce x e | _ => 0 end.
Definition w_follow x f := match f with FFollow _ l => zsum (ce x) l | _ => 0 end.
(** frames between reaching an event and taking its followers *)
Definition w_taking e f :=
  match f with
  | FNotify2 x st _ | FNotify3 x st _ => zb (ev_eqb x e && (st =? 0))
  | FDelete t _ => ce e (EPost t)
  | _ => 0
  end.
Definition w_removing t f :=
  match f with
  | FFollow (EPost c) _ | FFollow (ERGet c) _ => ni t c
  | FRemove c => ni t c
  | _ => 0
  end.
Definition w_holds r f :=
  match f with
  | FIter _ x _ _ | FDep1 _ _ x _ _ | FDep2 _ _ x _ _ | FDep3 _ _ x _ _ | FDep4 _ _ x _ _ => ni r x
  | _ => 0
  end.
(** edges [y -> x] in the follower list but not yet counted *)
Definition w_pend y x f :=
  match f with
  | FDep4 t p _ _ _ => zb (ev_eqb (EPost p) y && ev_eqb (EPre t) x)
  | FPar3 t q => zb (ev_eqb (EPost t) y && ev_eqb (EPost q) x)
  | _ => 0
  end.

(** ** Edges *)
Fixpoint srcs (l : list lev) : list ev :=
  match l with
  | [] => []
  | LSpawn t :: l => EPost t :: srcs l
  | LEvent t e :: l => EExt t e :: srcs l
  | _ :: l => srcs l
  end.

Definition taken (s : state) (y : ev) : Z := zsum (v_take y) (log s).
Definition pend (s : state) (y x : ev) : Z := zsum (w_pend y x) (frames s).
(** counted edges [y -> x] whose notification has not been taken up *)
Definition eff (s : state) (y x : ev) : Z :=
  if taken s y =? 0 then zsum (ce x) (fol s y) - pend s y x else 0.
Definition edges (s : state) (x : ev) : Z := zsum (fun y => eff s y x) (srcs (log s)).

(** the part of a counter that is released by the owner of the event *)
Definition base (s : state) (x : ev) : Z :=
  match x with
  | EPre t => 1 - zsum (v_exec t) (log s) + zsum (w_collect t) (frames s)
  | EPost t | ERSet t => 1 - zsum (v_end t) (log s)
  | ERGet t => 1 - zsum (v_use t) (log s)
  | EExt t e => 1 - zsum (v_fire t e) (log s)
  end.
