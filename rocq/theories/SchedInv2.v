(** The inductive invariant of the runtime machine and facts derived from it. *)
From Coq Require Import Bool List Arith NArith ZArith Lia Permutation Sorting.Sorted.
From Verif Require Import AccessModel AccessSpec AccessProof UserModel UserProof SchedModel SchedSpec SchedBase SchedInv1.
Import ListNotations.
Open Scope Z_scope.

Definition sp (s : state) (t : nat) : Prop := 1 <= zsum (v_spawn t) (log s).
Definition rc (s : state) (t : nat) : Prop := 1 <= zsum (v_reach (EPost t)) (log s).

(** [t]'s entry number [k] belongs to resource [r] *)
Definition ent (P : prog) (t r k : nat) : Prop :=
  exists pre rs, uniq P t = pre ++ r :: rs /\ length rs = k.

Definition ser (P : prog) (p t : nat) : Prop :=
  parent P p = parent P t /\ user_is_serial (user P p) (user P t) = true.

Definition ser_on (P : prog) (r p t : nat) : Prop :=
  parent P p = parent P t /\
  exists a b, In a (u_acc (user P p)) /\ In b (u_acc (user P t)) /\
              r_id (a_res a) = r /\ ra_is_serial a b = true.

Definition edge (s : state) (p t : nat) : Prop := In (EPre t) (fol s (EPost p)).

(** [t] will not start before [p] is complete, due to the list of [r] *)
Definition cov (P : prog) (U : front) (s : state) (r p t : nat) : Prop :=
  rc s p \/ edge s p t \/
  exists q, (rk U r p < rk U r q <= rk U r t)%nat /\ ser_on P r p q /\ parent P q = parent P t /\ sp s q /\ (rc s q \/ edge s q t).

Definition ob (s : state) (t : nat) : Z :=
  edges s (EPre t) + zsum (w_collect t) (frames s)
  + (zsum (w_notify (EPre t)) (frames s) - zsum (w_nexec t) (frames s))
  + zsum (w_follow (EPre t)) (frames s).

Definition tok (s : state) (t : nat) : Z :=
  zsum (w_token t) (frames s) + zsum (ni t) (rdy s) + zsum (v_exec t) (log s).

Definition fol_ok (P : prog) (U : front) (s : state) (y x : ev) : Prop :=
  match y, x with
  | EPost p, EPre t => ((exists r, In r (uniq P p) /\ In r (uniq P t) /\ (rk U r p < rk U r t)%nat) \/ (p = t /\ ~ NoDup (uniq P t))) /\ ser P p t /\ sp s p /\ sp s t
  | EPost p, EPost q => parent P p = Some q /\ sp s p
  | EExt t e, EPost t' => t' = t /\ 1 <= zsum (v_event t e) (log s)
  | _, _ => False
  end.

(** order of entries in a user list: [x] newer than [y] *)
Definition newer (P : prog) (U : front) (r : nat) (x y : nat * nat) : Prop :=
  (parent P (fst x) = parent P (fst y) -> (rk U r (fst y) < rk U r (fst x))%nat \/ (fst y = fst x /\ (snd x < snd y)%nat)) /\ parent P (fst y) <> Some (fst x).

Definition mid_ok (P : prog) (U : front) (s : state) (r t : nat) (mid : list (nat * nat)) : Prop :=
  forall p k, In (p, k) mid -> ser P p t -> cov P U s r p t.

(** dependencies through the resources processed so far have been found *)
Definition cov_done (P : prog) (U : front) (s : state) (t : nat) (rem : list nat) : Prop :=
  exists pre, uniq P t = pre ++ rem /\
  (forall r, In r pre -> forall p, (rk U r p < rk U r t)%nat -> sp s p -> ser_on P r p t -> cov P U s r p t) /\
  (~ NoDup pre -> ser P t t -> edge s t t).

Definition cov_all (P : prog) (U : front) (s : state) (t : nat) : Prop :=
  (forall r p, (rk U r p < rk U r t)%nat -> sp s p -> ser_on P r p t -> cov P U s r p t) /\
  (~ NoDup (uniq P t) -> ser P t t -> edge s t t).

Definition no_entry (s : state) (t : nat) : Prop := forall r k, ~ In (t, k) (users s r).

Definition dep_ok (P : prog) (U : front) (s : state) (t p r : nat) it rs : Prop :=
  ser P p t /\ cov_done P U s t (r :: rs) /\
  exists pre mid k, users s r = pre ++ (t, length rs) :: mid ++ (p, k) :: it /\ mid_ok P U s r t mid.

Definition frame_ok (P : prog) (U : front) (s : state) (f : frame) : Prop :=
  match f with
  | FSub o c rs is => suffix_of rs (uniq P c) /\
                      forall r k, In (c, k) (users s r) -> (length rs <= k)%nat
  | FInit t rs => cov_done P U s t rs
  | FIter t r it rs => cov_done P U s t (r :: rs) /\
                       exists pre mid, users s r = pre ++ (t, length rs) :: mid ++ it /\ mid_ok P U s r t mid
  | FDep1 t p r it rs | FDep2 t p r it rs | FDep3 t p r it rs => dep_ok P U s t p r it rs
  | FDep4 t p r it rs => dep_ok P U s t p r it rs /\ edge s p t
  | FPar1 t q | FPar2 t q | FPar3 t q => parent P t = Some q /\ cov_all P U s t
  | FNotify (EPre t) NInit => cov_all P U s t
  | FDelete t rs => suffix_of rs (uniq P t) /\
                    forall r k, In (t, k) (users s r) -> (k < length rs)%nat
  | FNotify3 (EPost t) st _ => st = 0 -> no_entry s t
  | _ => True
  end.

(** [p] has entered the user list of [r] *)
Definition pushed (s : state) (p r : nat) : Prop :=
  sp s p /\ forall o rs is, In (FSub o p rs is) (frames s) -> ~ In r rs.

Record Inv (P : prog) (U : front) (s : state) : Prop := {
  i_laws : laws P U s;
  i_acc : forall x, ctr s x = base s x + edges s x + zsum (w_notify x) (frames s) + zsum (w_follow x) (frames s);
  i_tok : forall t, tok s t = if (1 <=? zsum (v_init t) (log s)) && (ob s t =? 0) then 1 else 0;
  i_nexec : forall t, zsum (w_nexec t) (frames s) <= zsum (v_exec t) (log s);
  i_up : forall t, zsum (w_collect t) (frames s) + zsum (w_ninit t) (frames s) + zsum (v_init t) (log s) = 0 ->
                   ob s t = 0;
  i_pend : forall y x, pend s y x <= zsum (ce x) (fol s y);
  i_reach : forall x, (ctr s x = 0 /\ zsum (v_reach x) (log s) = 1) \/
                      (1 <= ctr s x /\ zsum (v_reach x) (log s) = 0);
  i_fol : forall y x, In x (fol s y) -> fol_ok P U s y x;
  i_lock : forall r, zsum (w_holds r) (frames s) = zb (lck s r);
  i_guard : forall c q, parent P c = Some q -> 1 <= zsum (v_end q) (log s) ->
                        zsum (v_init c) (log s) = zsum (v_spawn c) (log s);
  i_ent : forall r t k, In (t, k) (users s r) -> ent P t r k /\ sp s t;
  i_newer : forall r, StronglySorted (newer P U r) (users s r);
  i_present : forall t r k, ent P t r k -> sp s t ->
      (forall o rs is, In (FSub o t rs is) (frames s) -> (length rs <= k)%nat) ->
      In (t, k) (users s r) \/ rc s t;
  i_pushed : forall t r k, ent P t r k -> sp s t ->
      (forall o rs is, In (FSub o t rs is) (frames s) -> (length rs <= k)%nat) ->
      forall p, In p (spawns (body P (parent P t))) -> (rk U r p < rk U r t)%nat -> In r (uniq P p) -> pushed s p r;
  i_frames : forall f, In f (frames s) -> frame_ok P U s f;
  i_cov : forall t, 1 <= zsum (v_init t) (log s) -> cov_all P U s t;
  i_gone : forall t, 1 <= zsum (v_take (EPost t)) (log s) -> no_entry s t;
  i_order : forall t, 1 <= zsum (v_exec t) (log s) ->
            forall r p, (rk U r p < rk U r t)%nat -> sp s p -> ser_on P r p t -> rc s p
}.
Arguments i_laws P {U} s _.
Arguments i_acc P {U} s _.
Arguments i_tok P {U} s _.
Arguments i_nexec P {U} s _.
Arguments i_up P {U} s _.
Arguments i_pend P {U} s _.
Arguments i_reach P {U} s _.
Arguments i_fol P {U} s _.
Arguments i_lock P {U} s _.
Arguments i_guard P {U} s _.
Arguments i_ent P {U} s _.
Arguments i_newer P {U} s _.
Arguments i_present P {U} s _.
Arguments i_pushed P {U} s _.
Arguments i_frames P {U} s _.
Arguments i_cov P {U} s _.
Arguments i_gone P {U} s _.
Arguments i_order P {U} s _.

(** ** Signs *)
Lemma nn_v {A} (v : A -> Z) l : (forall x, 0 <= v x) -> 0 <= zsum v l.
Proof. intros H. apply zsum_nonneg. auto. Qed.

Lemma w_nn : forall t f, 0 <= w_sub t f /\ 0 <= w_up t f /\ 0 <= w_collect t f /\ 0 <= w_ninit t f
  /\ 0 <= w_nexec t f /\ 0 <= w_run t f /\ 0 <= w_token t f /\ 0 <= w_removing t f /\ 0 <= w_holds t f
  /\ 0 <= n_spawn t f /\ 0 <= n_use t f.
Proof.
  intros t f.
  assert (B : forall c, 0 <= zb c) by (intros []; simpl; lia).
  assert (N : forall x, 0 <= ni t x) by (intros; apply B).
  assert (S : forall l, 0 <= zsum (ni t) l) by (intros; apply zsum_nonneg; auto).
  unfold n_spawn, n_use.
  repeat apply conj; try lia; auto; destruct f; simpl; try lia; auto; destruct e; simpl; try lia; auto;
    destruct k; simpl; try lia; auto.
Qed.

Lemma w_nn2 : forall x f, 0 <= w_notify x f /\ 0 <= w_follow x f /\ 0 <= w_taking x f.
Proof.
  intros x f.
  assert (B : forall c, 0 <= zb c) by (intros []; simpl; lia).
  assert (N : forall y, 0 <= ce x y) by (intros; apply B).
  repeat apply conj; destruct f; simpl; try lia; auto. apply ce_nonneg.
Qed.

Lemma w_nn3 : forall y x f, 0 <= w_pend y x f.
Proof.
  intros y x f.
  assert (B : forall c, 0 <= zb c) by (intros []; simpl; lia).
  destruct f; simpl; auto; lia.
Qed.

Lemma w_nn4 : forall o f, 0 <= is_body o f.
Proof.
  intros o f.
  assert (B : forall c, 0 <= zb c) by (intros []; simpl; lia).
  destruct f; simpl; auto; lia.
Qed.

Lemma v_nn : forall t l, 0 <= v_spawn t l /\ 0 <= v_init t l /\ 0 <= v_exec t l /\ 0 <= v_start t l
  /\ 0 <= v_end t l /\ 0 <= v_use t l /\ 0 <= v_free t l.
Proof.
  intros t l.
  assert (B : forall c, 0 <= zb c) by (intros []; simpl; lia).
  repeat apply conj; destruct l; simpl; try lia; apply B.
Qed.

Lemma v_nn2 : forall x l, 0 <= v_reach x l /\ 0 <= v_take x l.
Proof.
  intros t l.
  assert (B : forall c, 0 <= zb c) by (intros []; simpl; lia).
  repeat apply conj; destruct l; simpl; try lia; apply B.
Qed.

Lemma v_nn3 : forall t e l, 0 <= v_event t e l /\ 0 <= v_fire t e l.
Proof.
  intros t e l.
  assert (B : forall c, 0 <= zb c) by (intros []; simpl; lia).
  repeat apply conj; destruct l; simpl; try lia; apply B.
Qed.

Ltac nnw w t s := let N := fresh "sg" in assert (N : 0 <= zsum (w t) (frames s)) by
  (apply nn_v; intro; first [apply w_nn | apply w_nn2 | apply w_nn4]).
Ltac nnv v t s := let N := fresh "sg" in assert (N : 0 <= zsum (v t) (log s)) by
  (apply nn_v; intro; first [apply v_nn | apply v_nn2]).

(** all sign facts about task [t] *)
Ltac signs t s :=
  nnw w_sub t s; nnw w_up t s; nnw w_collect t s; nnw w_ninit t s; nnw w_nexec t s; nnw w_run t s;
  nnw w_token t s; nnw n_spawn t s; nnw n_use t s; nnw (fun t => is_body (Some t)) t s;
  nnv v_spawn t s; nnv v_init t s; nnv v_exec t s; nnv v_start t s; nnv v_end t s; nnv v_use t s;
  let N := fresh "sg" in pose proof (ni_nonneg t (emp s)) as N;
  let N := fresh "sg" in pose proof (ni_nonneg t (rdy s)) as N.

Lemma notify_split t l : zsum (w_ninit t) l <= zsum (w_notify (EPre t)) l - zsum (w_nexec t) l.
Proof.
  induction l as [|f l IH]; simpl; [lia|].
  cut (w_ninit t f <= w_notify (EPre t) f - w_nexec t f); [lia|]. clear.
  destruct f; simpl; try lia.
  destruct e; unfold ce, ni; simpl; try pose proof (zb_bound (Nat.eqb t0 t)); try lia; destruct k; lia.
Qed.

Section Facts.
  Context (P : prog) {U : front} (W : wfc P U) (s : state) (I : Inv P U s).

  Lemma tok_le t : 0 <= tok s t <= 1.
  Proof. rewrite (i_tok P s I). destruct (_ && _); lia. Qed.

  Lemma f_exec t : 0 <= zsum (v_exec t) (log s) <= 1.
  Proof. pose proof (tok_le t). unfold tok in *. signs t s. lia. Qed.

  Lemma f_start t : 0 <= zsum (v_start t) (log s) <= zsum (v_exec t) (log s).
  Proof. pose proof (law_exec P s (i_laws P s I) t). signs t s. lia. Qed.

  Lemma f_end t : 0 <= zsum (v_end t) (log s) <= zsum (v_start t) (log s).
  Proof. pose proof (law_body P s (i_laws P s I) t). signs t s. lia. Qed.

  Lemma f_startedz o : 0 <= startedz s o <= 1.
  Proof. destruct o as [q|]; simpl; [|lia]. pose proof (f_start q). pose proof (f_exec q). lia. Qed.

  Lemma spawns_once c o : 0 <= zsum (ni c) (spawns (body P o)) <= 1.
  Proof.
    split; [apply ni_nonneg|]. assert (H := m_once P W o).
    induction H as [|a l Ha H IH]; simpl; [lia|]. unfold ni at 1.
    destruct (Nat.eqb_spec a c); simpl; [|lia]. subst.
    assert (zsum (ni c) l = 0); [|lia].
    apply zsum_zero. intros y Hy. unfold ni. destruct (Nat.eqb_spec y c); [|easy].
    subst. easy.
  Qed.

  Lemma f_spawn c : 0 <= zsum (v_spawn c) (log s) <= 1.
  Proof.
    pose proof (law_spawn P s (i_laws P s I) c) as L. signs c s.
    pose proof (f_startedz (parent P c)). pose proof (spawns_once c (parent P c)). nia.
  Qed.

  Lemma f_use c : 0 <= zsum (v_use c) (log s) <= 1.
  Proof.
    pose proof (law_use P s (i_laws P s I) c) as L. signs c s.
    pose proof (f_startedz (parent P c)). pose proof (m_use_once P W (parent P c) c). nia.
  Qed.

  Lemma nn_create t e : 0 <= zsum (n_create t e) (frames s).
  Proof.
    apply nn_v. intros f. unfold n_create. pose proof (w_nn4 (Some t) f). nia.
  Qed.

  Lemma f_event t e : 0 <= zsum (v_event t e) (log s) <= 1.
  Proof.
    pose proof (law_event P s (i_laws P s I) t e) as L. pose proof (nn_create t e).
    assert (0 <= zsum (v_event t e) (log s)) by (apply nn_v; intro; apply v_nn3).
    pose proof (f_startedz (Some t)) as H1. simpl in H1. pose proof (m_event P W t e). nia.
  Qed.

  Lemma f_fire t e : 0 <= zsum (v_fire t e) (log s) <= zsum (v_event t e) (log s).
  Proof.
    pose proof (law_fire P s (i_laws P s I) t e) as L.
    assert (0 <= zsum (v_fire t e) (log s)) by (apply nn_v; intro; apply v_nn3).
    assert (0 <= zsum (fun x => zb (Nat.eqb (fst x) t && Nat.eqb (snd x) e)) (ext s)).
    { apply nn_v. intros x. apply zb_bound. }
    lia.
  Qed.

  Lemma f_reach x : 0 <= zsum (v_reach x) (log s) <= 1.
  Proof. destruct (i_reach P s I x); lia. Qed.

  Lemma f_take x : 0 <= zsum (v_take x) (log s) <= zsum (v_reach x) (log s).
  Proof.
    pose proof (law_take P s (i_laws P s I) x) as L. nnw w_taking x s. nnv v_take x s. lia.
  Qed.

  (** phases *)
  Lemma f_phase t : zsum (v_init t) (log s) <= zsum (v_spawn t) (log s).
  Proof. pose proof (law_phase P s (i_laws P s I) t). signs t s. lia. Qed.

  Lemma pend_nn y x : 0 <= pend s y x.
  Proof. apply nn_v. intro. apply w_nn3. Qed.

  Lemma eff_nn y x : 0 <= eff s y x.
  Proof.
    unfold eff. destruct (_ =? 0); [|lia]. pose proof (i_pend P s I y x). lia.
  Qed.

  Lemma edges_nn x : 0 <= edges s x.
  Proof. apply zsum_nonneg. intros. apply eff_nn. Qed.

  Lemma nexec_le_notify t : zsum (w_nexec t) (frames s) <= zsum (w_notify (EPre t)) (frames s).
  Proof. pose proof (notify_split t (frames s)). pose proof (nn_v (w_ninit t) (frames s) (fun f => proj1 (proj2 (proj2 (proj2 (w_nn t f)))))). lia. Qed.

  Lemma ob_nn t : 0 <= ob s t.
  Proof.
    unfold ob. pose proof (edges_nn (EPre t)). pose proof (nexec_le_notify t). signs t s.
    nnw w_follow (EPre t) s. lia.
  Qed.

  Lemma ob_ge t : zsum (w_collect t) (frames s) + zsum (w_notify (EPre t)) (frames s) - zsum (w_nexec t) (frames s) <= ob s t.
  Proof.
    unfold ob. pose proof (edges_nn (EPre t)). nnw w_follow (EPre t) s. lia.
  Qed.

  Lemma base_nn x : 0 <= base s x.
  Proof.
    destruct x; simpl.
    - pose proof (f_exec t). signs t s. lia.
    - pose proof (f_end t). pose proof (f_start t). pose proof (f_exec t). lia.
    - pose proof (f_end t). pose proof (f_start t). pose proof (f_exec t). lia.
    - pose proof (f_use t). lia.
    - pose proof (f_fire t e). pose proof (f_event t e). lia.
  Qed.

  Lemma ctr_pre t : ctr s (EPre t) = 1 - zsum (v_exec t) (log s) + zsum (w_nexec t) (frames s) + ob s t.
  Proof. rewrite (i_acc P s I). unfold ob, base. lia. Qed.

  (** not initialised: no token, not executed *)
  Lemma f_noinit t : zsum (v_init t) (log s) = 0 -> tok s t = 0 /\ zsum (v_exec t) (log s) = 0.
  Proof.
    intros H. assert (T := i_tok P s I t). rewrite H in T. simpl in T. split; [easy|].
    unfold tok in T. signs t s. lia.
  Qed.

  Lemma f_exec_init t : zsum (v_exec t) (log s) <= zsum (v_init t) (log s).
  Proof.
    signs t s. destruct (Z.eq_dec (zsum (v_init t) (log s)) 0) as [e|e].
    - pose proof (f_noinit t e). lia.
    - pose proof (f_exec t). lia.
  Qed.

  (** reached post event: body ended *)
  Lemma rc_end t : rc s t -> zsum (v_end t) (log s) = 1.
  Proof.
    unfold rc. intros H. destruct (i_reach P s I (EPost t)) as [[H0 _]|]; [|lia].
    rewrite (i_acc P s I) in H0. simpl in H0. pose proof (edges_nn (EPost t)).
    nnw w_notify (EPost t) s. nnw w_follow (EPost t) s.
    pose proof (f_end t). pose proof (f_start t). pose proof (f_exec t). lia.
  Qed.

  Lemma rc_exec t : rc s t -> 1 <= zsum (v_exec t) (log s).
  Proof. intros H. apply rc_end in H. pose proof (f_end t). pose proof (f_start t). lia. Qed.

  (** a child is spawned only by a started parent *)
  Lemma sp_parent c : sp s c -> startedz s (parent P c) = 1.
  Proof.
    unfold sp. intros H. pose proof (law_spawn P s (i_laws P s I) c) as L. signs c s.
    pose proof (f_startedz (parent P c)). pose proof (spawns_once c (parent P c)). nia.
  Qed.

  Lemma sp_body c : sp s c -> In c (spawns (body P (parent P c))).
  Proof.
    unfold sp. intros H. pose proof (law_spawn P s (i_laws P s I) c) as L. signs c s.
    pose proof (f_startedz (parent P c)). pose proof (spawns_once c (parent P c)).
    apply ni_pos. nia.
  Qed.

  (** srcs *)
  Lemma srcs_post l t : zsum (ce (EPost t)) (srcs l) = zsum (v_spawn t) l.
  Proof. induction l as [|[] l IH]; simpl; auto; rewrite IH; unfold ce; simpl; auto; lia. Qed.

  Lemma srcs_ext l t e : zsum (ce (EExt t e)) (srcs l) = zsum (v_event t e) l.
  Proof. induction l as [|[] l IH]; simpl; auto; rewrite IH; unfold ce; simpl; auto; lia. Qed.
End Facts.

Lemma zsum_change (f g : ev -> Z) y0 l :
  (forall y, y <> y0 -> g y = f y) -> zsum g l = zsum f l + zsum (ce y0) l * (g y0 - f y0).
Proof.
  intros H. induction l as [|a l IH]; simpl; [lia|]. rewrite IH. change (ce y0 a) with (zb (ev_eqb a y0)).
  destruct (ev_eqb_spec a y0); simpl; [subst; lia|]. rewrite H by auto. lia.
Qed.
