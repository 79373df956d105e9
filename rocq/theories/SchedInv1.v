(** Conservation laws of the runtime machine. *)
From Coq Require Import Bool List Arith NArith ZArith Lia Permutation.
From Verif Require Import AccessModel AccessSpec AccessProof UserModel SchedModel SchedSpec SchedBase.
Import ListNotations.
Open Scope Z_scope.

Definition startedz (s : state) (o : option nat) : Z :=
  match o with None => 1 | Some q => zsum (v_start q) (log s) end.

Definition suffix_of {A} (s l : list A) : Prop := exists pre, l = pre ++ s.

(** what is left of the instructions of a thread or body *)
Definition piece (P : prog) (U : front) (o : option nat) (is : list instr) : Prop :=
  exists m, code P U o m /\ suffix_of is m.

(** bodies only ever hold a suffix of their program *)
Definition inv_suffix (P : prog) (U : front) (s : state) : Prop :=
  forall f, In f (frames s) ->
  match f with
  | FBody o is => piece P U o is
  | FSub o c _ is => piece P U o (ISpawn c :: is)
  | _ => True
  end.

Record laws (P : prog) (U : front) (s : state) : Prop := {
  law_suffix : inv_suffix P U s;
  law_spawn : forall c, zsum (n_spawn c) (frames s) + zsum (v_spawn c) (log s)
                        = startedz s (parent P c) * zsum (ni c) (spawns (body P (parent P c)));
  law_main : zsum (is_body None) (frames s) = Z.of_nat (length (mains U));
  law_phase : forall t, zsum (w_sub t) (frames s) + zsum (ni t) (emp s) + zsum (w_up t) (frames s)
                        + zsum (w_collect t) (frames s) + zsum (w_ninit t) (frames s)
                        + zsum (v_init t) (log s) = zsum (v_spawn t) (log s);
  law_exec : forall t, zsum (v_exec t) (log s) = zsum (w_run t) (frames s) + zsum (v_start t) (log s);
  law_body : forall t, zsum (v_start t) (log s) = zsum (is_body (Some t)) (frames s) + zsum (v_end t) (log s);
  law_use : forall c, zsum (n_use c) (frames s) + zsum (v_use c) (log s)
                      = startedz s (parent P c) * Z.of_nat (uses c (body P (parent P c)));
  law_event : forall t e, zsum (n_create t e) (frames s) + zsum (v_event t e) (log s)
                          = zsum (v_start t) (log s) * Z.of_nat (creates e (body P (Some t)));
  law_fire : forall t e, zsum (fun x => zb (Nat.eqb (fst x) t && Nat.eqb (snd x) e)) (ext s)
                         + zsum (v_fire t e) (log s) = zsum (v_event t e) (log s);
  law_take : forall e, zsum (w_taking e) (frames s) + zsum (v_take e) (log s) = zsum (v_reach e) (log s);
  law_remove : forall t, zsum (v_take (EPost t)) (log s) + zsum (v_take (ERGet t)) (log s)
                         = zsum (w_removing t) (frames s) + (2 - cdn s t);
  law_free : forall t, zsum (v_free t) (log s) = if 1 <=? cdn s t then 0 else 1;
  law_tcn : forall o, tcn s o = zsum (fun l => match l with
                                               | LSpawn c => zb (onat_eqb (parent P c) o)
                                               | LFree c => - zb (onat_eqb (parent P c) o)
                                               | _ => 0
                                               end) (log s)
}.
Arguments law_suffix P {U} s _.
Arguments law_spawn P {U} s _.
Arguments law_main P {U} s _.
Arguments law_phase P {U} s _.
Arguments law_exec P {U} s _.
Arguments law_body P {U} s _.
Arguments law_use P {U} s _.
Arguments law_event P {U} s _.
Arguments law_fire P {U} s _.
Arguments law_take P {U} s _.
Arguments law_remove P {U} s _.
Arguments law_free P {U} s _.
Arguments law_tcn P {U} s _.

Ltac break_match H :=
  match type of H with context [match ?x with _ => _ end] => destruct x eqn:? end.

(** all outcomes of a frame step *)
Ltac cases_f H :=
  let f := match type of H with fstep _ _ ?f = _ => f end in
  destruct f; unfold fstep, after_dep in H; cbv zeta in H;
  repeat (break_match H; try discriminate H); try discriminate H;
  injection H as <- <-.
Ltac cases_i H :=
  let c := match type of H with istep _ ?c = _ => c end in
  destruct c; unfold istep in H; repeat (break_match H; try discriminate H); try discriminate H;
  injection H as <- <-.

Ltac split_eqb :=
  repeat match goal with
  | |- context [Nat.eqb ?a ?b] => destruct (Nat.eqb_spec a b); try subst; simpl in *
  | |- context [onat_eqb ?a ?b] => destruct (onat_eqb_spec a b); try subst; simpl in *
  end.

Ltac fin := first [lia | repeat match goal with |- context [match ?e with EPre _ => _ | _ => _ end] => destruct e; simpl in * end;
                          first [lia | split_eqb; lia]].

Ltac zcmp := repeat match goal with
  | H : (_ =? _) = true |- _ => apply Z.eqb_eq in H
  | H : (_ =? _) = false |- _ => apply Z.eqb_neq in H
  | |- context [Z.leb ?a ?b] => destruct (Z.leb_spec a b)
  | H : context [Z.leb ?a ?b] |- _ => destruct (Z.leb_spec a b)
  end.

Ltac use_perm w :=
  match goal with
  | Hp : Permutation (frames ?s) _, Hp' : Permutation (frames ?s') _ |- _ =>
      rewrite (zsum_perm w _ _ Hp) in *; rewrite (zsum_perm w _ _ Hp') in *
  | Hp' : Permutation (frames ?s') _ |- _ =>
      rewrite (zsum_perm w _ _ Hp') in *
  end.

Ltac law_tac :=
  intros; simpl in *; rewrite ?zsum_app in *; unfold n_spawn, n_use, n_create in *; simpl in *; unfold ni, ce in *; simpl in *;
  repeat match goal with
  | E : nth_error ?l ?k = Some ?x |- context [zsum ?w (remove_nth ?k ?l)] =>
      rewrite (zsum_remove_nth w l k x E)
  end; simpl in *.

Lemma suffix_cons {A} (x : A) s l : suffix_of (x :: s) l -> suffix_of s l.
Proof. intros [pre ->]. exists (pre ++ [x]). now rewrite <- app_assoc. Qed.

Lemma suffix_In {A} (x : A) s l : suffix_of (x :: s) l -> In x l.
Proof. intros [pre ->]. apply in_or_app. simpl. auto. Qed.

Lemma piece_cons P U o x is : piece P U o (x :: is) -> piece P U o is.
Proof. intros (m & C & S). exists m. split; auto. eapply suffix_cons; eauto. Qed.

Section Laws.
  Context (P : prog) {U : front} (W : wfc P U).

  Lemma code_In o m x : code P U o m -> In x m -> In x (body P o).
  Proof.
    destruct o as [t|]; simpl; intros C H; [now rewrite <- C|].
    rewrite (m_main P W). apply in_concat. eauto.
  Qed.

  Lemma In_code o x : In x (body P o) ->
    exists m, code P U o m /\ In x m.
  Proof.
    intros H. destruct o as [t|]; simpl in *; [eauto|].
    rewrite (m_main P W) in H. apply in_concat in H as (m & A & B). eauto.
  Qed.

  Lemma piece_In o x is : piece P U o (x :: is) -> In x (body P o).
  Proof. intros (m & C & S). apply suffix_In in S. eapply code_In; eauto. Qed.

  Lemma pres_suffix s s' : inv_suffix P U s -> moves P s s' -> inv_suffix P U s'.
  Proof.
    intros I M g Hg. destruct M as [i f fs s1 fr rest E H -> Hp Hp' | i c s1 fr E H -> Hp'].
    - apply (Permutation_in _ Hp') in Hg. apply in_app_or in Hg as [Hg|Hg].
      + assert (If := I f (Permutation_in _ (Permutation_sym Hp) (or_introl eq_refl))).
        cases_f H; simpl in Hg; repeat destruct Hg as [<-|Hg]; try easy;
          try exact (piece_cons _ _ _ _ _ If); try exact If.
        eexists. split; [reflexivity|]. exists []. reflexivity.
      + apply I. apply (Permutation_in _ (Permutation_sym Hp)). now right.
    - apply (Permutation_in _ Hp') in Hg. apply in_app_or in Hg as [Hg|Hg]; [|exact (I g Hg)].
      cases_i H; simpl in Hg; destruct Hg as [<-|[]]; easy.
  Qed.

  Ltac start L M :=
    destruct M as [i f fs s1 fr rest E H -> Hp Hp' | i pk s1 fr E H -> Hp'];
    [ cases_f H | cases_i H ].

  Lemma pres_main s s' : laws P U s -> moves P s s' -> zsum (is_body None) (frames s') = Z.of_nat (length (mains U)).
  Proof.
    intros [_ _ L _ _ _ _ _ _ _ _ _ _] M.
    start L M; use_perm (is_body None); law_tac; lia.
  Qed.

  Lemma pres_phase s s' t : laws P U s -> moves P s s' ->
    zsum (w_sub t) (frames s') + zsum (ni t) (emp s') + zsum (w_up t) (frames s')
                        + zsum (w_collect t) (frames s') + zsum (w_ninit t) (frames s')
                        + zsum (v_init t) (log s') = zsum (v_spawn t) (log s').
  Proof.
    intros [_ _ _ L _ _ _ _ _ _ _ _ _] M. specialize (L t).
    start L M; use_perm (w_sub t); use_perm (w_up t); use_perm (w_collect t); use_perm (w_ninit t); law_tac; fin.
  Qed.

  Lemma pres_exec s s' t : laws P U s -> moves P s s' ->
    zsum (v_exec t) (log s') = zsum (w_run t) (frames s') + zsum (v_start t) (log s').
  Proof.
    intros [_ _ _ _ L _ _ _ _ _ _ _ _] M. specialize (L t).
    start L M; use_perm (w_run t); law_tac; fin.
  Qed.

  Lemma pres_body s s' t : laws P U s -> moves P s s' ->
    zsum (v_start t) (log s') = zsum (is_body (Some t)) (frames s') + zsum (v_end t) (log s').
  Proof.
    intros [_ _ _ _ _ L _ _ _ _ _ _ _] M. specialize (L t).
    start L M; use_perm (is_body (Some t)); law_tac; fin.
  Qed.

  Ltac rwz L := repeat match goal with E : (?a =? ?b) = _ |- _ => progress rewrite E in L end;
      repeat match goal with E : (?a =? ?b) = _ |- _ => progress rewrite E end;
      rewrite ?andb_false_r, ?andb_true_r in *; simpl in *.

  Lemma pres_take s s' e : laws P U s -> moves P s s' ->
    zsum (w_taking e) (frames s') + zsum (v_take e) (log s') = zsum (v_reach e) (log s').
  Proof.
    intros [_ _ _ _ _ _ _ _ _ L _ _ _] M. specialize (L e).
    start L M; use_perm (w_taking e); law_tac; rwz L; lia.
  Qed.

  Lemma pres_remove s s' t : laws P U s -> moves P s s' ->
    zsum (v_take (EPost t)) (log s') + zsum (v_take (ERGet t)) (log s')
                         = zsum (w_removing t) (frames s') + (2 - cdn s' t).
  Proof.
    intros [_ _ _ _ _ _ _ _ _ _ L _ _] M. specialize (L t).
    start L M; use_perm (w_removing t); law_tac; unfold upd; first [lia | rewrite ?(Nat.eqb_sym t) ; fin].
  Qed.

  Lemma pres_free s s' t : laws P U s -> moves P s s' ->
    zsum (v_free t) (log s') = if 1 <=? cdn s' t then 0 else 1.
  Proof.
    intros [_ _ _ _ _ _ _ _ _ _ _ L _] M. specialize (L t).
    start L M; law_tac; unfold upd; first [lia | rewrite ?(Nat.eqb_sym t); split_eqb; zcmp; lia].
  Qed.

  Lemma pres_fire s s' t e : laws P U s -> moves P s s' ->
    zsum (fun x => zb (Nat.eqb (fst x) t && Nat.eqb (snd x) e)) (ext s')
                         + zsum (v_fire t e) (log s') = zsum (v_event t e) (log s').
  Proof.
    intros [_ _ _ _ _ _ _ _ L _ _ _ _] M. specialize (L t e).
    start L M; law_tac; lia.
  Qed.

  Lemma spawns_In c s : In c (spawns s) <-> In (ISpawn c) s.
  Proof.
    induction s as [|[] s IH]; simpl; try tauto; try (rewrite IH; split; [auto|intros [H|H]; [discriminate|auto]]).
    rewrite IH. split; intros [H|H]; auto; left; congruence.
  Qed.

  Lemma spawns_other c o : parent P c <> o -> zsum (ni c) (spawns (body P o)) = 0.
  Proof.
    intros H. destruct (Z_lt_le_dec 0 (zsum (ni c) (spawns (body P o)))) as [l|l].
    - apply ni_pos, spawns_In in l. apply (m_parent P W) in l. easy.
    - pose proof (ni_nonneg c (spawns (body P o))). lia.
  Qed.

  Lemma uses_In c s : (0 < uses c s)%nat -> exists i, In i s /\ is_use c i.
  Proof.
    unfold is_use.
    induction s as [|[] s IH]; simpl; intros H; try lia;
      try (destruct IH as (i & ? & ?); [lia|]; exists i; auto).
    - destruct (Nat.eqb_spec c0 c); [subst; eauto|]. destruct IH as (i & ? & ?); [lia|]; exists i; auto.
    - destruct (Nat.eqb_spec c0 c); [subst; eauto|]. destruct IH as (i & ? & ?); [lia|]; exists i; auto.
  Qed.

  Lemma use_parent c i o : In i (body P o) -> is_use c i -> parent P c = o.
  Proof.
    intros H Us. apply In_code in H as (m & C & H). apply in_split in H as (pre & post & H).
    apply (m_parent P W). apply (code_In o m); auto. rewrite H. apply in_or_app. left.
    apply spawns_In. eapply (m_use_after P W); eauto.
  Qed.

  Lemma uses_other c o : parent P c <> o -> uses c (body P o) = 0%nat.
  Proof.
    intros H. destruct (Nat.eq_dec (uses c (body P o)) 0); [easy|].
    destruct (uses_In c (body P o)) as (i & Hi & Us); [lia|]. destruct H. eapply use_parent; eauto.
  Qed.

  Lemma pres_spawn s s' c : laws P U s -> moves P s s' ->
    zsum (n_spawn c) (frames s') + zsum (v_spawn c) (log s')
                        = startedz s' (parent P c) * zsum (ni c) (spawns (body P (parent P c))).
  Proof.
    intros [_ L _ _ _ _ _ _ _ _ _ _ _] M. specialize (L c).
    assert (SO := spawns_other c).
    start L M; use_perm (n_spawn c); law_tac; unfold startedz in *;
      try solve [destruct (parent P c); simpl in *; lia].
    specialize (SO (Some t)). simpl in SO.
    destruct (parent P c) as [q|]; simpl in *; unfold ni in *.
    - destruct (Nat.eqb_spec t q); simpl in *; [subst; lia|]. rewrite SO by congruence. lia.
    - rewrite SO by congruence. lia.
  Qed.

  Lemma pres_use s s' c : laws P U s -> moves P s s' ->
    zsum (n_use c) (frames s') + zsum (v_use c) (log s')
                        = startedz s' (parent P c) * Z.of_nat (uses c (body P (parent P c))).
  Proof.
    intros [_ _ _ _ _ _ L _ _ _ _ _ _] M. specialize (L c).
    assert (SO := uses_other c).
    start L M; use_perm (n_use c); law_tac; unfold startedz in *;
      try solve [destruct (parent P c); simpl in *; lia];
      try solve [destruct (Nat.eqb_spec c0 c), (parent P c); simpl in *; lia].
    specialize (SO (Some t)). simpl in SO.
    destruct (parent P c) as [q|]; simpl in *; unfold ni in *.
    - destruct (Nat.eqb_spec t q); simpl in *; [subst; lia|]. rewrite SO by congruence. lia.
    - rewrite SO by congruence. lia.
  Qed.

  Lemma pres_event s s' t e : laws P U s -> moves P s s' ->
    zsum (n_create t e) (frames s') + zsum (v_event t e) (log s')
                          = zsum (v_start t) (log s') * Z.of_nat (creates e (body P (Some t))).
  Proof.
    intros [_ _ _ _ _ _ _ L _ _ _ _ _] M. specialize (L t e).
    start L M; use_perm (n_create t e); law_tac; try lia;
    try solve [destruct (Nat.eqb_spec n t), (Nat.eqb_spec e0 e); simpl in *; lia].
    - destruct (Nat.eqb_spec t0 t); simpl in *; [subst|]; lia.
  Qed.

  Lemma pres_tcn s s' sp : laws P U s -> moves P s s' ->
    tcn s' sp = zsum (fun l => match l with
                             | LSpawn c => zb (onat_eqb (parent P c) sp)
                             | LFree c => - zb (onat_eqb (parent P c) sp)
                             | _ => 0
                             end) (log s').
  Proof.
    intros [S _ _ _ _ _ _ _ _ _ _ _ L] M. specialize (L sp).
    start L M; law_tac; unfold oupd; try lia;
      try solve [destruct (onat_eqb_spec sp (parent P t)), (onat_eqb_spec (parent P t) sp); subst; simpl; try congruence; lia].
    all: assert (Ep := S _ (Permutation_in _ (Permutation_sym Hp) (or_introl eq_refl))); cbv iota beta in Ep;
      apply piece_In, (m_parent P W) in Ep; rewrite Ep.
    - rewrite (onat_eqb_sym (Some n)). destruct (onat_eqb_spec sp (Some n)) as [Q|Q]; [rewrite <- Q in *|]; simpl; lia.
    - rewrite (onat_eqb_sym None). destruct (onat_eqb_spec sp None) as [Q|Q]; [rewrite <- Q in *|]; simpl; lia.
  Qed.

  Lemma frames_init n : frames (init_many P (mains U) n) = map (FBody None) (mains U).
  Proof.
    unfold frames, init_many; simpl. rewrite concat_app.
    replace (concat (repeat (@nil frame) n)) with (@nil frame) by (induction n; simpl; auto).
    rewrite app_nil_r. induction (mains U); simpl; congruence.
  Qed.

  Lemma zsum_map_None (w : frame -> Z) (g : list instr -> Z) l : (forall m, w (FBody None m) = g m) ->
    zsum w (map (FBody None) l) = zsum g l.
  Proof. intros H. induction l; simpl; [easy|]. now rewrite H, IHl. Qed.

  Lemma spawns_app a b : spawns (a ++ b) = spawns a ++ spawns b.
  Proof. induction a as [|[] a IH]; simpl; auto. now rewrite IH. Qed.
  Lemma uses_app c a b : uses c (a ++ b) = (uses c a + uses c b)%nat.
  Proof. induction a as [|[] a IH]; simpl; auto; rewrite IH; lia. Qed.

  Lemma laws_init n : laws P U (init_many P (mains U) n).
  Proof.
    assert (F := frames_init n).
    assert (Z0 : forall w : frame -> Z, (forall m, w (FBody None m) = 0) -> zsum w (map (FBody None) (mains U)) = 0).
    { intros w H. rewrite (zsum_map_None w (fun _ => 0) _ H). now apply zsum_zero. }
    split; rewrite ?F; intros; simpl; rewrite ?Z0 by easy; try lia; try reflexivity.
    - intros g Hg. rewrite F in Hg. apply in_map_iff in Hg as (m & <- & Hm). exists m. split; [easy|]. exists []. easy.
    - rewrite (zsum_map_None _ (fun m => zsum (ni c) (spawns m))) by (intros; unfold n_spawn; simpl; lia).
      assert (Q : zsum (fun m => zsum (ni c) (spawns m)) (mains U) = zsum (ni c) (spawns (p_main P))).
      { rewrite (m_main P W). generalize (mains U). intros l. induction l as [|m l IH]; simpl; [easy|].
        now rewrite spawns_app, zsum_app, IH. }
      rewrite Q. destruct (parent P c) eqn:E; simpl; [|lia].
      assert (H := spawns_other c None). simpl in H. rewrite H by congruence. lia.
    - rewrite (zsum_map_None _ (fun _ => 1)) by easy. clear. induction (mains U); simpl; lia.
    - rewrite (zsum_map_None _ (fun m => Z.of_nat (uses c m))) by (intros; unfold n_use; simpl; lia).
      assert (Q : zsum (fun m => Z.of_nat (uses c m)) (mains U) = Z.of_nat (uses c (p_main P))).
      { rewrite (m_main P W). generalize (mains U). intros l. induction l as [|m l IH]; simpl; [easy|].
        rewrite uses_app, IH. lia. }
      rewrite Q. destruct (parent P c) eqn:E; simpl; [|lia].
      assert (H := uses_other c None). simpl in H. rewrite H by congruence. lia.
  Qed.

  Lemma laws_step s s' : laws P U s -> moves P s s' -> laws P U s'.
  Proof.
    intros L M. split.
    - eapply pres_suffix; eauto. apply L.
    - intros; eapply pres_spawn; eauto.
    - eapply pres_main; eauto.
    - intros; eapply pres_phase; eauto.
    - intros; eapply pres_exec; eauto.
    - intros; eapply pres_body; eauto.
    - intros; eapply pres_use; eauto.
    - intros; eapply pres_event; eauto.
    - intros; eapply pres_fire; eauto.
    - intros; eapply pres_take; eauto.
    - intros; eapply pres_remove; eauto.
    - intros; eapply pres_free; eauto.
    - intros; eapply pres_tcn; eauto.
  Qed.
End Laws.
