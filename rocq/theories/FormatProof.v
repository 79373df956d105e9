(** Reading what the formatters print. *)
From Coq Require Import Bool List Ascii String Arith NArith Decimal DecimalFacts DecimalN Lia.
From Verif Require Import AccessModel UserModel FormatSpec FormatModel.
Import List ListNotations.
Open Scope list_scope.

(** ** Reading *)
Lemma reads_app : forall a b lm, reads (a ++ b) lm = match reads a lm with Some lm' => reads b lm' | None => None end.
Proof. induction a as [|c a IH]; intros b lm; simpl; [reflexivity|]. destruct (read1 lm c); auto. Qed.
Lemma reads_then : forall a b lm lm', reads a lm = Some lm' -> reads (a ++ b) lm = reads b lm'.
Proof. intros a b lm lm' H. now rewrite reads_app, H. Qed.

Lemma read_digit : forall c k p r m, digit c = Some k -> reads (c :: r) (LNum (Npos p), m) = reads r (LNum (10 * Npos p + k)%N, m).
Proof. intros c k p r m H. cbn [reads read1]. rewrite H. reflexivity. Qed.
Lemma reads_digits : forall d p m, reads (digits d) (LNum (Npos p), m) = Some (LNum (Npos (Pos.of_uint_acc d p)), m).
Proof.
  induction d as [|d IH|d IH|d IH|d IH|d IH|d IH|d IH|d IH|d IH|d IH]; intros p m; [reflexivity|..];
    cbn [digits Pos.of_uint_acc]; rewrite <- IH; (erewrite read_digit by reflexivity);
    match goal with |- context [(10 * Npos p + ?k)%N] => let v := eval vm_compute in k in change k with v end; do 3 f_equal; lia.
Qed.
Lemma reads_dec : forall n m, reads (dec n) (LStart, m) = Some (LNum n, m).
Proof.
  intros n m. unfold dec. assert (U : unorm (N.to_uint n) = N.to_uint n) by (rewrite <- Unsigned.to_of, Unsigned.of_to; reflexivity).
  assert (V := Unsigned.of_to n). destruct (N.to_uint n) as [|d|d|d|d|d|d|d|d|d|d] eqn:E; cbn [digits].
  - discriminate U.
  - rewrite unorm_D0 in U. destruct (nzhead d) eqn:Z; unfold unorm in U; rewrite Z in U; try discriminate.
    + injection U as <-. cbn in V. now subst n.
    + exfalso. eapply nzhead_nonzero; exact Z.
  - rewrite <- V. cbn [N.of_uint Pos.of_uint]. rewrite <- reads_digits. reflexivity.
  - rewrite <- V. cbn [N.of_uint Pos.of_uint]. rewrite <- reads_digits. reflexivity.
  - rewrite <- V. cbn [N.of_uint Pos.of_uint]. rewrite <- reads_digits. reflexivity.
  - rewrite <- V. cbn [N.of_uint Pos.of_uint]. rewrite <- reads_digits. reflexivity.
  - rewrite <- V. cbn [N.of_uint Pos.of_uint]. rewrite <- reads_digits. reflexivity.
  - rewrite <- V. cbn [N.of_uint Pos.of_uint]. rewrite <- reads_digits. reflexivity.
  - rewrite <- V. cbn [N.of_uint Pos.of_uint]. rewrite <- reads_digits. reflexivity.
  - rewrite <- V. cbn [N.of_uint Pos.of_uint]. rewrite <- reads_digits. reflexivity.
  - rewrite <- V. cbn [N.of_uint Pos.of_uint]. rewrite <- reads_digits. reflexivity.
Qed.
(** a text that is read as a value, wherever a value is expected *)
Definition is_value (s : text) (j : json) : Prop := forall st, reads s (LStart, Val st) = Some (LStart, deliver j st).
(** it starts with a bracket *)
Definition braced (s : text) : Prop := exists r, s = "{"%char :: r.
Lemma first_in_array : forall s st, braced s -> reads s (LStart, ArrStart st) = reads s (LStart, Val (InArr [] :: st)).
Proof. intros s st [r ->]. reflexivity. Qed.
Lemma io_value : forall m, is_value (fmt_io m) (json_io m).
Proof. intros [] st; reflexivity. Qed.
Lemma area_value : forall a, is_value (fmt_area a) (json_area a).
Proof.
  intros [b e] st. unfold fmt_area. cbn [fst snd].
  erewrite reads_then by (cbv; reflexivity). erewrite reads_then by apply reads_dec.
  erewrite reads_then by reflexivity. erewrite reads_then by apply reads_dec. reflexivity.
Qed.
Lemma arr_values : forall A (f : A -> text) (g : A -> json), (forall x, is_value (f x) (g x)) -> forall n (v : arr A (S n)) vs st,
  reads (fmt_arr f (S n) v) (LStart, Val (InArr vs :: st)) = Some (LStart, ArrAfter (rev (json_arr g (S n) v) ++ vs) st).
Proof.
  intros A f g H. induction n as [|n IH]; intros [x v] vs st.
  - cbn [fmt_arr fst snd]. erewrite reads_then by apply H. reflexivity.
  - change (fmt_arr f (S (S n)) (x, v)) with (f x ++ lit ", " ++ fmt_arr f (S n) v). erewrite reads_then by apply H.
    erewrite reads_then by reflexivity. rewrite IH. change (json_arr g (S (S n)) (x, v)) with (g x :: json_arr g (S n) v).
    cbn [rev]. now rewrite <- app_assoc.
Qed.
Lemma val_braced : forall t v, braced (fmt_val t v).
Proof. intros [| |t n o|t u o] v; [destruct v|..]; eexists; reflexivity. Qed.
Lemma open_array : forall o s st, s = " : ["%string \/ s = " : [ "%string -> forall r,
  reads ((lit "{ """ ++ lit (op_str o) ++ lit (String """" s)) ++ r) (LStart, Val st) = reads r (LStart, ArrStart (InObj [] (json_op o) :: st)).
Proof. intros o s st [-> | ->] r; apply reads_then; destruct o; reflexivity. Qed.
Lemma val_value : forall t v, is_value (fmt_val t v) (json_val t v).
Proof.
  induction t as [| |t IH n o|t IHt u IHu o]; intros v.
  - apply io_value.
  - apply area_value.
  - intros st. cbn [fmt_val json_val].
    rewrite (app_assoc (lit (op_str o))), (app_assoc (lit "{ """)), (open_array o " : [" st (or_introl eq_refl)).
    destruct n as [|n]; [destruct o; reflexivity|].
    assert (B : braced (fmt_arr (fmt_val t) (S n) v)). { destruct v as [x v]. cbn [fmt_arr fst snd]. destruct (val_braced t x) as [r ->]. now eexists. }
    rewrite reads_app, first_in_array by exact B. rewrite (arr_values _ _ _ IH). rewrite app_nil_r.
    transitivity (Some (LStart, deliver (JObj [(json_op o, JArr (rev (rev (json_arr (json_val t) (S n) v))))]) st)); [reflexivity|now rewrite rev_involutive].
  - intros st. cbn [fmt_val json_val].
    rewrite (app_assoc (lit (op_str o))), (app_assoc (lit "{ """)), (open_array o " : [ " st (or_intror eq_refl)).
    rewrite reads_app, first_in_array by apply val_braced. rewrite (IHt (fst v) _). cbn [deliver].
    erewrite reads_then by reflexivity. erewrite reads_then by apply IHu. reflexivity.
Qed.
Lemma access_value : forall a, is_value (fmt_access a) (json_access a).
Proof.
  intros a st. unfold fmt_access. erewrite reads_then by (cbv; reflexivity). erewrite reads_then by apply reads_dec.
  erewrite reads_then by reflexivity. erewrite reads_then by apply reads_dec. erewrite reads_then by reflexivity. erewrite reads_then by apply val_value. reflexivity.
Qed.
Lemma accesses_values : forall l a vs st, reads (fmt_accesses (a :: l)) (LStart, Val (InArr vs :: st)) = Some (LStart, ArrAfter (rev (map json_access (a :: l)) ++ vs) st).
Proof.
  induction l as [|b l IH]; intros a vs st.
  - cbn [fmt_accesses]. erewrite reads_then by apply access_value. reflexivity.
  - change (fmt_accesses (a :: b :: l)) with (fmt_access a ++ lit "," ++ fmt_accesses (b :: l)). erewrite reads_then by apply access_value.
    erewrite reads_then by reflexivity. rewrite IH. change (map json_access (a :: b :: l)) with (json_access a :: map json_access (b :: l)). cbn [rev]. now rewrite <- (app_assoc _ [json_access a]).
Qed.
Lemma user_value : forall u, is_value (fmt_user u) (json_user u).
Proof.
  intros u st. unfold fmt_user, json_user. erewrite reads_then by reflexivity. destruct (u_acc u) as [|a l]; [reflexivity|].
  assert (B : braced (fmt_accesses (a :: l))) by (eexists; reflexivity).
  rewrite reads_app, first_in_array by exact B. rewrite accesses_values, app_nil_r.
  transitivity (Some (LStart, deliver (JArr (rev (rev (map json_access (a :: l))))) st)); [reflexivity|now rewrite rev_involutive].
Qed.
Lemma parse_value : forall s j, is_value s j -> parse s = Some j.
Proof. intros s j H. unfold parse. now rewrite H. Qed.

(** ** The values determine what was printed *)
Lemma json_val_inj : forall t (v w : val t), json_val t v = json_val t w -> v = w.
Proof.
  induction t as [| |t IH n o|t IHt u IHu o]; intros v w H; cbn [json_val] in H.
  - destruct v, w; try reflexivity; vm_compute in H; discriminate H.
  - destruct v as [a b], w as [c d]. unfold json_area in H. cbn [fst snd] in H. inversion H. reflexivity.
  - inversion H as [E]. clear H. cbn [val] in v, w. induction n as [|n IHn]; [destruct v, w; reflexivity|].
    destruct v as [x v], w as [y w]. cbn [json_arr fst snd] in E. injection E as E1 E2. apply IH in E1. apply IHn in E2. congruence.
  - destruct v as [a b], w as [c d]. cbn [fst snd] in H. injection H as E1 E2. apply IHt in E1. apply IHu in E2. congruence.
Qed.
Lemma json_access_inj : forall r t (v : val t) r' (v' : val t), json_access (mkAcc r t v) = json_access (mkAcc r' t v') -> r = r' /\ v = v'.
Proof.
  intros [i s] t v [i' s'] v' H. unfold json_access in H. cbn [a_res a_ty a_val r_id r_scope] in H. injection H as E1 E2 E3.
  apply Nat2N.inj in E1, E2. apply json_val_inj in E3. subst. auto.
Qed.
