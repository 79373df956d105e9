(** ChunkedList used by one thread: refinement of a list with handles. *)
From Coq Require Import Bool List Arith ZArith Lia.
From Verif Require Import ChunkModel ChunkSpec.
Import ListNotations.

Lemma nth_set_nth : forall B (l : list B) i x j, i < length l ->
  nth_error (set_nth l i x) j = if j =? i then Some x else nth_error l j.
Proof.
  unfold set_nth. induction l as [|y l IH]; intros i x j H; [simpl in H; lia|]. destruct i as [|i].
  - simpl. destruct j; reflexivity.
  - cbn [firstn skipn app]. destruct j as [|j]; [reflexivity|]. cbn [nth_error]. rewrite IH by (simpl in H; lia). reflexivity.
Qed.
Lemma set_nth_length : forall B (l : list B) i x, i < length l -> length (set_nth l i x) = length l.
Proof.
  unfold set_nth. intros. rewrite app_length, firstn_length. cbn [length]. rewrite skipn_length. lia.
Qed.
Lemma rev_last : forall B (l : list B) x r, rev l = x :: r -> nth_error l (length l - 1) = Some x.
Proof.
  intros B l x r H. assert (E : l = rev r ++ [x]) by (rewrite <- (rev_involutive l), H; reflexivity).
  rewrite E. rewrite app_length. simpl. rewrite nth_error_app2 by lia. replace (length (rev r) + 1 - 1 - length (rev r)) with 0 by lia. reflexivity.
Qed.
Lemma u16_small : forall x, (N.of_nat x < 65536)%N -> u16 x = x.
Proof. intros. unfold u16. rewrite N.mod_small by assumption. lia. Qed.

Section Refine.
Context {A : Type} (eqb : A -> A -> bool) (size : nat) (Hpos : 0 < size) (Hsmall : (N.of_nat size < 65536)%N).
Notation clist := (@clist A).
Notation item := (@item A).
Notation chunk := (@chunk A).
Notation spec := (spec A).

Definition loc (g : nat) : pos := (g / size, g mod size).
Lemma loc_eq : forall c i, i < size -> loc (c * size + i) = (c, i).
Proof.
  intros c i H. unfold loc. f_equal.
  - rewrite Nat.div_add_l by lia. rewrite Nat.div_small by assumption. lia.
  - rewrite Nat.add_comm, Nat.mod_add by lia. now apply Nat.mod_small.
Qed.
Lemma loc_inv : forall g, g = fst (loc g) * size + snd (loc g) /\ snd (loc g) < size.
Proof.
  intros. unfold loc. simpl. split; [|apply Nat.mod_upper_bound; lia].
  rewrite Nat.mul_comm. apply Nat.div_mod. lia.
Qed.
Lemma loc_inj : forall g h, loc g = loc h -> g = h.
Proof. intros g h E. destruct (loc_inv g) as [G _], (loc_inv h) as [H _]. rewrite G, H, E. reflexivity. Qed.

Definition shaped (cs : clist) : Prop := forall c ch, nth_error cs c = Some ch -> length (items ch) = size.
Definition slot (cs : clist) (g : nat) : option item := get cs (loc g).
Lemma slot_some : forall cs g, shaped cs -> (g < length cs * size <-> exists it, slot cs g = Some it).
Proof.
  intros cs g S. destruct (loc_inv g) as [G L]. unfold slot, get. destruct (nth_error cs (fst (loc g))) as [ch|] eqn:E.
  - assert (K := S _ _ E). assert (fst (loc g) < length cs) by (apply nth_error_Some; congruence). split.
    + intros _. destruct (nth_error (items ch) (snd (loc g))) eqn:F; [eauto|]. apply nth_error_None in F. lia.
    + intros _. rewrite G. nia.
  - apply nth_error_None in E. split; [|now intros [it H]]. intros H. exfalso. rewrite G in H. nia.
Qed.
Lemma put_length : forall (cs : clist) p it, length (put cs p it) = length cs.
Proof.
  intros. unfold put. destruct (nth_error cs (fst p)) eqn:E; [|reflexivity].
  apply set_nth_length. apply nth_error_Some. congruence.
Qed.
Lemma put_chunk : forall (cs : clist) p it c ch', get cs p <> None ->
  nth_error (put cs p it) c = Some ch' ->
  exists ch, nth_error cs c = Some ch /\ next ch' = next ch /\ freed ch' = freed ch /\ deleted ch' = deleted ch /\
             length (items ch') = length (items ch) /\ 
             forall i, nth_error (items ch') i = if (c =? fst p) && (i =? snd p) then Some it else nth_error (items ch) i.
Proof.
  intros cs p it c ch' G H. unfold put, get in *. destruct (nth_error cs (fst p)) as [ch|] eqn:E; [|easy].
  assert (L : snd p < length (items ch)) by (now apply nth_error_Some).
  rewrite nth_set_nth in H by (apply nth_error_Some; congruence). destruct (Nat.eqb_spec c (fst p)).
  - subst. injection H as <-. exists ch. cbn [next freed deleted items]. rewrite set_nth_length by assumption.
    repeat split; auto. intros i. rewrite nth_set_nth by assumption. reflexivity.
  - exists ch'. repeat split; auto.
Qed.
Lemma put_shaped : forall cs p it, get cs p <> None -> shaped cs -> shaped (put cs p it).
Proof.
  intros cs p it G S c ch H. destruct (put_chunk cs p it c ch G H) as (ch0 & E & _ & _ & _ & L & _). rewrite L. eapply S; eauto.
Qed.
Lemma get_put : forall (cs : clist) p it q, get cs p <> None ->
  get (put cs p it) q = if (fst q =? fst p) && (snd q =? snd p) then Some it else get cs q.
Proof.
  intros cs p it q G. unfold get at 1. destruct (nth_error (put cs p it) (fst q)) as [ch'|] eqn:E.
  - destruct (put_chunk cs p it _ ch' G E) as (ch & E' & _ & _ & _ & _ & F). rewrite F. unfold get. rewrite E'.
    destruct (fst q =? fst p); reflexivity.
  - apply nth_error_None in E. rewrite put_length in E.
    assert (N : nth_error cs (fst q) = None) by (now apply nth_error_None). unfold get. rewrite N.
    destruct (Nat.eqb_spec (fst q) (fst p)) as [Q|Q]; [|reflexivity]. unfold get in G. rewrite <- Q, N in G. easy.
Qed.
Lemma slot_put : forall cs g it h, slot cs g <> None ->
  slot (put cs (loc g) it) h = if h =? g then Some it else slot cs h.
Proof.
  intros cs g it h G. unfold slot. rewrite get_put by assumption. destruct (Nat.eqb_spec h g).
  - subst. now rewrite !Nat.eqb_refl.
  - destruct (Nat.eqb_spec (fst (loc h)) (fst (loc g))) as [X|X]; [|reflexivity].
    destruct (Nat.eqb_spec (snd (loc h)) (snd (loc g))) as [Y|Y]; [|reflexivity].
    exfalso. apply n. apply loc_inj. destruct (loc h), (loc g). simpl in *. congruence.
Qed.

(** ** The relation *)
Definition is_gone (sp : spec) (g : nat) : bool := match nth_error sp g with Some e => gone e | None => false end.
Definition item_ok (sp : spec) (g : nat) (it : item) : Prop :=
  match nth_error sp g with
  | Some e =>
      if gone e then
        1 <= off it /\ off it <= S (g mod size) /\ (forall j, 1 <= j -> j < off it -> is_gone sp (g - j) = true) /\
        rc it = (Z.of_nat (holders e) - 1)%Z /\
        sto it = (if (holders e =? 0) then Gone (value e) else Val (value e))
      else off it = 0 /\ rc it = Z.of_nat (holders e) /\ sto it = Val (value e)
  | None => it = new_item
  end.
Definition gone_in (sp : spec) (c : nat) : nat := length (filter (is_gone sp) (seq (c * size) size)).
Record R (sp : spec) (cs : clist) : Prop := {
  r_len : length cs = (length sp + size - 1) / size;
  r_shape : shaped cs;
  r_chunk : forall c ch, nth_error cs c = Some ch ->
    next ch = (if S c =? length cs then length sp - c * size else S size) /\
    freed ch = gone_in sp c /\ deleted ch = (freed ch =? size);
  r_item : forall g it, slot cs g = Some it -> item_ok sp g it
}.
Lemma R_init : R [] [].
Proof.
  split; simpl.
  - symmetry. apply Nat.div_small. lia.
  - intros [|c] ch; easy.
  - intros [|c] ch; easy.
  - intros g it H. unfold slot, get in H. now destruct (fst (loc g)).
Qed.

(** sizes *)
Lemma len_bounds : forall sp cs, R sp cs -> length sp <= length cs * size /\ (length cs * size < length sp + size).
Proof.
  intros sp cs H. rewrite (r_len _ _ H). assert (D := Nat.div_mod (length sp + size - 1) size ltac:(lia)).
  assert (M := Nat.mod_upper_bound (length sp + size - 1) size ltac:(lia)).
  set (q := (length sp + size - 1) / size) in *. set (m := (length sp + size - 1) mod size) in *. clearbody q m. nia.
Qed.
Lemma slot_exists : forall sp cs g, R sp cs -> g < length sp -> exists it, slot cs g = Some it.
Proof.
  intros sp cs g H L. apply (slot_some cs g (r_shape _ _ H)). assert (B := len_bounds sp cs H). lia.
Qed.
Lemma last_item_head : forall sp cs c ch, R sp cs -> nth_error cs c = Some ch -> S c = length cs ->
  last_item size ch = Some (length sp - 1 - c * size) /\ c * size < length sp.
Proof.
  intros sp cs c ch H E L. assert (B := len_bounds sp cs H). destruct (r_chunk _ _ H c ch E) as (N & _).
  rewrite L, Nat.eqb_refl in N. rewrite <- L in B. simpl in B. assert (c * size < length sp) by lia. split; [|assumption].
  unfold last_item. rewrite N. rewrite Nat.min_l by lia. destruct (length sp - c * size) as [|k] eqn:K; [lia|]. f_equal. lia.
Qed.
Lemma last_item_full : forall sp cs c ch, R sp cs -> nth_error cs c = Some ch -> S c <> length cs ->
  last_item size ch = Some (size - 1).
Proof.
  intros sp cs c ch H E L. destruct (r_chunk _ _ H c ch E) as (N & _).
  replace (S c =? length cs) with false in N by (symmetry; now apply Nat.eqb_neq).
  unfold last_item. rewrite N, Nat.min_r by lia. destruct size; [lia|]. f_equal. lia.
Qed.

Lemma filter_length_le : forall B (f : B -> bool) l, length (filter f l) <= length l.
Proof. induction l as [|a l IH]; simpl; [lia|]. destruct (f a); simpl; lia. Qed.
(** a chunk full of removed elements *)
Lemma filter_all : forall B (f : B -> bool) l, length (filter f l) = length l -> forall x, In x l -> f x = true.
Proof.
  induction l as [|y l IH]; intros H x Hx; [easy|]. simpl in H. assert (K : length (filter f l) <= length l).
  { clear. induction l; simpl; [lia|]. destruct (f a); simpl; lia. }
  destruct (f y) eqn:F; simpl in H; [|lia]. destruct Hx as [<-|Hx]; [assumption|]. apply IH; [lia|assumption].
Qed.
Lemma deleted_gone : forall sp cs c ch, R sp cs -> nth_error cs c = Some ch -> deleted ch = true ->
  forall i, i < size -> is_gone sp (c * size + i) = true.
Proof.
  intros sp cs c ch H E D i Hi. destruct (r_chunk _ _ H c ch E) as (_ & F & D'). rewrite D in D'. symmetry in D'.
  apply Nat.eqb_eq in D'. rewrite F in D'. unfold gone_in in D'.
  apply (filter_all _ (is_gone sp) (seq (c * size) size)); [now rewrite seq_length|]. apply in_seq. lia.
Qed.
Lemma gone_not_live : forall sp g, is_gone sp g = true -> is_live sp g = false.
Proof. intros sp g. unfold is_gone, is_live. destruct (nth_error sp g) as [e|]; [|easy]. now intros ->. Qed.
Lemma newest_skip : forall (sp : spec) n k, (forall j, k <= j -> j < n -> is_live sp j = false) -> k <= n -> newest sp n = newest sp k.
Proof.
  intros sp n k. induction n as [|n IH]; intros H L; [now replace k with 0 by lia|].
  destruct (Nat.eq_dec k (S n)); [now subst|]. simpl. rewrite (H n) by lia. apply IH; [|lia]. intros. apply H; lia.
Qed.
Lemma newest_spec : forall (sp : spec) n g, newest sp n = Some g -> g < n /\ is_live sp g = true.
Proof.
  induction n as [|n IH]; intros g H; [easy|]. simpl in H. destruct (is_live sp n) eqn:E.
  - injection H as <-. auto.
  - destruct (IH g H). auto.
Qed.

Lemma older_spec : forall sp cs c, R sp cs -> c < length cs ->
  match older cs c with
  | Some c' => c' < c /\ (exists ch, nth_error cs c' = Some ch) /\ newest sp (c * size) = newest sp (S c' * size)
  | None => newest sp (c * size) = None
  end.
Proof.
  intros sp cs c H. induction c as [|c IH]; intros L; [reflexivity|].
  cbn [older]. destruct (nth_error cs c) as [ch|] eqn:E; [|apply nth_error_None in E; lia].
  destruct (deleted ch) eqn:D.
  - assert (K : newest sp (S c * size) = newest sp (c * size)).
    { apply newest_skip; [|simpl; lia]. intros j J1 J2. apply gone_not_live.
      replace j with (c * size + (j - c * size)) by lia. apply (deleted_gone sp cs c ch H E D). simpl in J2. lia. }
    specialize (IH ltac:(lia)). destruct (older cs c).
    + destruct IH as (a & b & d). split; [lia|split; [assumption|]]. congruence.
    + congruence.
  - split; [lia|]. split; [eauto|reflexivity].
Qed.
Lemma older_pos_spec : forall sp cs c, R sp cs -> c < length cs ->
  match older_pos size cs c with
  | Some p => exists g, p = loc g /\ g < c * size /\ newest sp (c * size) = newest sp (S g)
  | None => newest sp (c * size) = None
  end.
Proof.
  intros sp cs c H L. unfold older_pos. assert (O := older_spec sp cs c H L). destruct (older cs c) as [c'|]; [|assumption].
  destruct O as (L' & (ch & E) & N). rewrite E. rewrite (last_item_full sp cs c' ch H E) by lia.
  exists (c' * size + (size - 1)). split; [symmetry; apply loc_eq; lia|]. split; [nia|].
  rewrite N. f_equal. simpl. lia.
Qed.

(** ** Updating one element *)
Lemma upd_nth : forall (sp : spec) g f h, nth_error (upd sp g f) h = (if h =? g then option_map f (nth_error sp g) else nth_error sp h).
Proof.
  induction sp as [|e sp IH]; intros g f h; [simpl; destruct (h =? g), g, h; reflexivity|].
  destruct g as [|g], h as [|h]; try reflexivity. simpl. apply IH.
Qed.
Lemma upd_length : forall (sp : spec) g f, length (upd sp g f) = length sp.
Proof. induction sp as [|e sp IH]; intros g f; [reflexivity|]. destruct g; simpl; [reflexivity|]. now rewrite IH. Qed.
(** an update that keeps the removed flag *)
Definition keeps (f : elem A -> elem A) : Prop := forall e, gone (f e) = gone e.
Lemma upd_gone : forall sp g f h, keeps f -> is_gone (upd sp g f) h = is_gone sp h.
Proof.
  intros sp g f h K. unfold is_gone. rewrite upd_nth. destruct (Nat.eqb_spec h g); [|reflexivity]. subst.
  destruct (nth_error sp g); [apply K|reflexivity].
Qed.
Lemma upd_live : forall sp g f h, keeps f -> is_live (upd sp g f) h = is_live sp h.
Proof.
  intros sp g f h K. unfold is_live. rewrite upd_nth. destruct (Nat.eqb_spec h g); [|reflexivity]. subst.
  destruct (nth_error sp g); [simpl; f_equal; apply K|reflexivity].
Qed.
Lemma newest_upd : forall sp g f n, keeps f -> newest (upd sp g f) n = newest sp n.
Proof. induction n as [|n IH]; intros K; [reflexivity|]. simpl. rewrite (upd_live sp g f n K), IH by assumption. reflexivity. Qed.
Lemma gone_in_ext : forall sp sp' c, (forall g, is_gone sp' g = is_gone sp g) -> gone_in sp' c = gone_in sp c.
Proof. intros sp sp' c H. unfold gone_in. f_equal. now apply filter_ext. Qed.
Lemma item_ok_ext : forall sp sp' g it, nth_error sp' g = nth_error sp g -> (forall g, is_gone sp' g = is_gone sp g) ->
  item_ok sp g it -> item_ok sp' g it.
Proof.
  intros sp sp' g it E G H. unfold item_ok in *. rewrite E. destruct (nth_error sp g) as [e|]; [|assumption].
  destruct (gone e); [|assumption]. destruct H as (a & b & c & d). split; [assumption|split; [assumption|split; [|assumption]]].
  intros. rewrite G. auto.
Qed.
Lemma R_put : forall sp cs g it f, R sp cs -> keeps f -> g < length sp -> item_ok (upd sp g f) g it ->
  R (upd sp g f) (put cs (loc g) it).
Proof.
  intros sp cs g it f H K L I. destruct (slot_exists sp cs g H L) as [it0 E].
  assert (NE : slot cs g <> None) by congruence. split.
  - rewrite put_length, upd_length. apply H.
  - apply put_shaped; [exact NE|apply H].
  - intros c ch' Hc. destruct (put_chunk cs (loc g) it c ch' NE Hc) as (ch & E1 & E2 & E3 & E4 & _).
    destruct (r_chunk _ _ H c ch E1) as (a & b & d). rewrite put_length, upd_length, E2, E3, E4.
    split; [assumption|]. split; [|assumption]. rewrite b. symmetry. apply gone_in_ext. intros. now apply upd_gone.
  - intros h it' Hh. rewrite slot_put in Hh by assumption. destruct (Nat.eqb_spec h g).
    + subst. injection Hh as <-. assumption.
    + apply (item_ok_ext sp); [rewrite upd_nth; now destruct (Nat.eqb_spec h g)|intros; now apply upd_gone|]. now apply (r_item _ _ H).
Qed.

(** ** acquire_next finds the newest element *)
Definition keeps_hold : keeps (fun e : elem A => mkElem (value e) (gone e) (S (holders e))) := fun e => eq_refl.
Definition keeps_drop : keeps (fun e : elem A => mkElem (value e) (gone e) (pred (holders e))) := fun e => eq_refl.
Lemma live_lt : forall (sp : spec) g, is_live sp g = true -> g < length sp.
Proof. intros sp g H. apply nth_error_Some. unfold is_live in H. now destruct (nth_error sp g). Qed.
Lemma acquire_next_spec : forall sp cs fuel g, R sp cs -> g < length sp -> g < fuel ->
  let g' := newest sp (S g) in
  fst (acquire_next size fuel cs (Some (loc g))) = option_map loc g' /\
  R (hold sp g') (snd (acquire_next size fuel cs (Some (loc g)))).
Proof.
  intros sp cs fuel. induction fuel as [|fuel IH]; intros g H L F; [lia|].
  destruct (slot_exists sp cs g H L) as [it E]. cbn zeta.
  unfold slot in E. change (loc g) with (g / size, g mod size) in E |- *. cbn [acquire_next]. rewrite E. assert (I := r_item _ _ H g it E).
  assert (Ee : exists e, nth_error sp g = Some e) by (destruct (nth_error sp g) eqn:X; [eauto|apply nth_error_None in X; lia]).
  destruct Ee as [e Ee]. unfold item_ok in I. rewrite Ee in I.
  assert (LV : is_live sp g = negb (gone e)) by (unfold is_live; now rewrite Ee).
  destruct (gone e) eqn:G.
  - destruct I as (I1 & I2 & I3 & I4 & I5). assert (ACQ : acquire it = (off it, it)).
    { unfold acquire. destruct (Nat.eqb_spec (off it) 0); [lia|reflexivity]. }
    rewrite ACQ. destruct (Nat.eqb_spec (off it) 0); [lia|].
    destruct (loc_inv g) as [LG LS]. unfold loc in LG, LS. simpl in LG, LS.
    destruct (Nat.leb_spec (off it) (g mod size)) as [X|X].
    + replace (g / size, g mod size - off it) with (loc (g - off it)).
      2: { rewrite <- (loc_eq (g / size) (g mod size - off it)) by lia. f_equal. lia. }
      assert (NN : newest sp (S g) = newest sp (S (g - off it))).
      { apply newest_skip; [|lia]. intros j J1 J2. destruct (Nat.eq_dec j g); [now subst|].
        apply gone_not_live. replace j with (g - (g - j)) by lia. apply I3; lia. }
      rewrite NN. apply IH; [assumption|lia|lia].
    + assert (OL : g / size < length cs).
      { assert (B := len_bounds sp cs H). assert (g < length cs * size) by lia. apply Nat.div_lt_upper_bound; lia. }
      assert (NN : newest sp (S g) = newest sp (g / size * size)).
      { apply newest_skip; [|lia]. intros j J1 J2. destruct (Nat.eq_dec j g); [now subst|].
        apply gone_not_live. replace j with (g - (g - j)) by lia. apply I3; lia. }
      assert (O := older_pos_spec sp cs (g / size) H OL). destruct (older_pos size cs (g / size)) as [p|].
      * destruct O as (g2 & -> & G2 & N2). rewrite NN, N2. apply IH; [assumption|lia|lia].
      * rewrite NN, O. destruct fuel; simpl; auto.
  - destruct I as (I1 & I2 & I3).
    assert (ACQ : acquire it = (0, mkItem 0 (rc it + 1) (sto it))).
    { unfold acquire. rewrite I1, I2. simpl. replace (0 <=? Z.of_nat (holders e))%Z with true by (symmetry; apply Z.leb_le; lia). reflexivity. }
    rewrite ACQ. cbn [Nat.eqb]. simpl newest. rewrite LV. simpl negb. cbn [fst snd option_map]. split; [reflexivity|].
    unfold hold. apply R_put; [assumption|apply keeps_hold|assumption|].
    unfold item_ok. rewrite upd_nth, Nat.eqb_refl, Ee. simpl. rewrite G. split; [reflexivity|]. split; [rewrite I2; lia|assumption].
Qed.
Lemma enough_ok : forall sp cs, R sp cs -> length sp < enough size cs.
Proof. intros sp cs H. assert (B := len_bounds sp cs H). unfold enough. lia. Qed.

(** ** release *)
Lemma release_spec : forall sp cs g e, R sp cs -> nth_error sp g = Some e -> 0 < holders e ->
  exists cs', release_at cs (loc g) = (cs', true) /\ R (drop sp g) cs'.
Proof.
  intros sp cs g e H E Hh. assert (L : g < length sp) by (apply nth_error_Some; congruence).
  destruct (slot_exists sp cs g H L) as [it Ei]. assert (I := r_item _ _ H g it Ei). unfold slot in Ei.
  unfold release_at. rewrite Ei. unfold release.
  unfold item_ok in I. rewrite E in I. destruct (gone e) eqn:G.
  - destruct I as (I1 & I2 & I3 & I4 & I5). replace (holders e =? 0) with false in I5 by (symmetry; apply Nat.eqb_neq; lia).
    destruct (Z.eqb_spec (rc it) 0) as [Z0|Z0].
    + rewrite I5. eexists. split; [reflexivity|]. unfold drop. apply R_put; [assumption|apply keeps_drop|assumption|].
      unfold item_ok. rewrite upd_nth, Nat.eqb_refl, E. simpl. rewrite G. cbn [off rc sto].
      split; [assumption|split; [assumption|split]].
      { intros. rewrite upd_gone by apply keeps_drop. auto. }
      split; [lia|]. replace (pred (holders e)) with 0 by lia. reflexivity.
    + replace (0 <? rc it)%Z with true by (symmetry; apply Z.ltb_lt; lia). eexists. split; [reflexivity|].
      unfold drop. apply R_put; [assumption|apply keeps_drop|assumption|].
      unfold item_ok. rewrite upd_nth, Nat.eqb_refl, E. simpl. rewrite G. cbn [off rc sto].
      split; [assumption|split; [assumption|split]].
      { intros. rewrite upd_gone by apply keeps_drop. auto. }
      split; [lia|]. replace (pred (holders e) =? 0) with false by (symmetry; apply Nat.eqb_neq; lia). assumption.
  - destruct I as (I1 & I2 & I3). destruct (Z.eqb_spec (rc it) 0) as [Z0|Z0]; [lia|].
    replace (0 <? rc it)%Z with true by (symmetry; apply Z.ltb_lt; lia). eexists. split; [reflexivity|].
    unfold drop. apply R_put; [assumption|apply keeps_drop|assumption|].
    unfold item_ok. rewrite upd_nth, Nat.eqb_refl, E. simpl. rewrite G. cbn [off rc sto]. split; [assumption|split; [lia|assumption]].
Qed.

(** ** Iterators *)
Ltac use_acq P1 P2 :=
  match type of P1 with fst ?a = _ =>
    match goal with |- context [acquire_next ?n ?f ?c ?d] => change (acquire_next n f c d) with a end;
    destruct a as [? ?]; cbn [fst snd] in P1, P2; rewrite P1; eauto
  end.
Lemma acquire_next_none : forall fuel (cs : clist), acquire_next size fuel cs None = (None, cs).
Proof. now intros [|f] cs. Qed.
Lemma rbegin_spec : forall sp cs, R sp cs ->
  exists cs', rbegin size cs = (option_map loc (newest sp (length sp)), cs') /\ R (hold sp (newest sp (length sp))) cs'.
Proof.
  intros sp cs H. assert (B := len_bounds sp cs H). unfold rbegin. destruct (rev cs) as [|ch r] eqn:E.
  - assert (cs = []) by (rewrite <- (rev_involutive cs), E; reflexivity). subst. simpl in B.
    replace (length sp) with 0 by lia. simpl. eauto.
  - apply rev_last in E. destruct cs as [|c0 cs0]; [simpl in E; discriminate|]. set (cs := c0 :: cs0) in *.
    assert (LN : length cs <> 0) by easy. clearbody cs.
    destruct (last_item_head sp cs _ ch H E ltac:(lia)) as [LI LL]. rewrite LI.
    set (c := length cs - 1) in *. assert (LC : length cs = S c) by lia. rewrite LC in B. simpl in B.
    rewrite <- (loc_eq c (length sp - 1 - c * size)) by lia. replace (c * size + (length sp - 1 - c * size)) with (length sp - 1) by lia.
    destruct (acquire_next_spec sp cs (enough size cs) (length sp - 1) H) as [P1 P2]; [lia|assert (Q := enough_ok sp cs H); lia|].
    replace (S (length sp - 1)) with (length sp) in * by lia.
    use_acq P1 P2.
Qed.
Lemma next_spec : forall sp cs g e, R sp cs -> nth_error sp g = Some e -> 0 < holders e ->
  exists cs', next_it size cs (loc g) = (option_map loc (newest sp g), cs', true) /\ R (hold (drop sp g) (newest sp g)) cs'.
Proof.
  intros sp cs g e H E Hh. assert (L : g < length sp) by (apply nth_error_Some; congruence).
  destruct (release_spec sp cs g e H E Hh) as (cs1 & R1 & H1). unfold next_it. rewrite R1.
  assert (Nw : newest (drop sp g) g = newest sp g) by (apply newest_upd, keeps_drop).
  assert (L1 : length (drop sp g) = length sp) by (apply upd_length).
  destruct (loc_inv g) as [LG LS]. unfold loc in LG, LS |- *. cbn [fst snd] in *.
  destruct (g mod size) as [|i] eqn:M.
  - assert (OL : g / size < length cs1).
    { assert (B := len_bounds _ _ H1). rewrite L1 in B. apply Nat.div_lt_upper_bound; lia. }
    assert (O := older_pos_spec _ cs1 (g / size) H1 OL). rewrite Nat.add_0_r in LG. rewrite <- LG in O.
    rewrite Nw in O. destruct (older_pos size cs1 (g / size)) as [p|].
    + destruct O as (g2 & -> & G2 & N2). assert (Nw2 : newest (drop sp g) (S g2) = newest sp g) by congruence.
      destruct (acquire_next_spec (drop sp g) cs1 (enough size cs1) g2 H1) as [P1 P2]; [lia|assert (Q := enough_ok _ cs1 H1); lia|].
      rewrite Nw2 in *. use_acq P1 P2.
    + rewrite O. rewrite acquire_next_none. simpl. eauto.
  - rewrite <- (loc_eq (g / size) i) by lia. replace (g / size * size + i) with (g - 1) by lia.
    destruct (acquire_next_spec (drop sp g) cs1 (enough size cs1) (g - 1) H1) as [P1 P2]; [lia|assert (Q := enough_ok _ cs1 H1); lia|].
    replace (S (g - 1)) with g in * by lia. rewrite Nw in *.
    use_acq P1 P2.
Qed.
Lemma copy_spec : forall sp cs g, R sp cs -> g < length sp ->
  exists cs', copy_it size cs (loc g) = (option_map loc (newest sp (S g)), cs') /\ R (hold sp (newest sp (S g))) cs'.
Proof.
  intros sp cs g H L. unfold copy_it.
  destruct (acquire_next_spec sp cs (enough size cs) g H L) as [P1 P2]; [assert (Q := enough_ok sp cs H); lia|].
  use_acq P1 P2.
Qed.

(** ** push *)
(** like [R], but the newest chunk may be empty *)
Record W (sp : spec) (cs : clist) : Prop := {
  w_len : length sp <= length cs * size /\ length cs * size <= length sp + size;
  w_shape : shaped cs;
  w_chunk : forall c ch, nth_error cs c = Some ch ->
    next ch = (if S c =? length cs then length sp - c * size else S size) /\ freed ch = gone_in sp c /\ deleted ch = (freed ch =? size);
  w_item : forall g it, slot cs g = Some it -> item_ok sp g it
}.
Lemma W_of_R : forall sp cs, R sp cs -> W sp cs.
Proof. intros sp cs H. assert (B := len_bounds sp cs H). split; try apply H. lia. Qed.
Lemma R_of_W : forall sp cs, W sp cs -> length cs * size < length sp + size -> R sp cs.
Proof.
  intros sp cs H B. split; try apply H. destruct (w_len _ _ H) as [B1 _].
  apply (Nat.div_unique _ _ _ (length sp + size - 1 - size * length cs)); nia.
Qed.
Lemma gone_in_none : forall sp c, length sp <= c * size -> gone_in sp c = 0.
Proof.
  intros sp c H. unfold gone_in. assert (K : forall l, (forall x, In x l -> length sp <= x) -> filter (is_gone sp) l = []).
  { induction l as [|x l IH]; intros P; [reflexivity|]. simpl.
    assert (is_gone sp x = false). { unfold is_gone. assert (Q := P x (or_introl eq_refl)). apply nth_error_None in Q. now rewrite Q. }
    rewrite H0. apply IH. intros. apply P. now right. }
  rewrite K; [reflexivity|]. intros x Hx. apply in_seq in Hx. lia.
Qed.
Lemma slot_meta : forall (cs : clist) c ch ch' g, nth_error cs c = Some ch -> items ch' = items ch ->
  slot (set_nth cs c ch') g = slot cs g.
Proof.
  intros cs c ch ch' g E I. unfold slot, get. rewrite nth_set_nth by (apply nth_error_Some; congruence).
  destruct (Nat.eqb_spec (fst (loc g)) c) as [X|X]; [|reflexivity]. rewrite X, E, I. reflexivity.
Qed.
Lemma shaped_meta : forall (cs : clist) c ch ch', nth_error cs c = Some ch -> items ch' = items ch -> shaped cs -> shaped (set_nth cs c ch').
Proof.
  intros cs c ch ch' E I S d dh H. rewrite nth_set_nth in H by (apply nth_error_Some; congruence).
  destruct (d =? c); [injection H as <-; rewrite I; exact (S _ _ E)|exact (S _ _ H)].
Qed.
Lemma nth_repeat : forall B (x y : B) n i, nth_error (repeat x n) i = Some y -> y = x.
Proof. intros B x y n i H. apply nth_error_In in H. now apply repeat_spec in H. Qed.
Lemma item_new : forall sp g it, length sp <= g -> item_ok sp g it -> it = new_item.
Proof. intros sp g it L H. unfold item_ok in H. apply nth_error_None in L. now rewrite L in H. Qed.

Lemma new_chunk_W : W [] [new_chunk size].
Proof.
  split.
  - simpl. lia.
  - intros [|[|c]] ch H; try discriminate. injection H as <-. apply repeat_length.
  - intros [|[|c]] ch H; try discriminate. injection H as <-. simpl. repeat split.
    + symmetry. apply gone_in_none. simpl. lia.
    + destruct size; [lia|reflexivity].
  - intros g it H. unfold slot, get in H. destruct (fst (loc g)) as [|[|c]]; simpl in H; try discriminate.
    apply nth_repeat in H. subst. unfold item_ok. now destruct g.
Qed.
Lemma overflow_W : forall sp cs, W sp cs -> cs <> [] -> length sp = length cs * size ->
  exists cs', push_slot size cs = (cs', None) /\ W sp cs' /\ cs' <> [] /\ length sp < length cs' * size.
Proof.
  intros sp cs H NE L. unfold push_slot. destruct (rev cs) as [|ch r] eqn:E.
  { exfalso. apply NE. rewrite <- (rev_involutive cs), E. reflexivity. }
  apply rev_last in E. set (c := length cs - 1) in *.
  assert (LC : length cs = S c) by (destruct cs; [easy|simpl in *; lia]).
  destruct (w_chunk _ _ H c ch E) as (N & F & D). rewrite LC, Nat.eqb_refl, L, LC in N. replace (S c * size - c * size) with size in N by (simpl; lia).
  rewrite N, Nat.leb_refl, Nat.ltb_irrefl. eexists. split; [reflexivity|].
  set (ch' := mkChunk (items ch) (S size) (freed ch) (deleted ch)).
  assert (L' : length (set_nth cs c ch' ++ [new_chunk size]) = S (S c)).
  { rewrite app_length, set_nth_length by lia. simpl. lia. }
  assert (NT : forall d dh, nth_error (set_nth cs c ch' ++ [new_chunk size]) d = Some dh ->
    (d = S c /\ dh = new_chunk size) \/ (d = c /\ dh = ch') \/ (d < c /\ nth_error cs d = Some dh)).
  { intros d dh Hd. destruct (Nat.lt_ge_cases d (S c)) as [X|X].
    - rewrite nth_error_app1 in Hd by (rewrite set_nth_length; lia). rewrite nth_set_nth in Hd by lia.
      destruct (Nat.eqb_spec d c); [injection Hd as <-; auto|]. right. right. split; [lia|assumption].
    - rewrite nth_error_app2 in Hd by (rewrite set_nth_length; lia). rewrite set_nth_length in Hd by lia.
      rewrite LC in Hd. destruct (d - S c) as [|[|]] eqn:Y; simpl in Hd; try discriminate. injection Hd as <-. left. split; [lia|reflexivity]. }
  split; [|split; [now destruct (set_nth cs c ch')|rewrite L'; nia]]. split.
  - rewrite L'. nia.
  - intros d dh Hd. destruct (NT d dh Hd) as [[-> ->]|[[-> ->]|[X Y]]].
    + apply repeat_length.
    + apply (w_shape _ _ H c ch E).
    + apply (w_shape _ _ H d dh Y).
  - intros d dh Hd. rewrite L'. destruct (NT d dh Hd) as [[-> ->]|[[-> ->]|[X Y]]].
    + rewrite Nat.eqb_refl. cbn [next freed deleted new_chunk]. repeat split.
      * nia.
      * symmetry. apply gone_in_none. nia.
      * destruct size; [lia|reflexivity].
    + replace (S c =? S (S c)) with false by (symmetry; apply Nat.eqb_neq; lia). simpl. auto.
    + destruct (w_chunk _ _ H d dh Y) as (a & b & e). replace (S d =? S (S c)) with false by (symmetry; apply Nat.eqb_neq; lia).
      rewrite LC in a. replace (S d =? S c) with false in a by (symmetry; apply Nat.eqb_neq; lia). auto.
  - intros g it Hg. unfold slot, get in Hg. destruct (nth_error (set_nth cs c ch' ++ [new_chunk size]) (fst (loc g))) as [dh|] eqn:Q; [|discriminate].
    destruct (NT _ dh Q) as [[X ->]|[[X ->]|[X Y]]].
    + apply nth_repeat in Hg. subst it. unfold item_ok. destruct (loc_inv g) as [G _]. rewrite X in G.
      replace (nth_error sp g) with (@None (elem A)); [reflexivity|]. symmetry. apply nth_error_None. nia.
    + apply (w_item _ _ H). unfold slot, get. rewrite X, E. exact Hg.
    + apply (w_item _ _ H). unfold slot, get. rewrite Y. exact Hg.
Qed.
Lemma is_gone_app : forall sp e g, gone e = false -> is_gone (sp ++ [e]) g = is_gone sp g.
Proof.
  intros sp e g G. unfold is_gone. destruct (Nat.lt_ge_cases g (length sp)) as [X|X].
  - now rewrite nth_error_app1.
  - rewrite nth_error_app2 by assumption. apply nth_error_None in X. rewrite X.
    destruct (g - length sp) as [|[|]]; simpl; auto.
Qed.
Lemma slot_push : forall sp cs v, W sp cs -> length sp < length cs * size ->
  exists cs', push_slot size cs = (cs', Some (loc (length sp))) /\ exists cs2, push_at size cs' (loc (length sp)) v = (Some (loc (length sp)), cs2) /\ R (sp ++ [mkElem v false 1]) cs2.
Proof.
  intros sp cs v H L. assert (B := w_len _ _ H). unfold push_slot. destruct (rev cs) as [|ch r] eqn:E.
  { exfalso. assert (cs = []) by (rewrite <- (rev_involutive cs), E; reflexivity). subst. simpl in L. lia. }
  apply rev_last in E. set (c := length cs - 1) in *.
  assert (LC : length cs = S c) by (destruct cs; [simpl in L; lia|simpl in *; lia]).
  rewrite LC in B, L. destruct (w_chunk _ _ H c ch E) as (N & F & D). rewrite LC, Nat.eqb_refl in N.
  set (i := length sp - c * size) in *. assert (LI : length sp = c * size + i) by (simpl in *; lia). assert (Hi : i < size) by (simpl in *; lia).
  rewrite N. replace (i <=? size) with true by (symmetry; apply Nat.leb_le; lia). replace (i <? size) with true by (symmetry; apply Nat.ltb_lt; lia).
  clearbody i. assert (LL0 : loc (length sp) = (c, i)) by (rewrite LI; now apply loc_eq).
  eexists. split; [rewrite LL0; reflexivity|].
  set (ch' := mkChunk (items ch) (S i) (freed ch) (deleted ch)). set (cs1 := set_nth cs c ch').
  assert (SM : forall g, slot cs1 g = slot cs g) by (intros; apply (slot_meta cs c ch); [assumption|reflexivity]).
  assert (L1 : length cs1 = length cs) by (apply set_nth_length; lia).
  destruct (proj1 (slot_some cs (length sp) (w_shape _ _ H))) as [it Hit]; [rewrite LC; simpl in *; lia|].
  assert (it = new_item) by (apply (item_new sp (length sp)); [lia|now apply (w_item _ _ H)]). subst it.
  assert (NE : slot cs1 (length sp) <> None) by (rewrite SM; congruence).
  unfold push_at. assert (G1 : get cs1 (loc (length sp)) = Some new_item) by (rewrite <- Hit; apply SM).
  rewrite G1. set (cs2 := put cs1 (loc (length sp)) (assign new_item v)).
  assert (R0 : R (sp ++ [mkElem v false 0]) cs2).
  { apply R_of_W; [|unfold cs2; rewrite put_length, L1, LC, app_length; simpl in *; lia]. split.
    - unfold cs2. rewrite put_length, L1, LC, app_length. simpl in *. lia.
    - apply put_shaped; [exact NE|]. apply (shaped_meta cs c ch); [assumption|reflexivity|apply H].
    - intros d dh Hd. unfold cs2 in Hd. destruct (put_chunk _ _ _ _ _ NE Hd) as (dh1 & Q1 & Q2 & Q3 & Q4 & _).
      unfold cs2. rewrite put_length, L1, Q2, Q3, Q4. unfold cs1 in Q1. rewrite nth_set_nth in Q1 by lia.
      assert (GI : gone_in (sp ++ [mkElem v false 0]) d = gone_in sp d) by (apply gone_in_ext; intros; now apply is_gone_app).
      rewrite GI, app_length. cbn [length]. destruct (Nat.eqb_spec d c) as [X|X].
      + injection Q1 as <-. subst d. rewrite LC, Nat.eqb_refl. simpl. repeat split; auto. lia.
      + destruct (w_chunk _ _ H d dh1 Q1) as (a & b & e). rewrite a. repeat split; auto.
        destruct (Nat.eqb_spec (S d) (length cs)); [lia|reflexivity].
    - intros g it Hg. unfold cs2 in Hg. rewrite slot_put in Hg by assumption. destruct (Nat.eqb_spec g (length sp)) as [X|X].
      + injection Hg as <-. subst g. unfold item_ok. rewrite nth_error_app2, Nat.sub_diag by lia. simpl. auto.
      + rewrite SM in Hg. apply (w_item _ _ H) in Hg. apply (item_ok_ext sp); [|intros; now apply is_gone_app|assumption].
        destruct (Nat.lt_ge_cases g (length sp)); [now rewrite nth_error_app1|]. rewrite nth_error_app2 by lia.
        replace (nth_error sp g) with (@None (elem A)) by (symmetry; apply nth_error_None; lia).
        destruct (g - length sp) as [|[|]] eqn:Y; [lia|reflexivity|reflexivity]. }
  assert (LA : length (sp ++ [mkElem v false 0]) = S (length sp)) by (rewrite app_length; simpl; lia).
  assert (EN : enough size cs1 = enough size cs2) by (unfold enough, cs2; rewrite put_length; reflexivity). rewrite EN.
  destruct (acquire_next_spec _ cs2 (enough size cs2) (length sp) R0) as [P1 P2]; [lia|assert (Q := enough_ok _ _ R0); lia|].
  assert (NW : newest (sp ++ [mkElem v false 0]) (S (length sp)) = Some (length sp)).
  { simpl. unfold is_live. rewrite nth_error_app2, Nat.sub_diag by lia. reflexivity. }
  rewrite NW in *. exists (snd (acquire_next size (enough size cs2) cs2 (Some (loc (length sp))))). split.
  - rewrite <- (surjective_pairing (acquire_next size (enough size cs2) cs2 (Some (loc (length sp))))) at 1 || idtac.
    change (option_map loc (Some (length sp))) with (Some (loc (length sp))) in P1. rewrite <- P1 at 2. apply surjective_pairing.
  - replace (sp ++ [mkElem v false 1]) with (hold (sp ++ [mkElem v false 0]) (Some (length sp))); [exact P2|].
    unfold hold. clear. induction sp as [|e sp IH]; [reflexivity|]. cbn [length app upd]. f_equal. exact IH.
Qed.
Lemma push_spec : forall sp cs v, R sp cs ->
  exists cs', push size 3 cs v = Some (Some (loc (length sp)), cs') /\ R (sp ++ [mkElem v false 1]) cs'.
Proof.
  intros sp cs v H. assert (B := len_bounds sp cs H). destruct cs as [|c0 cs0].
  - assert (sp = []) by (destruct sp; [reflexivity|simpl in B; lia]). subst. cbn [push].
    destruct (slot_push [] [new_chunk size] v new_chunk_W ltac:(simpl; lia)) as (cs1 & E1 & cs2 & E2 & H2).
    rewrite E1. exists cs2. split; [f_equal; exact E2|assumption].
  - set (cs := c0 :: cs0) in *. destruct (Nat.eq_dec (length sp) (length cs * size)) as [X|X].
    + destruct (overflow_W sp cs (W_of_R _ _ H) ltac:(easy) X) as (cs1 & E1 & W1 & N1 & L1).
      destruct (slot_push sp cs1 v W1 L1) as (cs2 & E2 & cs3 & E3 & H3). exists cs3. split; [|assumption].
      change (push size 3 cs v) with (match push_slot size cs with (cs, Some p) => Some (push_at size cs p v) | (cs, None) => push size 2 cs v end).
      rewrite E1. destruct cs1 as [|c1 cs1]; [easy|].
      change (push size 2 (c1 :: cs1) v) with (match push_slot size (c1 :: cs1) with (cs, Some p) => Some (push_at size cs p v) | (cs, None) => push size 1 cs v end).
      rewrite E2. f_equal. exact E3.
    + destruct (slot_push sp cs v (W_of_R _ _ H) ltac:(lia)) as (cs2 & E2 & cs3 & E3 & H3). exists cs3. split; [|assumption].
      change (push size 3 cs v) with (match push_slot size cs with (cs, Some p) => Some (push_at size cs p v) | (cs, None) => push size 2 cs v end).
      rewrite E2. f_equal. exact E3.
Qed.

(** ** remove *)
Lemma filter_one : forall (f g : nat -> bool) l x, NoDup l -> In x l -> f x = false -> g x = true -> (forall y, y <> x -> g y = f y) ->
  length (filter g l) = S (length (filter f l)).
Proof.
  intros f g l x. induction l as [|y l IH]; intros ND I F G O; [easy|]. inversion ND as [|? ? N1 N2]; subst. simpl.
  destruct (Nat.eq_dec y x) as [->|Y].
  - rewrite F, G. simpl. f_equal. f_equal. apply filter_ext_in. intros z Hz. apply O. now intros ->.
  - destruct I as [|I]; [congruence|]. rewrite (O y Y). destruct (f y); simpl; rewrite IH by auto; reflexivity.
Qed.
Lemma take_out_gone : forall sp g h, g < length sp -> is_gone (take_out sp g) h = (h =? g) || is_gone sp h.
Proof.
  intros sp g h L. unfold is_gone, take_out. rewrite upd_nth. destruct (Nat.eqb_spec h g); [|reflexivity].
  destruct (nth_error sp g) eqn:E; [reflexivity|]. apply nth_error_None in E. lia.
Qed.
Lemma remove_spec : forall sp cs g, R sp cs -> is_live sp g = true ->
  exists cs', remove size cs (loc g) = (cs', true) /\ R (take_out sp g) cs'.
Proof.
  intros sp cs g H V. assert (L := live_lt sp g V). destruct (slot_exists sp cs g H L) as [it E].
  assert (I := r_item _ _ H g it E). unfold item_ok in I. unfold is_live in V.
  destruct (nth_error sp g) as [e|] eqn:Ee; [|discriminate]. destruct (gone e) eqn:G; [discriminate|]. destruct I as (I1 & I2 & I3).
  assert (NE : slot cs g <> None) by congruence. destruct (loc_inv g) as [LG LS].
  unfold remove. unfold slot in E. rewrite E.
  set (o := match snd (loc g) with O => 1 | S i => match get cs (fst (loc g), i) with Some pr => u16 (off pr + 1) | None => 1 end end).
  assert (O : 1 <= o /\ o <= S (g mod size) /\ forall j, 1 <= j -> j < o -> is_gone sp (g - j) = true).
  { unfold o. destruct (snd (loc g)) as [|i] eqn:M; [repeat split; lia|].
    assert (GM : g mod size = S i) by exact M.
    assert (LP : loc (g - 1) = (fst (loc g), i)) by (rewrite <- (loc_eq (fst (loc g)) i) by lia; f_equal; lia).
    rewrite <- LP. destruct (slot_exists sp cs (g - 1) H ltac:(lia)) as [pr Ep]. assert (IP := r_item _ _ H (g - 1) pr Ep).
    unfold slot in Ep. rewrite Ep. unfold item_ok in IP. destruct (nth_error sp (g - 1)) as [e1|] eqn:E1; [|apply nth_error_None in E1; lia].
    assert (MM : (g - 1) mod size = i) by (change ((g - 1) mod size) with (snd (loc (g - 1))); now rewrite LP).
    destruct (gone e1) eqn:G1.
    - destruct IP as (p1 & p2 & p3 & _). rewrite MM in p2. rewrite u16_small by lia. split; [lia|]. split; [lia|].
      intros j J1 J2. destruct (Nat.eq_dec j 1); [subst; unfold is_gone; now rewrite E1|].
      replace (g - j) with (g - 1 - (j - 1)) by lia. apply p3; lia.
    - destruct IP as (p1 & _). rewrite p1, u16_small by (simpl; lia). simpl. repeat split; try lia. }
  clearbody o. destruct O as (O1 & O2 & O3).
  set (cs1 := put cs (loc g) (mkItem o (rc it) (sto it))).
  assert (GP : get cs1 (loc g) = Some (mkItem o (rc it) (sto it))).
  { unfold cs1. rewrite get_put by exact NE. now rewrite !Nat.eqb_refl. }
  assert (NE1 : get cs1 (loc g) <> None) by (rewrite GP; discriminate).
  set (fin := mkItem o (Z.of_nat (holders e) - 1) (if holders e =? 0 then Gone (value e) else Val (value e))).
  assert (RA : release_at cs1 (loc g) = (put cs1 (loc g) fin, true)).
  { unfold release_at. rewrite GP. unfold release. cbn [off rc sto]. rewrite I2, I3. unfold fin.
    destruct (Z.eqb_spec (Z.of_nat (holders e)) 0).
    - replace (holders e =? 0) with true by (symmetry; apply Nat.eqb_eq; lia). reflexivity.
    - replace (holders e =? 0) with false by (symmetry; apply Nat.eqb_neq; lia). f_equal. apply Z.ltb_lt. lia. }
  rewrite RA. set (cs2 := put cs1 (loc g) fin).
  assert (LC : length cs2 = length cs) by (unfold cs2, cs1; rewrite !put_length; reflexivity).
  assert (CL : fst (loc g) < length cs).
  { assert (B := len_bounds sp cs H). apply Nat.div_lt_upper_bound; lia. }
  destruct (nth_error cs2 (fst (loc g))) as [ch|] eqn:EC; [|apply nth_error_None in EC; lia].
  assert (CH : forall d dh, nth_error cs2 d = Some dh -> exists dh0, nth_error cs d = Some dh0 /\ next dh = next dh0 /\ freed dh = freed dh0 /\ deleted dh = deleted dh0 /\ length (items dh) = length (items dh0)).
  { intros d dh Hd. destruct (put_chunk _ _ _ _ _ NE1 Hd) as (d1 & Q1 & Q2 & Q3 & Q4 & Q5 & _).
    destruct (put_chunk _ _ _ _ _ NE Q1) as (d2 & S1 & S2 & S3 & S4 & S5 & _). exists d2. repeat split; congruence. }
  assert (SL : forall h, slot cs2 h = if h =? g then Some fin else slot cs h).
  { intros h. unfold cs2. rewrite slot_put by exact NE1. destruct (Nat.eqb_spec h g); [reflexivity|].
    unfold cs1. rewrite slot_put by exact NE. now destruct (Nat.eqb_spec h g). }
  set (ch' := mkChunk (items ch) (next ch) (S (freed ch)) (deleted ch || (freed ch =? size - 1))).
  eexists. split; [reflexivity|]. fold ch'.
  assert (LL : length (take_out sp g) = length sp) by (apply upd_length).
  assert (IG : is_gone sp g = false) by (unfold is_gone; now rewrite Ee).
  split.
  - rewrite set_nth_length by lia. rewrite LL, LC. apply H.
  - apply (shaped_meta cs2 _ ch); [assumption|reflexivity|]. intros d dh Hd. destruct (CH d dh Hd) as (d0 & S1 & _ & _ & _ & S5).
    rewrite S5. apply (r_shape _ _ H d d0 S1).
  - intros d dh Hd. rewrite set_nth_length by lia. rewrite LL, LC. rewrite nth_set_nth in Hd by lia.
    destruct (Nat.eqb_spec d (fst (loc g))) as [X|X].
    + injection Hd as <-. subst d. destruct (CH _ _ EC) as (c0 & S1 & S2 & S3 & S4 & _).
      destruct (r_chunk _ _ H _ c0 S1) as (a & b & f). unfold ch'. cbn [next freed deleted]. rewrite S2, S3, S4.
      split; [assumption|].
      assert (GI : gone_in (take_out sp g) (fst (loc g)) = S (gone_in sp (fst (loc g)))).
      { unfold gone_in. apply (filter_one _ _ _ g); [apply seq_NoDup|apply in_seq; lia|assumption| |].
        - rewrite take_out_gone by assumption. now rewrite Nat.eqb_refl.
        - intros y Y. rewrite take_out_gone by assumption. now destruct (Nat.eqb_spec y g). }
      assert (LT : freed c0 < size).
      { assert (LE : gone_in (take_out sp g) (fst (loc g)) <= size).
        { unfold gone_in. assert (Q := filter_length_le _ (is_gone (take_out sp g)) (seq (fst (loc g) * size) size)). rewrite seq_length in Q. exact Q. }
        lia. }
      split; [lia|]. rewrite f. destruct (Nat.eqb_spec (freed c0) size); [lia|].
      destruct (Nat.eqb_spec (freed c0) (size - 1)); destruct (Nat.eqb_spec (S (freed c0)) size); simpl; try lia; reflexivity.
    + destruct (CH _ _ Hd) as (c0 & S1 & S2 & S3 & S4 & _). destruct (r_chunk _ _ H _ c0 S1) as (a & b & f). rewrite S2, S3, S4.
      split; [assumption|]. split; [|assumption]. rewrite b. unfold gone_in. f_equal. apply filter_ext_in. intros y Hy. apply in_seq in Hy.
      rewrite take_out_gone by assumption. destruct (Nat.eqb_spec y g) as [Y|Y]; [|reflexivity]. exfalso. subst y. apply X.
      change (fst (loc g)) with (g / size). apply (Nat.div_unique g size d (g - size * d)); lia.
  - intros h it' Hh. rewrite (slot_meta cs2 _ ch) in Hh by (assumption || reflexivity). rewrite SL in Hh.
    destruct (Nat.eqb_spec h g) as [X|X].
    + injection Hh as <-. subst h. unfold item_ok, take_out. rewrite upd_nth, Nat.eqb_refl, Ee. cbn [option_map gone holders value].
      unfold fin. cbn [off rc sto]. split; [assumption|split; [assumption|split; [|auto]]].
      intros j J1 J2. fold (take_out sp g). rewrite take_out_gone by assumption. rewrite (O3 j J1 J2). apply orb_true_r.
    + assert (Ih := r_item _ _ H h it' Hh). unfold item_ok in *. unfold take_out at 1. rewrite upd_nth.
      destruct (Nat.eqb_spec h g); [easy|]. destruct (nth_error sp h) as [eh|]; [|assumption]. destruct (gone eh); [|assumption].
      destruct Ih as (a & b & d & f). split; [assumption|split; [assumption|split; [|assumption]]].
      intros j J1 J2. rewrite take_out_gone by assumption. rewrite (d j J1 J2). apply orb_true_r.
Qed.

(** ** whole iterations *)
Lemma list_ext : forall B (l m : list B), (forall i, nth_error l i = nth_error m i) -> l = m.
Proof.
  induction l as [|x l IH]; intros [|y m] H; auto; try (specialize (H 0); discriminate).
  f_equal; [specialize (H 0); now injection H|]. apply IH. intros i. exact (H (S i)).
Qed.
Lemma drop_hold : forall (sp : spec) g, drop (hold sp (Some g)) g = sp.
Proof.
  intros. apply list_ext. intros i. unfold drop, hold. rewrite !upd_nth. destruct (Nat.eqb_spec i g); [|reflexivity]. subst.
  rewrite Nat.eqb_refl. destruct (nth_error sp g) as [[v b h]|]; reflexivity.
Qed.
(** values of the live elements before position [n], newest first *)
Fixpoint below (sp : spec) (n : nat) : list A :=
  match n with
  | O => []
  | S m => match nth_error sp m with Some e => if gone e then below sp m else value e :: below sp m | None => below sp m end
  end.
Lemma below_newest : forall (sp : spec) n, below sp n = match newest sp n with
  | None => [] | Some g => match nth_error sp g with Some e => value e :: below sp g | None => [] end end.
Proof.
  induction n as [|n IH]; [reflexivity|]. cbn [below newest]. unfold is_live. destruct (nth_error sp n) as [e|] eqn:E; [|exact IH].
  destruct (gone e); simpl; [exact IH|]. now rewrite E.
Qed.
Lemma below_upd : forall (sp : spec) g f n, (forall e, value (f e) = value e /\ gone (f e) = gone e) -> below (upd sp g f) n = below sp n.
Proof.
  intros sp g f n K. induction n as [|n IH]; [reflexivity|]. cbn [below]. rewrite upd_nth, IH. destruct (Nat.eqb_spec n g); [|reflexivity]. subst.
  destruct (nth_error sp g) as [e|]; [|reflexivity]. simpl. destruct (K e) as [-> ->]. reflexivity.
Qed.
Lemma live_values_below : forall sp : spec, live_values sp = below sp (length sp).
Proof.
  intros sp. induction sp as [|e sp IH] using rev_ind; [reflexivity|]. unfold live_values in *. rewrite rev_app_distr, app_length, Nat.add_1_r.
  cbn [rev app filter below length]. rewrite nth_error_app2, Nat.sub_diag by lia. cbn [nth_error].
  assert (K : below (sp ++ [e]) (length sp) = below sp (length sp)).
  { assert (J : forall n, n <= length sp -> below (sp ++ [e]) n = below sp n).
    { induction n as [|n IHn]; intros Hn; [reflexivity|]. cbn [below]. rewrite nth_error_app1 by lia. rewrite IHn by lia. reflexivity. }
    apply J. lia. }
  rewrite K, <- IH. destruct (gone e); reflexivity.
Qed.
Lemma held_val : forall sp cs g e, R sp cs -> nth_error sp g = Some e -> 0 < holders e ->
  exists it, get cs (loc g) = Some it /\ sto it = Val (value e).
Proof.
  intros sp cs g e H E Hh. destruct (slot_exists sp cs g H) as [it Ei]; [apply nth_error_Some; congruence|].
  exists it. split; [exact Ei|]. assert (I := r_item _ _ H g it Ei). unfold item_ok in I. rewrite E in I. destruct (gone e); [|apply I].
  destruct I as (_ & _ & _ & _ & I). destruct (Nat.eqb_spec (holders e) 0); [lia|assumption].
Qed.
Lemma iterate_spec : forall fuel sp cs g e, R sp cs -> nth_error sp g = Some e -> 0 < holders e -> g < fuel ->
  exists cs', iterate size fuel cs (Some (loc g)) = (value e :: below sp g, cs', true) /\ R (drop sp g) cs'.
Proof.
  induction fuel as [|fuel IH]; intros sp cs g e H E Hh F; [lia|].
  destruct (held_val sp cs g e H E Hh) as ([o r st] & G & S). cbn [sto] in S. subst st.
  destruct (next_spec sp cs g e H E Hh) as (cs1 & N1 & R1). cbn [iterate]. rewrite G, N1.
  rewrite (below_newest sp g). destruct (newest sp g) as [g'|] eqn:NW.
  - destruct (newest_spec sp g g' NW) as [L' V']. cbn [option_map].
    destruct (nth_error sp g') as [e'|] eqn:E'; [|unfold is_live in V'; now rewrite E' in V'].
    destruct (IH (hold (drop sp g) (Some g')) cs1 g' (mkElem (value e') (gone e') (S (holders e'))) R1) as (cs2 & I2 & R2).
    + unfold hold, drop. rewrite !upd_nth, Nat.eqb_refl. destruct (Nat.eqb_spec g' g); [lia|]. now rewrite E'.
    + simpl. lia.
    + lia.
    + rewrite I2. exists cs2. split.
      * cbn [value]. f_equal. f_equal. f_equal. f_equal. unfold hold, drop. rewrite !below_upd by (intros; split; reflexivity). reflexivity.
      * rewrite drop_hold in R2. exact R2.
  - destruct fuel; simpl; eauto.
Qed.
Lemma contents_spec : forall sp cs, R sp cs -> exists cs', contents size cs = (live_values sp, cs', true) /\ R sp cs'.
Proof.
  intros sp cs H. destruct (rbegin_spec sp cs H) as (cs1 & E1 & R1). unfold contents. rewrite E1, live_values_below, below_newest.
  destruct (newest sp (length sp)) as [g|] eqn:NW.
  - destruct (newest_spec sp _ g NW) as [L V]. destruct (nth_error sp g) as [e|] eqn:E; [|unfold is_live in V; now rewrite E in V].
    destruct (iterate_spec (enough size cs1) _ cs1 g (mkElem (value e) (gone e) (S (holders e))) R1) as (cs2 & I2 & R2).
    + unfold hold. rewrite upd_nth, Nat.eqb_refl, E. reflexivity.
    + simpl. lia.
    + assert (Q := enough_ok _ _ R1). unfold hold in Q. rewrite upd_length in Q. lia.
    + cbn [option_map]. rewrite I2. exists cs2. split; [|rewrite drop_hold in R2; exact R2].
      cbn [value]. unfold hold. rewrite below_upd by (intros; split; reflexivity). reflexivity.
  - simpl. unfold enough. simpl. eauto.
Qed.

(** ** erase *)
Fixpoint erase_below (v : A) (sp : spec) (n : nat) : spec :=
  match n with
  | O => sp
  | S m => erase_below v (match nth_error sp m with Some e => if negb (gone e) && eqb (value e) v then take_out sp m else sp | None => sp end) m
  end.
Lemma erase_below_newest : forall v n sp, erase_below v sp n = match newest sp n with Some g => erase_below v sp (S g) | None => sp end.
Proof.
  induction n as [|n IH]; intros sp; [reflexivity|]. cbn [newest]. destruct (is_live sp n) eqn:V; [reflexivity|]. cbn [erase_below].
  unfold is_live in V. destruct (nth_error sp n) as [e|] eqn:E; [|apply IH]. destruct (gone e); [|discriminate]. simpl. apply IH.
Qed.
Lemma newest_below_ext : forall (sp sp' : spec) n, (forall i, i < n -> nth_error sp' i = nth_error sp i) -> newest sp' n = newest sp n.
Proof.
  induction n as [|n IH]; intros H; [reflexivity|]. cbn [newest]. unfold is_live. rewrite (H n) by lia. rewrite IH by (intros; apply H; lia). reflexivity.
Qed.
Lemma erase_loop_spec : forall fuel v sp cs g e, R sp cs -> nth_error sp g = Some e -> gone e = false -> 0 < holders e -> g < fuel ->
  exists cs', erase_loop eqb size fuel cs (Some (loc g)) v = (cs', true) /\ R (erase_below v (drop sp g) (S g)) cs'.
Proof.
  induction fuel as [|fuel IH]; intros v sp cs g e H E G Hh F; [lia|].
  destruct (held_val sp cs g e H E Hh) as ([o r st] & Gt & S0). cbn [sto] in S0. subst st. cbn [erase_loop]. rewrite Gt.
  assert (STEP : exists cs1 sp1, (if eqb (value e) v then remove size cs (loc g) else (cs, true)) = (cs1, true) /\ R sp1 cs1 /\
    (exists e1, nth_error sp1 g = Some e1 /\ 0 < holders e1) /\ (forall i, i < g -> nth_error sp1 i = nth_error sp i) /\ length sp1 = length sp /\
    drop sp1 g = (if eqb (value e) v then take_out (drop sp g) g else drop sp g)).
  { destruct (eqb (value e) v) eqn:Q.
    - destruct (remove_spec sp cs g H) as (cs1 & E1 & R1); [unfold is_live; rewrite E, G; reflexivity|].
      exists cs1, (take_out sp g). split; [assumption|]. split; [assumption|]. unfold take_out, drop. split; [|split; [|split]].
      + rewrite upd_nth, Nat.eqb_refl, E. simpl. eexists. split; [reflexivity|]. assumption.
      + intros i Hi. rewrite upd_nth. destruct (Nat.eqb_spec i g); [lia|reflexivity].
      + apply upd_length.
      + apply list_ext. intros i. rewrite !upd_nth, !Nat.eqb_refl. destruct (i =? g); [|reflexivity]. now destruct (nth_error sp g).
    - exists cs, sp. split; [reflexivity|]. split; [assumption|]. split; [eauto|]. split; [auto|]. split; [reflexivity|]. reflexivity. }
  destruct STEP as (cs1 & sp1 & -> & R1 & (e1 & Ee1 & He1) & X1 & LN & D1).
  assert (EB : erase_below v (drop sp g) (S g) = erase_below v (drop sp1 g) g).
  { cbn [erase_below]. unfold drop at 1. rewrite upd_nth, Nat.eqb_refl, E. cbn [option_map gone value]. rewrite G. cbn [negb andb].
    f_equal. symmetry. exact D1. }
  destruct (next_spec sp1 cs1 g e1 R1 Ee1 He1) as (cs2 & N2 & R2). rewrite N2.
  assert (NWD : newest (drop sp1 g) g = newest sp1 g) by (apply newest_upd, keeps_drop).
  rewrite EB, erase_below_newest, NWD. destruct (newest sp1 g) as [g'|] eqn:NW.
  - destruct (newest_spec sp1 g g' NW) as [L' V']. cbn [option_map]. unfold is_live in V'.
    destruct (nth_error sp1 g') as [e'|] eqn:E'; [|discriminate].
    destruct (IH v (hold (drop sp1 g) (Some g')) cs2 g' (mkElem (value e') (gone e') (S (holders e'))) R2) as (cs3 & I3 & R3).
    + unfold hold, drop. rewrite !upd_nth, Nat.eqb_refl. destruct (Nat.eqb_spec g' g); [lia|]. now rewrite E'.
    + simpl. now destruct (gone e').
    + simpl. lia.
    + lia.
    + rewrite I3. exists cs3. split; [reflexivity|]. rewrite drop_hold in R3. exact R3.
  - exists cs2. split; [|exact R2]. destruct fuel; reflexivity.
Qed.
Lemma erase_below_map : forall v n sp, n <= length sp ->
  forall i, nth_error (erase_below v sp n) i = if i <? n then option_map (mark eqb v) (nth_error sp i) else nth_error sp i.
Proof.
  induction n as [|n IH]; intros sp L i; [reflexivity|]. cbn [erase_below].
  destruct (nth_error sp n) as [e|] eqn:E; [|apply nth_error_None in E; lia].
  set (sp1 := if negb (gone e) && eqb (value e) v then take_out sp n else sp).
  assert (L1 : length sp1 = length sp) by (unfold sp1; destruct (negb (gone e) && eqb (value e) v); [apply upd_length|reflexivity]).
  rewrite IH by lia.
  assert (N1 : forall j, nth_error sp1 j = if j =? n then Some (mark eqb v e) else nth_error sp j).
  { intros j. unfold sp1, mark. destruct (eqb (value e) v) eqn:Q; [destruct (gone e) eqn:G|]; simpl.
    - destruct (Nat.eqb_spec j n); [|reflexivity]. subst. rewrite E. destruct e; simpl in *; congruence.
    - unfold take_out. rewrite upd_nth, E. reflexivity.
    - destruct (gone e); simpl; destruct (Nat.eqb_spec j n); auto; subst; assumption. }
  rewrite N1. destruct (Nat.ltb_spec i n), (Nat.ltb_spec i (S n)), (Nat.eqb_spec i n); try lia; try reflexivity. subst. now rewrite E.
Qed.
Lemma erase_below_all : forall v sp, erase_below v sp (length sp) = map (mark eqb v) sp.
Proof.
  intros v sp. apply list_ext. intros i. rewrite erase_below_map by lia. rewrite nth_error_map. destruct (Nat.ltb_spec i (length sp)); [reflexivity|].
  apply nth_error_None in H. now rewrite H.
Qed.
Lemma erase_spec : forall v sp cs, R sp cs -> exists cs', erase eqb size cs v = (cs', true) /\ R (map (mark eqb v) sp) cs'.
Proof.
  intros v sp cs H. destruct (rbegin_spec sp cs H) as (cs1 & E1 & R1). unfold erase. rewrite E1, <- erase_below_all, erase_below_newest.
  destruct (newest sp (length sp)) as [g|] eqn:NW.
  - destruct (newest_spec sp _ g NW) as [L V]. unfold is_live in V. destruct (nth_error sp g) as [e|] eqn:E; [|discriminate].
    destruct (erase_loop_spec (enough size cs1) v _ cs1 g (mkElem (value e) (gone e) (S (holders e))) R1) as (cs2 & I2 & R2).
    + unfold hold. rewrite upd_nth, Nat.eqb_refl, E. reflexivity.
    + simpl. now destruct (gone e).
    + simpl. lia.
    + assert (Q := enough_ok _ _ R1). unfold hold in Q. rewrite upd_length in Q. lia.
    + cbn [option_map]. rewrite I2. exists cs2. split; [reflexivity|]. rewrite drop_hold in R2. exact R2.
  - simpl. unfold enough. simpl. eauto.
Qed.

(** ** Histories *)
Definition glob (p : pos) : nat := fst p * size + snd p.
Definition model_step (cs : clist) (o : lop A) : clist * lout A :=
  match o with
  | LPush v => match push size 3 cs v with Some (p, cs) => (cs, OHandle (option_map glob p)) | None => (cs, OBad) end
  | LBegin => let '(p, cs) := rbegin size cs in (cs, OHandle (option_map glob p))
  | LNext g => let '(p, cs, ok) := next_it size cs (loc g) in (cs, if ok then OHandle (option_map glob p) else OBad)
  | LCopy g => let '(p, cs) := copy_it size cs (loc g) in (cs, OHandle (option_map glob p))
  | LDrop g => let '(cs, ok) := release_at cs (loc g) in (cs, if ok then ODone else OBad)
  | LRemove g => let '(cs, ok) := remove size cs (loc g) in (cs, if ok then ODone else OBad)
  | LErase v => let '(cs, ok) := erase eqb size cs v in (cs, if ok then ODone else OBad)
  | LIter => let '(l, cs, ok) := contents size cs in (cs, if ok then OValues l else OBad)
  end.
Fixpoint model_run (cs : clist) (os : list (lop A)) : clist * list (lout A) :=
  match os with [] => (cs, []) | o :: os => let '(cs, x) := model_step cs o in let '(cs, xs) := model_run cs os in (cs, x :: xs) end.
Lemma glob_loc : forall g, glob (loc g) = g.
Proof. intros. unfold glob. symmetry. apply loc_inv. Qed.
Lemma glob_opt : forall g, option_map glob (option_map loc g) = g.
Proof. intros [g|]; [|reflexivity]. simpl. now rewrite glob_loc. Qed.
Lemma step_refines : forall sp cs o, R sp cs -> lvalid sp o ->
  snd (model_step cs o) = snd (spec_step eqb sp o) /\ R (fst (spec_step eqb sp o)) (fst (model_step cs o)).
Proof.
  intros sp cs o H V. destruct o; cbn [lvalid model_step spec_step] in *.
  - destruct (push_spec sp cs v H) as (cs' & -> & H'). cbn [fst snd option_map]. rewrite glob_loc. auto.
  - destruct (rbegin_spec sp cs H) as (cs' & -> & H'). cbn [fst snd]. rewrite glob_opt. auto.
  - destruct V as (e & E & Hh). destruct (next_spec sp cs g e H E Hh) as (cs' & -> & H'). cbn [fst snd]. rewrite glob_opt. auto.
  - destruct V as (e & E & Hh). destruct (copy_spec sp cs g H) as (cs' & -> & H'); [apply nth_error_Some; congruence|]. cbn [fst snd]. rewrite glob_opt. auto.
  - destruct V as (e & E & Hh). destruct (release_spec sp cs g e H E Hh) as (cs' & -> & H'). auto.
  - destruct (remove_spec sp cs g H V) as (cs' & -> & H'). auto.
  - destruct (erase_spec v sp cs H) as (cs' & -> & H'). auto.
  - destruct (contents_spec sp cs H) as (cs' & -> & H'). auto.
Qed.
Lemma run_refines : forall os sp cs, R sp cs -> lvalid_all eqb sp os ->
  snd (model_run cs os) = snd (spec_run eqb sp os) /\ R (fst (spec_run eqb sp os)) (fst (model_run cs os)).
Proof.
  induction os as [|o os IH]; intros sp cs H V; [now split|]. destruct V as [V1 V2]. destruct (step_refines sp cs o H V1) as [S1 S2].
  cbn [model_run spec_run]. destruct (model_step cs o) as [cs1 x], (spec_step eqb sp o) as [sp1 y]. cbn [fst snd] in *. subst y.
  destruct (IH sp1 cs1 S2 V2) as [I1 I2]. destruct (model_run cs1 os), (spec_run eqb sp1 os). cbn [fst snd] in *. subst. auto.
Qed.
End Refine.
