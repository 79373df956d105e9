(** Property C76: the textual form of accesses and tasks. *)
From Coq Require Import Bool List Ascii String Arith NArith Lia.
From Verif Require Import AccessModel UserModel FormatSpec FormatModel FormatProof.
Import ListNotations.
Open Scope list_scope.

Lemma some_inj : forall A (x y : A), Some x = Some y -> x = y.
Proof. intros A x y H. now inversion H. Qed.

(** ** Accesses *)
(** The text of a policy of any type, of an access and of the access list of a task is JSON
    and stands for exactly the modes, bounds, resources and levels printed. *)
Theorem C76_policy_is_json : forall t (v : val t), parse (fmt_val t v) = Some (json_val t v).
Proof. intros t v. apply parse_value, val_value. Qed.
Theorem C76_access_is_json : forall a, parse (fmt_access a) = Some (json_access a).
Proof. intros a. apply parse_value, access_value. Qed.
Theorem C76_access_list_is_json : forall u, parse (fmt_user u) = Some (json_user u).
Proof. intros u. apply parse_value, user_value. Qed.

(** Accesses of one policy type with the same text are the same. *)
Theorem C76_text_determines_the_access : forall r r' t (v v' : val t),
  fmt_access (mkAcc r t v) = fmt_access (mkAcc r' t v') -> r = r' /\ v = v'.
Proof.
  intros r r' t v v' H. apply json_access_inj. assert (E := C76_access_is_json (mkAcc r t v)). rewrite H, C76_access_is_json in E. apply some_inj in E. now symmetry.
Qed.
Theorem C76_text_determines_the_list : forall u w, map a_ty (u_acc u) = map a_ty (u_acc w) -> fmt_user u = fmt_user w -> u_acc u = u_acc w.
Proof.
  intros u w T H. assert (E := C76_access_list_is_json u). rewrite H, C76_access_list_is_json in E. apply some_inj in E. unfold json_user in E. assert (E' : map json_access (u_acc u) = map json_access (u_acc w)) by congruence. clear H E.
  revert E' T. generalize (u_acc u) (u_acc w). induction l as [|a l IH]; intros [|b m] E T; try discriminate; [reflexivity|]. cbn [map] in E, T.
  assert (E1 : json_access a = json_access b) by congruence. assert (E2 : map json_access l = map json_access m) by congruence.
  injection T as T1 T2. rewrite (IH m E2 T2). f_equal. destruct a as [r t v], b as [r' t' v']. cbn [a_ty] in T1. subst t'.
  apply json_access_inj in E1. destruct E1 as [-> ->]. reflexivity.
Qed.

Definition field_access : raccess := mkAcc (mkRes 12 1) (field_ty 2) (MWrite, ((0, 64)%N, ((7, 18446744073709551615)%N, tt))).
Definition io_access : raccess := mkAcc (mkRes 0 0) TIO MAadd.
Example C76_ex :
  fmt_user (declare 0 [io_access; field_access] []) = txt ("[{ ""resourceID"" : 12, ""scopeLevel"" : 1, ""mode"" : { ""and"" : [ { ""IOAccess"" : ""write"" }, " ++
    "{ ""and"" : [{ ""area"" : { ""begin"" : 0, ""end"" : 64 } }, { ""area"" : { ""begin"" : 7, ""end"" : 18446744073709551615 } }] } ] } }," ++
    "{ ""resourceID"" : 0, ""scopeLevel"" : 0, ""mode"" : { ""IOAccess"" : ""atomicAdd"" } }]") /\
  parse (fmt_user (declare 0 [io_access; field_access] [])) = Some (JArr [json_access field_access; json_access io_access]) /\
  parse (fmt_user (declare 0 [] [])) = Some (JArr []).
Proof. vm_compute. auto. Qed.
(** texts that are not JSON are not accepted *)
Example C76_ex_parse : parse (txt "{ ""a"" : 1, }") = None /\ parse (txt "[1 2]") = None /\ parse (txt "[01]") = None /\ parse (txt "{ ""a"" 1 }") = None /\
  parse (txt "[1, 2") = None /\ parse (txt "[1]]") = None /\ parse (txt "10") = Some (JNum 10) /\ parse (txt "[[], [{}]]") = Some (JArr [JArr []; JArr [JObj []]]).
Proof. vm_compute. auto 10. Qed.

(** The value does not tell the types of policies apart: an array of two and a pair. *)
Theorem C76_json_determines_the_type_refuted : exists a b, a_ty a <> a_ty b /\ json_access a = json_access b /\ fmt_access a <> fmt_access b /\
  ra_is_serial a a = true /\ ra_is_serial a b = false.
Proof.
  exists (mkAcc (mkRes 1 0) (TArr TIO 2 CAnd) (MWrite, (MWrite, tt))), (mkAcc (mkRes 1 0) (TComb TIO TIO CAnd) (MWrite, MWrite)).
  split; [discriminate|]. split; [reflexivity|]. split; [vm_compute; discriminate|]. vm_compute. auto.
Qed.

(** ** Tasks *)
(** characters that stand for themselves in a string *)
Definition plain (c : ascii) : Prop := c <> """"%char /\ c <> "\"%char /\ (32 <= N_of_ascii c)%N.
Lemma reads_plain : forall l acc m, Forall plain l -> reads l (LStr acc, m) = Some (LStr (rev l ++ acc), m).
Proof.
  induction l as [|c l IH]; intros acc m F; [reflexivity|]. inversion F as [|? ? (P1 & P2 & P3) F2]; subst. cbn [reads read1].
  destruct (Ascii.eqb_spec c """"%char); [contradiction|]. destruct (Ascii.eqb_spec c "\"%char); [contradiction|].
  destruct (N.ltb_spec (N_of_ascii c) 32); [lia|]. rewrite IH by assumption. cbn [rev]. now rewrite <- app_assoc.
Qed.

(** Properties that all print something, composed: JSON, if the label needs no escapes. *)
Theorem C76_printing_properties_are_json : forall id u l, Forall plain l ->
  parse (fmt_properties [fmt_id id; fmt_resources u; fmt_label l]) = Some (JObj [(txt "id", JNum id); (txt "resources", json_user u); (txt "label", JStr l)]).
Proof.
  intros id u l F. unfold parse, fmt_properties, fmt_inherit, fmt_id, fmt_resources, fmt_label. rewrite <- !app_assoc.
  erewrite reads_then by reflexivity. erewrite reads_then by reflexivity. erewrite reads_then by apply reads_dec. erewrite reads_then by reflexivity.
  erewrite reads_then by reflexivity. erewrite reads_then by apply user_value. erewrite reads_then by reflexivity. erewrite reads_then by reflexivity.
  erewrite reads_then by (apply reads_plain; exact F).
  transitivity (Some (JObj [(txt "id", JNum id); (txt "resources", json_user u); (txt "label", JStr (rev (rev l ++ [])))])); [reflexivity|].
  now rewrite app_nil_r, rev_involutive.
Qed.
Example C76_ex_label : Forall plain (txt "Task 7, second half") /\
  parse (fmt_properties [fmt_id 4; fmt_resources (declare 0 [io_access] []); fmt_label (txt "Task 7, second half")]) =
  Some (JObj [(txt "id", JNum 4); (txt "resources", JArr [json_access io_access]); (txt "label", JStr (txt "Task 7, second half"))]).
Proof. split; [repeat constructor; discriminate|vm_compute; reflexivity]. Qed.

(** The properties of a task are never JSON, whatever its accesses and further properties:
    the queue and the graph property print nothing, the commas around them stay. *)
Theorem C76_task_is_json_refuted : forall id u more, parse (fmt_task id u more) = None.
Proof.
  intros id u more. unfold parse, fmt_task, fmt_properties, fmt_id, fmt_resources, fmt_queue, fmt_graph.
  change (fmt_inherit ([lit """id"" : " ++ dec id; lit """resources"" : " ++ fmt_user u; []; []] ++ more)) with
    ((lit """id"" : " ++ dec id) ++ lit ", " ++ (lit """resources"" : " ++ fmt_user u) ++ lit ", " ++ lit ", " ++ fmt_inherit ([] :: more)).
  rewrite <- !app_assoc. erewrite reads_then by reflexivity. erewrite reads_then by reflexivity. erewrite reads_then by apply reads_dec. erewrite reads_then by reflexivity.
  erewrite reads_then by reflexivity. erewrite reads_then by apply user_value. erewrite reads_then by reflexivity. reflexivity.
Qed.
Example C76_ex_task : fmt_task 4 (declare 0 [io_access] []) [fmt_label (txt "x")] =
  txt "{ ""id"" : 4, ""resources"" : [{ ""resourceID"" : 0, ""scopeLevel"" : 0, ""mode"" : { ""IOAccess"" : ""atomicAdd"" } }], , , ""label"" : ""x"" }".
Proof. vm_compute. reflexivity. Qed.
(** A label with a quote is printed as it is, and may look like another property. *)
Theorem C76_any_label_refuted : exists l, parse (fmt_properties [fmt_id 4; fmt_label l]) = Some (JObj [(txt "id", JNum 4); (txt "label", JStr (txt "x")); (txt "id", JStr (txt "7"))]).
Proof. exists (txt "x"", ""id"" : ""7"). vm_compute. reflexivity. Qed.

Definition all_format := (@C76_policy_is_json, @C76_access_is_json, @C76_access_list_is_json, @C76_text_determines_the_access, @C76_text_determines_the_list, @C76_ex, @C76_ex_parse,
  @C76_json_determines_the_type_refuted, @C76_printing_properties_are_json, @C76_ex_label, @C76_task_is_json_refuted, @C76_ex_task, @C76_any_label_refuted).
Print Assumptions all_format.
