(** The textual form of accesses, access lists and task properties: the formatters for
    fmt, used in log messages (task/task_builder.hpp:128) and in the message of the
    exception of assert_superset (task/property/resource.hpp:144-152).  Definitions only. *)
From Coq Require Import Bool List Ascii String Arith NArith Decimal.
From Verif Require Import AccessModel UserModel.
Import ListNotations.
Open Scope nat_scope.

(** characters of a literal; fmt writes {{ for one brace (io.hpp:98) *)
Definition lit (s : string) : list ascii := list_ascii_of_string s.
(** fmt, "{}" of an unsigned number: decimal, without leading zeros (as in area.hpp:75) *)
Fixpoint digits (d : uint) : list ascii :=
  match d with
  | Nil => []
  | D0 d => "0" :: digits d | D1 d => "1" :: digits d | D2 d => "2" :: digits d | D3 d => "3" :: digits d | D4 d => "4" :: digits d
  | D5 d => "5" :: digits d | D6 d => "6" :: digits d | D7 d => "7" :: digits d | D8 d => "8" :: digits d | D9 d => "9" :: digits d
  end%char.
Definition dec (n : N) : list ascii := digits (N.to_uint n).

(** resource/access/io.hpp:78-99 *)
Definition mode_str (m : iomode) : string :=
  match m with MRead => "read" | MWrite => "write" | MAadd => "atomicAdd" | MAmul => "atomicMul" end.
Definition fmt_io (m : iomode) : list ascii := lit "{ ""IOAccess"" : """ ++ lit (mode_str m) ++ lit """ }".
(** resource/access/area.hpp:73-76 *)
Definition fmt_area (a : N * N) : list ascii := lit "{ ""area"" : { ""begin"" : " ++ dec (fst a) ++ lit ", ""end"" : " ++ dec (snd a) ++ lit " } }".
(** the loop of resource/access/combine.hpp:154-159 and 180-185; the separator is ", " *)
Fixpoint fmt_arr {A} (f : A -> list ascii) (n : nat) : arr A n -> list ascii :=
  match n with
  | O => fun _ => []
  | S m => fun x => f (fst x) ++ (match m with O => [] | S _ => lit ", " end) ++ fmt_arr f m (snd x)
  end.
(** resource/access/combine.hpp:152, 178, 203, 218: the name of the tag *)
Definition op_str (o : cop) : string := match o with CAnd => "and" | COr => "or" end.
(** resource/access/combine.hpp:148-163 (array, And), 174-189 (array, Or), 200-204, 215-219 (combine) *)
Fixpoint fmt_val (t : ty) : val t -> list ascii :=
  match t with
  | TIO => fmt_io
  | TArea => fmt_area
  | TArr t n o => fun v => lit "{ """ ++ lit (op_str o) ++ lit """ : [" ++ fmt_arr (fmt_val t) n v ++ lit "] }"
  | TComb t u o => fun v => lit "{ """ ++ lit (op_str o) ++ lit """ : [ " ++ fmt_val t (fst v) ++ lit ", " ++ fmt_val u (snd v) ++ lit " ] }"
  end.
(** resource/resource.hpp:357-365, mode_format 289-292 *)
Definition fmt_access (a : raccess) : list ascii :=
  lit "{ ""resourceID"" : " ++ dec (N.of_nat (r_id (a_res a))) ++ lit ", ""scopeLevel"" : " ++ dec (N.of_nat (r_scope (a_res a))) ++
  lit ", ""mode"" : " ++ fmt_val (a_ty a) (a_val a) ++ lit " }".
(** the loop of resource/resource_user.hpp:76-81 over the access list, newest first; the separator is "," *)
Fixpoint fmt_accesses (l : list raccess) : list ascii :=
  match l with [] => [] | a :: l => fmt_access a ++ (match l with [] => [] | _ => lit "," end) ++ fmt_accesses l end.
(** resource/resource_user.hpp:71-85 *)
Definition fmt_user (u : ruser) : list ascii := lit "[" ++ fmt_accesses (u_acc u) ++ lit "]".
(** task/property/id.hpp:92-95, task/property/resource.hpp:166-169, task/property/queue.hpp:54-57, task/property/graph.hpp:200-203,
    task/property/label.hpp:72-75 *)
Definition fmt_id (n : N) : list ascii := lit """id"" : " ++ dec n.
Definition fmt_resources (u : ruser) : list ascii := lit """resources"" : " ++ fmt_user u.
Definition fmt_queue : list ascii := [].
Definition fmt_graph : list ascii := [].
Definition fmt_label (l : list ascii) : list ascii := lit """label"" : """ ++ l ++ lit """".
(** task/property/inherit.hpp:158-189: the properties of a type list, ", " between each and the next *)
Fixpoint fmt_inherit (ps : list (list ascii)) : list ascii :=
  match ps with [] => [] | [p] => p | p :: ps => p ++ lit ", " ++ fmt_inherit ps end.
(** task/property/inherit.hpp:192-207 *)
Definition fmt_properties (ps : list (list ascii)) : list ascii := lit "{ " ++ fmt_inherit ps ++ lit " }".
(** task/task.hpp:25-34: TaskProperties; [more]: the texts of REDGRAPES_TASK_PROPERTIES *)
Definition fmt_task (id : N) (u : ruser) (more : list (list ascii)) : list ascii :=
  fmt_properties ([fmt_id id; fmt_resources u; fmt_queue; fmt_graph] ++ more).
