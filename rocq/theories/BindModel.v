(** What a task keeps of the callable and of the arguments it is emplaced with.
    Definitions only.  Values are abstract; [None] is an object that was moved from. *)
From Coq Require Import Bool List Arith.
Import ListNotations.

Section Bind.
(** [V]: values; [trivial x]: moving from variable x leaves its value (a type without a move constructor
    of its own: numbers, plain structs, lambdas that capture only such); [args_first]: whether the compiler initialises
    the captured arguments before the callable (unspecified in C++) *)
Context (V : Type) (trivial : nat -> bool) (args_first : bool).

(** the variables of the caller (arguments of emplace_task, redGrapes.hpp:164-168) *)
Definition store := nat -> option V.
(** an assignment of the caller, or what a move leaves (redGrapes.hpp:167) *)
Definition upd (s : store) (x : nat) (v : option V) : store := fun y => if y =? x then v else s y.
(** an expression in a call of emplace_task: a variable, a temporary, or std::ref of a variable
    (redGrapes.hpp:164-168) *)
Inductive expr := LV (x : nat) | RV (v : V) | Ref (x : nat).
(** what the closure of the task holds: a value, with a mark whether it is passed on as an rvalue, or a reference
    (task/task_builder.hpp:52-58) *)
Inductive slot := Copy (v : option V) (rvalue : bool) | RefTo (x : nat).
Record task := mkTask { t_fun : slot; t_args : list slot }.

(** [args...] in the capture list copies every argument, also one given as a temporary (task/task_builder.hpp:56) *)
Definition capture (s : store) (e : expr) : slot :=
  match e with LV x => Copy (s x) false | RV v => Copy (Some v) true | Ref x => RefTo x end.
(** the callable is moved at every stage, with std::move and not std::forward, whether it was given as a
    variable or not (redGrapes.hpp:167, 192; task/task_builder.hpp:92, 56) *)
Definition take_fun (s : store) (e : expr) : slot * store :=
  match e with
  | LV x => (Copy (s x) false, if trivial x then s else upd s x None)
  | RV v => (Copy (Some v) false, s)
  | Ref x => (RefTo x, s)
  end.
(** emplace_task: the properties of the arguments are built before (C79); then the closure is made
    (task/task_builder.hpp:83-92).  Its two captures, the callable and the arguments, are initialised in an
    order that is unspecified (task/task_builder.hpp:56) *)
Definition emplace (s : store) (f : expr) (args : list expr) : task * store :=
  let (ft, s1) := take_fun s f in (mkTask ft (map (capture (if args_first then s else s1)) args), s1).

(** the caller: assignments and calls of emplace_task (redGrapes.hpp:164-168) *)
Inductive op := Assign (x : nat) (v : V) | Emplace (f : expr) (args : list expr).
Definition step (st : store * list task) (o : op) : store * list task :=
  match o with
  | Assign x v => (upd (fst st) x (Some v), snd st)
  | Emplace f args => let (t, s) := emplace (fst st) f args in (s, snd st ++ [t])
  end.
Definition exec (s : store) (os : list op) : store * list task := fold_left step os (s, []).

(** what the body sees when it begins: f(std::forward<Args>(args)...) (task/task_builder.hpp:56) *)
Definition look (s : store) (k : slot) : option V := match k with Copy v _ => v | RefTo x => s x end.
Definition sees (s : store) (t : task) : option V * list (option V) := (look s (t_fun t), map (look s) (t_args t)).
(** after it has taken its parameters by value: arguments passed on as rvalues were moved from, unless [keep] says
    that their type is trivial (task/task_builder.hpp:56) *)
Definition spent (keep : nat -> bool) (t : task) : task :=
  mkTask (t_fun t) (map (fun p => match snd p with Copy v true => if keep (fst p) then Copy v true else Copy None true | k => k end)
                        (combine (seq 0 (length (t_args t))) (t_args t))).
End Bind.
Arguments Assign {V}. Arguments Emplace {V}. Arguments LV {V}. Arguments RV {V}. Arguments Ref {V}.
Arguments Copy {V}. Arguments RefTo {V}. Arguments mkTask {V}. Arguments t_fun {V}. Arguments t_args {V}.
Arguments exec {V}. Arguments step {V}. Arguments emplace {V}. Arguments sees {V}. Arguments spent {V}. Arguments look {V}. Arguments upd {V}. Arguments take_fun {V}. Arguments capture {V}.
