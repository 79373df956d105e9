(** Handles of a task: [TaskBuilder] (task/task_builder.hpp 50-138) and [Future] (task/future.hpp 25-126).

    One history of operations on any number of builders and futures. Handles are not thread safe, so
    the operations on one handle are in sequence; operations on different handles only meet at
    [notify], which is atomic: a sequence of operations covers all executions.
    A dead object (destroyed) is not used: the language forbids it and a program that does is not a
    history here ([None]). What the class itself permits but is undefined is the outcome [UB]. *)
From Coq Require Import List Arith Bool.
Import ListNotations.

(** task_builder.hpp 64-65: [space] (a shared_ptr, null after a move), [task] (null when spent) *)
Record bld := mkB { b_live : bool; b_space : option nat; b_task : option nat }.
(** future.hpp 67-68: [taken], [task] (a reference) *)
Record fut := mkF { f_live : bool; f_taken : bool; f_task : nat }.
(** task.hpp 67, 76-80: the result cell; [std::move] (future.hpp 59) leaves a moved-from value *)
Inductive cell := Unset | Val (v : nat) | Moved.
(** what is observed (task_space.cpp:70-87, future.hpp:38-64) *)
Inductive ev := ESubmit (t sp : nat) | ENotify (t : nat) | EGot (t : nat) (c : cell).

(** task_builder.hpp:50-138, future.hpp:25-126 *)
Record st := mkS {
  nb : nat; blds : nat -> bld;        (** builder objects constructed so far *)
  nf : nat; futs : nat -> fut;        (** future objects constructed so far *)
  nt : nat;                           (** tasks constructed so far *)
  subm : nat -> bool;                 (** handed to a space *)
  res : nat -> cell;
  rget : nat -> bool;                 (** result_get_event reached (graph.hpp 79; event.hpp: initial state 1) *)
  log : list ev }.

Definition upd {B} (f : nat -> B) (i : nat) (x : B) : nat -> B := fun j => if Nat.eqb j i then x else f j.
Definition init : st :=
  mkS 0 (fun _ => mkB false None None) 0 (fun _ => mkF false false 0) 0 (fun _ => false) (fun _ => Unset) (fun _ => false) [].

Inductive out := Ok (s : st) | UB.
Definition bind (o : out) (f : st -> out) : out := match o with Ok s => f s | UB => UB end.

Definition set_bld (s : st) (b : nat) (x : bld) : st := mkS (nb s) (upd (blds s) b x) (nf s) (futs s) (nt s) (subm s) (res s) (rget s) (log s).
Definition add_bld (s : st) (x : bld) : st := mkS (S (nb s)) (upd (blds s) (nb s) x) (nf s) (futs s) (nt s) (subm s) (res s) (rget s) (log s).
Definition set_fut (s : st) (f : nat) (x : fut) : st := mkS (nb s) (blds s) (nf s) (upd (futs s) f x) (nt s) (subm s) (res s) (rget s) (log s).
Definition add_fut (s : st) (x : fut) : st := mkS (nb s) (blds s) (S (nf s)) (upd (futs s) (nf s) x) (nt s) (subm s) (res s) (rget s) (log s).

(** event.cpp 104-178 on the result-get event: the first notification reaches it and lets the task be
    destroyed (163-170, when the post event is reached too); the task must not be used afterwards.
    Simplification: it is taken as destroyed at once, i.e. a second use is undefined in every case. *)
Definition notify_get (s : st) (t : nat) : out :=
  if rget s t then UB else Ok (mkS (nb s) (blds s) (nf s) (futs s) (nt s) (subm s) (res s) (upd (rget s) t true) (ENotify t :: log s)).

(** future.hpp 27-29, 75-77 *)
Definition fut_new (s : st) (t : nat) : st := add_fut s (mkF true false t).
(** 31-35, 79-83 *)
Definition fut_move (s : st) (f : nat) : st :=
  let o := futs s f in
  set_fut (add_fut s (mkF true (f_taken o) (f_task o))) f (mkF (f_live o) true (f_task o)).
(** 37-44, 85-92 *)
Definition fut_drop (s : st) (f : nat) : out :=
  let o := futs s f in
  let dead s' := set_fut s' f (mkF false (f_taken o) (f_task o)) in
  if f_taken o then Ok (dead s) else bind (notify_get s (f_task o)) (fun s' => Ok (dead s')).
(** 52-64, 100-109. The wait (55) is passed when the result was set ([None] before: the caller is
    still waiting). The result is moved out, [taken] set, the event notified. *)
Definition fut_get (s : st) (f : nat) : option out :=
  let o := futs s f in
  let t := f_task o in
  if rget s t then Some UB
  else match res s t with
       | Unset => None
       | c => Some (bind (notify_get (mkS (nb s) (blds s) (nf s) (upd (futs s) f (mkF (f_live o) true t)) (nt s) (subm s)
                                         (upd (res s) t Moved) (rget s) (EGot t c :: log s)) t) Ok)
       end.
(** 68-71, 113-116: reads an event of the task *)
Definition fut_ready (s : st) (f : nat) : out := if rget s (f_task (futs s f)) then UB else Ok s.

(** task_builder.hpp 67-93: a new task; the space current at that moment (69) *)
Definition bld_new (s : st) (sp : nat) : st :=
  let s1 := mkS (nb s) (blds s) (nf s) (futs s) (S (nt s)) (subm s) (res s) (rget s) (log s) in
  add_bld s1 (mkB true (Some sp) (Some (nt s))).
(** 95-101: the "copy" constructor takes the task from the other builder and keeps the space in both *)
Definition bld_copy (s : st) (b : nat) : st :=
  let o := blds s b in
  set_bld (add_bld s (mkB true (b_space o) (b_task o))) b (mkB (b_live o) (b_space o) None).
(** 103-109 *)
Definition bld_move (s : st) (b : nat) : st :=
  let o := blds s b in
  set_bld (add_bld s (mkB true (b_space o) (b_task o))) b (mkB (b_live o) None None).
(** task_space.cpp 70-87: the space takes the task; a null space or task is dereferenced *)
Definition space_submit (s : st) (sp t : option nat) : out :=
  match sp, t with
  | Some p, Some k => Ok (mkS (nb s) (blds s) (nf s) (futs s) (nt s) (upd (subm s) k true) (res s) (rget s) (ESubmit k p :: log s))
  | _, _ => UB
  end.
(** 123-132: [task] is cleared, the space takes the task, a future is made and moved into the result
    (131 moves a temporary, which is destroyed) *)
Definition bld_submit (s : st) (b : nat) : out :=
  let o := blds s b in
  bind (space_submit (set_bld s b (mkB (b_live o) (b_space o) None)) (b_space o) (b_task o)) (fun s1 =>
  match b_task o with
  | None => UB
  | Some t => let s2 := fut_new s1 t in fut_drop (fut_move s2 (nf s1)) (nf s1)
  end).
(** 111-115: the destructor submits a task that is left and destroys the future it gets *)
Definition bld_drop (s : st) (b : nat) : out :=
  let o := blds s b in
  let dead s' := set_bld s' b (mkB false (b_space (blds s' b)) (b_task (blds s' b))) in
  match b_task o with
  | None => Ok (dead s)
  | Some _ => bind (bld_submit s b) (fun s1 => bind (fut_drop s1 (nf s1 - 1)) (fun s2 => Ok (dead s2)))
  end.
(** 117-121 (and every property setter, e.g. property/resource.hpp 46-75): writes into the task *)
Definition bld_set (s : st) (b : nat) : out := match b_task (blds s b) with None => UB | Some _ => Ok s end.

(** Operations of a program. [builder.get()] (134-137) is [SubmitB], then [GetF] and [DropF] of the
    future just made. [Run]: the body of a submitted task ended with a value (task.hpp 76-80); it does
    so once (C15). *)
Inductive op :=
| Create (sp : nat) | CopyB (b : nat) | MoveB (b : nat) | SetB (b : nat) | SubmitB (b : nat) | DropB (b : nat)
| MoveF (f : nat) | ReadyF (f : nat) | GetF (f : nat) | DropF (f : nat)
| Run (t v : nat).
Definition live_b (s : st) (b : nat) (o : option out) : option out := if b_live (blds s b) then o else None.
Definition live_f (s : st) (f : nat) (o : option out) : option out := if f_live (futs s f) then o else None.
Definition step (s : st) (o : op) : option out :=
  match o with
  | Create sp => Some (Ok (bld_new s sp))
  | CopyB b => live_b s b (Some (Ok (bld_copy s b)))
  | MoveB b => live_b s b (Some (Ok (bld_move s b)))
  | SetB b => live_b s b (Some (bld_set s b))
  | SubmitB b => live_b s b (Some (bld_submit s b))
  | DropB b => live_b s b (Some (bld_drop s b))
  | MoveF f => live_f s f (Some (Ok (fut_move s f)))
  | ReadyF f => live_f s f (Some (fut_ready s f))
  | GetF f => live_f s f (fut_get s f)
  | DropF f => live_f s f (Some (fut_drop s f))
  | Run t v => if subm s t then match res s t with Unset =>
      Some (Ok (mkS (nb s) (blds s) (nf s) (futs s) (nt s) (subm s) (upd (res s) t (Val v)) (rget s) (log s))) | _ => None end else None
  end.
(** a history; [UB] ends it
    (calls of the functions of task_builder.hpp:50-138 and future.hpp:25-126 one after another). *)
Fixpoint run (s : st) (l : list op) : option out :=
  match l with
  | [] => Some (Ok s)
  | o :: l' => match step s o with Some (Ok s') => run s' l' | Some UB => Some UB | None => None end
  end.
