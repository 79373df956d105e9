(** Access demotion: a running task A shrinks its access list and releases the followers it no longer
    conflicts with ([Context::update_properties], redGrapes.cpp 173-182; [GraphProperty::update_graph],
    task/property/graph.cpp 112-133), while other tasks are initialised behind it (graph.cpp 37-110,
    dispatch/thread/worker.cpp 203-224) and until A ends (event.cpp 104-178).

    One step per access to shared memory; any number of other tasks, each initialised by a thread of its
    own. Simplifications: sequential consistency; the access list of A is replaced at one moment (in the
    code without synchronisation with the readers); the patch is accepted (C11 says when); A has
    no pending events and no children, so its post event is reached when its body ends; the walk over the
    follower list visits the positions below the one it starts at and sees whether an entry is removed
    (C34, C35 say when that is so); counters do not wrap (C24). *)
From Coq Require Import List Arith Bool.
Import ListNotations.

(** an entry of [A.post_event.followers] (event.hpp 46-55): the pre event of a later task (graph.cpp 109),
    the post event of A's parent (graph.cpp 80); equality of entries is by tag and task *)
Inductive fol := Pre (b : nat) | Par.
Definition fol_eqb (f g : fol) : bool := match f, g with Pre b, Pre c => Nat.eqb b c | Par, Par => true | _, _ => false end.

(** initialisation of a task b; the lists are resources still to do (graph.cpp 40) *)
Inductive bpc :=
| BIdle                              (** not begun *)
| BNext (rs : list nat)              (** before the lock of the next resource (52); none left: worker.cpp 214 *)
| BCheck (r : nat) (rs : list nat)   (** lock held; is A in the list and serial with b? (58-68) *)
| BReach (r : nat) (rs : list nat)   (** is A's post event reached? (108, event.cpp 71) *)
| BPush (r : nat) (rs : list nat)    (** event.cpp 74 *)
| BInc (r : nat) (rs : list nat)     (** event.cpp 75 *)
| BEnd.
(** task A; the numbers are positions of walks (entries below are still to visit)
    (graph.cpp:84-133, lines at the constructors). *)
Inductive apc :=
| ARun                               (** in its body *)
| AWalk (i : nat)                    (** update_graph 117 *)
| AErase (f : fol) (j i : nat)       (** 127: the inner walk of [erase] (chunked_list.hpp 604-609) *)
| ANot (f : fol) (i : nat)           (** 129 *)
| ADel (rs : list nat)               (** post event reached: delete_from_resources (84-96) *)
| ANfy (i : nat)                     (** notify_followers (event.cpp 87-93) *)
| AOver.

Record st := mkS {
  ap : apc; bp : nat -> bpc;
  items : list (fol * bool);         (** A's followers, oldest first; [false]: removed *)
  ser : nat -> bool; serp : bool;    (** does A still conflict with b, with its parent? *)
  post : bool;                       (** A's post event is reached *)
  present : nat -> bool;             (** A's entry in the user list of a resource *)
  lock : nat -> option nat;          (** holder of users_mutex of a resource: an initialising task *)
  cnt : nat -> nat;                  (** pre_event.state *)
  ready : nat -> nat;                (** how often the task was handed to a worker to be run *)
  pnot : nat }.                      (** how often the parent's post event was notified *)

Section Demote.
Variables (ares : list nat)          (** resources of A *)
          (res : nat -> list nat)    (** resources of the others *)
          (par : bool).              (** A has a parent *)
(** updates of a map and membership, no functions of the code; the lists are those of graph.cpp:84-133 *)
Definition upd {B} (f : nat -> B) (i : nat) (x : B) : nat -> B := fun j => if Nat.eqb j i then x else f j.
Definition mem (r : nat) (l : list nat) : bool := existsb (Nat.eqb r) l.
(** event.cpp 29-31: the counter of a new event is 1; graph.cpp 77-81: edge to the parent *)
Definition init : st :=
  mkS ARun (fun _ => BIdle) (if par then [(Par, true)] else []) (fun _ => true) true false (fun r => mem r ares) (fun _ => None) (fun _ => 1) (fun _ => 0) 0.

Definition set_a (s : st) (p : apc) : st := mkS p (bp s) (items s) (ser s) (serp s) (post s) (present s) (lock s) (cnt s) (ready s) (pnot s).
Definition set_b (s : st) (b : nat) (p : bpc) : st := mkS (ap s) (upd (bp s) b p) (items s) (ser s) (serp s) (post s) (present s) (lock s) (cnt s) (ready s) (pnot s).
Definition set_lock (s : st) (r : nat) (o : option nat) : st := mkS (ap s) (bp s) (items s) (ser s) (serp s) (post s) (present s) (upd (lock s) r o) (cnt s) (ready s) (pnot s).
Definition set_items (s : st) (l : list (fol * bool)) : st := mkS (ap s) (bp s) l (ser s) (serp s) (post s) (present s) (lock s) (cnt s) (ready s) (pnot s).
Definition set_cnt (s : st) (b n : nat) : st := mkS (ap s) (bp s) (items s) (ser s) (serp s) (post s) (present s) (lock s) (upd (cnt s) b n) (ready s) (pnot s).
(** event.cpp 104-178 on a pre event: decrement; at 1 the task is ready and given to the scheduler (150-154)
    or kept by the caller (worker.cpp 214) *)
Definition notify_pre (s : st) (b : nat) : st :=
  let n := cnt s b - 1 in
  mkS (ap s) (bp s) (items s) (ser s) (serp s) (post s) (present s) (lock s) (upd (cnt s) b n) (if Nat.eqb n 1 then upd (ready s) b (S (ready s b)) else ready s) (pnot s).
Definition notify (s : st) (f : fol) : st :=
  match f with
  | Pre b => notify_pre s b
  | Par => mkS (ap s) (bp s) (items s) (ser s) (serp s) (post s) (present s) (lock s) (cnt s) (ready s) (S (pnot s))
  end.
Definition serial (s : st) (f : fol) : bool := match f with Pre b => ser s b | Par => serp s end.
Definition live (s : st) (i : nat) : option fol := match nth_error (items s) i with Some (f, true) => Some f | _ => None end.
Fixpoint kill (l : list (fol * bool)) (i : nat) : list (fol * bool) :=
  match l, i with [], _ => [] | (f, _) :: l', 0 => (f, false) :: l' | x :: l', S i' => x :: kill l' i' end.

Inductive astep : st -> st -> Prop :=
(** redGrapes.cpp 177: the access list shrinks: what did not conflict does not conflict now *)
| a_patch : forall s se sp, ap s = ARun -> (forall b, se b = true -> ser s b = true) -> (sp = true -> serp s = true) ->
    astep s (mkS (AWalk (length (items s))) (bp s) (items s) se sp (post s) (present s) (lock s) (cnt s) (ready s) (pnot s))
| a_walk_end : forall s, ap s = AWalk 0 -> astep s (set_a s ARun)
(** 119-122 *)
| a_walk : forall s i, ap s = AWalk (S i) ->
    astep s (set_a s (match live s i with
                      | None => AWalk i
                      | Some f => if serial s f then AWalk i else AErase f (length (items s)) i
                      end))
(** chunked_list.hpp 606-608 *)
| a_erase : forall s f j i, ap s = AErase f (S j) i ->
    astep s (set_a (match live s j with Some g => if fol_eqb g f then set_items s (kill (items s) j) else s | None => s end) (AErase f j i))
| a_erase_end : forall s f i, ap s = AErase f 0 i -> astep s (set_a s (ANot f i))
| a_not : forall s f i, ap s = ANot f i -> astep s (set_a (notify s f) (AWalk i))
(** execute.cpp 45, event.cpp 108: the body ended *)
| a_end : forall s, ap s = ARun ->
    astep s (mkS (ADel ares) (bp s) (items s) (ser s) (serp s) true (present s) (lock s) (cnt s) (ready s) (pnot s))
(** graph.cpp 91-94, needs the lock *)
| a_del : forall s r rs, ap s = ADel (r :: rs) -> lock s r = None ->
    astep s (mkS (ADel rs) (bp s) (items s) (ser s) (serp s) (post s) (upd (present s) r false) (lock s) (cnt s) (ready s) (pnot s))
| a_del_end : forall s, ap s = ADel [] -> astep s (set_a s (ANfy (length (items s))))
(** event.cpp 91-92 *)
| a_nfy : forall s i, ap s = ANfy (S i) -> astep s (set_a (match live s i with Some f => notify s f | None => s end) (ANfy i))
| a_nfy_end : forall s, ap s = ANfy 0 -> astep s (set_a s AOver).

Inductive bstep : st -> nat -> st -> Prop :=
(** worker.cpp 211 *)
| b_begin : forall s b, bp s b = BIdle -> bstep s b (set_b (set_cnt s b (S (cnt s b))) b (BNext (res b)))
(** graph.cpp 52 *)
| b_lock : forall s b r rs, bp s b = BNext (r :: rs) -> lock s r = None -> bstep s b (set_b (set_lock s r (Some b)) b (BCheck r rs))
(** 58-66 *)
| b_check : forall s b r rs, bp s b = BCheck r rs ->
    bstep s b (if present s r && ser s b then set_b s b (BReach r rs) else set_b (set_lock s r None) b (BNext rs))
(** 108 *)
| b_reach : forall s b r rs, bp s b = BReach r rs ->
    bstep s b (if post s then set_b (set_lock s r None) b (BNext rs) else set_b s b (BPush r rs))
| b_push : forall s b r rs, bp s b = BPush r rs -> bstep s b (set_b (set_items s (items s ++ [(Pre b, true)])) b (BInc r rs))
| b_inc : forall s b r rs, bp s b = BInc r rs -> bstep s b (set_b (set_lock (set_cnt s b (S (cnt s b))) r None) b (BNext rs))
(** worker.cpp 214 *)
| b_end : forall s b, bp s b = BNext [] -> bstep s b (set_b (notify_pre s b) b BEnd).

Inductive reach (ok : st -> Prop) : st -> Prop :=
| r_init : reach ok init
| r_a : forall s s', reach ok s -> astep s s' -> ok s' -> reach ok s'
| r_b : forall s b s', reach ok s -> bstep s b s' -> ok s' -> reach ok s'.
End Demote.
