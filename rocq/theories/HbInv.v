(** The knowledge invariant: which completed tasks the threads, counters, locks and queues
    of the runtime machine know about. *)
From Coq Require Import Bool List Arith NArith ZArith Lia Permutation Sorting.Sorted.
From Verif Require Import AccessModel AccessSpec AccessProof UserModel UserProof SchedModel SchedSpec SchedBase SchedInv1 SchedInv2 SchedInv3 SchedInv4 SchedInv5 SchedInv6 SchedInv7 SchedInv8 SchedFront SchedThm HbModel HbSpec HbBase.
Import ListNotations.
Open Scope Z_scope.

Definition inst (s : state) (j : nat) (f : frame) : Prop := exists st, nth_error (thr s) j = Some st /\ In f st.

Notation actor := made_by.

Section Def.
  Context (P : prog) (U : front) (s : state) (tr : list rec).

  (** whoever knows [X] knows that [t] was submitted and what it has to wait for is complete *)
  Definition pk (X : lev -> Prop) (t : nat) : Prop :=
    X (LSpawn t) /\ forall r p, (rk U r p < rk U r t)%nat -> sp s p -> ser_on P r p t -> X (LReach (EPost p)).

  Definition kcov (X : lev -> Prop) (r p t : nat) : Prop :=
    X (LReach (EPost p)) \/ edge s p t \/
    exists q, (rk U r p < rk U r q <= rk U r t)%nat /\ ser_on P r p q /\ parent P q = parent P t /\ sp s q /\ edge s q t.

  Definition kdone (X : lev -> Prop) (t : nat) (rem : list nat) : Prop :=
    exists pre, uniq P t = pre ++ rem /\
    forall r, In r pre -> forall p, (rk U r p < rk U r t)%nat -> sp s p -> ser_on P r p t -> kcov X r p t.

  Definition kall (X : lev -> Prop) (t : nat) : Prop :=
    forall r p, (rk U r p < rk U r t)%nat -> sp s p -> ser_on P r p t -> kcov X r p t.

  Definition kmid (X : lev -> Prop) (r t : nat) (mid : list (nat * nat)) : Prop :=
    forall p k, In (p, k) mid -> ser P p t -> kcov X r p t.

  Definition locked (X : lev -> Prop) (r : nat) : Prop := forall l, O tr (OLck r) l -> X l.

  Definition kiter (X : lev -> Prop) (t r : nat) it rs : Prop :=
    kdone X t (r :: rs) /\ locked X r /\
    exists pre mid, users s r = pre ++ (t, length rs) :: mid ++ it /\ kmid X r t mid.

  Definition kdep (X : lev -> Prop) (t p r : nat) it rs : Prop :=
    ser P p t /\ kdone X t (r :: rs) /\ locked X r /\
    exists pre mid k, users s r = pre ++ (t, length rs) :: mid ++ (p, k) :: it /\ kmid X r t mid.

  (** every step so far that belongs to the body of [t] was made by thread [j] *)
  Definition own (t j : nat) : Prop :=
    forall m a l, nth_error tr m = Some a -> In l (r_log a) -> actor P l = Some t -> r_who a = j.

  Definition kframe (j : nat) (f : frame) : Prop :=
    let X := K tr j in
    match f with
    | FBody (Some t) _ => own t j
    | FBody None _ => True
    | FSub o c rs is => X (LSpawn c) /\ match o with Some t => own t j | None => True end
    | FInitUp t => X (LSpawn t)
    | FInit t rs => X (LSpawn t) /\ kdone X t rs
    | FIter t r it rs => X (LSpawn t) /\ kiter X t r it rs
    | FDep1 t p r it rs | FDep2 t p r it rs | FDep3 t p r it rs => X (LSpawn t) /\ kdep X t p r it rs
    | FDep4 t p r it rs => X (LSpawn t) /\ kdep X t p r it rs /\ edge s p t
    | FPar1 t q | FPar2 t q | FPar3 t q => X (LSpawn t) /\ kall X t
    | FNotify (EPre t) NInit => X (LSpawn t) /\ kall X t
    | FNotify (EPost t) NBody => X (LEnd t)
    | FNotify (ERSet t) _ => X (LEnd t)
    | FNotify (ERGet t) _ => X (LGet t) \/ X (LDrop t)
    | FNotify _ _ => True
    | FNotify2 e st _ => (st = 0 -> X (LReach e)) /\ (forall t, e = EPre t -> st = 1 -> pk X t)
    | FNotify3 e st k => (st = 0 -> X (LReach e)) /\ (forall t, e = EPre t -> st = 1 -> k = NInit -> pk X t)
    | FDelete t _ => X (LReach (EPost t))
    | FFollow e l => X (LReach e) /\ forall x, In x l -> In x (fol s e)
    | FExec t | FRun t => pk X t
    | FRemove t => True
    end.

  Record HGlob : Prop := {
    (** histories *)
    h_log : forall l, In l (log s) <-> exists m, does tr m l;
    h_actor : forall m l t, does tr m l -> actor P l = Some t -> 1 <= zsum (v_start t) (log s);
    h_start : forall n t, does tr n (LStart t) -> pk (to tr n) t;
    h_reach : forall n t, does tr n (LReach (EPost t)) -> to tr n (LEnd t);
    h_child : forall n q c, does tr n (LReach (EPost q)) -> parent P c = Some q -> sp s c -> to tr n (LReach (EPost c));
    h_end : forall n m t l, does tr n (LEnd t) -> does tr m l -> actor P l = Some t -> m = n \/ hb tr m n;
    h_act : forall n m t l, does tr n l -> actor P l = Some t -> does tr m (LStart t) -> m = n \/ hb tr m n;
    h_own : forall n m a b l k t, nth_error tr n = Some a -> nth_error tr m = Some b -> In l (r_log a) -> In k (r_log b) ->
      actor P l = Some t -> actor P k = Some t -> r_who a = r_who b;
    h_used : forall n t, does tr n (LReach (ERGet t)) -> to tr n (LGet t) \/ to tr n (LDrop t);
    h_dead : forall n t, does tr n (LFree t) -> to tr n (LReach (EPost t)) /\ to tr n (LReach (ERGet t));
    h_get : forall n c, does tr n (LGet c) -> to tr n (LEnd c);
    h_bar : forall n m p, does tr n LBarrier -> does tr m (LSpawn p) -> (m < n)%nat -> parent P p = None -> to tr n (LReach (EPost p));
    (** objects *)
    h_self : forall e, In (LReach e) (log s) -> O tr (OCtr e) (LReach e);
    h_users : forall t r k, ent P t r k -> sp s t ->
      (forall o rs is, In (FSub o t rs is) (frames s) -> (length rs <= k)%nat) ->
      In (t, k) (users s r) \/ O tr (OLck r) (LReach (EPost t));
    h_edge : forall y x, In x (fol s y) -> 1 <= taken s y ->
      O tr (OCtr x) (LReach y) \/ (exists j l, inst s j (FFollow y l) /\ In x l) \/
      (exists j, inst s j (FNotify x NCall) /\ K tr j (LReach y));
    h_init : forall t, 1 <= zsum (v_init t) (log s) -> O tr (OCtr (EPre t)) (LSpawn t) /\ kall (O tr (OCtr (EPre t))) t;
    h_rdy : forall t, In t (rdy s) -> pk (O tr (ORdy t)) t;
    h_emp : forall t, In t (emp s) -> O tr (OEmp t) (LSpawn t);
    h_post : forall t, 1 <= zsum (v_end t) (log s) ->
      O tr (OCtr (EPost t)) (LEnd t) \/ exists j, inst s j (FNotify (EPost t) NBody);
    h_rset : forall t, 1 <= zsum (v_end t) (log s) ->
      O tr (OCtr (ERSet t)) (LEnd t) \/ exists j, inst s j (FNotify (ERSet t) NCall);
    h_rget : forall t, 1 <= zsum (v_use t) (log s) ->
      (O tr (OCtr (ERGet t)) (LGet t) \/ O tr (OCtr (ERGet t)) (LDrop t)) \/ exists j, inst s j (FNotify (ERGet t) NCall);
    h_cdn : forall t e, e = EPost t \/ e = ERGet t -> 1 <= zsum (v_take e) (log s) ->
      O tr (OCdn t) (LReach e) \/ (exists j l, inst s j (FFollow e l)) \/
      (exists j, inst s j (FRemove t) /\ K tr j (LReach e));
    h_free : forall t, In (LFree t) (log s) -> O tr (OTcn (parent P t)) (LReach (EPost t))
  }.

  Definition HInv : Prop := HGlob /\ forall j f, inst s j f -> kframe j f.
End Def.
