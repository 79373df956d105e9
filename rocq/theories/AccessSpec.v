(** What accesses mean to a user: which element operations ("touches") an
    access permits and which pairs of touches conflict.  Independent of
    [is_serial] and friends. *)
From Coq Require Import Bool List Arith NArith ZArith Lia.
From Verif Require Import AccessModel.
Import ListNotations.

(** Kinds of operation on one object. *)
Inductive kind := KRead | KWrite | KAdd | KMul.

(** Two operations conflict unless both only read, both only add, or both only
    multiply. *)
Definition kind_conflict (a b : kind) : bool :=
  match a, b with
  | KRead, KRead | KAdd, KAdd | KMul, KMul => false
  | _, _ => true
  end.

(** A write access permits everything, the others only their own kind. *)
Definition mode_permits (m : iomode) (k : kind) : Prop :=
  match m with
  | MWrite => True
  | MRead => k = KRead
  | MAadd => k = KAdd
  | MAmul => k = KMul
  end.

(** A touch of an object protected by a policy of type [t].  An And-composition
    describes one object by several coordinates (a touch gives all of them), an
    Or-composition describes several sub-objects (a touch is of one of them). *)
Fixpoint tsum (A : Type) (n : nat) : Type :=
  match n with O => Empty_set | S m => (A + tsum A m)%type end.

Fixpoint touch (t : ty) : Type :=
  match t with
  | TIO => kind
  | TArea => N
  | TArr t n CAnd => arr (touch t) n
  | TArr t n COr => tsum (touch t) n
  | TComb t u CAnd => (touch t * touch u)%type
  | TComb t u COr => (touch t + touch u)%type
  end.

Fixpoint arr_permits {A B} (f : A -> B -> Prop) (n : nat) : arr A n -> arr B n -> Prop :=
  match n with
  | O => fun _ _ => True
  | S m => fun x y => f (fst x) (fst y) /\ arr_permits f m (snd x) (snd y)
  end.

Fixpoint tsum_permits {A B} (f : A -> B -> Prop) (n : nat) : arr A n -> tsum B n -> Prop :=
  match n with
  | O => fun _ _ => False
  | S m => fun x y => match y with
                      | inl b => f (fst x) b
                      | inr y => tsum_permits f m (snd x) y
                      end
  end.

(** the touches an access permits *)
Fixpoint permits (t : ty) : val t -> touch t -> Prop :=
  match t with
  | TIO => mode_permits
  | TArea => fun a i => (fst a <= i < snd a)%N
  | TArr t n CAnd => arr_permits (permits t) n
  | TArr t n COr => tsum_permits (permits t) n
  | TComb t u CAnd => fun a x => permits t (fst a) (fst x) /\ permits u (snd a) (snd x)
  | TComb t u COr => fun a x => match x with
                                | inl x => permits t (fst a) x
                                | inr x => permits u (snd a) x
                                end
  end.

Fixpoint arr_conflict {A} (f : A -> A -> Prop) (n : nat) : arr A n -> arr A n -> Prop :=
  match n with
  | O => fun _ _ => True
  | S m => fun x y => f (fst x) (fst y) /\ arr_conflict f m (snd x) (snd y)
  end.

Fixpoint tsum_conflict {A} (f : A -> A -> Prop) (n : nat) : tsum A n -> tsum A n -> Prop :=
  match n with
  | O => fun _ _ => False
  | S m => fun x y => match x, y with
                      | inl a, inl b => f a b
                      | inr x, inr y => tsum_conflict f m x y
                      | _, _ => False
                      end
  end.

(** when two touches of one object conflict *)
Fixpoint conflict (t : ty) : touch t -> touch t -> Prop :=
  match t with
  | TIO => fun a b => kind_conflict a b = true
  | TArea => fun i j => i = j
  | TArr t n CAnd => arr_conflict (conflict t) n
  | TArr t n COr => tsum_conflict (conflict t) n
  | TComb t u CAnd => fun x y => conflict t (fst x) (fst y) /\ conflict u (snd x) (snd y)
  | TComb t u COr => fun x y => match x, y with
                                | inl a, inl b => conflict t a b
                                | inr a, inr b => conflict u a b
                                | _, _ => False
                                end
  end.

(** ** Operations on an integer cell, for C01 *)
Inductive cellop := OpRead | OpWrite (v : Z) | OpAdd (v : Z) | OpMul (v : Z).

Definition op_kind (o : cellop) : kind :=
  match o with OpRead => KRead | OpWrite _ => KWrite | OpAdd _ => KAdd | OpMul _ => KMul end.

(** new cell value and, for a read, the value seen *)
Definition op_run (o : cellop) (c : Z) : Z * option Z :=
  match o with
  | OpRead => (c, Some c)
  | OpWrite v => (v, None)
  | OpAdd v => ((c + v)%Z, None)
  | OpMul v => ((c * v)%Z, None)
  end.

(** both orders leave the same cell and show each operation the same value *)
Definition ops_commute (o p : cellop) : Prop :=
  forall c,
    let '(c1, ro) := op_run o c in
    let '(c2, rp) := op_run p c1 in
    let '(d1, rp') := op_run p c in
    let '(d2, ro') := op_run o d1 in
    c2 = d2 /\ ro = ro' /\ rp = rp'.
