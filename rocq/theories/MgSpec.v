(** * What marginalization must achieve *)
From Coq Require Import Reals List Arith ZArith Bool.
From Verif Require Import BsplSpec BsplModel MgModel.
Import ListNotations.
Local Open Scope R_scope.

(** Squared length of the first [n] entries. *)
Definition sqr_norm (n : nat) (v : nat -> R) : R := total n (fun i => v i * v i).

(** A displacement gives every variable (by object) a vector.  The linearised
    error of a term under it is the error plus the Jacobians times the
    displacements of the term's variables; the cost of a list of terms is the
    sum of the squared lengths. *)
Fixpoint moved_error (l : list (dvar * mat)) (x : nat -> nat -> R) (i : nat) : R :=
  match l with
  | [] => 0
  | (v, M) :: r => total (vdim v) (fun j => M i j * x (vid v) j) + moved_error r x i
  end.
Definition linear_error (t : term) (x : nat -> nat -> R) (i : nat) : R := terr t i + moved_error (tjac t) x i.
Fixpoint linear_cost (ets : list term) (x : nat -> nat -> R) : R :=
  match ets with
  | [] => 0
  | t :: r => sqr_norm (tdim t) (linear_error t x) + linear_cost r x
  end.

(** The inner product of the changes two displacements make to the errors. *)
Fixpoint moved_product (ets : list term) (x y : nat -> nat -> R) : R :=
  match ets with
  | [] => 0
  | t :: r => total (tdim t) (fun i => moved_error (tjac t) x i * moved_error (tjac t) y i) + moved_product r x y
  end.

(** Total dimensions; the displacement that moves one scalar coordinate. *)
Fixpoint dims (l : list dvar) : nat := match l with [] => 0%nat | v :: r => (vdim v + dims r)%nat end.
Fixpoint tdims (l : list term) : nat := match l with [] => 0%nat | t :: r => (tdim t + tdims r)%nat end.
Fixpoint unit_displacement (l : list dvar) (c : nat) (i j : nat) : R :=
  match l with
  | [] => 0
  | v :: r => if (c <? vdim v)%nat then (if (vid v =? i)%nat && (j =? c)%nat then 1 else 0) else unit_displacement r (c - vdim v) i j
  end.

(** The first variables of the list go, the others stay. *)
Definition removed (nrem : Z) (dvs : list dvar) : list dvar := firstn (Z.to_nat nrem) dvs.
Definition remaining (nrem : Z) (dvs : list dvar) : list dvar := skipn (Z.to_nat nrem) dvs.
(** Two displacements agree on some variables. *)
Definition agree (l : list dvar) (x y : nat -> nat -> R) : Prop :=
  forall v, In v l -> forall j, (j < vdim v)%nat -> x (vid v) j = y (vid v) j.
(** The displacements of the given variables, in order. *)
Definition displacements (l : list dvar) (x : nat -> nat -> R) : list (nat * vec) := map (fun v => (vdim v, x (vid v))) l.

(** The error terms only involve variables of the list, each at most once. *)
Definition covers (dvs : list dvar) (ets : list term) : Prop :=
  NoDup (map vid dvs) /\
  forall t, In t ets -> NoDup (map (fun e => vid (fst e)) (tjac t)) /\ forall v M, In (v, M) (tjac t) -> In v dvs.
(** The given variables are determined by the terms: no displacement of them
    alone leaves every error unchanged. *)
Definition determined (l : list dvar) (ets : list term) : Prop :=
  forall x, (forall v j, ~ In v (map vid l) -> x v j = 0) ->
    (forall t i, In t ets -> (i < tdim t)%nat -> moved_error (tjac t) x i = 0) ->
    agree l x (fun _ _ => 0).

(** [Q] is an orthogonal [m] by [m] matrix, [R] is zero below the diagonal and
    the product is [J]. *)
Definition identity (i j : nat) : R := if (i =? j)%nat then 1 else 0.
Definition is_qr (m n : nat) (J Q R : nat -> nat -> R) : Prop :=
  (forall i j, (i < m)%nat -> (j < m)%nat -> total m (fun k => Q k i * Q k j) = identity i j) /\
  (forall i j, (i < m)%nat -> (j < m)%nat -> total m (fun k => Q i k * Q j k) = identity i j) /\
  (forall i j, (i < m)%nat -> (j < n)%nat -> (j < i)%nat -> R i j = 0) /\
  (forall i j, (i < m)%nat -> (j < n)%nat -> J i j = total m (fun k => Q i k * R k j)).
Definition qr_correct (qr : nat -> nat -> mat -> mat * mat) (m n : nat) : Prop :=
  forall J, is_qr m n J (fst (qr m n J)) (snd (qr m n J)).
(** The inverse of every regular matrix is a two-sided inverse. *)
Definition product (n : nat) (A B : mat) : mat := fun i j => total n (fun k => A i k * B k j).
Definition inverse_correct (inverse : nat -> mat -> mat) (n : nat) : Prop :=
  forall M, (forall x : vec, (forall i, (i < n)%nat -> total n (fun j => M i j * x j) = 0) -> forall j, (j < n)%nat -> x j = 0) ->
  forall i j, (i < n)%nat -> (j < n)%nat -> product n M (inverse n M) i j = identity i j /\ product n (inverse n M) M i j = identity i j.
