(** Marginal covariances: what they are. *)
From Coq Require Import ZArith List Bool Reals.
From Verif Require Import Base Arith RArith OMap JacModel SbmModel SbmReal.
Import ListNotations.
Open Scope nat_scope.

(** Column [c] of compressed columns stores [es]. *)
Definition stored (p i : list nat) (x : list R) (c : nat) (es : list (nat * R)) : Prop :=
  exists a, nth_error p c = Some a /\ nth_error p (c + 1) = Some (a + length es) /\
    forall k r v, nth_error es k = Some (r, v) ->
      nth_error i (a + k) = Some r /\ nth_error x (a + k) = Some v.

(** The element in row [r] of a stored column. *)
Fixpoint value_in (es : list (nat * R)) (r : nat) : R :=
  match es with
  | [] => 0%R
  | (k, v) :: es => if r =? k then v else value_in es r
  end.

(** The compressed columns hold the lower triangular matrix [f]: each column
    starts with its diagonal element, which is not zero, and every other stored
    row is below it and stored once. *)
Definition lower_factor (n : nat) (p i : list nat) (x : list R) (f : nat -> nat -> R) : Prop :=
  forall c, c < n -> exists d es, stored p i x c ((c, d) :: es) /\ d <> 0%R /\
    NoDup (map fst es) /\ (forall r v, In (r, v) es -> c < r /\ r < n) /\
    forall r, f r c = value_in ((c, d) :: es) r.

(** [f] times its transpose. *)
Definition gram (n : nat) (f : nat -> nat -> R) (i j : nat) : R := sumn n (fun l => (f i l * f j l)%R).

(** [C] is the inverse of [H]. *)
Definition inverse_of (n : nat) (H C : nat -> nat -> R) : Prop :=
  forall i k, i < n -> k < n -> sumn n (fun j => (H i j * C j k)%R) = if i =? k then 1%R else 0%R.

(** [H] is factored by [f], with variable [a] of [H] in place [q a]. *)
Definition factored (n : nat) (H f : nat -> nat -> R) (q : nat -> nat) : Prop :=
  forall a b, a < n -> b < n -> H a b = gram n f (q a) (q b).

(** [q] maps 0..n-1 onto itself one to one. *)
Definition bijective (n : nat) (q : nat -> nat) : Prop :=
  (forall a, a < n -> q a < n) /\ forall a b, a < n -> b < n -> q a = q b -> a = b.

(** The place of a variable under an optional inverse permutation. *)
Definition place (pinv : option (list nat)) (a : nat) : nat :=
  match pinv with None => a | Some p => nth a p 0 end.
Definition pinv_ok (n : nat) (pinv : option (list nat)) : Prop :=
  match pinv with None => True | Some p => length p = n /\ bijective n (fun a => nth a p 0) end.
