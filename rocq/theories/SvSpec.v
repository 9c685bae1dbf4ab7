(** * What the solver with marginal analysis must achieve *)
From Coq Require Import Reals List Arith ZArith Bool.
From Verif Require Import Base BsplModel BsplSpec SvModel.
Import ListNotations.
Local Open Scope R_scope.

Definition inner (n : nat) (x y : vec) : R := total n (fun i => x i * y i).
(** The residuals A x - b of a system with [n] unknowns, and their squared length *)
Definition misfit (n : nat) (A : mat) (b x : vec) : vec := fun i => total n (fun c => A i c * x c) - b i.
Definition cost (m n : nat) (A : mat) (b x : vec) : R := inner m (misfit n A b x) (misfit n A b x).
(** The same without what is seen along some directions *)
Definition cost_without (q : nat -> vec) (w m n : nat) (A : mat) (b x : vec) : R :=
  cost m n A b x - total w (fun k => inner m (q k) (misfit n A b x) * inner m (q k) (misfit n A b x)).
Definition unit_entry (i j : nat) : R := if (i =? j)%nat then 1 else 0.
(** [w] directions of length one at right angles to each other and to the first
    [j] columns of a matrix *)
Definition blind (q : nat -> vec) (w m j : nat) (A : mat) : Prop :=
  (forall k l, (k < w)%nat -> (l < w)%nat -> inner m (q k) (q l) = unit_entry k l) /\
  (forall k c, (k < w)%nat -> (c < j)%nat -> inner m (q k) (fun i => A i c) = 0).

Definition orthogonal (n : nat) (Q : mat) : Prop :=
  (forall i j, (i < n)%nat -> (j < n)%nat -> total n (fun k => Q k i * Q k j) = unit_entry i j) /\
  (forall i j, (i < n)%nat -> (j < n)%nat -> total n (fun k => Q i k * Q j k) = unit_entry i j).
(** A QR decomposition of an [m] by [n] matrix of rank [r]: the product with the
    transpose of Q has no entries below row [r], and its first [r] rows can be
    solved. *)
Definition qr_exact (m n : nat) (A : mat) (Q : mat) (back : vec -> vec) (r : nat) : Prop :=
  (r <= n)%nat /\ (r <= m)%nat /\ orthogonal m Q /\
  (forall i c, (r <= i < m)%nat -> (c < n)%nat -> total m (fun k => Q k i * A k c) = 0) /\
  (forall y i, (i < r)%nat -> total n (fun c => total m (fun k => Q k i * A k c) * back y c) = y i).
(** A singular value decomposition *)
Definition svd_exact (n : nat) (M U : mat) (S : vec) (V : mat) : Prop :=
  orthogonal n U /\ orthogonal n V /\
  (forall k, (k < n)%nat -> 0 <= S k) /\ (forall k l, (k <= l < n)%nat -> S l <= S k) /\
  (forall c d, (c < n)%nat -> (d < n)%nat -> M c d = total n (fun k => U c k * S k * V d k)).
(** Products of a matrix with its own transpose *)
Definition gram (n : nat) (M : mat) : Prop :=
  exists p C, forall c d, (c < n)%nat -> (d < n)%nat -> M c d = total p (fun i => C i c * C i d).
Definition svd_correct (svd : nat -> mat -> mat * vec * mat) (n : nat) : Prop :=
  forall M, gram n M -> let '(U, D, V) := svd n M in svd_exact n M U D V.

(** The factor of a column: one without scaling, zero for a column shorter than
    the square root of eps times the number of rows, else one over its length *)
Definition column_factor (o : options) (A : sparse) (c : nat) : R :=
  if scaling o then
    let l := sqrt (inner (nrow A) (fun i => entry A i c) (fun i => entry A i c)) in
    if Rlt_dec l (sqrt (INR (nrow A) * eps_norm o)) then 0 else 1 / l
  else 1.
Definition scaled (o : options) (A : sparse) : mat := fun i c => entry A i c * column_factor o A c.
(** The part of a vector from index [j] on *)
Definition from (j : nat) (x : vec) : vec := fun c => x (j + c)%nat.
(** Number of the first [n] values above a bound *)
Fixpoint above (n : nat) (s : vec) (t : R) : nat :=
  match n with O => 0%nat | S k => (above k s t + (if Rlt_dec t (s k) then 1 else 0))%nat end.
