(** * Model of the B-spline curve: knots, basis matrices and evaluation

    Models aslam_nonparametric_estimation/aslam_bsplines/src/BSpline.cpp lines
    15-550 and 1368-1466 (and the declarations of include/aslam_bsplines/
    BSpline.hpp).

    Simplifications throughout: C++ [double] is modelled by the real numbers
    and [int] sizes by [nat].  An Eigen matrix is modelled by its numbers of
    rows and columns and a function from (row, column) to the entry; where the
    sizes are fixed by the spline (order, dimension) only the function is kept.
    An access outside a std::vector, outside a matrix block or to a basis
    matrix that does not exist is [UB]; the *_DBG assertions (compiled out of
    release builds) are not modelled. *)

From Coq Require Import Reals List Arith ZArith Bool.
From Verif Require Import Base.
Import ListNotations.
Local Open Scope R_scope.
Local Open Scope nat_scope.

Definition vec := nat -> R.
Definition mat := nat -> nat -> R.

(** The sum of f 0 ... f (n-1): the inner product of an Eigen product. *)
Fixpoint bsum (n : nat) (f : nat -> R) : R :=
  match n with 0 => 0%R | S m => (bsum m f + f m)%R end.

Definition rleb (a b : R) : bool := if Rle_dec a b then true else false.
Definition rltb (a b : R) : bool := if Rlt_dec a b then true else false.

(** std::vector::operator[] *)
Definition vat (l : list R) (i : nat) : outcome R :=
  match nth_error l i with Some x => Ok x | None => UB end.
(** An index computed by subtracting [b] from [a]: negative is out of range. *)
Definition isub (a b : nat) : outcome nat := if a <? b then UB else Ok (a - b).

(** A loop that fills entries 0 .. n-1 of a vector. *)
Fixpoint tabulate (n : nat) (f : nat -> outcome R) : outcome vec :=
  match n with
  | 0 => Ok (fun _ => 0%R)
  | S m => do v <- tabulate m f;
           do x <- f m;
           Ok (fun i => if i =? m then x else v i)
  end.

(** The data members: splineOrder_, knots_, coefficients_ (dim rows, ncols
    columns) and basisMatrices_ (each splineOrder_ x splineOrder_). *)
Record bspline := BSp {
  order : nat;
  knots : list R;
  dim : nat;
  ncols : nat;
  coef : mat;
  bases : list mat
}.

(** BSpline::BSpline, lines 15-19 *)
Definition make_bspline (k : nat) : outcome bspline :=
  if k <? 2 then Throw else Ok (BSp k [] 0 0 (fun _ _ => 0%R) []).

(** polynomialDegree, lines 31-34 *)
Definition polynomial_degree (b : bspline) : nat := order b - 1.
(** numValidTimeSegments, lines 198-207 *)
Definition num_segments_of (k K : nat) : nat := K + 1 - 2 * k.
Definition num_segments (b : bspline) : nat := num_segments_of (order b) (length (knots b)).
(** numCoefficientsRequired, lines 214-217 *)
Definition num_coefs_required (k n : nat) : nat := n + k - 1.
(** numKnotsRequired, lines 219-222 *)
Definition num_knots_required (k n : nat) : nat := num_coefs_required k n + k.
(** minimumKnotsRequired, lines 209-212 *)
Definition min_knots (k : nat) : nat := num_knots_required k 1.

(** verifyKnotSequence, lines 183-196: the loop runs over the size of the
    member knots_ (the knots of the spline before the call), and reads the
    argument. *)
Fixpoint verify_loop (new : list R) (i n : nat) : outcome unit :=
  match n with
  | 0 => Ok tt
  | S m => do a <- vat new (i - 1);
           do b <- vat new i;
           if rleb a b then verify_loop new (S i) m else Throw
  end.
Definition verify_knots (k : nat) (old new : list R) : outcome unit :=
  if length new <? min_knots k then Throw
  else verify_loop new 1 (length old - 1).

(** d_0, lines 123-135 *)
Definition d_0 (kn : list R) (k i j : nat) : outcome R :=
  do a <- vat kn (j + k - 1);
  do b <- vat kn j;
  if rleb (a - b)%R 0%R then Ok 0%R
  else do c <- vat kn i; Ok ((c - b) / (a - b))%R.

(** d_1, lines 137-149 *)
Definition d_1 (kn : list R) (k i j : nat) : outcome R :=
  do a <- vat kn (j + k - 1);
  do b <- vat kn j;
  if rleb (a - b)%R 0%R then Ok 0%R
  else do c <- vat kn (i + 1);
       do d <- vat kn i;
       Ok ((c - d) / (a - b))%R.

(** M, lines 70-121.  [M_step k r m d0 d1] is the matrix M1*A + M2*B built
    from M(k-1,i) = m, with the diagonals of A and B filled by [d0], [d1]. *)
Definition M_step (k : nat) (m : mat) (d0 d1 : vec) : mat := fun r c =>
  let M1 r idx := if r <? k - 1 then m r idx else 0%R in
  let M2 r idx := if 0 <? r then m (r - 1) idx else 0%R in
  let A idx c := if c =? idx then (1 - d0 idx)%R else if c =? idx + 1 then d0 idx else 0%R in
  let B idx c := if c =? idx then (- d1 idx)%R else if c =? idx + 1 then d1 idx else 0%R in
  (bsum (k - 1) (fun idx => M1 r idx * A idx c) + bsum (k - 1) (fun idx => M2 r idx * B idx c))%R.

Fixpoint basis_M (kn : list R) (k i : nat) : outcome mat :=
  match k with
  | 0 => Hang
  | S k' =>
    match k' with
    | 0 => Ok (fun _ _ => 1%R)
    | S _ =>
      do m <- basis_M kn k' i;
      do d0 <- tabulate k' (fun idx => do j <- isub (i + 2 + idx) k; d_0 kn k i j);
      do d1 <- tabulate k' (fun idx => do j <- isub (i + 2 + idx) k; d_1 kn k i j);
      Ok (M_step k m d0 d1)
    end
  end.

(** initializeBasisMatrices, lines 58-67 *)
Fixpoint basis_loop (kn : list R) (k s n : nat) : outcome (list mat) :=
  match n with
  | 0 => Ok []
  | S m => do x <- basis_M kn k (s + k - 1);
           do r <- basis_loop kn k (S s) m;
           Ok (x :: r)
  end.
Definition init_bases (kn : list R) (k : nat) : outcome (list mat) :=
  basis_loop kn k 0 (num_segments_of k (length kn)).

(** setKnotsAndCoefficients, lines 36-56 (and setKnotVectorAndCoefficients,
    153-161, which only copies the knots to a std::vector) *)
Definition set_knots_and_coefs (b : bspline) (kn : list R) (D C : nat) (c : mat) : outcome bspline :=
  do _ <- verify_knots (order b) (knots b) kn;
  if num_coefs_required (order b) (num_segments_of (order b) (length kn)) =? C then
    do bs <- init_bases kn (order b);
    Ok (BSp (order b) kn D C c bs)
  else Throw.

(** t_min and t_max, lines 225-235 *)
Definition t_min (b : bspline) : outcome R :=
  if length (knots b) <? min_knots (order b) then Throw else vat (knots b) (order b - 1).
Definition t_max (b : bspline) : outcome R :=
  if length (knots b) <? min_knots (order b) then Throw
  else vat (knots b) (length (knots b) - order b).

(** std::upper_bound: the position of the first element greater than t.  The
    standard requires the range to be partitioned with respect to t; otherwise
    the behaviour is undefined. *)
Fixpoint upper_pos (l : list R) (t : R) : nat :=
  match l with
  | [] => 0
  | a :: r => if rltb t a then 0 else S (upper_pos r t)
  end.
Definition upper_bound (l : list R) (t : R) : outcome nat :=
  if forallb (rltb t) (skipn (upper_pos l t) l) then Ok (upper_pos l t) else UB.

(** computeTIndex, lines 237-264: width of the knot segment and its index *)
Definition compute_T_index (b : bspline) (t : R) : outcome (R * nat) :=
  do lo <- t_min b;
  if rleb lo t then
    do hi <- t_max b;
    let t := if rltb (Rabs (hi - t)%R) (/ 10000000000)%R then hi else t in
    if rleb t hi then
      do i <- (if Req_EM_T t hi then isub (length (knots b)) (order b)
               else upper_bound (knots b) t);
      do p <- isub i 1;
      do x <- vat (knots b) i;
      do y <- vat (knots b) p;
      Ok ((x - y)%R, p)
    else Throw
  else Throw.

(** computeUAndTIndex, lines 266-287: u uses the time as given, not the one
    computeTIndex has moved to t_max. *)
Definition compute_U_index (b : bspline) (t : R) : outcome (R * nat) :=
  do '(w, i) <- compute_T_index b t;
  if rleb w 0%R then Ok (0%R, i)
  else do k <- vat (knots b) i; Ok (((t - k) / w)%R, i).

(** dmul, lines 289-297 *)
Fixpoint dmul (i : Z) (d : nat) : Z :=
  match d with
  | 0 => 1%Z
  | S d' => match d' with 0 => i | S _ => (i * dmul (i - 1) d')%Z end
  end.

(** computeU, lines 300-318; [uu] is uval^(i - derivativeOrder) *)
Definition compute_U (b : bspline) (uval : R) (s d : nat) : outcome vec :=
  do k1 <- vat (knots b) (s + 1);
  do k0 <- vat (knots b) s;
  let dt := (k1 - k0)%R in
  let mult := if rltb 0%R dt then (1 / dt ^ d)%R else 0%R in
  Ok (fun i => if (d <=? i) && (i <? order b)
               then (mult * uval ^ (i - d) * IZR (dmul (Z.of_nat i) d))%R else 0%R).

(** The common part of evalD, evalDAndJacobian and Phi (lines 333-345, 353-367,
    467-486): the first coefficient column bidx and the weights B^T u. *)
Definition weights (b : bspline) (t : R) (d : Z) : outcome (nat * vec) :=
  if (d <? 0)%Z then Throw
  else
    do '(u, s) <- compute_U_index b t;
    do uv <- compute_U b u s (Z.to_nat d);
    do bidx <- isub (s + 1) (order b);
    match nth_error (bases b) bidx with
    | None => UB
    | Some B => Ok (bidx, fun c => bsum (order b) (fun r => B r c * uv r)%R)
    end.

(** coefficients_.block(0,bidx,rows,splineOrder_) *)
Definition coef_block (b : bspline) (bidx : nat) : outcome mat :=
  if bidx + order b <=? ncols b then Ok (fun r c => coef b r (bidx + c)) else UB.

(** evalD, lines 331-349, and eval, 320-323: entries 0 .. dim-1 *)
Definition eval_D (b : bspline) (t : R) (d : Z) : outcome vec :=
  do '(bidx, w) <- weights b t d;
  do cb <- coef_block b bidx;
  Ok (fun r => bsum (order b) (fun c => cb r c * w c)%R).
Definition eval (b : bspline) (t : R) : outcome vec := eval_D b t 0.

(** LinSpaced(n, first, last) over integers with last = first + n - 1 *)
Definition index_range (first n : nat) : list nat := seq first n.

(** A matrix made of [order] copies of the D x D identity, block i scaled by
    w i: the loops of lines 374-377 and 494-497. *)
Definition scaled_identities (D : nat) (w : vec) : mat :=
  fun r c => if c mod D =? r then w (c / D) else 0%R.

(** evalDAndJacobian, lines 351-387: value, Jacobian (dim x order*dim) and the
    indices of the coefficients it refers to *)
Definition eval_D_and_jacobian (b : bspline) (t : R) (d : Z) : outcome (vec * mat * list nat) :=
  do '(bidx, w) <- weights b t d;
  do cb <- coef_block b bidx;
  Ok (fun r => bsum (order b) (fun c => cb r c * w c)%R,
      scaled_identities (dim b) w,
      index_range (bidx * dim b) (order b * dim b)).

(** Phi, lines 464-500, and localBasisMatrix, 400-403 *)
Definition Phi (b : bspline) (t : R) (d : Z) : outcome mat :=
  do '(_, w) <- weights b t d; Ok (scaled_identities (dim b) w).

(** localCoefficientMatrix, lines 405-410 *)
Definition local_coef_matrix (b : bspline) (t : R) : outcome mat :=
  do '(_, s) <- compute_T_index b t;
  do bidx <- isub (s + 1) (order b);
  coef_block b bidx.

(** localCoefficientVector, lines 412-423: entry i*dim + r is coefficient row
    r of column bidx + i *)
Definition local_coef_vector (b : bspline) (t : R) : outcome vec :=
  do cb <- local_coef_matrix b t;
  Ok (fun m => cb (m mod dim b) (m / dim b)).

(** localCoefficientVectorIndices, lines 436-442, and
    localVvCoefficientVectorIndices, 451-456 *)
Definition local_coef_indices (b : bspline) (t : R) : outcome (list nat) :=
  do '(_, s) <- compute_T_index b t;
  do bidx <- isub (s + 1) (order b);
  Ok (index_range (bidx * dim b) (order b * dim b)).
Definition local_vv_indices (b : bspline) (t : R) : outcome (list nat) :=
  do '(_, s) <- compute_T_index b t;
  do bidx <- isub (s + 1) (order b);
  Ok (index_range bidx (order b)).

(** setCoefficientVector and coefficientVector, lines 503-520 *)
Definition set_coef_vector (b : bspline) (n : nat) (c : vec) : outcome bspline :=
  if n =? dim b * ncols b
  then Ok (BSp (order b) (knots b) (dim b) (ncols b) (fun r i => c (i * dim b + r)) (bases b))
  else Throw.
Definition coef_vector (b : bspline) : vec := fun m => coef b (m mod dim b) (m / dim b).

(** timeInterval(i), lines 544-549, and timeInterval(), 539-542 *)
Definition time_interval (b : bspline) (i : nat) : outcome (R * R) :=
  if length (knots b) <? min_knots (order b) then Throw
  else if i <? num_segments b then
    do a <- vat (knots b) (order b + i - 1);
    do c <- vat (knots b) (order b + i);
    Ok (a, c)
  else Throw.
Definition whole_interval (b : bspline) : outcome (R * R) :=
  do lo <- t_min b; do hi <- t_max b; Ok (lo, hi).

(** segmentIndex, lines 1440-1444 *)
Definition segment_index (b : bspline) (t : R) : outcome nat :=
  do '(_, s) <- compute_T_index b t; isub (s + 1) (order b).

(** getLocalBiVector, lines 1405-1420 *)
Definition local_Bi (b : bspline) (t : R) : outcome vec :=
  do si <- segment_index b t;
  do '(u, s) <- compute_U_index b t;
  do lu <- compute_U b u s 0;
  match nth_error (bases b) si with
  | None => UB
  | Some B => Ok (fun j => if j <? order b then bsum (order b) (fun r => lu r * B r j)%R else 0%R)
  end.

(** getLocalCumulativeBiVector, lines 1423-1436: entry i receives the sum of
    the entries after it, added from the last one down; entries after i are
    still the original ones when i is processed. *)
Fixpoint sum_down (bi : vec) (lo n : nat) : R :=
  match n with 0 => 0%R | S m => (sum_down bi (S lo) m + bi lo)%R end.
Definition local_cumulative_Bi (b : bspline) (t : R) : outcome vec :=
  do bi <- local_Bi b t;
  Ok (fun i => if i =? 0 then 1%R
               else if i <? order b then (bi i + sum_down bi (i + 1) (order b - (i + 1)))%R
               else 0%R).

(** BiVector, BSpline.hpp: the vector with numValidTimeSegments() entries that
    reads the local vector at index i - startIndex. *)
Definition bi_entry (start : nat) (loc : vec) (k : nat) (end_value : R) (i : nat) : R :=
  if i <? start then end_value
  else if k <=? i - start then 0%R else loc (i - start).
(** getBiVector, getCumulativeBiVector: the number of entries and the entries *)
Definition get_Bi (b : bspline) (t : R) : outcome (nat * vec) :=
  do si <- segment_index b t;
  do loc <- local_Bi b t;
  Ok (num_segments b, bi_entry si loc (order b) 0%R).
Definition get_cumulative_Bi (b : bspline) (t : R) : outcome (nat * vec) :=
  do si <- segment_index b t;
  do loc <- local_cumulative_Bi b t;
  Ok (num_segments b, bi_entry si loc (order b) 1%R).
