(** * Model of the functions that build and change a B-spline

    Models BSpline.cpp lines 642-737 (addCurveSegment), 740-747
    (removeCurveSegment), 749-759 (setLocalCoefficientVector) and 1718-1744
    (initConstantSpline).  Conventions of [BsplModel]. *)
From Coq Require Import Reals List Arith ZArith Bool.
From Verif Require Import Base BsplModel.
Import ListNotations.
Local Open Scope R_scope.
Local Open Scope nat_scope.

(** Eigen's LinSpaced(n, lo, hi): lo + i * (hi - lo) / (n - 1) *)
Definition lin_spaced (n : nat) (lo hi : R) : list R :=
  map (fun i => lo + INR i * ((hi - lo) / (INR n - 1)))%R (seq 0 n).

(** initConstantSpline, lines 1718-1744; [D] is constant.size() *)
Definition init_constant (b : bspline) (tmin tmax : R) (nseg D : nat) (c : vec) : outcome bspline :=
  if rltb tmin tmax && (1 <=? nseg) && (1 <=? D) then
    let K := num_knots_required (order b) nseg in
    let C := num_coefs_required (order b) nseg in
    let dt := ((tmax - tmin) / INR nseg)%R in
    set_knots_and_coefs b (lin_spaced K (tmin - (INR (order b) - 1) * dt)%R (tmax + (INR (order b) - 1) * dt)%R)
      D C (fun r _ => c r)
  else Throw.

(** removeCurveSegment, lines 740-747: the first knot and the first coefficient
    column are dropped; basisMatrices_ is left as it is *)
Definition remove_segment (b : bspline) : bspline :=
  match knots b with
  | [] => b
  | _ :: kn => if 0 <? ncols b
               then BSp (order b) kn (dim b) (ncols b - 1) (fun r c => coef b r (c + 1)) (bases b)
               else b
  end.

(** setLocalCoefficientVector, lines 749-759; [n] is c.size() *)
Definition set_local_coefs (b : bspline) (t : R) (n : nat) (c : vec) : outcome bspline :=
  if n =? order b * dim b then
    do '(_, s) <- compute_T_index b t;
    do bidx <- isub (s + 1) (order b);
    if bidx + order b <=? ncols b
    then Ok (BSp (order b) (knots b) (dim b) (ncols b)
               (fun r i => if (bidx <=? i) && (i <? bidx + order b) then c ((i - bidx) * dim b + r) else coef b r i)
               (bases b))
    else UB
  else Throw.

(** The loop of lines 671-676: entries from index [from] on become kt, kt+dt, ... *)
Definition retool (kn : list R) (from : nat) (kt dt : R) : list R :=
  map (fun i => if i <? from then nth i kn 0%R else (kt + INR (i - from) * dt)%R) (seq 0 (length kn)).

(** addCurveSegment, lines 642-737.  [n] is p_1.size(); [junk] stands for the
    uninitialised new coefficient column; [solve] for householderQr().solve,
    which is called on the square system of size 2 * dim.  Row block 0 (1) of
    the system is Phi at t_0 (t_1) restricted to the last two columns; the
    coefficients before them move to the right-hand side. *)
Definition tail_system (D k : nat) (w0 w1 : mat) : mat := fun r m =>
  if r <? D then w0 r (D * (k - 2) + m) else w1 (r - D) (D * (k - 2) + m).
Definition tail_rhs (D k : nat) (w0 w1 : mat) (p0 p1 fixed : vec) : vec := fun r =>
  if Nat.ltb r D then (p0 r - bsum (D * (k - 2))%nat (fun m => w0 r m * fixed m))%R
  else (p1 (r - D)%nat - bsum (D * (k - 2))%nat (fun m => w1 (r - D)%nat m * fixed m))%R.

Definition add_segment (solve : nat -> mat -> vec -> vec) (junk : vec) (b : bspline) (t : R) (n : nat) (p1 : vec) : outcome bspline :=
  do tm <- t_max b;
  if rltb tm t then
    if n =? dim b then
      let NT := num_segments b in
      do nt1 <- isub NT 1;
      do '(i0, i1) <- time_interval b nt1;
      do p0 <- eval b i1;
      do '(_, km1) <- compute_T_index b i0;
      do kk <- vat (knots b) (km1 + 1);
      let dt := (t - kk)%R in
      let kn := retool (knots b ++ [0%R]) (km1 + 2) t dt in
      do b <- set_knots_and_coefs b kn (dim b) (ncols b + 1) (fun r c => if c <? ncols b then coef b r c else junk r);
      do '(t0, t1) <- time_interval b NT;
      do fixed <- local_coef_vector b t0;
      do P0 <- Phi b t0 0;
      do P1 <- Phi b t1 0;
      let D := dim b in
      let cs := solve (2 * D) (tail_system D (order b) P0 P1) (tail_rhs D (order b) P0 P1 p0 p1 fixed) in
      do c2 <- isub (ncols b) 2;
      Ok (BSp (order b) (knots b) (dim b) (ncols b)
            (fun r c => if c =? c2 then cs r else if c =? c2 + 1 then cs (D + r) else coef b r c) (bases b))
    else Throw
  else Throw.
