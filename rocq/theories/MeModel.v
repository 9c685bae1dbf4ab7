(** * Model of the motion error of a B-spline

    Models aslam_nonparametric_estimation/aslam_splines/include/aslam_splines/
    implementation/BSplineMotionError.hpp (all) and BSpline.cpp lines 1585-1620
    (curveQuadraticIntegralSparse).  Reals for doubles; the block matrices are
    those of [SbmModel], the curve that of [BsplModel].  The error term keeps a
    pointer to the curve: the curve is an argument of every operation.  The
    message of line 35 is left out.  C++ integers are taken to be large
    enough except for the derivative order, whose conversions are modelled. *)
From Coq Require Import Reals List Arith ZArith Bool.
From Verif Require Import Base BsplModel BsqModel Arith RArith OMap JacModel SbmModel HesModel.
Import ListNotations.
Local Close Scope Z_scope.
Local Open Scope nat_scope.

(** Q.block(i*D, j*D, D, D), BSpline.cpp line 1617 *)
Definition block_at (D i j : nat) (q : BsplModel.mat) : list (list R) :=
  map (fun a => map (fun c => q (i * D + a) (j * D + c)) (seq 0 D)) (seq 0 D).

(** The block updates of one segment, lines 1612-1619 *)
Definition segment_updates (D k s : nat) (q : BsplModel.mat) : list (nat * nat * list (list R)) :=
  concat (map (fun i => map (fun j => (s + i, s + j, block_at D i j q)) (seq 0 k)) (seq 0 k)).

(** The loop over the segments, lines 1608-1620 *)
Fixpoint sparse_segments (b : bspline) (seg_q : nat -> outcome BsplModel.mat) (s n : nat) (Q : sbm RA) : outcome (sbm RA) :=
  match n with
  | 0 => Ok Q
  | S m => do q <- seg_q s;
           do Q <- updates RA (map (fun e : nat * nat * JacModel.mat RA => (fst e, plus RA (snd e)))
                             (segment_updates (dim b) (order b) s q)) Q;
           sparse_segments b seg_q (S s) m Q
  end.

(** curveQuadraticIntegralSparse.  The loop of lines 1600-1603 never ends for
    vectors of dimension zero. *)
Definition sparse_layout (D C : nat) : list nat := map (fun i => (i + 1) * D) (seq 0 C).
Definition curve_Q_sparse (b : bspline) (wr wc : nat) (W : BsplModel.mat) (d : Z) : outcome (sbm RA) :=
  if dim b =? 0 then Hang
  else sparse_segments b (fun s => segment_Q b wr wc W s d) 0 (num_segments b)
         (fresh RA (sparse_layout (dim b) (ncols b)) (sparse_layout (dim b) (ncols b))).

(** A BSplineMotionError: _Q, _coefficientVectorLength and the number of design
    variables, which are those of the curve in order. *)
Record motion := Motion { mQ : sbm RA; mlen : nat; mvars : nat }.

(** The conversion of an unsigned int to int *)
Definition as_int (d : Z) : Z := ((d + 2 ^ 31) mod 2 ^ 32 - 2 ^ 31)%Z.

(** initialize, lines 29-57; [d] is an unsigned int, [wr] and [wc] are the
    sizes of W.  cloneInto copies the matrix. *)
Definition reduced (k : nat) (d : Z) : Z :=
  if (Z.of_nat k <=? as_int d)%Z && (2 <=? k) then (Z.of_nat k - 1)%Z else as_int d.
Definition make_motion (b : bspline) (wr wc : nat) (W : BsplModel.mat) (d : Z) : outcome motion :=
  do Q <- curve_Q_sparse b wr wc W (reduced (order b) d);
  Ok (Motion (clone RA Q) (dim b * ncols b) (ncols b)).
(** lines 8-13 *)
Definition make_motion_default (b : bspline) (wr wc : nat) (W : BsplModel.mat) : outcome motion :=
  make_motion b wr wc W 2.

(** The coefficients as stored by Eigen, column after column. *)
Definition stacked (b : bspline) : list R :=
  map (fun a => coef b (a mod dim b) (a / dim b)) (seq 0 (dim b * ncols b)).
(** Lines 66-67: a map of as many numbers as there were at construction *)
Definition mapped_coefs (m : motion) (b : bspline) : outcome (list R) :=
  if mlen m <=? dim b * ncols b then Ok (firstn (mlen m) (stacked b)) else UB.

(** evaluateErrorImplementation, lines 62-77 *)
Definition motion_error (m : motion) (b : bspline) : outcome R :=
  do c <- mapped_coefs m b;
  do Qc <- mul_vec RA (mQ m) c;
  Ok (dot RA c Qc).
(** evaluateJacobiansImplementation, lines 81-88 *)
Definition motion_jacobians (m : motion) (b : bspline) : outcome unit := Throw.
(** rhs, lines 170-181 *)
Definition motion_rhs (m : motion) (b : bspline) : outcome (list R) :=
  do c <- mapped_coefs m b;
  mul_vec RA (mQ m) (map (fun x => sub RA (of_Z RA 0) x) c).

(** buildHessianImplementation.  The inner loop of lines 136-156: [js] lists
    the design variables with an index up to [i], the place [ci] is the block
    column of variable i *)
Fixpoint motion_column (Q : sbm RA) (i ci : nat) (js : list (nat * dvref)) (H : sbm RA) : outcome (sbm RA) :=
  match js with
  | [] => Ok H
  | (j, dj) :: r =>
      if is_active dj then
        do rj <- bindex dj;
        do q <- get RA i j Q;
        match q with
        | None => motion_column Q i ci r H
        | Some B => do H' <- SbmModel.update RA rj ci (plus RA B) H; motion_column Q i ci r H'
        end
      else motion_column Q i ci r H
  end.
(** lines 122-160; [dvs] are all design variables *)
Fixpoint motion_columns (Q : sbm RA) (bu : list R) (dvs : list dvref) (is : list (nat * dvref)) (H : sbm RA) (rhs : list R)
  : outcome (sbm RA * list R) :=
  match is with
  | [] => Ok (H, rhs)
  | (i, di) :: r =>
      if is_active di then
        do ci <- bindex di;
        do H' <- motion_column Q i ci (combine (seq 0 (i + 1)) (firstn (i + 1) dvs)) H;
        do v <- segment RA (i * mindim di) (mindim di) bu;
        do rhs' <- sub_segment RA (base_of (cbi H) ci) v rhs;
        motion_columns Q bu dvs r H' rhs'
      else motion_columns Q bu dvs r H rhs
  end.
(** lines 93-160: the coefficients are all those of the curve *)
Definition motion_hessian (m : motion) (b : bspline) (dvs : list dvref) (H : sbm RA) (rhs : list R)
  : outcome (sbm RA * list R) :=
  do bu <- mul_vec RA (mQ m) (stacked b);
  motion_columns (mQ m) bu dvs (combine (seq 0 (length dvs)) dvs) H rhs.
