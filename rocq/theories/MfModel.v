(** * Model of the motion error terms added to a problem segment by segment

    Models aslam_nonparametric_estimation/aslam_splines/include/aslam_splines/
    implementation/BSplineMotionErrorFactory.hpp (all) and, of
    aslam_bsplines/src/BSpline.cpp, lines 426-434 (segmentCoefficientVector),
    459-463 (segmentVvCoefficientVectorIndices) and 1502-1507
    (segmentIntegral).  The terms are the priors of [MgModel], the variables
    those of [SplModel].  The singular value decomposition is a parameter.
    Adding a term to the problem is appending it to a list; terms added before
    an exception are not kept. *)
From Coq Require Import Reals List Arith ZArith Bool.
From Verif Require Import Base BsplModel BsqModel SplModel MgModel.
Import ListNotations.
Local Open Scope R_scope.
Local Open Scope nat_scope.

(** A loop that collects results. *)
Fixpoint collect {A B} (f : A -> outcome B) (l : list A) : outcome (list B) :=
  match l with [] => Ok [] | x :: r => do y <- f x; do ys <- collect f r; Ok (y :: ys) end.

(** A prior with the variables it points to and the values they had. *)
Record mterm := Mterm { mt_prior : prior; mt_ids : list nat; mt_hats : list vec }.

Section Factory.
(** jacobiSvd with ComputeFullU: matrixU() and singularValues() of a square
    matrix of the given size *)
Variable svd : nat -> mat -> mat * vec.

(** segmentIntegral, lines 1502-1507 *)
Definition segment_integral (b : bspline) (wr wc : nat) (W : mat) (seg : nat) (d : Z) : outcome mat :=
  do M <- segment_Q b wr wc W seg d;
  let '(U, s) := svd (order b * dim b) M in
  Ok (fun i j => U j i * sqrt (s i))%R.
(** lines 426-434 *)
Definition segment_coefs (b : bspline) (seg : nat) : outcome vec :=
  if seg <? num_segments b then Ok (fun a => coef b (a mod dim b) (a / dim b + seg)) else Throw.
(** lines 459-463 *)
Definition segment_vv_indices (b : bspline) (seg : nat) : outcome (list nat) :=
  if seg <? num_segments b then Ok (seq seg (order b)) else Throw.

(** The conversion of errorTermOrder to int *)
Definition order_int (d : Z) : Z := ((d + 2 ^ 31) mod 2 ^ 32 - 2 ^ 31)%Z.

(** One pass of the loop, lines 10-23, with the constructor of the term
    (MarginalizationPriorErrorTerm.cpp lines 17-40), which stores the values of
    the variables.  Scaling and activity of the variables are not used here. *)
Definition motion_term (sv : splvar) (wr wc : nat) (W : mat) (d : Z) (i : nat) : outcome mterm :=
  let b := cv sv in
  let n := order b * dim b in
  do R <- segment_integral b wr wc W i (order_int d);
  do c <- segment_coefs b i;
  do idxs <- segment_vv_indices b i;
  do ids <- collect (design_variable sv) idxs;
  do p <- make_prior (map (fun id => Dv id (dim b) 1 false) ids) n (fun r => bsum n (fun j => R r j * c j)%R) n n R;
  do hats <- collect (value_of sv) ids;
  Ok (Mterm p ids hats).
Definition add_motion_terms (sv : splvar) (wr wc : nat) (W : mat) (d : Z) : outcome (list mterm) :=
  collect (motion_term sv wr wc W d) (seq 0 (num_segments (cv sv))).
End Factory.

(** The squared error of a term for the present state of its variables
    (MarginalizationPriorErrorTerm.cpp lines 46-79) *)
Definition term_cost (sv : splvar) (t : mterm) : outcome R :=
  do ds <- collect (fun e : nat * vec => do x <- minimal_difference sv (fst e) (dim (cv sv)) (snd e); Ok (dim (cv sv), x))
             (combine (mt_ids t) (mt_hats t));
  prior_cost (mt_prior t) ds.
(** The squared errors of all terms, added up *)
Fixpoint terms_cost (sv : splvar) (ts : list mterm) : outcome R :=
  match ts with
  | [] => Ok 0%R
  | t :: r => do e <- term_cost sv t; do es <- terms_cost sv r; Ok (e + es)%R
  end.
