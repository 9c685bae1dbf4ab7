(** Model of the M-estimator policies and of the weighting of error terms.
      /repo/aslam_optimizer/aslam_backend/src/MEstimatorPolicies.cpp
      /repo/aslam_optimizer/aslam_backend/src/ErrorTerm.cpp
      /repo/aslam_optimizer/aslam_backend/include/aslam_backend/backend/implementation/ErrorTerm.hpp *)
From Coq Require Import ZArith List Bool.
From Verif Require Import Base Arith OMap JacModel.
Import ListNotations.

Section MEstimators.
Variable A : Arith.
Notation num := (num A).
(** std::exp *)
Variable expo : num -> num.

Definition neg (x : num) : num := sub A (of_Z A 0) x.

(** MEstimatorPolicies.cpp 17-19. *)
Definition none_weight (e : num) : num := of_Z A 1.

(** Lines 30-33; [s] is sigma squared, [e] the squared error. *)
Definition geman_weight (s e : num) : num :=
  let se := add A s e in div A s (mul A se se).

(** Lines 46-49. *)
Definition cauchy_weight (s e : num) : num :=
  div A (of_Z A 1) (add A (of_Z A 1) (div A e s)).

(** Lines 61-66. *)
Definition huber_weight (k e : num) : num :=
  if lt A e (mul A k k) then of_Z A 1 else div A k (root A e).

(** Lines 112-115; [q] is the chi-squared quantile chi2InvCDF(pCut, df), which
    the code takes from boost. *)
Definition blake_epsilon (w q : num) : num :=
  mul A (div A (sub A (of_Z A 1) w) w) (expo (neg q)).

(** Lines 98-100. *)
Definition blake_weight (eps e : num) : num :=
  div A (expo (neg e)) (add A (expo (neg e)) eps).
End MEstimators.

(** ** Error terms (ErrorTermFs). *)
Section ErrorTerm.
Variable A : Arith.
Notation num := (num A).
Notation mat := (mat A).

(** Members of an error term: the error vector, the square root of the inverse
    covariance (by columns: [sqrt_t] is its transpose, as rows), the M-estimator,
    and the squared error stored by the last evaluateError. *)
Record eterm := ETerm {
  eerror : list num; esqrt_t : mat; eweight : num -> num; estored : num }.

(** Matrix times vector. *)
Definition mat_vec (M : mat) (v : list num) : list num := map (fun r => dot A r v) M.

(** implementation/ErrorTerm.hpp 160-164: evaluateChiSquaredError, which is what
    the error terms of the repository return from evaluateErrorImplementation. *)
Definition chi_squared (t : eterm) : num :=
  let e := mat_vec (esqrt_t t) (eerror t) in dot A e e.

(** ErrorTerm.cpp 20-24: evaluateError; returns the cost and stores the squared
    error.  The weight is applied always, whatever useMEstimator is elsewhere. *)
Definition evaluate (t : eterm) : num * eterm :=
  let s := chi_squared t in
  (mul A (eweight t s) s, ETerm (eerror t) (esqrt_t t) (eweight t) s).

(** Square root of the weight, as used three times in implementation/ErrorTerm.hpp
    (lines 97-99, 173-175, 185-187). *)
Definition sqrt_weight (useM : bool) (t : eterm) : num :=
  if useM then root A (eweight t (estored t)) else of_Z A 1.

(** Lines 182-189: getWeightedError. *)
Definition weighted_error (useM : bool) (t : eterm) : list num :=
  map (fun x => mul A x (sqrt_weight useM t)) (mat_vec (esqrt_t t) (eerror t)).

(** Lines 166-179: getWeightedJacobians; [c] holds the Jacobians of the error
    and [scale] gives each design variable's scaling. *)
Definition weighted_jacobians (useM : bool) (scale : dvref -> num) (t : eterm) (c : container A)
  : outcome (container A) :=
  do c1 <- chain_rule A (length (eerror t)) (esqrt_t t) c;
  Ok (Container (crows c1)
        (map (fun e => (fst e, (fst (snd e),
           map (map (fun x => mul A x (mul A (sqrt_weight useM t) (scale (fst (snd e)))))) (snd (snd e)))))
           (cmap c1))).
End ErrorTerm.
Arguments ETerm {A}. Arguments eerror {A}. Arguments esqrt_t {A}. Arguments eweight {A}. Arguments estored {A}.
