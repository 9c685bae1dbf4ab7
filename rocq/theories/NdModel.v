(** * Normal distributions and their maximum-likelihood estimators

    /repo/aslam_incremental_calibration/aslam_incremental_calibration/
    src/statistics/NormalDistribution1v.cpp, src/statistics/EstimatorMLNormal1v.cpp,
    include/aslam_incremental_calibration/statistics/EstimatorMLNormalMv.tpp and
    NormalDistributionMv.tpp (setCovariance).

    Simplifications: [double] is modelled by the real numbers; the count of points is not
    bounded (the square of a [size_t] wraps from 2^32 points on).  Of the multivariate
    distribution only the checks of setCovariance are modelled: the decision of Eigen's LDLT
    is a parameter. *)
From Coq Require Import Reals List Bool.
From Verif Require Import Base.
Import ListNotations.
Local Open Scope R_scope.

(** ** NormalDistribution<1> *)
Record normal := Normal { mean : R; variance : R; precision : R; deviation : R; normalizer : R }.
(** setMean: NormalDistribution1v.cpp 85-87. *)
Definition setMean (d : normal) (m : R) : normal :=
  Normal m (variance d) (precision d) (deviation d) (normalizer d).
(** setVariance: 93-103. *)
Definition setVariance (d : normal) (v : R) : outcome normal :=
  if Rle_dec v 0 then Throw
  else Ok (Normal (mean d) v (1 / v) (sqrt v) (1 / 2 * ln (2 * PI * v))).
(** The constructor: 30-33 (the other members are not set before). *)
Definition make (m v : R) : outcome normal := setVariance (Normal m 0 0 0 0) v.
(** mahalanobisDistance, logpdf, pdf: 149-152, 126-128, 122-124. *)
Definition mahalanobis (d : normal) (x : R) : R := (x - mean d) * precision d * (x - mean d).
Definition logpdf (d : normal) (x : R) : R := - (1 / 2) * mahalanobis d x - normalizer d.
Definition pdf (d : normal) (x : R) : R := exp (logpdf d x).
(** cdf: 130-132, with the library's erf. *)
Definition cdf (erf : R -> R) (d : normal) (x : R) : R :=
  1 / 2 * (1 + erf ((x - mean d) / sqrt (2 * variance d))).
(** KLDivergence: 140-145. *)
Definition divergence (d o : normal) : R :=
  1 / 2 * (ln (variance o * precision d) + precision o * variance d - 1 +
           (mean d - mean o) * precision o * (mean d - mean o)).
(** getMedian, getMode: 154-160. *)
Definition median (d : normal) : R := mean d.
Definition peak (d : normal) : R := mean d.

(** ** EstimatorML<NormalDistribution<1>> *)
Record estimator := Est { dist : normal; count : nat; valid : bool; vsum : R; ssum : R }.
(** EstimatorMLNormal1v.cpp 29-34, with the default distribution of mean 0 and variance 1. *)
Definition standard : normal := Normal 0 1 (1 / 1) (sqrt 1) (1 / 2 * ln (2 * PI * 1)).
Definition fresh : estimator := Est standard 0 false 0 0.
(** reset: 98-103. *)
Definition reset (e : estimator) : estimator := Est (dist e) 0 false 0 0.
(** setMean then setVariance inside the try block: 111-120 and 149-156. *)
Definition settled (d : normal) (m v : R) : normal * bool :=
  match setVariance (setMean d m) v with
  | Ok d' => (d', true)
  | _ => (setMean d m, false)
  end.
(** addPoint: 105-121. *)
Definition addPoint (e : estimator) (x : R) : estimator :=
  let n := S (count e) in
  let s := vsum e + x in
  let q := ssum e + x * x in
  let m := s / INR n in
  let (d, ok) := settled (dist e) m (q / INR n - s * s * 2 / (INR n * INR n) + m * m) in
  Est d n ok s q.
(** addPoints: 123-132. *)
Definition addPoints (e : estimator) (xs : list R) : estimator := fold_left addPoint xs e.
(** addPoints with responsibilities: 134-157.  [None]: the weights sum to zero and mean and
    variance are not numbers. *)
Definition addWeighted (e : estimator) (xs ws : list R) : option estimator :=
  if negb (length ws =? length xs)%nat then Some e
  else
    let n := fold_left Rplus ws 0 in
    if Req_EM_T n 0 then None
    else
      let m := fold_left (fun a xw => a + snd xw * fst xw) (combine xs ws) 0 / n in
      let v := fold_left (fun a xw => a + snd xw * (fst xw - m) * (fst xw - m)) (combine xs ws) 0 / n in
      let (d, ok) := settled (dist e) m v in
      Some (Est d (count e) ok (vsum e) (ssum e)).

(** ** EstimatorML<NormalDistribution<M>> *)
Section Several.
(** isPositive of Eigen's LDLT of a matrix. *)
Variable positive : nat -> (nat -> nat -> R) -> bool.
Variable M : nat.
(** setCovariance: NormalDistributionMv.tpp 105-127. *)
Definition symmetricb (C : nat -> nat -> R) : bool :=
  forallb (fun i => forallb (fun j => if Req_EM_T (C j i) (C i j) then true else false) (seq 0 M)) (seq 0 M).
Definition negativeb (C : nat -> nat -> R) : bool :=
  existsb (fun i => if Rlt_dec (C i i) 0 then true else false) (seq 0 M).
Definition acceptCovariance (C : nat -> nat -> R) : bool :=
  symmetricb C && positive M C && negb (negativeb C).
Record normals := Normals { means : nat -> R; covariance : nat -> nat -> R }.
Record estimators := Ests { dists : normals; counts : nat; valids : bool;
                            vsums : nat -> R; ssums : nat -> nat -> R }.
(** reset: EstimatorMLNormalMv.tpp 106-109. *)
Definition resets (e : estimators) : estimators := Ests (dists e) 0 false (vsums e) (ssums e).
(** addPoint: 111-133. *)
Definition addVector (e : estimators) (x : nat -> R) : estimators :=
  let s0 := if (counts e =? 0)%nat then (fun _ => 0) else vsums e in
  let q0 := if (counts e =? 0)%nat then (fun _ _ => 0) else ssums e in
  let n := S (counts e) in
  let s := fun i => s0 i + x i in
  let q := fun i j => q0 i j + x i * x j in
  let m := fun i => s i / INR n in
  let C := fun i j => q i j / INR n - s i * s j * 2 / (INR n * INR n) + m i * m j in
  if acceptCovariance C then Ests (Normals m C) n true s q
  else Ests (Normals m (covariance (dists e))) n false s q.
(** addPoints: 135-146. *)
Definition addVectors (e : estimators) (xs : list (nat -> R)) : estimators := fold_left addVector xs e.
End Several.
