(** * Gamma and chi-square distributions

    /repo/aslam_incremental_calibration/aslam_incremental_calibration/include/
    aslam_incremental_calibration/statistics/GammaDistribution.tpp (the default, real type)
    and src/statistics/ChiSquareDistribution.cpp.

    Simplifications: [double] is modelled by the real numbers.  lgamma (LogGammaFunction.tpp)
    and the digamma function (DigammaFunction.tpp) are parameters.  The density is modelled
    for values other than 0; at 0 the code takes log(0) unless the shape is 1.  cdf, invcdf
    and getSample are left to boost and the Randomizer. *)
From Coq Require Import Reals.
From Verif Require Import Base.
Local Open Scope R_scope.

Record gamma := Gamma { shape : R; rate : R; normalizer : R }.

Section Functions.
  Variables lgamma digamma : R -> R.

  (** setShape, setInvScale with computeNormalizer: GammaDistribution.tpp 86-117. *)
  Definition computeNormalizer (k b : R) : R := lgamma k - k * ln b.
  Definition setShape (d : gamma) (k : R) : outcome gamma :=
    if Rle_dec k 0 then Throw else Ok (Gamma k (rate d) (computeNormalizer k (rate d))).
  Definition setRate (d : gamma) (b : R) : outcome gamma :=
    if Rle_dec b 0 then Throw else Ok (Gamma (shape d) b (computeNormalizer (shape d) b)).
  (** The constructor: 32-36; [fresh] is the object before, whose members are not initialised. *)
  Definition build (fresh : gamma) (k b : R) : outcome gamma :=
    obind (setShape fresh k) (fun d => setRate d b).
  (** A sequence of setters on one object. *)
  Inductive change := Shape (k : R) | Rate (b : R).
  Definition apply (d : gamma) (c : change) : gamma :=
    match match c with Shape k => setShape d k | Rate b => setRate d b end with Ok d' => d' | _ => d end.

  (** logpdf, pdf: 124-140; at 0 only for shape 1. *)
  Definition logpdf (d : gamma) (x : R) : R :=
    if Req_EM_T x 0 then - normalizer d
    else (shape d - 1) * ln x - x * rate d - normalizer d.
  Definition pdf (d : gamma) (x : R) : R := if Rlt_dec x 0 then 0 else exp (logpdf d x).
  (** getMean, getMode, getVariance: 170-191. *)
  Definition getMean (d : gamma) : R := shape d / rate d.
  Definition getMode (d : gamma) : outcome R :=
    if Rle_dec 1 (shape d) then Ok ((shape d - 1) / rate d) else Throw.
  Definition getVariance (d : gamma) : R := shape d / (rate d * rate d).
  (** KLDivergence: 193-205. *)
  Definition divergence (d o : gamma) : R :=
    (shape d - 1) * digamma (shape d) - (shape o - 1) * digamma (shape o) -
    lgamma (shape d) + lgamma (shape o) + shape o * (ln (rate d) - ln (rate o)) +
    shape d * (1 / rate d - 1 / rate o) * rate o.

  (** ChiSquareDistribution.cpp 28-30, 68-78. *)
  Definition chiSquare (fresh : gamma) (degrees : R) : outcome gamma := build fresh (1 / 2 * degrees) (1 / 2).
  Definition setDegrees (d : gamma) (degrees : R) : outcome gamma := setShape d (degrees * (1 / 2)).
  Definition getDegrees (d : gamma) : R := shape d * 2.
End Functions.
