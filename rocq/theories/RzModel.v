(** * Uniform distributions and random samples

    /repo/aslam_incremental_calibration/aslam_incremental_calibration/include/
    aslam_incremental_calibration/statistics/UniformDistribution1v.tpp,
    UniformDistributionMv.tpp and Randomizer.tpp.

    Simplifications: [double] is modelled by the real numbers and integers are not bounded.
    random() is the list of the numbers it will return, between 0 and RAND_MAX = 2^31 - 1
    (glibc); [None] is a sampler that has used up the list and still wants another number.
    sampleGamma and the seeding are left out. *)
From Coq Require Import Reals List ZArith Bool.
From Verif Require Import Base.
Import ListNotations.
Local Open Scope R_scope.

(** ** UniformDistribution<X>, X real or an integer type *)
Record uniform (X A : Type) := Uniform { least : X; greatest : X; area : A }.
Arguments Uniform {X A}. Arguments least {X A}. Arguments greatest {X A}. Arguments area {X A}.
(** setSupport: UniformDistribution1v.tpp 78-92, with getSupportArea, 177-191. *)
Definition supportR (lo hi : R) : outcome (uniform R R) :=
  if Rle_dec hi lo then Throw else Ok (Uniform lo hi (hi - lo)).
Definition supportZ (lo hi : Z) : outcome (uniform Z Z) :=
  if (hi <=? lo)%Z then Throw else Ok (Uniform lo hi (hi - lo + 1)%Z).
(** setMinSupport, setMaxSupport: 94-117. *)
Definition setLeast (d : uniform R R) (lo : R) := supportR lo (greatest d).
Definition setGreatest (d : uniform R R) (hi : R) := supportR (least d) hi.
(** pdf and pmf: 125-136. *)
Definition densityR (d : uniform R R) (x : R) : R :=
  if Rle_dec (least d) x then (if Rle_dec x (greatest d) then 1 / area d else 0) else 0.
Definition massZ (d : uniform Z Z) (x : Z) : R :=
  if ((least d <=? x) && (x <=? greatest d))%Z%bool then 1 / IZR (area d) else 0.
(** getMean and getMedian: 146-156. *)
Definition meanR (d : uniform R R) : R := 1 / 2 * (greatest d - least d).
Definition meanZ (d : uniform Z Z) : R := 1 / 2 * IZR (greatest d - least d).
(** getVariance: 165-169, 193-209. *)
Definition varianceR (d : uniform R R) : R := (greatest d - least d) * (greatest d - least d) / 12.
Definition varianceZ (d : uniform Z Z) : R :=
  let a := IZR (greatest d - least d + 1) in (a * a - 1) / 12.

(** ** UniformDistribution<X, M>, X real: the bounds of each number *)
Definition box := list (R * R).
(** setSupport, getSupportArea: UniformDistributionMv.tpp 83-97, 182-191. *)
Definition supportM (b : box) : outcome box :=
  if existsb (fun p => if Rle_dec (snd p) (fst p) then true else false) b then Throw else Ok b.
Definition volume (b : box) : R := fold_left (fun a p => a * (snd p - fst p)) b 1.
(** pdf: 127-134. *)
Definition densityM (b : box) (x : list R) : R :=
  if forallb (fun px => if Rle_dec (snd px) (snd (fst px)) then true else false) (combine b x) &&
     forallb (fun px => if Rle_dec (fst (fst px)) (snd px) then true else false) (combine b x)
  then 1 / volume b else 0.
(** getCovariance: 176-178, 204-217. *)
Definition covarianceM (b : box) (i j : nat) : R :=
  volume b * volume b / 12 * (if (i =? j)%nat then 1 else 0).

(** ** Randomizer<T, M> *)
Definition rmax : Z := 2147483647.
(** ::round *)
Definition round_away (x : R) : Z := if Rle_dec 0 x then Int_part (x + 1 / 2) else (- Int_part (- x + 1 / 2))%Z.
(** sampleUniform: Randomizer.tpp 98-108. *)
Definition uniformR (lo hi : R) (r : Z) : outcome R :=
  if Rle_dec hi lo then Throw else Ok (lo + IZR r / IZR rmax * (hi - lo)).
Definition uniformZ (lo hi : Z) (r : Z) : outcome Z :=
  if (hi <=? lo)%Z then Throw else Ok (lo + round_away (IZR r / IZR rmax * IZR (hi - lo)))%Z.
(** sampleUniform() of a real or an integer type. *)
Inductive scalar := Real | Integer.
Definition unit (T : scalar) (r : Z) : R :=
  match T with
  | Real => IZR r / IZR rmax
  | Integer => IZR (round_away (IZR r / IZR rmax))
  end.
(** sampleNormal: 110-125. *)
Fixpoint normalLoop (T : scalar) (mean variance : R) (draws : list Z) : option (R * list Z) :=
  match draws with
  | r1 :: r2 :: rest =>
      let u := 2 * unit T r1 - 1 in
      let v := 2 * unit T r2 - 1 in
      let s := u * u + v * v in
      if Rle_dec 1 s then normalLoop T mean variance rest
      else if Req_EM_T s 0 then normalLoop T mean variance rest
      else
        let x := mean + sqrt variance * u * sqrt ((-2) * ln s / s) in
        Some (match T with Real => x | Integer => IZR (round_away x) end, rest)
  | _ => None
  end.
Definition sampleNormal (T : scalar) (mean variance : R) (draws : list Z) : outcome (option (R * list Z)) :=
  if Rle_dec variance 0 then Throw else Ok (normalLoop T mean variance draws).
(** sampleCategorical: 127-147; [i] is the index tried, [sum] the probability up to it. *)
Fixpoint categoricalLoop (u sum : R) (i : nat) (ps : list R) : nat :=
  match ps with
  | [] => i
  | p :: ps => if Rlt_dec sum u then categoricalLoop u (sum + p) (S i) ps else i
  end.
Definition sampleCategorical (ps : list R) (r : Z) : outcome nat :=
  if Rlt_dec (1 / 1000000000000) (Rabs (fold_left Rplus ps 0 - 1)) then Throw
  else if existsb (fun p => if Rlt_dec p 0 then true else false) ps then Throw
  else match ps with
       | [] => UB
       | p :: ps => Ok (categoricalLoop (unit Real r) p 0 ps)
       end.
(** samplePoisson: 149-164; [k] and [p] before the body of the loop. *)
Fixpoint poissonLoop (l p : R) (k : nat) (draws : list Z) : option (nat * list Z) :=
  match draws with
  | [] => None
  | r :: rest =>
      let p := p * unit Real r in
      if Rlt_dec l p then poissonLoop l p (S k) rest else Some (k, rest)
  end.
Definition samplePoisson (mean : R) (draws : list Z) : outcome (option (nat * list Z)) :=
  if Rle_dec mean 0 then Throw else Ok (poissonLoop (exp (- mean)) 1 0 draws).
(** The loops of sampleExponential and sampleGeometric: 173-177, 187-191. *)
Fixpoint nonzero (draws : list Z) : option (R * list Z) :=
  match draws with
  | [] => None
  | r :: rest => if Req_EM_T (unit Real r) 0 then nonzero rest else Some (unit Real r, rest)
  end.
(** sampleExponential: 166-179. *)
Definition sampleExponential (rate : R) (draws : list Z) : outcome (option (R * list Z)) :=
  if Rle_dec rate 0 then Throw
  else Ok (match nonzero draws with Some (u, rest) => Some (- ln u / rate, rest) | None => None end).
(** sampleGeometric: 181-193; for probability 1 the divisor is minus infinity and the
    result 0. *)
Definition sampleGeometric (probability : R) (draws : list Z) : outcome (option (Z * list Z)) :=
  if Rle_dec probability 0 then Throw
  else if Rlt_dec 1 probability then Throw
  else Ok (match nonzero draws with
           | Some (u, rest) =>
               Some (if Req_EM_T probability 1 then 0%Z else Int_part (ln u / ln (1 - probability)), rest)
           | None => None
           end).
