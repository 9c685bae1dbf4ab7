(** * The dog-leg steps of the first optimizer

    /repo/aslam_optimizer/aslam_backend/src/Optimizer.cpp, optimizeDogLeg().

    Vectors are lists of real numbers of one length.  The state of the design variables is an
    abstract value with its cost, and what applying a step leads to is an oracle.  In the rounds
    of one iteration the steepest-descent step and the Gauss-Newton step are fixed; both are
    parameters of the rounds.  Simplifications: real arithmetic (a quotient by zero is no
    number in the code; the theorems ask for a positive divisor); printing is left out. *)
From Coq Require Import Reals ZArith List Bool.
From Verif Require Import Base.
Import ListNotations.
Local Open Scope R_scope.

Definition vec := list R.
Fixpoint inner (u v : vec) : R := match u, v with x :: u, y :: v => x * y + inner u v | _, _ => 0 end.
Definition norm (v : vec) : R := sqrt (inner v v).
Fixpoint plus (u v : vec) : vec := match u, v with x :: u, y :: v => x + y :: plus u v | _, _ => [] end.
Definition scaled (a : R) (v : vec) : vec := map (Rmult a) v.
Definition minus (u v : vec) : vec := plus u (scaled (-1) v).

(** The length and the vector of steepest descent, from the right-hand side and the Hessian
    times it: Optimizer.cpp 255-261. *)
Definition descent_scale (g Hg : vec) : R := inner g g / inner Hg Hg.
Definition descent (g Hg : vec) : vec := scaled (descent_scale g Hg) g.

Inductive kind := Steepest | Newton | Between.
(** The parameter on the way to the Gauss-Newton step: Optimizer.cpp 351-366. *)
Definition interpolation (delta : R) (sd gn : vec) : R :=
  let d := minus gn sd in
  let b := inner d d in
  let c := inner sd d in
  let q := delta * delta - norm sd * norm sd in
  if Rle_dec c 0 then (- c + sqrt (c * c + b * q)) / b else q / (c + sqrt (c * c + b * q)).
(** The radius used in a round: Optimizer.cpp 337-340. *)
Definition radius (delta : R) (sd gn : vec) : R :=
  if Req_EM_T delta 0 then norm (plus sd (scaled (1 / 2) (minus gn sd))) else delta.
Definition descends (delta : R) (sd : vec) : bool :=
  (if Rle_dec delta (norm sd) then true else false) && (if Req_EM_T delta 0 then false else true).
(** The step of a round, its kind and the predicted decrease: Optimizer.cpp 277-282 and
    336-373; the factor 1/2 of the last case is an integer division. *)
Definition choose (delta J : R) (scale g2 : R) (sd gn : vec) : vec * kind * R :=
  if descends delta sd then
    (scaled (delta / norm sd) sd, Steepest, delta * (2 * norm sd - delta) / (2 * scale))
  else
    let r := radius delta sd gn in
    if Rle_dec (norm gn) r then (gn, Newton, J)
    else
      let beta := interpolation r sd gn in
      (plus sd (scaled beta (minus gn sd)), Between,
       IZR (1 / 2) * scale * (1 - beta) * (1 - beta) * g2 + beta * (2 - beta) * J).
(** The radius after a round: Optimizer.cpp 405-425. *)
Definition next_radius (r rho : R) (dx gn : vec) (k : kind) : R :=
  if Rlt_dec (3 / 4) rho then (if Rlt_dec r (3 * norm dx) then 3 * norm dx else r)
  else if Rle_dec rho 0 then match k with Newton => norm gn / 2 | _ => r / 2 end
  else if Rlt_dec rho (1 / 4) then r / 2
  else r.

Section Rounds.
Variable X : Type.
Variable cost : X -> R.
Variable move : X -> vec -> X.
Variables scale g2 : R.
Variables sd gn : vec.
Record round := Round { at_x : X; j : R; best : R; delta : R; rho : R; step : vec; sort : kind }.
(** One pass of the inner loop: Optimizer.cpp 274-449. *)
Definition pass (s : round) : round :=
  let r := if descends (delta s) sd then delta s else radius (delta s) sd gn in
  let '(dx, k, l0) := choose (delta s) (j s) scale g2 sd gn in
  let x := move (at_x s) dx in
  let rho := (best s - cost x) / l0 in
  let y := if Rlt_dec 0 rho then x else at_x s in
  let jy := cost y in
  let b := if Rlt_dec jy (best s) then jy else best s in
  Round y b b (next_radius r rho dx gn k) rho dx k.
(** The condition of the inner loop: Optimizer.cpp 449. *)
Definition again (least : R) (s : round) : bool :=
  (if Rlt_dec (rho s) 0 then true else false) && (if Rlt_dec least (delta s) then true else false).
(** The inner loop, with a bound on the passes; [true] if it has ended. *)
Fixpoint passes (fuel : nat) (least : R) (s : round) : round * bool :=
  let s := pass s in
  if again least s then match fuel with O => (s, false) | S n => passes n least s end else (s, true).
End Rounds.
Arguments at_x {X}. Arguments j {X}. Arguments best {X}. Arguments delta {X}. Arguments rho {X}. Arguments step {X}. Arguments sort {X}. Arguments Round {X}.
Arguments pass {X}. Arguments passes {X}. Arguments again {X}.
