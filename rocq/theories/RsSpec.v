(** * What the times and covariances of a rolling shutter have to be *)
From Coquelicot Require Import Coquelicot.
From Coq Require Import Reals List ZArith.
From Verif Require Import Base TimeModel TimeSpec KinModel KinCurve TfModel DistModel DistSpec PinModel BsplModel BpModel RpeModel.
Local Open Scope R_scope.

(** The instant in seconds at which the row of [y] is exposed. *)
Definition exposure (stamp : time) (delay : R) (y : v2) : R := IZR (ns_time stamp) / 10 ^ 9 + delay * u1 y.

(** The camera looks from the pose of the curve at the time of the row of the
    measurement at the fixed landmark [l]; the measurement is [y] and the row of
    [y0] is exposed at [t].  The residual of that measurement. *)
Definition residual (cam : camera) (delay : R) (K : rotk) (b : bspline) (t : R) (y0 : v2) (l : v4) (y : v2) : res v2 :=
  match inverse_transformation K b (t + delay * (u1 y - u1 y0)) with
  | Ok Ti => rbind (camera_image cam (m4_vec Ti l)) (fun h => Val (v2_sub y h))
  | _ => Unset
  end.
(** [A] is the derivative of the residual with respect to the measurement. *)
Definition residual_jacobian (cam : camera) (delay : R) (K : rotk) (b : bspline) (t : R) (y0 : v2) (l : v4) (A : m2) : Prop :=
  forall dy, v2_rderive (fun s => residual cam delay K b t y0 l (v2_add y0 (v2_scale s dy))) 0 (m2_vec A dy).
(** The identity plus [j] in the column of the row coordinate. *)
Definition columns (j : v2) : m2 := M2 1 (u0 j) 0 (1 + u1 j).
