(** * Model of the lens distortions of aslam_cameras

    Models aslam_cv/aslam_cameras/include/aslam_cameras/cameras/implementation/
    NoDistortion.hpp, RadialTangentialDistortion.hpp, EquidistantDistortion.hpp,
    FovDistortion.hpp and the matching .cpp files in aslam_cv/aslam_cameras/src.

    Simplification throughout: C++ [double] is modelled by the real numbers,
    so rounding, overflow and signed zeros are not modelled; a value the C++
    code computes as 0/0 or x/0 is [NotFinite].  The C++ functions overwrite
    their argument; the model returns the new value. *)

From Coq Require Import Reals List.
From Verif Require Import KinModel.
Import ListNotations.
Local Open Scope R_scope.

(** What a call leaves in an output argument: a value, a NaN or infinity,
    nothing (the argument is not written), or an exception instead. *)
Inductive res (A : Type) := Val (a : A) | NotFinite | Unset | Throws.
Arguments Val {A} a.
Arguments NotFinite {A}.
Arguments Unset {A}.
Arguments Throws {A}.

Definition rbind {A B} (m : res A) (f : A -> res B) : res B :=
  match m with Val a => f a | NotFinite => NotFinite | Unset => Unset | Throws => Throws end.

(** Eigen::Vector2d and Eigen::Matrix2d, [nij] is row i, column j. *)
Record v2 := V2 { u0 : R; u1 : R }.
Record m2 := M2 { n00 : R; n01 : R; n10 : R; n11 : R }.

Definition v2_add (a b : v2) := V2 (u0 a + u0 b) (u1 a + u1 b).
Definition v2_sub (a b : v2) := V2 (u0 a - u0 b) (u1 a - u1 b).
Definition v2_scale (s : R) (a : v2) := V2 (s * u0 a) (s * u1 a).
Definition v2_dot (a b : v2) := u0 a * u0 b + u1 a * u1 b.
Definition v2_norm (a : v2) := sqrt (v2_dot a a).
Definition m2_I := M2 1 0 0 1.
Definition m2_scale (s : R) (A : m2) := M2 (s * n00 A) (s * n01 A) (s * n10 A) (s * n11 A).
Definition m2_vec (A : m2) (v : v2) := V2 (n00 A * u0 v + n01 A * u1 v) (n10 A * u0 v + n11 A * u1 v).
Definition m2_tr (A : m2) := M2 (n00 A) (n10 A) (n01 A) (n11 A).
Definition m2_mul (A B : m2) :=
  M2 (n00 A * n00 B + n01 A * n10 B) (n00 A * n01 B + n01 A * n11 B)
     (n10 A * n00 B + n11 A * n10 B) (n10 A * n01 B + n11 A * n11 B).
Definition m2_det (A : m2) := n00 A * n11 A - n01 A * n10 A.
(** Eigen's inverse of a 2x2 matrix: the adjugate over the determinant. *)
Definition m2_inverse (A : m2) : res m2 :=
  if Req_EM_T (m2_det A) 0 then NotFinite
  else Val (m2_scale (1 / m2_det A) (M2 (n11 A) (- n01 A) (- n10 A) (n00 A))).

(** The interface of the DISTORTION_T template parameter of the projections.
    [paramJ] is the Jacobian with respect to the parameters, by columns. *)
Record distortion := Distortion {
  distort : v2 -> v2;
  distortJ : v2 -> v2 * res m2;
  undistort : v2 -> res v2;
  undistortJ : v2 -> res (v2 * m2);
  paramJ : v2 -> res (list v2) }.

(** ** NoDistortion.hpp 4-57 *)
Definition nodist : distortion :=
  Distortion (fun y => y) (fun y => (y, Val m2_I)) (fun y => Val y) (fun y => Val (y, m2_I))
             (fun _ => Val []).

(** ** RadialTangentialDistortion.hpp *)
Record rt := RT { rk1 : R; rk2 : R; rp1 : R; rp2 : R }.

(** lines 4-25 *)
Definition rt_distort (D : rt) (y : v2) : v2 :=
  let mx2 := u0 y * u0 y in
  let my2 := u1 y * u1 y in
  let mxy := u0 y * u1 y in
  let rho2 := mx2 + my2 in
  let rad := rk1 D * rho2 + rk2 D * rho2 * rho2 in
  V2 (u0 y + (u0 y * rad + 2 * rp1 D * mxy + rp2 D * (rho2 + 2 * mx2)))
     (u1 y + (u1 y * rad + 2 * rp2 D * mxy + rp1 D * (rho2 + 2 * my2))).

(** lines 27-65, the matrix *)
Definition rt_J (D : rt) (y : v2) : m2 :=
  let mx2 := u0 y * u0 y in
  let my2 := u1 y * u1 y in
  let rho2 := mx2 + my2 in
  let rad := rk1 D * rho2 + rk2 D * rho2 * rho2 in
  let j00 := 1 + rad + rk1 D * 2 * mx2 + rk2 D * rho2 * 4 * mx2 + 2 * rp1 D * u1 y + 6 * rp2 D * u0 y in
  let j10 := rk1 D * 2 * u0 y * u1 y + rk2 D * 4 * rho2 * u0 y * u1 y + rp1 D * 2 * u0 y + 2 * rp2 D * u1 y in
  let j11 := 1 + rad + rk1 D * 2 * my2 + rk2 D * rho2 * 4 * my2 + 6 * rp1 D * u1 y + 2 * rp2 D * u0 y in
  M2 j00 j10 j10 j11.

(** lines 83-97: [n] iterations of Gauss-Newton from [ybar]; the step is
    taken before the test of the residual. *)
Fixpoint rt_iterate (n : nat) (D : rt) (y ybar : v2) : res v2 :=
  match n with
  | O => Val ybar
  | S n' =>
      let F := rt_J D ybar in
      let e := v2_sub y (rt_distort D ybar) in
      rbind (m2_inverse (m2_mul (m2_tr F) F)) (fun I =>
        let du := m2_vec (m2_mul I (m2_tr F)) e in
        let ybar' := v2_add ybar du in
        if ltb (v2_dot e e) (1 / 10 ^ 15) then Val ybar' else rt_iterate n' D y ybar')
  end.

(** lines 67-100 *)
Definition rt_undistort (D : rt) (y : v2) : res v2 := rt_iterate 5 D y y.

(** lines 102-150 *)
Definition rt_undistortJ (D : rt) (y : v2) : res (v2 * m2) :=
  rbind (rt_undistort D y) (fun y' =>
  rbind (m2_inverse (rt_J D y')) (fun J => Val (y', J))).

(** lines 152-182 *)
Definition rt_paramJ (y : v2) : list v2 :=
  let y0 := u0 y in let y1 := u1 y in
  let r2 := y0 * y0 + y1 * y1 in
  let r4 := r2 * r2 in
  [V2 (y0 * r2) (y1 * r2); V2 (y0 * r4) (y1 * r4);
   V2 (2 * y0 * y1) (r2 + 2 * y1 * y1); V2 (r2 + 2 * y0 * y0) (2 * y0 * y1)].

Definition radtan (D : rt) : distortion :=
  Distortion (rt_distort D) (fun y => (rt_distort D y, Val (rt_J D y)))
             (rt_undistort D) (rt_undistortJ D) (fun y => Val (rt_paramJ y)).

(** src/RadialTangentialDistortion.cpp 38-43, 49-62.  The vector [v] of the
    C++ code is a list here and is read only up to its fourth element. *)
Definition rt_update (D : rt) (v : list R) : rt :=
  RT (rk1 D + nth 0 v 0) (rk2 D + nth 1 v 0) (rp1 D + nth 2 v 0) (rp2 D + nth 3 v 0).
Definition rt_get (D : rt) : list R := [rk1 D; rk2 D; rp1 D; rp2 D].
Definition rt_set (v : list R) : rt := RT (nth 0 v 0) (nth 1 v 0) (nth 2 v 0) (nth 3 v 0).

(** ** EquidistantDistortion.hpp *)
Record eqd := EQ { ek1 : R; ek2 : R; ek3 : R; ek4 : R }.

(** The polynomial 1 + k1 t^2 + k2 t^4 + k3 t^6 + k4 t^8 as the C++ code
    computes it (lines 19-24, 173-178, 200-205). *)
Definition eq_poly (D : eqd) (t : R) : R :=
  let t2 := t * t in
  let t4 := t2 * t2 in
  let t6 := t4 * t2 in
  let t8 := t4 * t4 in
  1 + ek1 D * t2 + ek2 D * t4 + ek3 D * t6 + ek4 D * t8.

(** lines 4-29 *)
Definition eq_distort (D : eqd) (y : v2) : v2 :=
  let r := sqrt (u0 y * u0 y + u1 y * u1 y) in
  let theta := atan r in
  let thetad := theta * eq_poly D theta in
  let scaling := if Rlt_dec (1 / 10 ^ 8) r then thetad / r else 1 in
  V2 (u0 y * scaling) (u1 y * scaling).

(** lines 53-169, the "MATLAB generated Jacobian".  Simplification: the
    repeated subexpressions sqrt(y0^2+y1^2), its arctangent, the polynomial
    and the inner sum are named, and pow(y0^2+y1^2, 3/2) is r*r*r. *)
Definition eq_J (D : eqd) (y : v2) : res m2 :=
  let y0 := u0 y in let y1 := u1 y in
  let k1 := ek1 D in let k2 := ek2 D in let k3 := ek3 D in let k4 := ek4 D in
  let r := sqrt (y0 * y0 + y1 * y1) in
  let th := atan r in
  let P := k1 * th ^ 2 + k2 * th ^ 4 + k3 * th ^ 6 + k4 * th ^ 8 + 1 in
  let Q s := (k2 * s * th ^ 3 * 1 / r * 4) / (y0 * y0 + y1 * y1 + 1)
             + (k3 * s * th ^ 5 * 1 / r * 6) / (y0 * y0 + y1 * y1 + 1)
             + (k4 * s * th ^ 7 * 1 / r * 8) / (y0 * y0 + y1 * y1 + 1)
             + (k1 * s * th * 1 / r * 2) / (y0 * y0 + y1 * y1 + 1) in
  if Req_EM_T r 0 then NotFinite
  else Val (M2
    (th * 1 / r * P + y0 * th * 1 / r * Q y0
       + ((y0 * y0) * P) / ((y0 * y0 + y1 * y1) * (y0 * y0 + y1 * y1 + 1))
       - (y0 * y0) * th * 1 / (r * r * r) * P)
    (y0 * th * 1 / r * Q y1
       + (y0 * y1 * P) / ((y0 * y0 + y1 * y1) * (y0 * y0 + y1 * y1 + 1))
       - y0 * y1 * th * 1 / (r * r * r) * P)
    (y1 * th * 1 / r * Q y0
       + (y0 * y1 * P) / ((y0 * y0 + y1 * y1) * (y0 * y0 + y1 * y1 + 1))
       - y0 * y1 * th * 1 / (r * r * r) * P)
    (th * 1 / r * P + y1 * th * 1 / r * Q y1
       + ((y1 * y1) * P) / ((y0 * y0 + y1 * y1) * (y0 * y0 + y1 * y1 + 1))
       - (y1 * y1) * th * 1 / (r * r * r) * P)).

(** lines 199-206: [n] rounds of theta := thetad / polynomial(theta) *)
Fixpoint eq_iterate (n : nat) (D : eqd) (thetad theta : R) : res R :=
  match n with
  | O => Val theta
  | S n' => if Req_EM_T (eq_poly D theta) 0 then NotFinite
            else eq_iterate n' D thetad (thetad / eq_poly D theta)
  end.

(** lines 185-211: the scale is tan(theta)/thetad, without a test of thetad *)
Definition eq_undistort (D : eqd) (y : v2) : res v2 :=
  let thetad := sqrt (u0 y * u0 y + u1 y * u1 y) in
  rbind (eq_iterate 20 D thetad thetad) (fun theta =>
    if Req_EM_T thetad 0 then NotFinite
    else let scaling := tan theta / thetad in
         Val (V2 (u0 y * scaling) (u1 y * scaling))).

(** lines 213-241 *)
Definition eq_undistortJ (D : eqd) (y : v2) : res (v2 * m2) :=
  rbind (eq_undistort D y) (fun y' =>
  rbind (eq_J D y') (fun Jd =>
  rbind (m2_inverse Jd) (fun J => Val (y', J)))).

(** lines 243-273 *)
Definition eq_paramJ (y : v2) : res (list v2) :=
  let y0 := u0 y in let y1 := u1 y in
  let r := sqrt (y0 * y0 + y1 * y1) in
  let th := atan r in
  let col n := V2 (y0 * th ^ n * 1 / r) (y1 * th ^ n * 1 / r) in
  if Req_EM_T r 0 then NotFinite else Val [col 3%nat; col 5%nat; col 7%nat; col 9%nat].

Definition equi (D : eqd) : distortion :=
  Distortion (eq_distort D) (fun y => (eq_distort D y, eq_J D y))
             (eq_undistort D) (eq_undistortJ D) eq_paramJ.

(** src/EquidistantDistortion.cpp 33-38, 44-57 *)
Definition eq_update (D : eqd) (v : list R) : eqd :=
  EQ (ek1 D + nth 0 v 0) (ek2 D + nth 1 v 0) (ek3 D + nth 2 v 0) (ek4 D + nth 3 v 0).
Definition eq_get (D : eqd) : list R := [ek1 D; ek2 D; ek3 D; ek4 D].
Definition eq_set (v : list R) : eqd := EQ (nth 0 v 0) (nth 1 v 0) (nth 2 v 0) (nth 3 v 0).

(** ** FovDistortion.hpp *)

(** FovDistortion.hpp (class) 123-125, 146-148 *)
Definition fov_max_angle : R := 89 * PI / 180.
Definition fov_valid (w : R) : Prop := Rabs w < 1 / 10 ^ 16 \/ (1 / 2 <= w /\ w <= 3 / 2).

(** lines 37-54 and 85 *)
Definition fov_distort (w : R) (y : v2) : v2 :=
  let r := v2_norm y in
  let tanwhalf := tan (w / 2) in
  let atan_wrd := atan (2 * tanwhalf * r) in
  let r_rd := if Rlt_dec (w * w) (1 / 10 ^ 5) then 1
              else if Rlt_dec (r * r) (1 / 10 ^ 5) then 2 * tanwhalf / w
              else atan_wrd / (r * w) in
  v2_scale r_rd y.

(** lines 56-83 *)
Definition fov_J (w : R) (y : v2) : m2 :=
  let r := v2_norm y in
  let r3 := r * r * r in
  let t := tan (w / 2) in
  let tsq := t * t in
  let a := atan (2 * t * r) in
  let u := u0 y in let v := u1 y in
  if Rlt_dec (w * w) (1 / 10 ^ 5) then m2_I
  else if Rlt_dec (r * r) (1 / 10 ^ 5) then m2_scale (2 * t / w) m2_I
  else M2 (a / (w * r) - (u * u * a) / (w * r3)
             + (2 * u * u * t) / (w * (u * u + v * v) * (4 * tsq * (u * u + v * v) + 1)))
          ((2 * u * v * t) / (w * (u * u + v * v) * (4 * tsq * (u * u + v * v) + 1)) - (u * v * a) / (w * r3))
          ((2 * u * v * t) / (w * (u * u + v * v) * (4 * tsq * (u * u + v * v) + 1)) - (u * v * a) / (w * r3))
          (a / (w * r) - (v * v * a) / (w * r3)
             + (2 * v * v * t) / (w * (u * u + v * v) * (4 * tsq * (u * u + v * v) + 1))).

(** lines 88-116 *)
Definition fov_undistort (w : R) (y : v2) : res v2 :=
  let m := tan (w / 2) * 2 in
  let r_d := v2_norm y in
  if Req_EM_T m 0 then Val y
  else if Req_EM_T r_d 0 then Val y
  else if Rle_dec (Rabs (r_d * w)) fov_max_angle
       then Val (v2_scale (tan (r_d * w) / (r_d * m)) y)
       else Val y.

(** lines 130-170; lines 118-128 throw "Not implemented." *)
Definition fov_paramJ (w : R) (y : v2) : list v2 :=
  let t := tan (w / 2) in
  let tsq := t * t in
  let r := v2_norm y in
  let a := atan (2 * t * r) in
  let u := u0 y in let v := u1 y in
  if Rlt_dec (w * w) (1 / 10 ^ 5) then [V2 0 0]
  else if Rlt_dec (r * r) (1 / 10 ^ 5)
       then let c := (w - sin w) / (w * w * cos (w / 2) * cos (w / 2)) in [V2 c c]
       else [V2 ((2 * u * (tsq / 2 + 1 / 2)) / (w * (4 * tsq * r * r + 1)) - (u * a) / (w * w * r))
                ((2 * v * (tsq / 2 + 1 / 2)) / (w * (4 * tsq * r * r + 1)) - (v * a) / (w * w * r))].

Definition fov (w : R) : distortion :=
  Distortion (fov_distort w) (fun y => (fov_distort w y, Val (fov_J w y)))
             (fov_undistort w) (fun _ => Throws) (fun y => Val (fov_paramJ w y)).

(** src/FovDistortion.cpp 22-25, 36-39: the parameter is written first and
    checked afterwards, so a rejected value stays in the object. *)
Definition fov_update (w v : R) : R * bool :=
  let w' := w + v in (w', if Rlt_dec (Rabs w') (1 / 10 ^ 16) then true
                          else if Rle_dec (1 / 2) w' then (if Rle_dec w' (3 / 2) then true else false) else false).
