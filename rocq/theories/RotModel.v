(** * Model of the three-parameter rotations of sm_kinematics

    Models EulerAnglesZYX.cpp, EulerAnglesYawPitchRoll.cpp, EulerAnglesZXY.cpp,
    EulerRodriguez.cpp and RotationVector.cpp, over the reals as in KinModel.
    The optional output [S] of parametersToRotationMatrix is always the value
    of parametersToSMatrix, so it is not a separate result here.  A 3x6
    Jacobian is the pair of its 3x3 blocks. *)

From Coq Require Import Reals.
From Verif Require Import KinModel.
Local Open Scope R_scope.

(** ** EulerAnglesZYX.cpp *)

(** lines 12-35 *)
Definition zyx_C (p : v3) : m3 :=
  let cx := cos (- x2 p) in let sx := sin (- x2 p) in
  let cy := cos (- x1 p) in let sy := sin (- x1 p) in
  let cz := cos (- x0 p) in let sz := sin (- x0 p) in
  M3 (cz*cy) (- sz*cx+cz*sy*sx) (sz*sx+cz*sy*cx)
     (sz*cy) (cz*cx+sz*sy*sx) (- cz*sx+sz*sy*cx)
     (- sy) (cy*sx) (cy*cx).

(** lines 37-49 *)
Definition zyx_params (C : m3) : v3 :=
  let phi := asin (m20 C) in
  let theta := atan2 (m21 C) (m22 C) in
  let psi := atan2 (m10 C) (m00 C) in
  V3 (- psi) phi (- theta).

(** lines 60-69 and 51-58 *)
Definition zyx_buildS (sz cz sy cy : R) : m3 :=
  M3 0 (- sz) (cy*cz)  0 cz (cy*sz)  1 0 (- sy).
Definition zyx_S (p : v3) : m3 :=
  zyx_buildS (sin (- x0 p)) (cos (- x0 p)) (sin (- x1 p)) (cos (- x1 p)).

(** lines 71-96 *)
Definition zyx_omega (p pdot : v3) : v3 := m3_vec (zyx_S p) pdot.
Definition zyx_J (p pdot : v3) : m3 * m3 :=
  let cy := cos (- x1 p) in let sy := sin (- x1 p) in
  let cz := cos (- x0 p) in let sz := sin (- x0 p) in
  (M3 (cz*x1 pdot + cy*sz*x2 pdot) (cz*sy*x2 pdot) 0
      (sz*x1 pdot - cz*cy*x2 pdot) (sz*sy*x2 pdot) 0
      0 (cy*x2 pdot) 0,
   zyx_buildS sz cz sy cy).

(** ** EulerAnglesYawPitchRoll.cpp *)

(** lines 12-35 *)
Definition ypr_C (p : v3) : m3 :=
  let cx := cos (x2 p) in let sx := sin (x2 p) in
  let cy := cos (x1 p) in let sy := sin (x1 p) in
  let cz := cos (x0 p) in let sz := sin (x0 p) in
  M3 (cz*cy) (- sz*cx+cz*sy*sx) (sz*sx+cz*sy*cx)
     (sz*cy) (cz*cx+sz*sy*sx) (- cz*sx+sz*sy*cx)
     (- sy) (cy*sx) (cy*cx).

(** lines 37-49 *)
Definition ypr_params (C : m3) : v3 :=
  let phi := asin (- m20 C) in
  let theta := atan2 (m21 C) (m22 C) in
  let psi := atan2 (m10 C) (m00 C) in
  V3 psi phi theta.

(** lines 60-69 and 51-58 *)
Definition ypr_buildS (sz cz sy cy : R) : m3 :=
  M3 0 sz (- cy*cz)  0 (- cz) (- cy*sz)  (-1) 0 sy.
Definition ypr_S (p : v3) : m3 :=
  ypr_buildS (sin (x0 p)) (cos (x0 p)) (sin (x1 p)) (cos (x1 p)).

(** lines 71-96 *)
Definition ypr_omega (p pdot : v3) : v3 := m3_vec (ypr_S p) pdot.
Definition ypr_J (p pdot : v3) : m3 * m3 :=
  let cy := cos (x1 p) in let sy := sin (x1 p) in
  let cz := cos (x0 p) in let sz := sin (x0 p) in
  (M3 (cz*x1 pdot + cy*sz*x2 pdot) (cz*sy*x2 pdot) 0
      (sz*x1 pdot - cz*cy*x2 pdot) (sz*sy*x2 pdot) 0
      0 (cy*x2 pdot) 0,
   ypr_buildS sz cz sy cy).

(** ** EulerAnglesZXY.cpp *)

(** lines 51-65 *)
Definition zxy_C (p : v3) : m3 :=
  let cx := cos (x1 p) in let sx := sin (x1 p) in
  let cy := cos (x2 p) in let sy := sin (x2 p) in
  let cz := cos (x0 p) in let sz := sin (x0 p) in
  M3 (cz*cy - sz*sx*sy) (- sz*cx) (cz*sy + sz*sx*cy)
     (sz*cy + cz*sx*sy) (cz*cx) (sz*sy - cz*sx*cy)
     (- cx*sy) sx (cx*cy).

(** lines 67-74 *)
Definition zxy_params (C : m3) : v3 :=
  V3 (atan2 (- m01 C) (m11 C)) (asin (m21 C)) (atan2 (- m20 C) (m22 C)).

(** lines 76-86 *)
Definition zxy_S (p : v3) : m3 :=
  let cx := cos (x1 p) in let sx := sin (x1 p) in
  let cz := cos (x0 p) in let sz := sin (x0 p) in
  M3 0 (- cz) (cx*sz)  0 (- sz) (- cx*cz)  (-1) 0 (- sx).

(** lines 88-106 *)
Definition zxy_omega (p pdot : v3) : v3 := m3_vec (zxy_S p) pdot.
Definition zxy_J (p pdot : v3) : m3 * m3 :=
  let cx := cos (x1 p) in let sx := sin (x1 p) in
  let cz := cos (x0 p) in let sz := sin (x0 p) in
  (M3 (sz*x1 pdot + cx*cz*x2 pdot) (- sx*sz*x2 pdot) 0
      (- cz*x1 pdot + cx*sz*x2 pdot) (sx*cz*x2 pdot) 0
      0 (- cx*x2 pdot) 0,
   zxy_S p).

(** ** EulerRodriguez.cpp *)

(** lines 11-25 *)
Definition er_C (p : v3) : m3 :=
  let X := crossMx p in
  m3_add m3_I (m3_scale (2 / (1 + v3_dot p p)) (m3_sub (m3_mul X X) X)).

(** lines 27-51; the arccosine is of a value in [-1,1] for a rotation *)
Definition er_params (C : m3) : v3 :=
  let a := acos ((m00 C + m11 C + m22 C - 1) * (1/2)) in
  if ltb (Rabs a) (1 / 10 ^ 14) then v3_zero else
  let p := V3 (m21 C - m12 C) (m02 C - m20 C) (m10 C - m01 C) in
  let n2 := v3_norm p in
  if ltb n2 (1 / 10 ^ 14) then v3_zero else
  v3_scale (- tan (1/2 * a) / n2) p.

(** lines 53-60 *)
Definition er_S (p : v3) : m3 :=
  m3_scale (2 / (1 + v3_dot p p)) (m3_sub m3_I (crossMx p)).

(** lines 62-84 *)
Definition er_omega (p pdot : v3) : v3 :=
  let rd := 1 / (1 + v3_dot p p) in
  m3_vec (m3_scale (2 * rd) (m3_sub m3_I (crossMx p))) pdot.
Definition er_J (p pdot : v3) : m3 * m3 :=
  let X := crossMx p in
  let rd := 1 / (1 + v3_dot p p) in
  let f := 2 * rd in
  let a := v3_scale (-4 * rd * rd) p in
  (m3_add (m3_sub (m3_outer pdot a) (m3_outer (m3_vec X pdot) a)) (m3_scale f (crossMx pdot)),
   m3_scale f (m3_sub m3_I X)).

(** ** RotationVector.cpp *)

(** lines 10-55 *)
Definition rv_C (p : v3) : m3 :=
  let angle := v3_norm p in
  if ltb angle (1 / 10 ^ 14) then m3_I else
  let axis := v3_scale (1 / angle) p in
  let ax := x0 axis in let ay := x1 axis in let az := x2 axis in
  let sa := sin angle in let ca := cos angle in
  let ax2 := ax*ax in let ay2 := ay*ay in let az2 := az*az in
  M3 (ax2+ca*(1-ax2)) (ax*ay-ca*ax*ay+sa*az) (ax*az-ca*ax*az-sa*ay)
     (ax*ay-ca*ax*ay-sa*az) (ay2+ca*(1-ay2)) (ay*az-ca*ay*az+sa*ax)
     (ax*az-ca*ax*az+sa*ay) (ay*az-ca*ay*az-sa*ax) (az2+ca*(1-az2)).

(** lines 57-80 *)
Definition rv_params (C : m3) : v3 :=
  let tr := Rmax (-1) (Rmin ((m00 C + m11 C + m22 C - 1) * (1/2)) 1) in
  let a := acos tr in
  if ltb (Rabs a) (1 / 10 ^ 14) then v3_zero else
  let p := V3 (m21 C - m12 C) (m02 C - m20 C) (m10 C - m01 C) in
  let n2 := v3_norm p in
  if ltb (Rabs n2) (1 / 10 ^ 14) then v3_zero else
  v3_scale (- a / n2) p.

(** lines 82-106 *)
Definition rv_S (p : v3) : m3 :=
  let angle := v3_norm p in
  if ltb angle (1 / 10 ^ 14) then m3_I else
  let recip_angle := 1 / angle in
  let axis := v3_scale recip_angle p in
  let st2 := sin (angle * (1/2)) in
  let st := sin angle in
  let c1 := -2 * st2 * st2 * recip_angle in
  let c2 := (angle - st) * recip_angle in
  let crossA := crossMx axis in
  m3_add (m3_add m3_I (m3_scale c1 crossA)) (m3_mul (m3_scale c2 crossA) crossA).

(** lines 109-183.  pow(x, 3/2) and pow(x, 5/2) for x >= 0. *)
Definition rv_omega (p pdot : v3) : v3 := m3_vec (rv_S p) pdot.
Definition pow32 (x : R) : R := x * sqrt x.
Definition pow52 (x : R) : R := x * x * sqrt x.

(** The generated expressions of lines 127-176, variable by variable.
    [None]: line 143 divides by pow(0, 5/2). *)
Definition rv_J (p pdot : v3) : option (m3 * m3) :=
  let t1 := x0 p in
  let t2 := x1 p in
  let t3 := x2 p in
  let dt1 := x0 pdot in
  let dt2 := x1 pdot in
  let dt3 := x2 pdot in
  let t5 := t1*t1 in
  let t6 := t2*t2 in
  let t7 := t3*t3 in
  let t8 := t5+t6+t7 in
  if eqb t8 0 then None else
  let t9 := pow32 t8 in
  let t10 := sqrt t8 in
  let t11 := sin t10 in
  let t12 := cos t10 in
  let t13 := t12*(1/2) in
  let t14 := t13-1/2 in
  let t15 := 1/(pow52 t8) in
  let t16 := dt3*t14*t9*2 in
  let t17 := dt3*t1*t11*t2*t3*3 in
  let t18 := dt3*t3*t9 in
  let t19 := dt1*t1*t10*t6*2 in
  let t20 := dt2*t11*t2*t5*3 in
  let t21 := dt1*t1*t10*t12*t6 in
  let t22 := dt2*t14*t9*2 in
  let t23 := dt2*t1*t10*t2*t3*2 in
  let t24 := dt2*t1*t10*t12*t2*t3 in
  let t25 := dt1*t14*t9*2 in
  let t26 := dt1*t1*t11*t2*t3*3 in
  let t27 := dt1*t1*t9 in
  let t28 := dt2*t2*t9 in
  let t29 := dt1*t1*t10*t7*2 in
  let t30 := dt2*t10*t2*t7*2 in
  let t31 := dt3*t11*t3*t5*3 in
  let t32 := dt3*t11*t3*t6*3 in
  let t33 := dt2*t1*t11*t3*t8 in
  let t34 := dt2*t1*t10*t14*t3*4 in
  let t35 := dt1*t1*t10*t12*t7 in
  let t36 := dt2*t10*t12*t2*t7 in
  let t0 := t15*(t18+t19+t20+t21+t28+t29+t31+t33+t34+t35-dt1*t1*t11*t6*3-dt2*t10*t2*t5*2-dt1*t1*t11*t7*3-dt3*t10*t3*t5*2-dt2*t11*t2*t8-dt3*t11*t3*t8-dt3*t1*t10*t14*t2*4-dt2*t10*t12*t2*t5-dt3*t10*t12*t3*t5-dt3*t1*t11*t2*t8) in
  Some (M3
    (t0)
    (t15*(t16+t17+dt2*t1*t9-dt1*t2*t9*2-dt2*t1*t10*t6*2+dt2*t1*t11*t6*3-dt3*t10*t14*t6*4+dt1*t10*t2*t6*2-dt1*t11*t2*t6*3+dt1*t10*t2*t7*2-dt1*t11*t2*t7*3-dt2*t1*t11*t8+dt1*t11*t2*t8*2-dt3*t11*t6*t8-dt3*t1*t10*t2*t3*2+dt2*t10*t14*t2*t3*4-dt2*t1*t10*t12*t6+dt1*t10*t12*t2*t6+dt1*t10*t12*t2*t7+dt2*t11*t2*t3*t8-dt3*t1*t10*t12*t2*t3))
    (- t15*(t22+t23+t24-dt3*t1*t9+dt1*t3*t9*2+dt3*t1*t10*t7*2-dt3*t1*t11*t7*3-dt2*t10*t14*t7*4-dt1*t10*t3*t6*2+dt1*t11*t3*t6*3+dt3*t1*t11*t8-dt1*t10*t3*t7*2+dt1*t11*t3*t7*3-dt1*t11*t3*t8*2-dt2*t11*t7*t8-dt2*t1*t11*t2*t3*3+dt3*t10*t14*t2*t3*4+dt3*t1*t10*t12*t7-dt1*t10*t12*t3*t6-dt1*t10*t12*t3*t7+dt3*t11*t2*t3*t8))
    (- t15*(t16-t17+dt2*t1*t9*2-dt1*t2*t9-dt2*t1*t10*t5*2+dt2*t1*t11*t5*3-dt3*t10*t14*t5*4+dt1*t10*t2*t5*2-dt1*t11*t2*t5*3-dt2*t1*t10*t7*2+dt2*t1*t11*t7*3-dt2*t1*t11*t8*2+dt1*t11*t2*t8-dt3*t11*t5*t8+dt1*t1*t10*t14*t3*4+dt3*t1*t10*t2*t3*2-dt2*t1*t10*t12*t5+dt1*t10*t12*t2*t5-dt2*t1*t10*t12*t7+dt1*t1*t11*t3*t8+dt3*t1*t10*t12*t2*t3))
    (t15*(t18-t19-t20-t21+t27+t30+t32+t36+dt1*t1*t11*t6*3+dt2*t10*t2*t5*2-dt1*t1*t11*t8-dt2*t11*t2*t7*3-dt3*t10*t3*t6*2-dt3*t11*t3*t8+dt3*t1*t10*t14*t2*4-dt1*t10*t14*t2*t3*4+dt2*t10*t12*t2*t5-dt3*t10*t12*t3*t6+dt3*t1*t11*t2*t8-dt1*t11*t2*t3*t8))
    (t15*(t25+t26+dt3*t2*t9-dt2*t3*t9*2+dt2*t10*t3*t5*2-dt2*t11*t3*t5*3-dt1*t10*t14*t7*4-dt3*t10*t2*t7*2+dt3*t11*t2*t7*3+dt2*t10*t3*t7*2-dt2*t11*t3*t7*3-dt3*t11*t2*t8+dt2*t11*t3*t8*2-dt1*t11*t7*t8+dt3*t1*t10*t14*t3*4-dt1*t1*t10*t2*t3*2+dt2*t10*t12*t3*t5-dt3*t10*t12*t2*t7+dt2*t10*t12*t3*t7+dt3*t1*t11*t3*t8-dt1*t1*t10*t12*t2*t3))
    (t15*(t22-t23-t24-dt3*t1*t9*2+dt1*t3*t9+dt3*t1*t10*t5*2-dt3*t1*t11*t5*3-dt2*t10*t14*t5*4+dt3*t1*t10*t6*2-dt3*t1*t11*t6*3-dt1*t10*t3*t5*2+dt1*t11*t3*t5*3+dt3*t1*t11*t8*2-dt1*t11*t3*t8-dt2*t11*t5*t8+dt1*t1*t10*t14*t2*4+dt2*t1*t11*t2*t3*3+dt3*t1*t10*t12*t5+dt3*t1*t10*t12*t6-dt1*t10*t12*t3*t5+dt1*t1*t11*t2*t8))
    (- t15*(t25-t26+dt3*t2*t9*2-dt2*t3*t9-dt3*t10*t2*t5*2+dt3*t11*t2*t5*3-dt1*t10*t14*t6*4-dt3*t10*t2*t6*2+dt3*t11*t2*t6*3+dt2*t10*t3*t6*2-dt2*t11*t3*t6*3-dt3*t11*t2*t8*2+dt2*t11*t3*t8-dt1*t11*t6*t8+dt2*t1*t10*t14*t2*4+dt1*t1*t10*t2*t3*2-dt3*t10*t12*t2*t5-dt3*t10*t12*t2*t6+dt2*t10*t12*t3*t6+dt2*t1*t11*t2*t8+dt1*t1*t10*t12*t2*t3))
    (t15*(t27+t28-t29-t30-t31-t32-t33-t34-t35-t36+dt1*t1*t11*t7*3+dt3*t10*t3*t5*2-dt1*t1*t11*t8+dt2*t11*t2*t7*3+dt3*t10*t3*t6*2-dt2*t11*t2*t8+dt1*t10*t14*t2*t3*4+dt3*t10*t12*t3*t5+dt3*t10*t12*t3*t6+dt1*t11*t2*t3*t8))
   , rv_S p).

(** lines 186-201.  [None]: phi is not zero but cos(phi) is one, so line 196
    divides by zero. *)
Definition rv_invS (p : v3) : option m3 :=
  let phi := sqrt (v3_dot p p) in
  if eqb phi 0 then Some m3_I else
  if eqb (cos phi - 1) 0 then None else
  let cot := - sin phi / (cos phi - 1) in
  let a1 := 1 / (phi*phi) * (1 - 1/2*phi*cot) in
  let X := crossMx p in
  Some (m3_add (m3_add m3_I (m3_scale (1/2) X)) (m3_mul (m3_scale a1 X) X)).

(** ** rotations.cpp:160-162.  boost::math::round rounds halves away from zero;
    its overflow error is not modelled (the argument is a real). *)
Definition round_away (x : R) : Z :=
  if ltb x 0 then (- Int_part (- x + 1/2))%Z else Int_part (x + 1/2).
Definition angleMod (a : R) : R := a - 2 * PI * IZR (round_away (a / (2 * PI))).
