(** * Model of the pinhole projection

    Models aslam_cv/aslam_cameras/include/aslam_cameras/cameras/implementation/
    PinholeProjection.hpp lines 55-577, over an arbitrary distortion (the
    DISTORTION_T template parameter).

    Simplification throughout: C++ [double] is modelled by the real numbers.
    A division by zero gives [NotFinite].  Output arguments become results.
    The cached [_fu_over_fv] is written but never read and is left out.
    createRandomKeypoint, createRandomVisiblePoint (they call rand) and
    getBorderRays are not modelled. *)

From Coq Require Import Reals List ZArith.
From Verif Require Import KinModel DistModel.
Import ListNotations.
Local Open Scope R_scope.

(** 2x3 and 3x2 matrices. *)
Record m23 := M23 { j00 : R; j01 : R; j02 : R; j10 : R; j11 : R; j12 : R }.
Record m32 := M32 { l00 : R; l01 : R; l10 : R; l11 : R; l20 : R; l21 : R }.
Definition m23_vec (J : m23) (d : v3) : v2 :=
  V2 (j00 J * x0 d + j01 J * x1 d + j02 J * x2 d) (j10 J * x0 d + j11 J * x1 d + j12 J * x2 d).
Definition m32_vec (K : m32) (d : v2) : v3 :=
  V3 (l00 K * u0 d + l01 K * u1 d) (l10 K * u0 d + l11 K * u1 d) (l20 K * u0 d + l21 K * u1 d).
Definition m23_opp (J : m23) : m23 := M23 (- j00 J) (- j01 J) (- j02 J) (- j10 J) (- j11 J) (- j12 J).

(** The members _fu, _fv, _cu, _cv, _ru, _rv and the cached reciprocals. *)
Record intr := Intr { fu : R; fv : R; cu : R; cv : R; ru : Z; rv : Z; recip_fu : R; recip_fv : R }.

(** updateTemporaries, lines 544-550; the constructors (lines 36-67) and
    setParameters (529-536) end with it. *)
Definition make_intr (a b c d : R) (r s : Z) : intr := Intr a b c d r s (1 / a) (1 / b).

(** isValid, lines 479-487 *)
Definition leb (a b : R) : bool := if Rle_dec a b then true else false.
Definition on_sensor (C : intr) (k : v2) : bool :=
  (leb 0 (u0 k) && leb 0 (u1 k) && ltb (u0 k) (IZR (ru C)) && ltb (u1 k) (IZR (rv C)))%bool.

(** The last step of the projections: focal lengths and image centre. *)
Definition to_pixel (C : intr) (y : v2) : v2 := V2 (fu C * u0 y + cu C) (fv C * u1 y + cv C).

(** euclideanToKeypoint, lines 73-96 *)
Definition pin_project (D : distortion) (C : intr) (p : v3) : res v2 * bool :=
  if Req_EM_T (x2 p) 0 then (NotFinite, false)
  else let rz := 1 / x2 p in
       let k := to_pixel C (distort D (V2 (x0 p * rz) (x1 p * rz))) in
       (Val k, (on_sensor C k && ltb 0 (x2 p))%bool).

(** euclideanToKeypoint with Jacobian, lines 98-143 *)
Definition pin_projectJ (D : distortion) (C : intr) (p : v3) : (res v2 * res m23) * bool :=
  if Req_EM_T (x2 p) 0 then ((NotFinite, NotFinite), false)
  else let rz := 1 / x2 p in
       let rz2 := rz * rz in
       let (kp, Jd) := distortJ D (V2 (x0 p * rz) (x1 p * rz)) in
       let J := rbind Jd (fun J => Val (M23
          (fu C * n00 J * rz) (fu C * n01 J * rz) (- fu C * (x0 p * n00 J + x1 p * n01 J) * rz2)
          (fv C * n10 J * rz) (fv C * n11 J * rz) (- fv C * (x0 p * n10 J + x1 p * n11 J) * rz2))) in
       let k := to_pixel C kp in
       ((Val k, J), (on_sensor C k && ltb 0 (x2 p))%bool).

(** homogeneousToKeypoint, lines 145-161 *)
Definition head3 (ph : v4) : v3 := V3 (q0 ph) (q1 ph) (q2 ph).
Definition neg3 (p : v3) : v3 := V3 (- x0 p) (- x1 p) (- x2 p).
Definition pin_hproject (D : distortion) (C : intr) (ph : v4) : res v2 * bool :=
  if Rlt_dec (q3 ph) 0 then pin_project D C (neg3 (head3 ph)) else pin_project D C (head3 ph).

(** homogeneousToKeypoint with Jacobian, lines 163-197: the first return
    statement (lines 183-184) makes the rest unreachable.  The fourth column
    of the Jacobian is zero and is left out. *)
Definition pin_hprojectJ (D : distortion) (C : intr) (ph : v4) : (res v2 * res m23) * bool :=
  pin_projectJ D C (head3 ph).

(** keypointToEuclidean, lines 199-225 *)
Definition pin_norm (C : intr) (k : v2) : res v2 :=
  if Req_EM_T (fu C) 0 then NotFinite else if Req_EM_T (fv C) 0 then NotFinite
  else Val (V2 ((u0 k - cu C) / fu C) ((u1 k - cv C) / fv C)).
Definition pin_lift (D : distortion) (C : intr) (k : v2) : res v3 * bool :=
  (rbind (pin_norm C k) (fun kp => rbind (undistort D kp) (fun y => Val (V3 (u0 y) (u1 y) 1))),
   on_sensor C k).

(** keypointToEuclidean with Jacobian, lines 227-272 *)
Definition pin_liftJ (D : distortion) (C : intr) (k : v2) : res (v3 * m32) * bool :=
  (rbind (pin_norm C k) (fun kp => rbind (undistortJ D kp) (fun yJ =>
     let y := fst yJ in let Jd := snd yJ in
     Val (V3 (u0 y) (u1 y) 1,
          M32 (recip_fu C * n00 Jd) (recip_fu C * n01 Jd) (recip_fv C * n10 Jd) (recip_fv C * n11 Jd) 0 0))),
   on_sensor C k).

(** keypointToHomogeneous, lines 274-292 *)
Definition pin_hlift (D : distortion) (C : intr) (k : v2) : res v4 * bool :=
  let (p, b) := pin_lift D C k in (rbind p (fun p => Val (V4 (x0 p) (x1 p) (x2 p) 0)), b).

(** euclideanToKeypointIntrinsicsJacobian, lines 321-351, by columns *)
Definition pin_intrJ (D : distortion) (p : v3) : res (list v2) :=
  if Req_EM_T (x2 p) 0 then NotFinite
  else let rz := 1 / x2 p in
       let kp := distort D (V2 (x0 p * rz) (x1 p * rz)) in
       Val [V2 (u0 kp) 0; V2 0 (u1 kp); V2 1 0; V2 0 1].
(** homogeneousToKeypointIntrinsicsJacobian, lines 377-397 *)
Definition pin_hintrJ (D : distortion) (ph : v4) : res (list v2) :=
  if Rlt_dec (q3 ph) 0 then pin_intrJ D (neg3 (head3 ph)) else pin_intrJ D (head3 ph).

(** euclideanToKeypointDistortionJacobian, lines 353-375, by columns *)
Definition pin_distJ (D : distortion) (C : intr) (p : v3) : res (list v2) :=
  if Req_EM_T (x2 p) 0 then NotFinite
  else let rz := 1 / x2 p in
       rbind (paramJ D (V2 (x0 p * rz) (x1 p * rz))) (fun cols =>
         Val (map (fun c => V2 (fu C * u0 c) (fv C * u1 c)) cols)).

(** isEuclideanVisible, isHomogeneousVisible, lines 489-504 *)
Definition pin_visible (D : distortion) (C : intr) (p : v3) : bool := snd (pin_project D C p).
Definition pin_hvisible (D : distortion) (C : intr) (ph : v4) : bool := snd (pin_hproject D C ph).

(** update 506-514, setParameters 529-536, getParameters 521-527 *)
Definition pin_update (C : intr) (v : list R) : intr :=
  make_intr (fu C + nth 0 v 0) (fv C + nth 1 v 0) (cu C + nth 2 v 0) (cv C + nth 3 v 0) (ru C) (rv C).
Definition pin_set (C : intr) (v : list R) : intr :=
  make_intr (nth 0 v 0) (nth 1 v 0) (nth 2 v 0) (nth 3 v 0) (ru C) (rv C).
Definition pin_get (C : intr) : list R := [fu C; fv C; cu C; cv C].

(** resizeIntrinsics, lines 567-577.  The resolutions are ints: the product
    with the double is truncated towards zero.  Results outside the range of
    int (undefined in C++) are not modelled. *)
Definition trunc (r : R) : Z := if Rle_dec 0 r then Int_part r else (- Int_part (- r))%Z.
Definition pin_resize (C : intr) (scale : R) : intr :=
  make_intr (fu C * scale) (fv C * scale) (cu C * scale) (cv C * scale)
            (trunc (IZR (ru C) * scale)) (trunc (IZR (rv C) * scale)).

(** The mutating calls of the class. *)
Inductive intr_op := IUpdate (v : list R) | ISet (v : list R) | IResize (scale : R).
Definition intr_step (C : intr) (o : intr_op) : intr :=
  match o with IUpdate v => pin_update C v | ISet v => pin_set C v | IResize s => pin_resize C s end.
