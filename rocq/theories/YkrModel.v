(** * Reading camera and target configurations

    Models CameraParameters and CalibrationTargetParameters of
    aslam_offline_calibration/kalibr/python/kalibr_common/ConfigReader.py (lines
    259-375 and 527-624).  A value of the file is an integer, a float (a rational
    here), a truth value or something that is no number; a missing field is left
    out. *)
From Coq Require Import QArith List Bool ZArith.
Import ListNotations.

Inductive value := VInt (z : Z) | VFloat (q : Q) | VBool (b : bool) | VOther.

(** RuntimeError of raiseError, or another exception: TypeError of a comparison,
    ValueError of a conversion, NameError of [errList]. *)
Inductive outcome := Accepted | Refused | Crashed.

(** The number a value counts as in a comparison. *)
Definition num (v : value) : option Q :=
  match v with
  | VInt z => Some (inject_Z z)
  | VFloat q => Some q
  | VBool b => Some (if b then 1 else 0)%Q
  | VOther => None
  end.
Definition is_float (v : value) : bool := match v with VFloat _ => true | _ => false end.
Definition is_int (v : value) : bool := match v with VInt _ | VBool _ => true | _ => false end.
Definition is_bool (v : value) : bool := match v with VBool _ => true | _ => false end.

Definition lt_b (a b : Q) : bool := negb (Qle_bool b a).

(** A condition that raises an error: [None] is a TypeError. *)
Definition below (v : value) (q : Q) : option bool :=
  match num v with Some x => Some (lt_b x q) | None => None end.
Definition at_least (v : value) (q : Q) : option bool :=
  match num v with Some x => Some (Qle_bool q x) | None => None end.
Definition at_most (v : value) (q : Q) : option bool :=
  match num v with Some x => Some (Qle_bool x q) | None => None end.
Definition orelse (a b : option bool) : option bool :=
  match a with None => None | Some true => Some true | Some false => b end.
Definition refuse_if (c : option bool) (next : outcome) : outcome :=
  match c with None => Crashed | Some true => Refused | Some false => next end.

(** Lines 318-322. *)
Definition check_common (fu fv pu pv : value) : outcome :=
  refuse_if (orelse (Some (negb (is_float fu))) (orelse (Some (negb (is_float fv))) (orelse (below fu 0) (below fv 0))))
 (refuse_if (orelse (below pu 0) (orelse (below pv 0) (orelse (Some (negb (is_float pu))) (Some (negb (is_float pv))))))
  Accepted).

Inductive cmodel := Pinhole | Omni | Eucm | Ds | Unknown.

(** checkIntrinsics, lines 259-322. *)
Definition check_intrinsics (m : cmodel) (l : list value) : outcome :=
  match m, l with
  | Pinhole, [fu; fv; pu; pv] => check_common fu fv pu pv
  | Omni, [xi; fu; fv; pu; pv] => refuse_if (below xi 0) (check_common fu fv pu pv)
  | Ds, [xi; alpha; fu; fv; pu; pv] =>
      refuse_if (orelse (below alpha 0) (at_least alpha 1)) (check_common fu fv pu pv)
  | Eucm, [alpha; beta; fu; fv; pu; pv] =>
      refuse_if (orelse (below alpha 0) (at_least alpha 1))
     (refuse_if (below beta 0) (check_common fu fv pu pv))
  | _, _ => Refused
  end.

(** [float(val)]. *)
Definition to_float (v : value) : option value :=
  match num v with Some q => Some (VFloat q) | None => None end.
Fixpoint to_floats (l : list value) : option (list value) :=
  match l with
  | [] => Some []
  | v :: r => match to_float v, to_floats r with Some x, Some y => Some (x :: y) | _, _ => None end
  end.

(** setIntrinsics and getIntrinsics, lines 325-335: the model and the values
    stored, and those delivered. *)
Definition set_intrinsics (m : cmodel) (l : list value) : option (cmodel * list value) :=
  match check_intrinsics m l with
  | Accepted => match to_floats l with Some f => Some (m, f) | None => None end
  | _ => None
  end.
Definition get_intrinsics (d : cmodel * list value) : option (cmodel * list value) :=
  match check_intrinsics (fst d) (snd d) with Accepted => Some d | _ => None end.

(** checkDistortion, lines 338-350. *)
Inductive dmodel := Radtan | Equidistant | Fov | NoDist | UnknownDist.
Definition check_distortion (m : dmodel) (coeffs : list value) : outcome :=
  let need := match m with Radtan => Some 4 | Equidistant => Some 4 | Fov => Some 1 | NoDist => Some 0 | UnknownDist => None end%nat in
  match need with
  | None => Refused
  | Some n => if Nat.eqb (length coeffs) n then Accepted else Refused
  end.

(** checkResolution, lines 364-366. *)
Definition check_resolution (l : list value) : outcome :=
  match l with [a; b] => if is_int a && is_int b then Accepted else Refused | _ => Refused end.

(** getTargetParams, lines 548-624: [errList] is defined nowhere. *)
Definition crash_if (c : option bool) (next : outcome) : outcome :=
  match c with None => Crashed | Some true => Crashed | Some false => next end.
Definition bad_count (v : value) : option bool := orelse (Some (negb (is_int v))) (below v 3).
Definition bad_size (v : value) : option bool := orelse (Some (negb (is_float v))) (at_most v 0).
Inductive target := Checkerboard (rows cols rs cs : value) | Circlegrid (rows cols s asym : value)
  | Aprilgrid (rows cols size spacing : value) | UnknownTarget.
Definition target_params (t : target) : outcome :=
  match t with
  | Checkerboard r c a b | Aprilgrid r c a b =>
      crash_if (bad_count r) (crash_if (bad_count c) (crash_if (bad_size a) (crash_if (bad_size b) Accepted)))
  | Circlegrid r c a y =>
      crash_if (bad_count r) (crash_if (bad_count c) (crash_if (bad_size a) (crash_if (Some (negb (is_bool y))) Accepted)))
  | UnknownTarget => Refused
  end.
