(** * Which configurations are valid *)
From Coq Require Import QArith List Bool ZArith.
From Verif Require Import YkrModel.
Import ListNotations.

(** A float that is not negative. *)
Definition nonneg_float (v : value) : Prop := exists q, v = VFloat q /\ 0 <= q.
Definition lens (fu fv pu pv : value) : Prop :=
  nonneg_float fu /\ nonneg_float fv /\ nonneg_float pu /\ nonneg_float pv.
(** A number, of whatever type, in a range. *)
Definition number (P : Q -> Prop) (v : value) : Prop := exists q, num v = Some q /\ P q.

Definition valid_intrinsics (m : cmodel) (l : list value) : Prop :=
  match m with
  | Pinhole => exists fu fv pu pv, l = [fu; fv; pu; pv] /\ lens fu fv pu pv
  | Omni => exists xi fu fv pu pv, l = [xi; fu; fv; pu; pv] /\ number (fun q => 0 <= q) xi /\ lens fu fv pu pv
  | Ds => exists xi alpha fu fv pu pv, l = [xi; alpha; fu; fv; pu; pv] /\
      number (fun q => 0 <= q /\ q < 1) alpha /\ lens fu fv pu pv
  | Eucm => exists alpha beta fu fv pu pv, l = [alpha; beta; fu; fv; pu; pv] /\
      number (fun q => 0 <= q /\ q < 1) alpha /\ number (fun q => 0 <= q) beta /\ lens fu fv pu pv
  | Unknown => False
  end.

(** An integer of at least three; a float above zero. *)
Definition count3 (v : value) : Prop := exists z, v = VInt z /\ (3 <= z)%Z.
Definition positive_float (v : value) : Prop := exists q, v = VFloat q /\ 0 < q.
Definition valid_target (t : target) : Prop :=
  match t with
  | Checkerboard r c a b | Aprilgrid r c a b => count3 r /\ count3 c /\ positive_float a /\ positive_float b
  | Circlegrid r c a y => count3 r /\ count3 c /\ positive_float a /\ exists b, y = VBool b
  | UnknownTarget => False
  end.
