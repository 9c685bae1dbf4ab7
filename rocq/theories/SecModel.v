(** * Model of times as floating-point seconds

    Models, in /repo/aslam_cv/aslam_time/include/aslam_time, Time.hpp lines 151-159,
    Duration.hpp lines 100-103 and implementation/Duration.hpp lines 52-66, 83-86,
    109-114; and /repo/Schweizer-Messer/sm_timing/src/NsecTimeUtilities.cpp lines 27-36.
    Every operation on doubles is rounded to 53 bits, to nearest and to even, with an
    unbounded range of exponents.  A conversion to an integer type that cannot hold
    the value is undefined.  HAVE_TRUNC is defined nowhere, so the other branch of
    Duration::fromSec is modelled. *)
From Coq Require Import Reals ZArith Bool.
From Flocq Require Import Core.
From Verif Require Import Base TimeModel.
Local Open Scope R_scope.

(** Arithmetic of doubles *)
Definition rnd (x : R) : R := round radix2 (FLX_exp 53) ZnearestE x.
Definition cast (inside : Z -> bool) (z : Z) : outcome Z := if inside z then Ok z else UB.
Definition in_u32b (z : Z) : bool := ((0 <=? z) && (z <=? 4294967295))%Z.
(** The literal 1e-9 *)
Definition nano : R := rnd (/ 1000000000).
(** boost::math::round: halves away from zero *)
Definition round_half (x : R) : Z := if Rle_dec 0 x then Zfloor (x + / 2) else Zceil (x - / 2).

(** Time.hpp lines 151-159 *)
Definition time_toSec (t : time) : R := rnd (IZR (tsec t) + rnd (nano * IZR (tnsec t))).
Definition time_fromSec (t : R) : outcome time :=
  do s <- cast in_u32b (Zfloor t);
  do n <- cast in_u32b (round_half (rnd (rnd (t - IZR s) * 1000000000)));
  Ok (Tm s n).
(** Duration.hpp lines 100-103, implementation/Duration.hpp lines 52-66 *)
Definition duration_toSec (d : duration) : R := rnd (IZR (dsec d) + rnd (nano * IZR (dnsec d))).
Definition duration_fromSec (d : R) : outcome duration :=
  do f <- cast in_i32b (Zfloor d);
  let s := if Rle_dec 0 d then f else (f + 1)%Z in
  do n <- cast in_i32b (Ztrunc (rnd (rnd (d - IZR s) * 1000000000)));
  Ok (Dn s n).
(** implementation/Duration.hpp lines 83-86 and 109-114 *)
Definition duration_scale (d : duration) (k : R) : outcome duration := duration_fromSec (rnd (duration_toSec d * k)).

(** NsecTimeUtilities.cpp lines 27-36 *)
Definition nsecToSec (n : Z) : R := rnd (rnd (IZR n) * nano).
Definition secToNsec (x : R) : outcome Z := cast in_i64b (Ztrunc (rnd (x * 1000000000))).
