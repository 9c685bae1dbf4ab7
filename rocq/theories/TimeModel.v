(** Model of aslam_cv/aslam_time: Time and Duration arithmetic.

    Paths below are relative to /repo/aslam_cv/aslam_time.
    Fields are integers; [in_u32]/[in_i32] bounds are stated as hypotheses of
    theorems.  The classes WallTime/WallDuration share the same templates. *)
From Coq Require Import ZArith List Bool.
From Verif Require Import Base.
Import ListNotations.
Open Scope Z_scope.

Definition G : Z := 1000000000.

(** include/aslam_time/Time.hpp:119-121, class TimeBase { uint32_t sec, nsec; } *)
Record time := Tm { tsec : Z; tnsec : Z }.

(** include/aslam_time/Duration.hpp:74-76, class DurationBase { int32_t sec, nsec; } *)
Record duration := Dn { dsec : Z; dnsec : Z }.

(** src/duration.cpp:10-13  [while (nsec_part > 1000000000L)]  (strict comparison).
    Fuel is the number of iterations allowed; [Hang] if it runs out.
    The increment of the int64 [sec_part] is checked for overflow. *)
Fixpoint loop_down_signed (fuel : nat) (sec nsec : Z) : outcome (Z * Z) :=
  match fuel with
  | O => Hang
  | S f =>
      if nsec >? G then
        do s <- ret_i64 (sec + 1); loop_down_signed f s (nsec - G)
      else Ok (sec, nsec)
  end.

(** src/duration.cpp:14-17 and src/time.cpp:377-380  [while (nsec_part < 0)]. *)
Fixpoint loop_up (fuel : nat) (sec nsec : Z) : outcome (Z * Z) :=
  match fuel with
  | O => Hang
  | S f =>
      if nsec <? 0 then
        do s <- ret_i64 (sec - 1); loop_up f s (nsec + G)
      else Ok (sec, nsec)
  end.

(** src/time.cpp:373-376  [while (nsec_part >= 1000000000L)]. *)
Fixpoint loop_down_unsigned (fuel : nat) (sec nsec : Z) : outcome (Z * Z) :=
  match fuel with
  | O => Hang
  | S f =>
      if nsec >=? G then
        do s <- ret_i64 (sec + 1); loop_down_unsigned f s (nsec - G)
      else Ok (sec, nsec)
  end.

Definition norm_fuel (nsec : Z) : nat := Z.to_nat (Z.abs nsec / G + 2).

(** src/duration.cpp:6-24  normalizeSecNSecSigned(int64_t&, int64_t&). *)
Definition normalize_signed64 (sec nsec : Z) : outcome (Z * Z) :=
  do '(s1, n1) <- loop_down_signed (norm_fuel nsec) sec nsec;
  do '(s2, n2) <- loop_up (norm_fuel nsec) s1 n1;
  if (s2 <? INT_MIN) || (s2 >? INT_MAX) then Throw else Ok (s2, n2).

(** src/duration.cpp:26-34  normalizeSecNSecSigned(int32_t&, int32_t&). *)
Definition normalize_signed32 (sec nsec : Z) : outcome duration :=
  do '(s, n) <- normalize_signed64 sec nsec;
  Ok (Dn (cast_i32 s) (cast_i32 n)).

(** src/time.cpp:348-357  normalizeSecNSec(uint64_t&, uint64_t&);
    unsigned 64-bit addition wraps. *)
Definition normalize_u64 (sec nsec : Z) : outcome (Z * Z) :=
  let nsec_part := nsec mod G in
  let sec_part := nsec / G in
  if sec_part >? UINT_MAX then Throw
  else Ok (cast_u64 (sec + sec_part), nsec_part).

(** src/time.cpp:359-367  normalizeSecNSec(uint32_t&, uint32_t&). *)
Definition normalize_u32 (sec nsec : Z) : outcome time :=
  do '(s, n) <- normalize_u64 sec nsec;
  Ok (Tm (cast_u32 s) (cast_u32 n)).

(** src/time.cpp:369-387  normalizeSecNSecUnsigned(int64_t&, int64_t&). *)
Definition normalize_unsigned (sec nsec : Z) : outcome (Z * Z) :=
  do '(s1, n1) <- loop_down_unsigned (norm_fuel nsec) sec nsec;
  do '(s2, n2) <- loop_up (norm_fuel nsec) s1 n1;
  if (s2 <? 0) || (s2 >? INT_MAX) then Throw else Ok (s2, n2).

(** include/aslam_time/Time.hpp:127-131  TimeBase(uint32_t, uint32_t). *)
Definition mk_time (sec nsec : Z) : outcome time := normalize_u32 sec nsec.

(** include/aslam_time/implementation/Duration.hpp:45-50  DurationBase(int32_t, int32_t). *)
Definition mk_duration (sec nsec : Z) : outcome duration := normalize_signed32 sec nsec.

(** include/aslam_time/Time.hpp:161-163  toNSec (uint64, cannot wrap for 32-bit fields). *)
Definition time_toNSec (t : time) : Z := cast_u64 (tsec t * G + tnsec t).

(** include/aslam_time/Duration.hpp  toNSec (int64; no overflow for 32-bit fields). *)
Definition duration_toNSec (d : duration) : Z := dsec d * G + dnsec d.

(** include/aslam_time/implementation/Time.hpp:61-69  fromNSec(uint64_t).
    The quotient and remainder go through (int32_t) and then into uint32_t. *)
Definition time_fromNSec (t : Z) : outcome time :=
  normalize_u32 (cast_u32 (cast_i32 (t / G))) (cast_u32 (cast_i32 (t mod G))).

(** include/aslam_time/implementation/Duration.hpp:68-76  fromNSec(int64_t).
    C++ division truncates towards zero. *)
Definition duration_fromNSec (t : Z) : outcome duration :=
  normalize_signed32 (cast_i32 (Z.quot t G)) (cast_i32 (Z.rem t G)).

(** include/aslam_time/implementation/Time.hpp:71-75  operator-(T). *)
Definition time_diff (a b : time) : outcome duration :=
  do s <- ret_i32 (cast_i32 (tsec a) - cast_i32 (tsec b));
  do n <- ret_i32 (cast_i32 (tnsec a) - cast_i32 (tnsec b));
  mk_duration s n.

(** include/aslam_time/implementation/Time.hpp:82-92  operator+(D);
    the int64 sums cannot overflow for 32-bit fields. *)
Definition time_add (t : time) (d : duration) : outcome time :=
  do '(s, n) <- normalize_unsigned (tsec t + dsec d) (tnsec t + dnsec d);
  mk_time (cast_u32 s) (cast_u32 n).

(** include/aslam_time/implementation/Duration.hpp:93-96  unary operator-. *)
Definition duration_neg (d : duration) : outcome duration :=
  do s <- ret_i32 (- dsec d);
  do n <- ret_i32 (- dnsec d);
  mk_duration s n.

(** include/aslam_time/implementation/Time.hpp:77-80  operator-(D). *)
Definition time_sub (t : time) (d : duration) : outcome time :=
  do nd <- duration_neg d; time_add t nd.

(** include/aslam_time/implementation/Duration.hpp:78-81  operator+. *)
Definition duration_add (a b : duration) : outcome duration :=
  do s <- ret_i32 (dsec a + dsec b);
  do n <- ret_i32 (dnsec a + dnsec b);
  mk_duration s n.

(** include/aslam_time/implementation/Duration.hpp:88-91  binary operator-. *)
Definition duration_sub (a b : duration) : outcome duration :=
  do s <- ret_i32 (dsec a - dsec b);
  do n <- ret_i32 (dnsec a - dnsec b);
  mk_duration s n.

(** include/aslam_time/implementation/Duration.hpp:104-108  operator-= adds the negation. *)
Definition duration_sub_assign (a b : duration) : outcome duration :=
  do nb <- duration_neg b; duration_add a nb.

(** include/aslam_time/implementation/Time.hpp:106-145  comparison operators. *)
Definition time_eq (a b : time) : bool := (tsec a =? tsec b) && (tnsec a =? tnsec b).
Definition time_lt (a b : time) : bool :=
  if tsec a <? tsec b then true
  else if (tsec a =? tsec b) && (tnsec a <? tnsec b) then true else false.
Definition time_gt (a b : time) : bool :=
  if tsec a >? tsec b then true
  else if (tsec a =? tsec b) && (tnsec a >? tnsec b) then true else false.
Definition time_le (a b : time) : bool :=
  if tsec a <? tsec b then true
  else if (tsec a =? tsec b) && (tnsec a <=? tnsec b) then true else false.
Definition time_ge (a b : time) : bool :=
  if tsec a >? tsec b then true
  else if (tsec a =? tsec b) && (tnsec a >=? tnsec b) then true else false.

(** include/aslam_time/implementation/Duration.hpp:116-155  comparison operators. *)
Definition duration_eq (a b : duration) : bool := (dsec a =? dsec b) && (dnsec a =? dnsec b).
Definition duration_lt (a b : duration) : bool :=
  if dsec a <? dsec b then true
  else if (dsec a =? dsec b) && (dnsec a <? dnsec b) then true else false.
Definition duration_gt (a b : duration) : bool :=
  if dsec a >? dsec b then true
  else if (dsec a =? dsec b) && (dnsec a >? dnsec b) then true else false.
Definition duration_le (a b : duration) : bool :=
  if dsec a <? dsec b then true
  else if (dsec a =? dsec b) && (dnsec a <=? dnsec b) then true else false.
Definition duration_ge (a b : duration) : bool :=
  if dsec a >? dsec b then true
  else if (dsec a =? dsec b) && (dnsec a >=? dnsec b) then true else false.

(** src/time.cpp:69-73  extreme constants. *)
Definition DURATION_MAX : outcome duration := mk_duration INT_MAX 999999999.
Definition DURATION_MIN : outcome duration := mk_duration INT_MIN 0.
Definition TIME_MAX : outcome time := mk_time UINT_MAX 999999999.
Definition TIME_MIN : outcome time := mk_time 0 1.

(** A history of [+=] and [-=]  (Duration.hpp:98-108, Time.hpp:94-104). *)
Inductive incr := IPlus (d : duration) | IMinus (d : duration).

Fixpoint duration_run (a : duration) (ops : list incr) : outcome duration :=
  match ops with
  | [] => Ok a
  | IPlus d :: r => do a' <- duration_add a d; duration_run a' r
  | IMinus d :: r => do a' <- duration_sub_assign a d; duration_run a' r
  end.

(** Time.hpp:100-104  operator-= adds the negation. *)
Definition time_sub_assign (t : time) (d : duration) : outcome time :=
  do nd <- duration_neg d; time_add t nd.

Fixpoint time_run (t : time) (ops : list incr) : outcome time :=
  match ops with
  | [] => Ok t
  | IPlus d :: r => do t' <- time_add t d; time_run t' r
  | IMinus d :: r => do t' <- time_sub_assign t d; time_run t' r
  end.

(** Decimal digits of a non-negative integer, most significant first, as
    [operator<<] prints them.  Fuel: number of digits allowed (20 covers 64 bit). *)
Fixpoint digits_fuel (fuel : nat) (n : Z) (acc : list Z) : list Z :=
  match fuel with
  | O => acc
  | S f => if n <? 10 then n :: acc else digits_fuel f (n / 10) (n mod 10 :: acc)
  end.
Definition digits (n : Z) : list Z := digits_fuel 20 n [].

(** Characters of the printed text. *)
Inductive ch := Digit (d : Z) | Dot | Minus.

Definition print_int (n : Z) : list ch :=
  if n <? 0 then Minus :: map Digit (digits (- n)) else map Digit (digits n).

(** [std::setw(9) << std::setfill('0')]: pad on the left to at least nine characters. *)
Definition pad9 (s : list ch) : list ch := repeat (Digit 0) (9 - length s) ++ s.

(** src/time.cpp:253-263  operator<< for Time and Duration. *)
Definition print_time (t : time) : list ch :=
  print_int (tsec t) ++ [Dot] ++ pad9 (print_int (tnsec t)).
Definition print_duration (d : duration) : list ch :=
  print_int (dsec d) ++ [Dot] ++ pad9 (print_int (dnsec d)).
