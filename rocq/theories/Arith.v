(** Number systems over which numerical code is modelled.  The same model text
    is read twice: over IEEE-754 binary64 ([F64], what the program computes)
    and, in files that import the reals, over exact real arithmetic. *)
From Coq Require Import ZArith List Bool.
From Coq Require Import Floats.SpecFloat.
Import ListNotations.

Record Arith := MkArith {
  num : Type;
  of_Z : Z -> num;
  add : num -> num -> num;
  sub : num -> num -> num;
  mul : num -> num -> num;
  div : num -> num -> num;
  root : num -> num;              (* std::sqrt *)
  absv : num -> num;              (* std::fabs *)
  lt : num -> num -> bool;        (* C++ <  : false when an operand is NaN *)
  le : num -> num -> bool;        (* C++ <= *)
  eqn : num -> num -> bool        (* C++ == *)
}.

(** IEEE-754 binary64, round to nearest even, as computed by the standard
    library's executable specification. *)
Definition prec64 : Z := 53.
Definition emax64 : Z := 1024.
Definition F64 : Arith :=
  MkArith spec_float
    (fun z => binary_normalize prec64 emax64 z 0 false)
    (SFadd prec64 emax64) (SFsub prec64 emax64)
    (SFmul prec64 emax64) (SFdiv prec64 emax64) (SFsqrt prec64 emax64)
    SFabs SFltb SFleb SFeqb.

(** Not a NaN. *)
Definition ordered (x : spec_float) : Prop := x <> S754_nan.
(** A representable binary64 datum (canonical mantissa and exponent). *)
Definition valid64 (x : spec_float) : Prop := valid_binary prec64 emax64 x = true.

(** Vectors of numbers (Eigen::VectorXd). Reductions run left to right; Eigen
    may associate differently, which only matters for rounding. *)
Section Vec.
Variable A : Arith.
Notation num := (num A).

Definition vadd (x y : list num) : list num :=
  map (fun p => add A (fst p) (snd p)) (combine x y).
Definition vsub (x y : list num) : list num :=
  map (fun p => sub A (fst p) (snd p)) (combine x y).
Definition vscale (a : num) (x : list num) : list num := map (mul A a) x.
Definition dot (x y : list num) : num :=
  fold_left (fun s p => add A s (mul A (fst p) (snd p))) (combine x y) (of_Z A 0).
Definition sqnorm (x : list num) : num := dot x x.
Definition norm (x : list num) : num := root A (sqnorm x).
(** largest absolute value of a non-empty vector *)
Definition maxabs (x : list num) : option num :=
  match x with
  | [] => None
  | a :: r =>
      Some (fold_left (fun m b => if lt A m (absv A b) then absv A b else m)
                      r (absv A a))
  end.
End Vec.
