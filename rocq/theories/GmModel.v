(** * Model of reading the cells of a tag

    Models /repo/aslam_offline_calibration/aslam_apriltag2/src/GrayModel.cc and
    src/TagDetector.cc lines 428-484 (the first part of step eight).  Reals for
    floats and doubles; an access outside the image, and the conversion to int of
    a value it cannot hold, are undefined behaviour.  Simplifications: of the
    symmetric matrix only the upper right part is kept, since the rest is
    overwritten by it before it is used; computeInverseAndDetWithCheck is a
    parameter giving the inverse unless the determinant is too small; the message
    about an underflow is left out. *)
From Coq Require Import Reals List Arith ZArith NArith Bool.
From Verif Require Import Base LutModel GfModel TagModel TdModel.
Import ListNotations.
Local Open Scope R_scope.

(** GrayModel.h lines 33-45 *)
Record sym := Sym { a00 : R; a01 : R; a02 : R; a03 : R; a11 : R; a12 : R; a13 : R; a22 : R; a23 : R; a33 : R }.
Record vec := Vec { v0 : R; v1 : R; v2 : R; v3 : R }.
Record gray := Gray { g_A : sym; g_v : vec; g_b : vec; nobs : nat; dirty : bool }.
(** GrayModel.cc lines 10-14 *)
Definition no_gray : gray := Gray (Sym 0 0 0 0 0 0 0 0 0 0) (Vec 0 0 0 0) (Vec 0 0 0 0) 0 false.
(** Lines 16-41 *)
Definition add_observation (g : gray) (x y c : R) : gray :=
  let xy := x * y in let A := g_A g in let b := g_b g in
  Gray (Sym (a00 A + x * x) (a01 A + x * y) (a02 A + x * xy) (a03 A + x)
            (a11 A + y * y) (a12 A + y * xy) (a13 A + y) (a22 A + xy * xy) (a23 A + xy) (a33 A + 1))
       (g_v g) (Vec (v0 b + x * c) (v1 b + y * c) (v2 b + xy * c) (v3 b + c)) (S (nobs g)) true.

Section Reading.
Variable inverse : sym -> option (nat -> nat -> R).
(** Lines 48-79 *)
Definition times_vec (M : nat -> nat -> R) (b : vec) : vec :=
  let row i := M i 0%nat * v0 b + M i 1%nat * v1 b + M i 2%nat * v2 b + M i 3%nat * v3 b in
  Vec (row 0%nat) (row 1%nat) (row 2%nat) (row 3%nat).
Definition compute (g : gray) : gray :=
  let constant := Vec 0 0 0 (v3 (g_b g) / INR (nobs g)) in
  let v := if (6 <=? nobs g)%nat then match inverse (g_A g) with Some M => times_vec M (g_b g) | None => constant end else constant in
  Gray (g_A g) v (g_b g) (nobs g) false.
(** Lines 43-46: the model may be changed *)
Definition gray_at (g : gray) (x y : R) : gray * R :=
  let g := if dirty g then compute g else g in
  let v := g_v g in (g, v0 v * x + v1 v * y + v2 v * x * y + v3 v).

(** TagDetector.cc lines 444-449: the pixel at a point, None outside the image *)
Definition pixel_at (fim : image) (p : point) : outcome (option R) :=
  do irx <- to_int (fst p + / 2);
  do iry <- to_int (snd p + / 2);
  if ((irx <? 0) || (Z.of_nat (width fim) <=? irx) || (iry <? 0) || (Z.of_nat (height fim) <=? iry))%Z then Ok None
  else do v <- get fim (Z.to_nat irx) (Z.to_nat iry); Ok (Some v).

(** Lines 434-455 *)
Definition place (dd i : Z) : R := (IZR i + / 2) / IZR dd.
Definition observe (fim : image) (q : nat -> point) (dd : Z) (wb : gray * gray) (iy ix : Z) : outcome (gray * gray) :=
  let '(white, black) := wb in
  let x := place dd ix in let y := place dd iy in
  do s <- pixel_at fim (interpolate01 q x y);
  match s with
  | None => Ok (white, black)
  | Some v =>
      Ok (if ((iy =? -1) || (iy =? dd) || (ix =? -1) || (ix =? dd))%Z then (add_observation white x y v, black)
          else if ((iy =? 0) || (iy =? dd - 1) || (ix =? 0) || (ix =? dd - 1))%Z then (white, add_observation black x y v)
          else (white, black))
  end.
Fixpoint observe_all (fim : image) (q : nat -> point) (dd : Z) (cells : list (Z * Z)) (wb : gray * gray) : outcome (gray * gray) :=
  match cells with
  | [] => Ok wb
  | (iy, ix) :: r => do wb' <- observe fim q dd wb iy ix; observe_all fim q dd r wb'
  end.
(** The integers from -1 to [dd] *)
Definition from_minus_one (dd : Z) : list Z := map (fun k => Z.of_nat k - 1)%Z (seq 0 (Z.to_nat (dd + 2))).
Definition around (dd : Z) : list (Z * Z) := flat_map (fun iy => map (fun ix => (iy, ix)) (from_minus_one dd)) (from_minus_one dd).

(** Lines 457-484: the models, the code and whether it is bad *)
Definition read_cell (fim : image) (q : nat -> point) (border dd : Z) (st : gray * gray * N * bool) (iy ix : nat) : outcome (gray * gray * N * bool) :=
  let '(white, black, code, bad) := st in
  let x := place dd (border + Z.of_nat ix) in let y := place dd (border + Z.of_nat iy) in
  do s <- pixel_at fim (interpolate01 q x y);
  match s with
  | None => Ok (white, black, code, true)
  | Some v =>
      let '(black, b) := gray_at black x y in
      let '(white, w) := gray_at white x y in
      let threshold := (b + w) * / 2 in
      let code := (N.shiftl code 1 mod word64)%N in
      Ok (white, black, if Rlt_dec threshold v then N.lor code 1 else code, bad)
  end.
Fixpoint read_cells (fim : image) (q : nat -> point) (border dd : Z) (cells : list (nat * nat)) (st : gray * gray * N * bool) : outcome (gray * gray * N * bool) :=
  match cells with
  | [] => Ok st
  | (iy, ix) :: r => do st' <- read_cell fim q border dd st iy ix; read_cells fim q border dd r st'
  end.
(** Rows from the last to the first *)
Definition cells_of (d : nat) : list (nat * nat) := flat_map (fun iy => map (fun ix => (iy, ix)) (seq 0 d)) (rev (seq 0 d)).
Definition read_quad (fim : image) (q : nat -> point) (border d : nat) : outcome (option N) :=
  let dd := (2 * Z.of_nat border + Z.of_nat d)%Z in
  do '(white, black) <- observe_all fim q dd (around dd) (no_gray, no_gray);
  do '(_, _, code, bad) <- read_cells fim q (Z.of_nat border) dd (cells_of d) (white, black, 0%N, false);
  Ok (if (bad : bool) then None else Some code).
End Reading.
(** A client of the class: observations are added and predictions asked for in any order *)
Inductive op := Observe (x y v : R) | Ask (x y : R).
Definition use (inverse : sym -> option (nat -> nat -> R)) (g : gray) (o : op) : gray :=
  match o with Observe x y v => add_observation g x y v | Ask x y => fst (gray_at inverse g x y) end.
Definition used (inverse : sym -> option (nat -> nat -> R)) (ops : list op) : gray := fold_left (use inverse) ops no_gray.
