(** * Model of the smoothing and the gradients of the tag detector

    Models /repo/aslam_offline_calibration/aslam_apriltag2/src/Gaussian.cc,
    src/FloatImage.cc lines 50-74 and src/TagDetector.cc lines 128-163.  Reals for
    floats and doubles; an access outside a vector is undefined behaviour.
    Simplifications: sizes and indices do not overflow, the warning about filters
    of even length is left out, and an image has the number of pixels its size
    asks for. *)
From Coq Require Import Reals List Arith ZArith Bool.
From Verif Require Import Base BsplModel KinModel LutModel.
Import ListNotations.
Local Open Scope R_scope.

Definition read (a : list R) (i : nat) : outcome R :=
  match nth_error a i with Some v => Ok v | None => UB end.
Fixpoint set_at (l : list R) (i : nat) (v : R) : list R :=
  match l, i with
  | [], _ => []
  | _ :: r, O => v :: r
  | x :: r, S k => x :: set_at r k v
  end.
Definition write (l : list R) (i : nat) (v : R) : outcome (list R) :=
  if (i <? length l)%nat then Ok (set_at l i v) else UB.

(** makeGaussianFilter, Gaussian.cc lines 8-32 *)
Definition make_filter (sigma : R) (n : nat) : outcome (list R) :=
  if Req_EM_T sigma 0 then write (repeat 0 n) (n / 2) 1
  else
    let inv_variance := 1 / (2 * sigma * sigma) in
    let f i := let j := IZR (Z.of_nat i - Z.of_nat (n / 2)) in exp (- j * j * inv_variance) in
    let sum := bsum n f in
    Ok (map (fun i => f i / sum) (seq 0 n)).
(** TagDetector.cc line 135: the length of the filter; bit 0 is set *)
Definition filter_size (sigma : R) : nat := Z.to_nat (Z.lor (trunc (Rmax 3 (3 * sigma))) 1).

(** convolveSymmetricCentered, Gaussian.cc lines 34-67: the pixel each of the
    three loops multiplies by the filter's value [j] in its round [i] *)
Definition tap_first (aoff alen i j : nat) : nat :=
  if (aoff + i <? j)%nat || (alen + j <=? aoff + i)%nat then aoff else (aoff + i - j)%nat.
Definition tap_middle (aoff i j : nat) : nat := (aoff + i - j)%nat.
Definition tap_last (aoff alen i j : nat) : nat :=
  if (alen + j <=? aoff + i)%nat || (aoff + i <? j)%nat then (aoff + alen - 1)%nat else (aoff + i - j)%nat.
Fixpoint accumulate (a f : list R) (tap : nat -> nat) (j : nat) (acc : R) : outcome R :=
  match f with
  | [] => Ok acc
  | c :: f' => do v <- read a (tap j); accumulate a f' tap (S j) (acc + v * c)
  end.
Fixpoint rounds (a f : list R) (tap : nat -> nat -> nat) (roff : nat) (is : list nat) (r : list R) : outcome (list R) :=
  match is with
  | [] => Ok r
  | i :: is' =>
      do acc <- accumulate a f (tap i) 0 0;
      do r' <- write r (roff + i - length f / 2) acc;
      rounds a f tap roff is' r'
  end.
Definition convolve (a : list R) (aoff alen : nat) (f r : list R) (roff : nat) : outcome (list R) :=
  let n := length f in
  do r1 <- rounds a f (tap_first aoff alen) roff (seq (n / 2) (n - n / 2)) r;
  do r2 <- rounds a f (tap_middle aoff) roff (seq n (alen - n)) r1;
  rounds a f (tap_last aoff alen) roff (seq alen (n / 2)) r2.

(** filterFactoredCentered, FloatImage.cc lines 50-74 *)
Record image := Image { width : nat; height : nat; pixels : list R }.
Fixpoint filter_rows (px : list R) (w : nat) (f : list R) (ys : list nat) (r : list R) : outcome (list R) :=
  match ys with
  | [] => Ok r
  | y :: ys' => do r' <- convolve px (y * w) w f r (y * w); filter_rows px w f ys' r'
  end.
Fixpoint copy_out (r : list R) (w x : nat) (ys : list nat) : outcome (list R) :=
  match ys with
  | [] => Ok []
  | y :: ys' => do v <- read r (y * w + x); do vs <- copy_out r w x ys'; Ok (v :: vs)
  end.
Fixpoint copy_in (tmp2 : list R) (w x : nat) (ys : list nat) (px : list R) : outcome (list R) :=
  match ys with
  | [] => Ok px
  | y :: ys' => do v <- read tmp2 y; do px' <- write px (y * w + x) v; copy_in tmp2 w x ys' px'
  end.
Fixpoint filter_columns (r : list R) (w h : nat) (f : list R) (xs : list nat) (tmp2 px : list R) : outcome (list R) :=
  match xs with
  | [] => Ok px
  | x :: xs' =>
      do tmp <- copy_out r w x (seq 0 h);
      do tmp2' <- convolve tmp 0 h f tmp2 0;
      do px' <- copy_in tmp2' w x (seq 0 h) px;
      filter_columns r w h f xs' tmp2' px'
  end.
Definition filter_factored (m : image) (fh fv : list R) : outcome image :=
  do r <- filter_rows (pixels m) (width m) fh (seq 0 (height m)) (pixels m);
  do px <- filter_columns r (width m) (height m) fv (seq 0 (width m)) (repeat 0 (height m)) (pixels m);
  Ok (Image (width m) (height m) px).

(** TagDetector.cc lines 128-143: the image the gradients are taken from *)
Definition smooth (sigma : R) (m : image) : outcome image :=
  do f <- make_filter sigma (filter_size sigma); filter_factored m f f.

(** Lines 145-163; FloatImage.h: get; the outermost pixels stay zero *)
Definition get (m : image) (x y : nat) : outcome R := read (pixels m) (y * width m + x).
Definition gradient (m : image) (x y : nat) : outcome (R * R) :=
  if (1 <=? y)%nat && (y <? height m - 1)%nat && (1 <=? x)%nat && (x <? width m - 1)%nat then
    do e <- get m (x + 1) y; do w <- get m (x - 1) y; do s <- get m x (y + 1); do n <- get m x (y - 1);
    let ix := e - w in let iy := s - n in
    Ok (ix * ix + iy * iy, atan2 iy ix)
  else Ok (0, 0).
