(** * Model of the integrals of a B-spline and of the fits that use them

    Models BSpline.cpp lines 1090-1165 (initSpline3), 1276-1366 (Vi,
    evalIntegral), 1378-1403 (Bij, Mi), 1483-1550, 1550-1583 (Dii and the
    segment integrals) and 1669-1711 (curve integrals).  Conventions of
    [BsplModel]: reals for doubles, matrices as functions, sizes fixed by the
    spline. *)
From Coq Require Import Reals List Arith ZArith Bool.
From Verif Require Import Base BsplModel.
Import ListNotations.
Local Open Scope R_scope.
Local Open Scope nat_scope.

(** One term of evalIntegral (lines 1330, 1344, 1361): width * block * B^T * v *)
Definition integral_term (b : bspline) (s : nat) (w : R) (v : vec) : outcome vec :=
  do bidx <- isub (s + 1) (order b);
  do cb <- coef_block b bidx;
  match nth_error (bases b) bidx with
  | None => UB
  | Some B => Ok (fun r => w * bsum (order b) (fun c => cb r c * bsum (order b) (fun i => B i c * v i)))%R
  end.

(** The vector of lines 1321-1327 and 1354-1360: v(i) = rem^(i+1) / (i+1) *)
Definition power_row (rem : R) : vec := fun i => (rem ^ (i + 1) / (INR i + 1))%R.

(** The remainder blocks, lines 1316-1331 and 1348-1362 *)
Definition remainder (b : bspline) (t w : R) (s : nat) : outcome vec :=
  do k <- vat (knots b) s;
  let rem := (t - k)%R in
  if rltb (/ 10 ^ 16)%R rem && rltb (/ 10 ^ 16)%R w
  then integral_term b s w (power_row (rem / w)%R)
  else Ok (fun _ => 0%R).

(** The central segments, lines 1334-1345: s runs over s, s+1, ... (n of them) *)
Fixpoint central (b : bspline) (s n : nat) (acc : vec) : outcome vec :=
  match n with
  | 0 => Ok acc
  | S m => do k1 <- vat (knots b) (s + 1);
           do k0 <- vat (knots b) s;
           do x <- integral_term b s (k1 - k0)%R (fun i => 1 / (INR i + 1))%R;
           central b (S s) m (fun r => acc r + x r)%R
  end.

(** evalIntegral, lines 1304-1366 *)
Definition integral_forward (b : bspline) (t1 t2 : R) : outcome vec :=
  do '(w1, s1) <- compute_T_index b t1;
  do '(w2, s2) <- compute_T_index b t2;
  do l <- remainder b t1 w1 s1;
  do m <- central b s1 (s2 - s1) (fun r => (0 - l r)%R);
  do h <- remainder b t2 w2 s2;
  Ok (fun r => (m r + h r)%R).
Definition eval_integral (b : bspline) (t1 t2 : R) : outcome vec :=
  if rltb t2 t1
  then do v <- integral_forward b t2 t1; Ok (fun r => (- v r)%R)
  else integral_forward b t1 t2.

(** Vi, lines 1276-1302 (the assertion on the segment index is the one of
    timeInterval) *)
Definition Vi (b : bspline) (seg : nat) : outcome mat :=
  do '(t0, t1) <- time_interval b seg;
  Ok (fun r c => / (INR (r + c) + 1) * (t1 - t0))%R.

(** Dii, lines 1483-1502 *)
Definition Dii (b : bspline) (seg : nat) : outcome mat :=
  if seg <? length (bases b) then
    do '(t0, t1) <- time_interval b seg;
    let dt := (t1 - t0)%R in
    let recip := if rltb 0%R dt then (1 / dt)%R else 0%R in
    Ok (fun r c => if (c =? r + 1) && (r <? order b - 1) then ((INR r + 1) * recip)%R else 0%R)
  else Throw.

(** Bij and Mi, lines 1378-1403: row i*order + r, column j*dim + i holds entry
    (r, j) of the basis matrix, everything else is zero *)
Definition Mi (b : bspline) (seg : nat) : outcome mat :=
  match nth_error (bases b) seg with
  | None => Throw
  | Some B => Ok (fun row col => if row / order b =? col mod dim b
                                 then B (row mod order b) (col / dim b) else 0%R)
  end.

Definition mmul (n : nat) (a b : mat) : mat := fun r c => bsum n (fun i => a r i * b i c)%R.
Definition mtr (a : mat) : mat := fun r c => a c r.

(** The derivative loop, lines 1529-1532 *)
Fixpoint derive_V (k n : nat) (Dm V : mat) : mat :=
  match n with
  | 0 => V
  | S m => derive_V k m Dm (mmul k (mmul k (mtr Dm) V) Dm)
  end.

(** The symmetry check of line 1540 for all entries *)
Definition symmetric_check (D : nat) (W : mat) : bool :=
  forallb (fun r => forallb (fun c => rleb (Rabs (W c r - W r c)) (/ 10 ^ 14)) (seq 0 D)) (seq 0 D).

(** segmentQuadraticIntegral, lines 1512-1548; [wr], [wc] are W.rows() and
    W.cols() *)
Definition segment_Q (b : bspline) (wr wc : nat) (W : mat) (seg : nat) (d : Z) : outcome mat :=
  if seg <? length (bases b) then
    if (wr =? dim b) && (wc =? dim b) then
      do Dm <- Dii b seg;
      do V <- Vi b seg;
      do M <- Mi b seg;
      let V := derive_V (order b) (Z.to_nat d) Dm V in
      if symmetric_check (dim b) W then
        let WV : mat := fun r c => Rmult (W (r / order b) (c / order b)) (V (r mod order b) (c mod order b)) in
        let N := dim b * order b in
        Ok (mmul N (mmul N (mtr M) WV) M)
      else Throw
    else Throw
  else Throw.

(** segmentQuadraticIntegralDiag, lines 1550-1581 *)
Definition segment_Q_diag (b : bspline) (wn : nat) (w : vec) (seg : nat) (d : Z) : outcome mat :=
  if seg <? length (bases b) then
    if wn =? dim b then
      do Dm <- Dii b seg;
      do V <- Vi b seg;
      do M <- Mi b seg;
      let V := derive_V (order b) (Z.to_nat d) Dm V in
      let WV : mat := fun r c => if r / order b =? c / order b
                                 then Rmult (w (r / order b)) (V (r mod order b) (c mod order b)) else 0%R in
      let N := dim b * order b in
      Ok (mmul N (mmul N (mtr M) WV) M)
    else Throw
  else Throw.

(** Q.block(o,o,n,n) += q on a matrix of size N *)
Definition add_block (N : nat) (Q : mat) (o n : nat) (q : mat) : outcome mat :=
  if o + n <=? N
  then Ok (fun r c => if (o <=? r) && (r <? o + n) && (o <=? c) && (c <? o + n)
                      then Rplus (Q r c) (q (r - o) (c - o)) else Q r c)
  else UB.
Fixpoint sum_segments (b : bspline) (seg_q : nat -> outcome mat) (s n : nat) (Q : mat) : outcome mat :=
  match n with
  | 0 => Ok Q
  | S m => do q <- seg_q s;
           do Q <- add_block (dim b * ncols b) Q (s * dim b) (order b * dim b) q;
           sum_segments b seg_q (S s) m Q
  end.

(** curveQuadraticIntegral, lines 1669-1686, and curveQuadraticIntegralDiag,
    1690-1707 *)
Definition curve_Q (b : bspline) (wr wc : nat) (W : mat) (d : Z) : outcome mat :=
  if (wr =? dim b) && (wc =? dim b)
  then sum_segments b (fun s => segment_Q b wr wc W s d) 0 (num_segments b) (fun _ _ => 0%R)
  else Throw.
Definition curve_Q_diag (b : bspline) (wn : nat) (w : vec) (d : Z) : outcome mat :=
  if wn =? dim b
  then sum_segments b (fun s => segment_Q_diag b wn w s d) 0 (num_segments b) (fun _ _ => 0%R)
  else Throw.

(** ** Fitting a spline to points

    The matrix of the position constraints (one row block per point) is filled
    row block by row block; a block outside the matrix is [UB]. *)
Fixpoint nondecreasing_check (ts : list R) : bool :=
  match ts with
  | a :: (b :: _) as r => rleb a b && nondecreasing_check r
  | _ => true
  end.
Definition uniform_knots (k K : nat) (t0 dt : R) : list R :=
  map (fun i => t0 + (INR i - INR k + 1) * dt)%R (seq 0 K).

Definition put_block (N : nat) (A : mat) (r0 D c0 n : nat) (P : mat) : outcome mat :=
  if c0 + n <=? N
  then Ok (fun r c => if (r0 <=? r) && (r <? r0 + D) && (c0 <=? c) && (c <? c0 + n)
                      then P (r - r0) (c - c0) else A r c)
  else UB.
Fixpoint position_rows (b : bspline) (ts : list R) (brow : nat) (A : mat) : outcome mat :=
  match ts with
  | [] => Ok A
  | t :: r => do idx <- local_coef_indices b t;
              do P <- Phi b t 0;
              match idx with
              | [] => UB
              | i0 :: _ => do A <- put_block (dim b * ncols b) A brow (dim b) i0 (length idx) P;
                           position_rows b r (brow + dim b) A
              end
  end.

(** The assembly and solution shared by initSpline3 (lines 1120-1163),
    initSplineSparse (996-1086) and initSplineSparseKnots (874-962): the normal
    equations of the position constraints plus the motion term.  [solve n A b]
    stands for the linear solver on an n x n system.  The two sparse functions
    assemble the same system in block form (A.block, transpose, multiply,
    add); here the dense meaning of those blocks is used. *)
Definition fit (solve : nat -> mat -> vec -> vec) (b : bspline) (ts : list R) (pts : mat) (lambda : R) : outcome bspline :=
  let D := dim b in
  let C := ncols b in
  do A <- position_rows b ts 0 (fun _ _ => 0%R);
  let rows := length ts * D in
  let rhs : vec := fun i => pts (i mod D) (i / D) in
  let atb : vec := fun i => bsum rows (fun j => A j i * rhs j)%R in
  let ata : mat := mmul rows (mtr A) A in
  do Q <- curve_Q_diag b D (fun _ => lambda) (if order b =? 2 then 1%Z else 2%Z);
  set_coef_vector b (D * C) (solve (D * C) (fun r c => (ata r c + Q r c)%R) atb).

(** initSpline3, lines 1090-1165; solver A.ldlt().solve(b).  [np] and [D] are
    the numbers of columns and rows of interpolationPoints. *)
Definition init_spline3 (solve : nat -> mat -> vec -> vec) (b : bspline) (ts : list R) (D np : nat) (pts : mat)
    (nseg : nat) (lambda : R) : outcome bspline :=
  if (length ts =? np) && (2 <=? length ts) && (1 <=? nseg) && nondecreasing_check ts then
    let dt := ((last ts 0 - hd 0 ts) / INR nseg)%R in
    do b <- set_knots_and_coefs b (uniform_knots (order b) (num_knots_required (order b) nseg) (hd 0%R ts) dt)
              D (num_coefs_required (order b) nseg) (fun _ _ => 0%R);
    fit solve b ts pts lambda
  else Throw.

(** The solver of the sparse functions: Cholmod, and when it reports failure
    the dense LDLT of the same system (lines 1065-1077) *)
Definition sparse_solver (chol : nat -> mat -> vec -> option vec) (ldlt : nat -> mat -> vec -> vec)
    (n : nat) (A : mat) (v : vec) : vec :=
  match chol n A v with Some c => c | None => ldlt n A v end.

(** initSplineSparse, lines 966-1086 *)
Definition init_spline_sparse chol ldlt := init_spline3 (sparse_solver chol ldlt).

(** initSplineSparseKnots, lines 848-963 *)
Definition init_spline_sparse_knots chol ldlt (b : bspline) (ts : list R) (D np : nat) (pts : mat)
    (kn : list R) (lambda : R) : outcome bspline :=
  if (length ts =? np) && (2 <=? length ts) && nondecreasing_check ts then
    do b <- set_knots_and_coefs b kn D (num_coefs_required (order b) (length kn - 2 * (order b - 1) - 1)) (fun _ _ => 0%R);
    fit (sparse_solver chol ldlt) b ts pts lambda
  else Throw.
