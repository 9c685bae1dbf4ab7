(** Model of the recovery of marginal covariances from a Cholesky factor:
      /repo/aslam_optimizer/aslam_sparse_block_matrix/src/marginal_covariance_cholesky.cpp
      /repo/aslam_optimizer/aslam_sparse_block_matrix/include/aslam_sparse_block_matrix/marginal_covariance_cholesky.h
    A release build: asserts are off.  Sizes are natural numbers; the one index
    computation that can leave the int range is checked.  The hash map is a
    key-value map.  Recursion is bounded by fuel; running out is [Hang]. *)
From Coq Require Import ZArith List Bool.
From Verif Require Import Base Arith OMap JacModel CcmModel SbmModel.
Import ListNotations.
Open Scope nat_scope.

(** 25-33: column first, both descending. *)
Definition before (a b : nat * nat) : bool :=
  (snd b <? snd a) || ((snd a =? snd b) && (fst b <? fst a)).
(** std::sort, as insertion sort. *)
Fixpoint insert (e : nat * nat) (l : list (nat * nat)) : list (nat * nat) :=
  match l with
  | [] => [e]
  | x :: r => if before x e then x :: insert e r else e :: l
  end.
Definition sort (l : list (nat * nat)) : list (nat * nat) := fold_right insert [] l.

Section Mc.
Variable A : Arith.
Notation num := (num A).
Notation zero := (of_Z A 0).
Notation memo := (list (Z * num)).

(** marginal_covariance_cholesky.h 70-77. *)
Record chol := Chol {
  cn : nat; lp : list nat; li : list nat; lx : list num;
  perm : option (list nat); rdiag : list num }.

(** 44-59. *)
Definition set_factor (n : nat) (p i : list nat) (x : list num) (pinv : option (list nat)) : outcome chol :=
  do d <- mapo (fun r => do sc <- load p r; do v <- load x sc; Ok (div A (of_Z A 1) v)) (seq 0 n);
  Ok (Chol n p i x pinv d).

(** marginal_covariance_cholesky.h 80: int arithmetic. *)
Definition index (F : chol) (r c : nat) : outcome Z :=
  ret_i32 (Z.of_nat r * Z.of_nat (cn F) + Z.of_nat c)%Z.

(** 121-150; [-s * d] is written [(0 - s) * d], which differs at most in the
    sign of a zero. *)
Fixpoint entry_of (fuel : nat) (F : chol) (r c : nat) (mp : memo) : outcome (num * memo) :=
  match fuel with
  | O => Hang
  | S fuel =>
      do idx <- index F r c;
      match mget Z.compare idx mp with
      | Some v => Ok (v, mp)
      | None =>
          do sc <- load (lp F) r;
          do ec <- load (lp F) (r + 1);
          do '(s, mp1) <-
            fold_left (fun o j =>
                do '(s, mp) <- o;
                do rr <- load (li F) j;
                do '(v, mp') <- (if rr <? c then entry_of fuel F rr c mp else entry_of fuel F c rr mp);
                do x <- load (lx F) j;
                Ok (add A s (mul A v x), mp'))
              (seq (sc + 1) (ec - (sc + 1))) (Ok (zero, mp));
          do d <- load (rdiag F) r;
          let result := if r =? c then mul A d (sub A d s) else mul A (sub A zero s) d in
          Ok (result, mput Z.compare idx result mp1)
      end
  end.
Definition fuel_for (F : chol) : nat := 2 * cn F + 1.

(** 162-165: position after the permutation, upper triangle. *)
Definition permuted (F : chol) (e : nat * nat) : outcome (nat * nat) :=
  do r <- match perm F with Some p => load p (fst e) | None => Ok (fst e) end;
  do c <- match perm F with Some p => load p (snd e) | None => Ok (snd e) end;
  Ok (if c <? r then (c, r) else (r, c)).

(** 171-178. *)
Definition compute_all (F : chol) (es : list (nat * nat)) : outcome memo :=
  fold_left (fun o e => do mp <- o; do '(_, mp') <- entry_of (fuel_for F) F (fst e) (snd e) mp; Ok mp')
    (sort es) (Ok []).

(** 188-194: a value that must have been computed. *)
Definition look (F : chol) (mp : memo) (e : nat * nat) : outcome num :=
  do q <- permuted F e;
  do idx <- index F (fst q) (snd q);
  match mget Z.compare idx mp with Some v => Ok v | None => UB end.

(** 157-169: upper triangle of the diagonal block [base, nbase). *)
Definition triangle (base nbase : nat) : list (nat * nat) :=
  flat_map (fun rr => map (fun cc => (rr, cc)) (seq rr (nbase - base - rr))) (seq 0 (nbase - base)).
Definition shift (base : nat) (e : nat * nat) : nat * nat := (fst e + base, snd e + base).

(** 152-201: [mem] are the caller's blocks, row-major (they are symmetric). *)
Definition covariance_blocks (F : chol) (mem : list (list num)) (bi : list nat) : outcome (list (list num)) :=
  let ranges := combine (0 :: bi) bi in
  do es <- mapo (permuted F) (flat_map (fun q => map (shift (fst q)) (triangle (fst q) (snd q))) ranges);
  do mp <- compute_all F es;
  mapo (fun q : nat * (nat * nat) =>
      let '(i, (base, nbase)) := q in
      let dim := nbase - base in
      do cov <- load mem i;
      fold_left (fun o e =>
          do cov <- o;
          do v <- look F mp (shift base e);
          do cov <- store (fst e * dim + snd e) v cov;
          if fst e =? snd e then Ok cov else store (snd e * dim + fst e) v cov)
        (triangle base nbase) (Ok cov))
    (combine (seq 0 (length bi)) ranges).

(** 204-270; the positions of the elements of block (br, bc). *)
Definition square_of (l : list nat) (b : nat * nat) : list (list (nat * nat)) :=
  map (fun i => map (fun j => (base_of l (fst b) + i, base_of l (snd b) + j)) (seq 0 (size_of l (snd b))))
    (seq 0 (size_of l (fst b))).
Definition covariance_sparse (F : chol) (l : list nat) (bs : list (nat * nat)) : outcome (sbm A) :=
  do m <- fold_left (fun o b => do m <- o; update A (fst b) (snd b) (fun B => Ok B) m) bs (Ok (fresh A l l));
  do es <- mapo (permuted F) (flat_map (fun b => concat (square_of l b)) bs);
  do mp <- compute_all F es;
  fold_left (fun o b =>
      do m <- o;
      do B <- mapo (mapo (look F mp)) (square_of l b);
      update A (fst b) (snd b) (assign A B) m) bs (Ok m).
End Mc.
Arguments Chol {A}.
Arguments cn {A}.
Arguments lp {A}.
Arguments li {A}.
Arguments lx {A}.
Arguments perm {A}.
Arguments rdiag {A}.
