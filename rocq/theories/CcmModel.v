(** Model of the compressed-column sparse matrix and of the builder that fills
    it with transposed Jacobians.
      /repo/aslam_optimizer/aslam_backend/include/aslam_backend/backend/implementation/
        CompressedColumnMatrix.hpp
        CompressedColumnJacobianTransposeBuilder.hpp
    Sizes and indices are natural numbers: the number of stored entries is
    assumed to fit the index type (int), so no index wraps around. *)
From Coq Require Import ZArith List Bool.
From Verif Require Import Base Arith OMap JacModel.
Import ListNotations.
Open Scope nat_scope.

(** Writing one element of a vector; out of range is undefined behaviour. *)
Fixpoint store {V} (i : nat) (v : V) (l : list V) : outcome (list V) :=
  match l, i with
  | [], _ => UB
  | _ :: r, O => Ok (v :: r)
  | x :: r, S i => do r' <- store i v r; Ok (x :: r')
  end.

(** A run of writes, in order. *)
Fixpoint stores {V} (ws : list (nat * V)) (l : list V) : outcome (list V) :=
  match ws with
  | [] => Ok l
  | (i, v) :: r => do l' <- store i v l; stores r l'
  end.

(** Reading one element. *)
Definition load {V} (l : list V) (i : nat) : outcome V :=
  match nth_error l i with Some v => Ok v | None => UB end.

(** std::vector::resize to a larger or smaller size. *)
Definition resize {V} (n : nat) (v : V) (l : list V) : list V :=
  firstn n l ++ repeat v (n - length l).

Section Ccm.
Variable A : Arith.
Notation num := (num A).
Notation zero := (of_Z A 0).

(** CompressedColumnMatrix.hpp (class) 151-157. *)
Record ccm := Ccm {
  nrows : nat; ncols : nat;
  vals : list num; rind : list nat; cptr : list nat;
  diag : bool }.

(** 35-45: the value and row index vectors are left as they are. *)
Definition init (rows cols : nat) (m : ccm) : ccm :=
  Ccm rows cols (vals m) (rind m) (repeat 0 (cols + 1)) false.

(** 29-33. *)
Definition empty : ccm := init 0 0 (Ccm 0 0 [] [] [] false).

(** 130-137: the column pointers get one entry per row, and the flag stays. *)
Definition clear (m : ccm) : ccm :=
  Ccm (nrows m) (ncols m) [] [] (repeat 0 (nrows m + 1)) (diag m).

(** 5-8, [back()] of an empty vector is undefined. *)
Definition check (m : ccm) : outcome ccm :=
  match cptr m with
  | [] => UB
  | _ =>
      let b := last (cptr m) 0 in
      if Nat.eqb b (length (vals m)) && Nat.eqb b (length (rind m))
         && Nat.eqb (length (cptr m)) (ncols m + 1)
      then Ok m else Throw
  end.

(** Where the Jacobians of an error term live. *)
Record pointer := Pointer { start : nat; per_col : nat }.

(** A design variable's columnBase(): first row of its block in J^T. *)
Variable base : dvref -> nat.

(** std::sort by block index; the order of equal block indices is unspecified
    in C++ and here that of the list. *)
Fixpoint insert_dv (d : dvref) (l : list dvref) : list dvref :=
  match l with
  | [] => [d]
  | e :: r => if Z.leb (block d) (block e) then d :: l else e :: insert_dv d r
  end.
Definition sort_dvs (l : list dvref) : list dvref := fold_right insert_dv [] l.

(** 242-255. *)
Definition active_dvs (dvs : list dvref) : list dvref := filter is_active dvs.
Definition elements (dvs : list dvref) : nat :=
  fold_left (fun s d => s + mindim d) dvs 0.

(** 261-264. *)
Definition ptr_writes (from E n : nat) (l : list nat) : outcome (list nat) :=
  fold_left (fun o r =>
      do l <- o;
      do p <- (if Nat.eqb (from + r) 0 then UB else load l (from + r - 1));
      store (from + r) (p + E) l)
    (seq 0 n) (Ok l).

(** 265-280: the row indices, design variable by design variable. *)
Fixpoint row_writes (from E n off : nat) (dvs : list dvref) : list (nat * nat) :=
  match dvs with
  | [] => []
  | d :: r =>
      flat_map (fun c => map (fun q => (from + c * E + off + q, base d + q))
                             (seq 0 (mindim d)))
               (seq 0 n)
      ++ row_writes from E n (off + mindim d) r
  end.

(** 235-285. *)
Definition append (n : nat) (dvs : list dvref) (m : ccm) : outcome (pointer * ccm) :=
  if diag m then Throw
  else
    let act := active_dvs dvs in
    let E := elements act in
    let s := sort_dvs act in
    let from := length (rind m) in
    let ri := resize (length (rind m) + E * n) 0 (rind m) in
    let va := resize (length (vals m) + E * n) zero (vals m) in
    let cfrom := length (cptr m) in
    do cp <- ptr_writes cfrom E n (resize (length (cptr m) + n) 0 (cptr m));
    do ri <- stores (row_writes from E n 0 s) ri;
    do m' <- check (Ccm (nrows m) (ncols m + n) va ri cp false);
    Ok (Pointer from E, m').

(** 287-304.  A stored Jacobian is read over its own rows and columns. *)
Fixpoint jac_writes (p : pointer) (off : nat) (es : list (Z * (dvref * mat A)))
  : list (nat * num) :=
  match es with
  | [] => []
  | (_, (d, J)) :: r =>
      flat_map (fun c => map (fun q => (start p + c * per_col p + off + q,
                                        nth q (nth c J []) zero))
                             (seq 0 (mindim d)))
               (seq 0 (length J))
      ++ jac_writes p (off + mindim d) r
  end.
Definition write_jacobians (c : container A) (p : pointer) (m : ccm) : outcome ccm :=
  do v <- stores (jac_writes p 0 (cmap c)) (vals m);
  Ok (Ccm (nrows m) (ncols m) v (rind m) (cptr m) (diag m)).

(** 216-226. *)
Definition append_jacobians (c : container A) (m : ccm) : outcome ccm :=
  do '(p, m') <- append (crows c) (map (fun e => fst (snd e)) (cmap c)) m;
  write_jacobians c p m'.

(** 313-340.  The inner assertions repeat the sizes just set. *)
Definition push_diag (d : list num) (m : ccm) : outcome ccm :=
  do m <- check m;
  if Nat.eqb (length d) (nrows m) then
    if diag m then Throw
    else
      let vs := length (vals m) in
      let va := resize (vs + nrows m) zero (vals m) in
      let ri := resize (vs + nrows m) 0 (rind m) in
      let cs := length (cptr m) in
      let cp := resize (cs + nrows m) 0 (cptr m) in
      do c0 <- load cp (cs - 1);
      do ri <- stores (map (fun i => (vs + i, i)) (seq 0 (nrows m))) ri;
      do cp <- stores (map (fun i => (cs + i, c0 + i + 1)) (seq 0 (nrows m))) cp;
      do m1 <- check (Ccm (nrows m) (ncols m + nrows m) va ri cp (diag m));
      do va <- stores (combine (seq vs (nrows m)) d) (vals m1);
      check (Ccm (nrows m1) (ncols m1) va (rind m1) (cptr m1) true)
  else Throw.

(** 307-311. *)
Definition push_constant (x : num) (m : ccm) : outcome ccm :=
  push_diag (repeat x (nrows m)) m.

(** 342-352.  Unsigned subtraction below zero would ask for a huge vector. *)
Definition pop_diag (m : ccm) : outcome ccm :=
  if diag m then
    if Nat.leb (nrows m) (length (vals m)) && Nat.leb (nrows m) (length (rind m))
       && Nat.leb (nrows m) (length (cptr m)) && Nat.leb (nrows m) (ncols m)
    then
      check (Ccm (nrows m) (ncols m - nrows m)
               (firstn (length (vals m) - nrows m) (vals m))
               (firstn (length (rind m) - nrows m) (rind m))
               (firstn (length (cptr m) - nrows m) (cptr m)) false)
    else Throw
  else Throw.

(** 355-371.  The size of the new diagonal is not compared. *)
Definition update_diag (d : list num) (m : ccm) : outcome ccm :=
  if diag m then
    if Nat.leb (nrows m) (length (vals m)) && Nat.eqb (length d) (nrows m) then
      do va <- stores (combine (seq (length (vals m) - nrows m) (nrows m)) d) (vals m);
      Ok (Ccm (nrows m) (ncols m) va (rind m) (cptr m) true)
    else UB
  else Throw.

(** The entries of column [c], as visited by the loops over
    [_col_ptr[c] .. _col_ptr[c+1]). *)
Definition col_entries (m : ccm) (c : nat) : outcome (list (nat * num)) :=
  do a <- load (cptr m) c;
  do b <- load (cptr m) (c + 1);
  fold_right (fun i o =>
      do l <- o; do r <- load (rind m) i; do v <- load (vals m) i; Ok ((r, v) :: l))
    (Ok []) (seq a (b - a)).

(** 117-127.  Column-major storage of the dense result: entry (r, c) is at
    [c * rows + r]; an entry outside the matrix is out of bounds. *)
Definition to_dense (m : ccm) : outcome (list num) :=
  fold_left (fun o c =>
      do out <- o;
      do es <- col_entries m c;
      fold_left (fun o e =>
          do out <- o;
          if Nat.ltb (fst e) (nrows m) && Nat.ltb c (ncols m)
          then store (c * nrows m + fst e) (snd e) out
          else UB) es (Ok out))
    (seq 0 (length (cptr m) - 1)) (Ok (repeat zero (nrows m * ncols m))).

(** std::lower_bound on [l[first .. first+len)]. *)
Fixpoint lower_bound (fuel : nat) (l : list nat) (first len x : nat) : outcome nat :=
  match len with
  | O => Ok first
  | _ =>
      match fuel with
      | O => Hang
      | S fuel =>
          let half := len / 2 in
          do v <- load l (first + half);
          if Nat.ltb v x
          then lower_bound fuel l (first + half + 1) (len - half - 1) x
          else lower_bound fuel l first half x
      end
  end.

(** 166-186.  For the last column the code forms [&_row_ind[size]], which is
    only used as an end pointer. *)
Definition at_ (m : ccm) (r c : nat) : outcome num :=
  do a <- load (cptr m) c;
  do b <- load (cptr m) (c + 1);
  do i <- lower_bound (S (b - a)) (rind m) a (b - a) r;
  if Nat.eqb i b then Ok zero
  else
    do k <- load (rind m) i;
    if Nat.eqb k r then load (vals m) i else Ok zero.

(** 156-163. *)
Definition value (m : ccm) (r c : nat) : outcome num :=
  if Nat.ltb r (nrows m) && Nat.ltb c (ncols m) then at_ m r c else Throw.

(** 378 and 395: unsigned subtraction; below zero it wraps to a huge number,
    modelled as one no vector has. *)
Definition data_cols (m : ccm) : option nat :=
  if diag m then
    if Nat.leb (nrows m) (ncols m) then Some (ncols m - nrows m) else None
  else Some (ncols m).

(** 375-387. *)
Definition right_multiply (x : list num) (m : ccm) : outcome (list num) :=
  match data_cols m with
  | None => Throw
  | Some n =>
      if Nat.eqb (length x) n then
        fold_left (fun o c =>
            do y <- o;
            do es <- col_entries m c;
            do xc <- load x c;
            fold_left (fun o e =>
                do y <- o;
                do old <- load y (fst e);
                store (fst e) (add A old (mul A (snd e) xc)) y) es (Ok y))
          (seq 0 n) (Ok (repeat zero (nrows m)))
      else Throw
  end.

(** 392-404. *)
Definition left_multiply (x : list num) (m : ccm) : outcome (list num) :=
  match data_cols m with
  | None => Throw
  | Some n =>
      if Nat.eqb (length x) (nrows m) then
        fold_left (fun o c =>
            do y <- o;
            do es <- col_entries m c;
            fold_left (fun o e =>
                do y <- o;
                do old <- load y c;
                do xr <- load x (fst e);
                store c (add A old (mul A (snd e) xr)) y) es (Ok y))
          (seq 0 n) (Ok (repeat zero n))
      else Throw
  end.

(** 414-434.  [M] has [rows] rows and [cols] columns; the diagonal flag is not
    reset. *)
Definition from_dense_tol (rows cols : nat) (M : mat A) (tol : num) (m : ccm)
  : outcome ccm :=
  let t := absv A tol in
  let '(va, ri, cp) :=
    fold_left (fun '(va, ri, cp) c =>
        let '(va, ri) :=
          fold_left (fun '(va, ri) r =>
              let x := nth c (nth r M []) zero in
              if lt A t (absv A x) then (va ++ [x], ri ++ [r]) else (va, ri))
            (seq 0 rows) (va, ri) in
        (va, ri, cp ++ [length va]))
      (seq 0 cols) ([], [], [0]) in
  check (Ccm rows cols va ri cp (diag m)).
(** 408-412. *)
Definition from_dense (rows cols : nat) (M : mat A) (m : ccm) : outcome ccm :=
  from_dense_tol rows cols M zero m.

(** An error term as the builder sees it: dimension and design variables. *)
Record term := Term { tdim : nat; tdvs : list dvref }.

(** CompressedColumnJacobianTransposeBuilder.hpp 43-50. *)
Fixpoint append_terms (ts : list term) (m : ccm) : outcome (list pointer * ccm) :=
  match ts with
  | [] => Ok ([], m)
  | t :: r =>
      do '(p, m1) <- append (tdim t) (tdvs t) m;
      do '(ps, m2) <- append_terms r m1;
      Ok (p :: ps, m2)
  end.

(** 18-53; [dvs.back()] of an empty vector is undefined. *)
Definition init_structure (dvs : list dvref) (ts : list term) (m : ccm)
  : outcome (list pointer * ccm) :=
  match rev dvs with
  | [] => UB
  | d :: _ => append_terms ts (init (base d + mindim d) 0 (clear m))
  end.

(** 92-101: the error terms [first, last) write their weighted Jacobians. *)
Fixpoint write_all (js : list (container A * pointer)) (m : ccm) : outcome ccm :=
  match js with
  | [] => Ok m
  | (c, p) :: r => do m' <- write_jacobians c p m; write_all r m'
  end.

End Ccm.
Arguments Ccm {A}. Arguments nrows {A}. Arguments ncols {A}. Arguments vals {A}.
Arguments rind {A}. Arguments cptr {A}. Arguments diag {A}.
