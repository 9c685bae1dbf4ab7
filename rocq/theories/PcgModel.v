(** * The preconditioned conjugate gradient solver for sparse block matrices
    (aslam_sparse_block_matrix/linear_solver_pcg.h and implementation/linear_solver_pcg.hpp)

    Floating-point numbers are modelled as reals. The inverse of a block (Eigen) is a
    parameter. A division by zero is not given a meaning here: the theorems are about
    matrices for which there is none. Blocks are read through pointers, so the memory
    is explicit; that a pointer may dangle is left out. *)
From Coq Require Import Reals ZArith List Arith Bool.
From Verif Require Import BsplModel.
Import ListNotations.
Local Open Scope R_scope.

Record block := Block { b_rows : nat; b_cols : nat; b_at : nat -> nat -> R }.
Definition memory := nat -> block.
(** SparseBlockMatrix: [rowBlockIndices], [colBlockIndices] (the ends of the blocks) and
    [blockCols]: for every block column the map from block rows to blocks, in order of
    the rows, here with pointers to the blocks. *)
Record matrix := Matrix { row_ends : list nat; col_ends : list nat; columns : list (list (nat * nat)) }.

(** linear_solver_pcg.h:77-88; [_diag] and [_J] are rebuilt by every [solve]. *)
Record solver := Solver { tolerance : R; residual : R; absolute : bool; max_iter : Z; indices : list (nat * nat); sparse_mat : list nat }.
(** linear_solver_pcg.h:39-47 *)
Definition fresh : solver := Solver (/ 1000000) (-1) true (-1) [] [].
(** linear_solver_pcg.h:53-59 *)
Definition init (s : solver) : solver := Solver (tolerance s) (-1) (absolute s) (max_iter s) [] [].

(** linear_solver_pcg.h:68 *)
Definition set_max_iterations (k : Z) (s : solver) : solver := Solver (tolerance s) (residual s) (absolute s) k (indices s) (sparse_mat s).

(** linear_solver_pcg.hpp:71-83: the entries of block column [i] up to the diagonal:
    the diagonal block if there is one, the offsets and the pointers of the others *)
Fixpoint scan_column (i : nat) (ends : list nat) (col_idx : nat) (col : list (nat * nat)) : list nat * list ((nat * nat) * nat) :=
  match col with
  | [] => ([], [])
  | (r, p) :: rest =>
      if Nat.eqb r i then ([p], [])
      else let s := scan_column i ends col_idx rest in
           (fst s, ((if Nat.ltb 0 r then nth (r - 1) ends 0%nat else 0%nat, col_idx), p) :: snd s)
  end.
(** linear_solver_pcg.hpp:67-86 from block column [i] on *)
Fixpoint scan_columns (i : nat) (rends cends : list nat) (col_idx : nat) (cols : list (list (nat * nat))) : list nat * list ((nat * nat) * nat) :=
  match cols with
  | [] => ([], [])
  | col :: rest =>
      let s := scan_column i rends col_idx col in
      let t := scan_columns (S i) rends cends (nth i cends 0%nat) rest in
      (fst s ++ fst t, snd s ++ snd t)
  end.

(** [y.segment(off, len) = v] and [y.segment(off, len) += v] *)
Definition set_segment (y : vec) (off len : nat) (v : vec) : vec :=
  fun i => if (Nat.leb off i && Nat.ltb i (off + len))%bool then v (i - off)%nat else y i.
Definition add_segment (y : vec) (off len : nat) (v : vec) : vec :=
  fun i => if (Nat.leb off i && Nat.ltb i (off + len))%bool then y i + v (i - off)%nat else y i.
(** linear_solver_pcg.hpp:21-56 *)
Definition axy (A : block) (x : vec) (xoff : nat) (y : vec) (yoff : nat) : vec :=
  set_segment y yoff (b_rows A) (fun a => bsum (b_cols A) (fun c => b_at A a c * x (xoff + c)%nat)).
Definition axpy (A : block) (x : vec) (xoff : nat) (y : vec) (yoff : nat) : vec :=
  add_segment y yoff (b_rows A) (fun a => bsum (b_cols A) (fun c => b_at A a c * x (xoff + c)%nat)).
Definition atxpy (A : block) (x : vec) (xoff : nat) (y : vec) (yoff : nat) : vec :=
  add_segment y yoff (b_cols A) (fun a => bsum (b_rows A) (fun c => b_at A c a * x (xoff + c)%nat)).

(** linear_solver_pcg.hpp:133-151; [row] is the offset of the next block and [ends] what
    is left of [colBlockIndices] *)
Fixpoint mult_diag (ends : list nat) (A : list block) (row : nat) (src dest : vec) : vec :=
  match A with
  | [] => dest
  | B :: A' => mult_diag (tl ends) A' (hd 0%nat ends) src (axy B src row dest row)
  end.
(** linear_solver_pcg.hpp:153-172 *)
Definition mult (mem : memory) (ends : list nat) (diag : list block) (upper : list ((nat * nat) * nat)) (src dest : vec) : vec :=
  fold_left (fun y e => let B := mem (snd e) in
                        atxpy B src (fst (fst e)) (axpy B src (snd (fst e)) y (fst (fst e))) (snd (fst e)))
            upper (mult_diag ends diag 0 src dest).

Definition vdot (n : nat) (x y : vec) : R := bsum n (fun i => x i * y i).
Record state := State { sx : vec; sr : vec; sd : vec; sq : vec; ss : vec; sdn : R }.
(** linear_solver_pcg.hpp:116-125 *)
Definition step (n : nat) (mul pre : vec -> vec -> vec) (st : state) : state :=
  let q := mul (sd st) (sq st) in
  let a := sdn st / vdot n (sd st) q in
  let x := fun i => sx st i + a * sd st i in
  let r := fun i => sr st i - a * q i in
  let s := pre r (ss st) in
  let dn := vdot n r s in
  let ba := dn / sdn st in
  State x r (fun i => s i + ba * sd st i) q s dn.
(** linear_solver_pcg.hpp:111-126 *)
Fixpoint iterate (k n : nat) (mul pre : vec -> vec -> vec) (d0 : R) (st : state) : state :=
  match k with
  | 0%nat => st
  | S k' => if Rle_dec (sdn st) d0 then st else iterate k' n mul pre d0 (step n mul pre st)
  end.

(** linear_solver_pcg.hpp:59-131. The result is the solver afterwards, what is returned
    and the vector x. *)
Definition solve (inv : block -> block) (mem : memory) (s : solver) (A : matrix) (b : vec) : solver * (bool * vec) :=
  let required := match indices s with [] => true | _ => false end in
  let scanned := scan_columns 0 (row_ends A) (col_ends A) 0 (columns A) in
  let diag := map mem (fst scanned) in
  let idx := if required then indices s ++ map fst (snd scanned) else indices s in
  let ptrs := if required then sparse_mat s ++ map snd (snd scanned) else sparse_mat s in
  let n := last (row_ends A) 0%nat in
  let mul := mult mem (col_ends A) diag (combine idx ptrs) in
  let pre := mult_diag (col_ends A) (map inv diag) 0 in
  let d := pre b (fun _ => 0) in
  let dn := vdot n b d in
  let d1 := tolerance s * dn in
  let d0 := if absolute s then if Rlt_dec 0 (residual s) then if Rlt_dec d1 (residual s) then residual s else d1 else d1 else d1 in
  let k := if Z.ltb (max_iter s) 0 then n else Z.to_nat (max_iter s) in
  let st := iterate k n mul pre d0 (State (fun _ => 0) b d (fun _ => 0) (fun _ => 0) dn) in
  (Solver (tolerance s) (1 / 2 * sdn st) (absolute s) (max_iter s) idx ptrs, (true, sx st)).
