(** Model of what the sparse linear solvers hand to their libraries:
      /repo/aslam_optimizer/aslam_sparse_block_matrix/include/aslam_sparse_block_matrix/
        linear_solver_cholmod.h, linear_solver_csparse.h, linear_solver_spqr.h,
        sparse_helper.h (CholmodExt)
      /repo/aslam_optimizer/aslam_sparse_block_matrix/src/matrix_structure.cpp
    The libraries themselves (CHOLMOD, CSparse, SuiteSparseQR) are not
    modelled: a solve takes as input whether the library reported success, and
    returns the arrays the library was given.  Simplifications: sizes are
    natural numbers; newly allocated arrays have no known contents, and only
    the part that has been written since is recorded. *)
From Coq Require Import ZArith List Bool.
From Verif Require Import Base Arith OMap JacModel CcmModel SbmModel.
Import ListNotations.
Open Scope nat_scope.

Inductive kind := Cholmod | CSparse | Spqr.

Section Ls.
Variable A : Arith.
Notation num := (num A).
Notation sbm := (sbm A).

(** linear_solver_cholmod.h 192-197, sparse_helper.h 84-118.  [cols_cap] and
    [nz_cap] are columnsAllocated and nzmax; [arr_p] is [None] while p is null
    or has just been allocated; [arr_i] and [arr_x] are the written parts;
    [factor] is the pattern the symbolic factorisation was made for. *)
Record ls := Ls {
  cols_cap : nat; nz_cap : nat;
  has_p : bool;
  arr_p : option (list nat); arr_i : list nat; arr_x : list num;
  factor : option (nat * nat * list nat * list nat) }.
Definition start : ls := Ls 0 0 false None [] [] None.

(** Writing a prefix of an array. *)
Definition over {V} (new old : list V) : list V := new ++ skipn (length new) old.

(** linear_solver_cholmod.h 254-289, linear_solver_csparse.h 264-296,
    linear_solver_spqr.h 165-203. *)
Definition fill (q : kind) (only : bool) (m : sbm) (s : ls) : outcome ls :=
  let n := total (cbi m) in
  let s1 := if cols_cap s <? n
            then Ls (if cols_cap s =? 0 then n else 2 * n) (nz_cap s) true None (arr_i s) (arr_x s) (factor s)
            else s in
  let nz := match q with Spqr => nonzeros A m * 2 | _ => nonzeros A m end in
  let s2 := if negb only && (nz_cap s1 <? nz)
            then Ls (cols_cap s1) (if nz_cap s1 =? 0 then nz else 2 * nz) (has_p s1) (arr_p s1) [] [] (factor s1)
            else s1 in
  if only then
    do x <- match q with Spqr => fill_upper_triangle_values A m | _ => fill_values A m true end;
    if length x <=? nz_cap s2
    then Ok (Ls (cols_cap s2) (nz_cap s2) (has_p s2) (arr_p s2) (arr_i s2) (over x (arr_x s2)) (factor s2))
    else UB
  else
    do k <- match q with Spqr => fill_upper_triangle_ccs A m | _ => fill_ccs A m true end;
    if has_p s2 && (length (ccs_p k) <=? cols_cap s2 + 1) && (length (ccs_x k) <=? nz_cap s2)
    then Ok (Ls (cols_cap s2) (nz_cap s2) (has_p s2) (Some (ccs_p k))
               (over (ccs_i k) (arr_i s2)) (over (ccs_x k) (arr_x s2)) (factor s2))
    else UB.

(** The matrix a library reads: the first ncol + 1 column starts and as many
    entries as they announce.  Reading what was never written is undefined. *)
Definition view (m : sbm) (s : ls) : outcome (ccm A) :=
  match arr_p s with
  | None => UB
  | Some p =>
      match nth_error p (total (cbi m)) with
      | None => UB
      | Some nz =>
          if (nz <=? length (arr_i s)) && (nz <=? length (arr_x s))
          then Ok (Ccm (total (rbi m)) (total (cbi m)) (firstn nz (arr_x s)) (firstn nz (arr_i s))
                     (firstn (total (cbi m) + 1) p) false)
          else UB
      end
  end.

(** The pattern of what a library reads. *)
Definition pattern_of (h : ccm A) : nat * nat * list nat * list nat :=
  (nrows h, ncols h, cptr h, rind h).

Inductive op :=
| OInit                                   (* init() *)
| OSolve (m : sbm) (ok : bool)            (* solve() *)
| OBlocks (m : sbm) (ok : bool).          (* solveBlocks(), solvePattern() *)

(** linear_solver_cholmod.h 70-117, 119-190; linear_solver_csparse.h 86-202;
    linear_solver_spqr.h 70-160.  Only CHOLMOD's solve drops the factor when the
    factorisation fails; SuiteSparseQR has no solveBlocks. *)
Definition step (q : kind) (o : op) (s : ls) : outcome (ls * option (ccm A)) :=
  match o with
  | OInit => Ok (Ls (cols_cap s) (nz_cap s) (has_p s) (arr_p s) (arr_i s) (arr_x s) None, None)
  | OSolve m ok | OBlocks m ok =>
      do s1 <- fill q (match factor s with Some _ => true | None => false end) m s;
      do h <- view m s1;
      let f := match factor s1 with Some f => f | None => pattern_of h end in
      let drop := match o, q with OSolve _ _, Cholmod => negb ok | _, _ => false end in
      Ok (Ls (cols_cap s1) (nz_cap s1) (has_p s1) (arr_p s1) (arr_i s1) (arr_x s1)
            (if drop then None else Some f), Some h)
  end.

(** A history; the second component lists, for every solve, what was handed
    over and the pattern of the factorisation it was used with. *)
Fixpoint run (q : kind) (os : list op) (s : ls)
  : outcome (list (sbm * ccm A * (nat * nat * list nat * list nat))) :=
  match os with
  | [] => Ok []
  | o :: r =>
      do '(s', h) <- step q o s;
      do hs <- run q r s';
      Ok (match o, h with
          | (OSolve m _ | OBlocks m _), Some h =>
              (m, h, match factor s with Some f => f | None => pattern_of h end) :: hs
          | _, _ => hs
          end)
  end.

(** linear_solver_dense.h 60-93: the blocks on and above the diagonal, copied
    into a dense matrix with as many rows as the block matrix has columns;
    LDLT then reads its upper triangle. *)
Definition dense_input (m : sbm) : outcome (mat A) :=
  let n := total (cbi m) in
  fold_left (fun o (e : nat * nat * mat A) =>
      do H <- o;
      let '(r, c, B) := e in
      if r <=? c then
        if shaped A (size_of (rbi m) r) (size_of (cbi m) c) B &&
           (base_of (rbi m) r + size_of (rbi m) r <=? n) &&
           (base_of (cbi m) c + size_of (cbi m) c <=? n)
        then Ok (write_block A (base_of (rbi m) r) (base_of (cbi m) c) B H)
        else UB
      else Ok H)
    (blocks A m) (Ok (zeros A n n)).

(** linear_solver_cholmod.h 228-241, linear_solver_csparse.h 229-243: the block
    ordering spread over the scalar columns. *)
Definition scalar_order (l bp : list nat) : list nat :=
  flat_map (fun p => map (fun j => base_of l p + j) (seq 0 (size_of l p))) bp.

(** linear_solver_cholmod.h 145-149: [pinv(p[i]) = i]. *)
Definition invert (p : list nat) : outcome (list nat) :=
  fold_left (fun o i =>
      do v <- o;
      match nth_error p i with
      | Some k => if k <? length p then Ok (put_nth k i v) else UB
      | None => UB
      end) (seq 0 (length p)) (Ok (repeat 0 (length p))).
End Ls.
Arguments Ls {A}.
Arguments cols_cap {A}.
Arguments nz_cap {A}.
Arguments has_p {A}.
Arguments arr_p {A}.
Arguments arr_i {A}.
Arguments arr_x {A}.
Arguments factor {A}.
Arguments OInit {A}.
Arguments OSolve {A}.
Arguments OBlocks {A}.

(** matrix_structure.cpp 45-66: capacities of Ap (less one) and Aii. *)
Record structure := Structure { st_n : nat; st_maxn : nat; st_maxnz : nat }.
Definition alloc (n nz : nat) (s : structure) : structure :=
  if st_n s =? 0 then Structure n n nz
  else Structure n (if st_maxn s <? n then 2 * n else st_maxn s)
                   (if st_maxnz s <? nz then 2 * nz else st_maxnz s).
