(** Model of the sparse block matrix
      /repo/aslam_optimizer/aslam_sparse_block_matrix/include/aslam_sparse_block_matrix/
        sparse_block_matrix.h
        implementation/sparse_block_matrix.hpp
    for dynamically sized blocks (Eigen::MatrixXd, the type aslam_backend
    uses).  Line numbers below are those of the implementation file unless said
    otherwise.  Simplifications: indices and sizes are natural numbers, so no
    index is negative and none overflows; a block is held by value, so two
    matrices never share blocks (the views made by slice with alloc = false are
    modelled by their contents only); a null pointer that is dereferenced, an
    index past the end of a vector and an Eigen assignment between different
    sizes are undefined behaviour, as in a release build. *)
From Coq Require Import ZArith List Bool.
From Verif Require Import Base Arith OMap JacModel.
Import ListNotations.
Open Scope nat_scope.

(** sparse_block_matrix.h 98-107: rowBaseOfBlock, rowsOfBlock and the column
    versions; [l] holds the end index of every block. *)
Definition base_of (l : list nat) (r : nat) : nat :=
  match r with O => 0 | S q => nth q l 0 end.
Definition size_of (l : list nat) (r : nat) : nat :=
  match r with O => nth 0 l 0 | S q => nth r l 0 - nth q l 0 end.
(** sparse_block_matrix.h 86-89: rows() and cols(). *)
Definition total (l : list nat) : nat := last l 0.

(** A loop that appends one result per element, in order. *)
Fixpoint mapo {U V} (f : U -> outcome V) (l : list U) : outcome (list V) :=
  match l with
  | [] => Ok []
  | x :: r => do y <- f x; do ys <- mapo f r; Ok (y :: ys)
  end.

(** Running sums: std::partial_sum. *)
Fixpoint partial_sums (s : nat) (l : list nat) : list nat :=
  match l with [] => [] | x :: r => (s + x) :: partial_sums (s + x) r end.

Section Sbm.
Variable A : Arith.
Notation num := (num A).
Notation zero := (of_Z A 0).
Notation mat := (mat A).

(** sparse_block_matrix.h 214-226. *)
Record sbm := Sbm {
  rbi : list nat; cbi : list nat;
  bcols : list (list (nat * mat));
  owns : bool }.

(** 38-43: a matrix with a layout and no block. *)
Definition fresh (r c : list nat) : sbm := Sbm r c (repeat [] (length c)) true.

(** A block of zeros. *)
Definition zeros (r c : nat) : mat := repeat (repeat zero c) r.

(** 140-151: the block, or null.  Only a debug build checks the indices. *)
Definition get (r c : nat) (m : sbm) : outcome (option mat) :=
  match nth_error (bcols m) c with
  | None => UB
  | Some col => Ok (mget Nat.compare r col)
  end.

(** Replacing element [i] of a vector. *)
Fixpoint put_nth {V} (i : nat) (v : V) (l : list V) : list V :=
  match l, i with
  | [], _ => []
  | _ :: r, O => v :: r
  | x :: r, S i => x :: put_nth i v r
  end.

Definition put (r c : nat) (B : mat) (m : sbm) : sbm :=
  match nth_error (bcols m) c with
  | None => m
  | Some col => Sbm (rbi m) (cbi m) (put_nth c (mput Nat.compare r B col) (bcols m)) (owns m)
  end.

(** 115-138 with alloc = true, followed by writing [f] of the block through the
    returned pointer. *)
Definition update (r c : nat) (f : mat -> outcome mat) (m : sbm) : outcome sbm :=
  do b <- get r c m;
  match b with
  | Some B => do B' <- f B; Ok (put r c B' m)
  | None =>
      if owns m then
        if (r <? length (rbi m)) && (c <? length (cbi m)) then
          do B' <- f (zeros (size_of (rbi m) r) (size_of (cbi m) c));
          Ok (put r c B' m)
        else UB
      else UB
  end.

(** A run of such writes, in order. *)
Fixpoint updates (us : list (nat * nat * (mat -> outcome mat))) (m : sbm) : outcome sbm :=
  match us with
  | [] => Ok m
  | (r, c, f) :: us => do m' <- update r c f m; updates us m'
  end.

(** [*d += M] and [*d = M]; the sizes must agree (operator= would resize a
    dynamic matrix, silently leaving the layout). *)
Definition plus (M : mat) (B : mat) : outcome mat := maddo A B M.
Definition assign (M : mat) (B : mat) : outcome mat := Ok M.

(** The loop [for i; for it in _blockCols[i]] as the list of triples it visits. *)
Definition blocks_from (i : nat) (cols : list (list (nat * mat))) : list (nat * nat * mat) :=
  concat (map (fun p => map (fun e => (fst e, fst p, snd e)) (snd p))
              (combine (seq i (length cols)) cols)).
Definition blocks (m : sbm) : list (nat * nat * mat) := blocks_from 0 (bcols m).

(** Writing zeros over every element. *)
Definition set_zero (B : mat) : mat := map (map (fun _ => zero)) B.
Definition map_blocks (f : mat -> mat) (m : sbm) : sbm :=
  Sbm (rbi m) (cbi m) (map (map (fun e => (fst e, f (snd e)))) (bcols m)) (owns m).

(** 93-108. *)
Definition clear (dealloc : bool) (m : sbm) : sbm :=
  if owns m && dealloc then Sbm (rbi m) (cbi m) (map (fun _ => []) (bcols m)) (owns m)
  else map_blocks set_zero m.

(** 153-174: the copy owns its blocks. *)
Definition clone (m : sbm) : sbm := Sbm (rbi m) (cbi m) (bcols m) true.

(** Writing block [B] at (r0, c0) of a dense matrix. *)
Definition write_row (c0 : nat) (b h : list num) : list num :=
  firstn c0 h ++ b ++ skipn (c0 + length b) h.
Definition write_block (r0 c0 : nat) (B H : mat) : mat :=
  firstn r0 H ++
  map (fun p => write_row c0 (fst p) (snd p)) (combine B (skipn r0 H)) ++
  skipn (r0 + length B) H.

(** 176-200.  The running column index equals colBaseOfBlock. *)
Definition to_dense (m : sbm) : outcome mat :=
  fold_left (fun o (e : nat * nat * mat) =>
      do H <- o;
      let '(r, c, B) := e in
      if shaped A (size_of (rbi m) r) (size_of (cbi m) c) B &&
         (base_of (rbi m) r + size_of (rbi m) r <=? total (rbi m)) &&
         (base_of (cbi m) c + size_of (cbi m) c <=? total (cbi m))
      then Ok (write_block (base_of (rbi m) r) (base_of (cbi m) c) B H)
      else UB)
    (blocks m) (Ok (zeros (total (rbi m)) (total (cbi m)))).

(** std::upper_bound: index of the first element greater than [x]. *)
Fixpoint upper_bound (l : list nat) (x : nat) : nat :=
  match l with
  | [] => 0
  | y :: r => if x <? y then 0 else S (upper_bound r x)
  end.

(** Element of a block. *)
Definition elem (B : mat) (i j : nat) : outcome num :=
  match nth_error B i with
  | None => UB
  | Some row => match nth_error row j with None => UB | Some v => Ok v end
  end.

(** 209-236: operator(). *)
Definition entry (m : sbm) (r c : nat) : outcome num :=
  if (r <? total (rbi m)) && (c <? total (cbi m)) then
    let br := upper_bound (rbi m) r in
    let bc := upper_bound (cbi m) c in
    do b <- get br bc m;
    match b with
    | None => Ok zero
    | Some B => elem B (r - base_of (rbi m) br) (c - base_of (cbi m) bc)
    end
  else Throw.

(** Transpose of a matrix with [n] columns. *)
Definition mtrans (n : nat) (B : mat) : mat := map (fun j => column A j B) (seq 0 n).

(** Equal layouts, element by element. *)
Definition same_layout (a b : list nat) : bool :=
  (length a =? length b) && forallb (fun p => fst p =? snd p) (combine a b).

(** 238-266.  [dest] is the matrix the caller passes or [None]; the result is
    the returned flag and the destination. *)
Definition transpose_into (m : sbm) (dest : option sbm) : outcome (bool * sbm) :=
  let d := match dest with None => fresh (cbi m) (rbi m) | Some d => d end in
  if match dest with None => true | Some d =>
       owns d && same_layout (rbi m) (cbi d) && same_layout (cbi m) (rbi d) end
  then
    do d' <- updates (map (fun e : nat * nat * mat => let '(r, c, B) := e in
                        (c, r, assign (mtrans (size_of (cbi m) c) B))) (blocks m)) d;
    Ok (true, d')
  else Ok (false, d).

(** 278-305. *)
Definition add_into (m : sbm) (dest : option sbm) : outcome (bool * sbm) :=
  let d := match dest with None => fresh (rbi m) (cbi m) | Some d => d end in
  if match dest with None => true | Some d =>
       owns d && same_layout (rbi m) (rbi d) && same_layout (cbi m) (cbi d) end
  then
    do d' <- updates (map (fun e : nat * nat * mat => let '(r, c, B) := e in
                        (r, c, plus B)) (blocks m)) d;
    Ok (true, d')
  else Ok (false, d).

(** 307-343.  The layout of an existing destination is not checked and its
    blocks are added to. *)
Definition products (a b : sbm) : outcome (list (nat * nat * mat)) :=
  omap (@concat _) (mapo (fun e : nat * nat * mat =>
      let '(k, c, Bk) := e in
      match nth_error (bcols a) k with
      | None => UB
      | Some col => Ok (map (fun p => (fst p, c, mmul A (size_of (cbi b) c) (snd p) Bk)) col)
      end) (blocks b)).
Definition multiply_into (a b : sbm) (dest : option sbm) : outcome (bool * sbm) :=
  let d := match dest with None => fresh (rbi a) (cbi b) | Some d => d end in
  if same_layout (cbi a) (rbi b) then
    if owns d then
      do us <- products a b;
      do d' <- updates (map (fun e : nat * nat * mat => (fst e, plus (snd e))) us) d;
      Ok (true, d')
    else Ok (false, d)
  else Ok (false, d).

(** 345-353: operator*. *)
Definition product (a b : sbm) : outcome sbm :=
  do '(ok, d) <- multiply_into a b (Some (fresh (rbi a) (cbi b)));
  if ok : bool then Ok d else Throw.

(** [x.segment(o, n)] and [y.segment(o, length v) += v]. *)
Definition segment (o n : nat) (x : list num) : outcome (list num) :=
  if o + n <=? length x then Ok (firstn n (skipn o x)) else UB.
Definition add_segment (o : nat) (v y : list num) : outcome (list num) :=
  if o + length v <=? length y
  then Ok (firstn o y ++ vadd A (firstn (length v) (skipn o y)) v ++ skipn (o + length v) y)
  else UB.

(** Matrix times vector. *)
Definition mvec (M : mat) (x : list num) : list num := map (fun r => dot A r x) M.

(** 391-414: the pointer version adds to an existing destination.  440-461: the
    VectorXd version clears it first. *)
Definition mul_vec_onto (m : sbm) (x y : list num) : outcome (list num) :=
  fold_left (fun o (e : nat * nat * mat) =>
      do y <- o;
      let '(r, c, B) := e in
      do s <- segment (base_of (cbi m) c) (size_of (cbi m) c) x;
      add_segment (base_of (rbi m) r) (mvec B s) y) (blocks m) (Ok y).
Definition mul_vec (m : sbm) (x : list num) : outcome (list num) :=
  mul_vec_onto m x (repeat zero (total (rbi m))).

(** 463-482 and 484-509: product with the transpose. *)
Definition tmul_vec_onto (m : sbm) (x y : list num) : outcome (list num) :=
  fold_left (fun o (e : nat * nat * mat) =>
      do y <- o;
      let '(r, c, B) := e in
      do s <- segment (base_of (rbi m) r) (size_of (rbi m) r) x;
      add_segment (base_of (cbi m) c) (mvec (mtrans (size_of (cbi m) c) B) s) y) (blocks m) (Ok y).
Definition tmul_vec (m : sbm) (x : list num) : outcome (list num) :=
  tmul_vec_onto m x (repeat zero (total (cbi m))).

(** 511-519. *)
Definition scale (a : num) (m : sbm) : sbm := map_blocks (map (map (fun v => mul A v a))) m.

(** 540-566 with alloc = true.  The first element of each index array is
    written unconditionally. *)
Definition slice_layout (l : list nat) (lo hi : nat) : list nat :=
  partial_sums 0 (map (size_of l) (seq lo (hi - lo))).
Definition slice (rmin rmax cmin cmax : nat) (m : sbm) : outcome sbm :=
  if (rmin <? rmax) && (cmin <? cmax) then
    if (rmax <=? length (rbi m)) && (cmax <=? length (bcols m)) then
      Ok (Sbm (slice_layout (rbi m) rmin rmax) (slice_layout (cbi m) cmin cmax)
            (map (fun col => map (fun e => (fst e - rmin, snd e))
                               (filter (fun e => (rmin <=? fst e) && (fst e <? rmax)) col))
                 (firstn (cmax - cmin) (skipn cmin (bcols m)))) true)
    else UB
  else UB.

(** 521-538: the destination keeps its layout; its blocks are zeroed and then
    overwritten. *)
Definition slice_into (rmin rmax cmin cmax : nat) (m out : sbm) : outcome sbm :=
  if cmax <=? length (bcols m) then
    updates (map (fun e : nat * nat * mat => let '(r, c, B) := e in
                    (r - rmin, c - cmin, assign B))
                 (filter (fun e : nat * nat * mat => let '(r, c, _) := e in
                    (rmin <=? r) && (r <? rmax) && (cmin <=? c) && (c <? cmax)) (blocks m)))
            (clear false out)
  else UB.

(** 568-574 and 576-592. *)
Definition nonzero_blocks (m : sbm) : nat := list_sum (map (@length _) (bcols m)).
Definition nonzeros (m : sbm) : nat :=
  list_sum (map (fun e : nat * nat * mat => let '(r, c, B) := e in
                   size_of (cbi m) c * size_of (rbi m) r) (blocks m)).

(** 615-677.  [pinv] gives the new index of every block. *)
Definition perm_sizes (l pinv : list nat) : outcome (list nat) :=
  fold_left (fun o i =>
      do s <- o;
      match nth_error pinv i with
      | None => UB
      | Some p => if p <? length l then Ok (put_nth p (size_of l i) s) else UB
      end) (seq 0 (length l)) (Ok (repeat 0 (length l))).
Definition perm_writes (m : sbm) (pinv : list nat) (upper : bool)
  : outcome (list (nat * nat * (mat -> outcome mat))) :=
  mapo (fun e : nat * nat * mat =>
      let '(r, c, B) := e in
      match nth_error pinv c, nth_error pinv r with
      | Some pi, Some pj =>
          Ok (if negb upper || (pj <=? pi) then (pj, pi, assign B)
              else (pi, pj, assign (mtrans (size_of (cbi m) c) B)))
      | _, _ => UB
      end) (blocks m).
Definition symm_permutation (m : sbm) (pinv : list nat) (upper : bool) (dest : option sbm)
  : outcome (bool * sbm) :=
  match rbi m with
  | [] => UB
  | _ =>
      do s <- perm_sizes (rbi m) pinv;
      let lay := partial_sums 0 s in
      let d := match dest with None => fresh lay lay | Some d => clear false d end in
      if match dest with None => true | Some d =>
           same_layout (rbi d) lay && same_layout (cbi d) lay end
      then
        do us <- perm_writes m pinv upper;
        do d' <- updates us d;
        Ok (true, d')
      else Ok (false, match dest with None => d | Some d0 => d0 end)
  end.

(** 679-742: the columns of the compressed form, one list of (row, value) per
    scalar column.  The four-argument version writes the running count to Cp
    before each column, the row to Ci and the value to Cx. *)
Definition ccs_piece (m : sbm) (upper : bool) (cstart c : nat) (e : nat * mat)
  : outcome (list (nat * num)) :=
  let '(r, B) := e in
  let rstart := base_of (rbi m) r in
  let n := if upper && (rstart =? cstart) then c + 1 else length B in
  mapo (fun i => do v <- elem B i c; Ok (rstart + i, v)) (seq 0 n).
Definition ccs_column (m : sbm) (upper : bool) (i c : nat) : outcome (list (nat * num)) :=
  match nth_error (bcols m) i with
  | None => UB
  | Some col => omap (@concat _) (mapo (ccs_piece m upper (base_of (cbi m) i) c) col)
  end.
Definition scalar_columns (m : sbm) : list (nat * nat) :=
  flat_map (fun i => map (pair i) (seq 0 (size_of (cbi m) i))) (seq 0 (length (bcols m))).
Definition ccs_columns (m : sbm) (upper : bool) : outcome (list (list (nat * num))) :=
  mapo (fun p => ccs_column m upper (fst p) (snd p)) (scalar_columns m).

(** 717-742: what is left in Cp, Ci and Cx, and the returned count. *)
Fixpoint column_starts (s : nat) (cols : list (list (nat * num))) : list nat :=
  match cols with
  | [] => [s]
  | k :: r => s :: column_starts (s + length k) r
  end.
Record ccs := Ccs { ccs_p : list nat; ccs_i : list nat; ccs_x : list num }.
Definition fill_ccs (m : sbm) (upper : bool) : outcome ccs :=
  do cols <- ccs_columns m upper;
  Ok (Ccs (column_starts 0 cols) (map fst (concat cols)) (map snd (concat cols))).
(** 685-709: the one-argument version copies [n] numbers from the block's
    storage, which is column by column. *)
Definition storage (cols : nat) (B : mat) : list num :=
  concat (map (fun j => column A j B) (seq 0 cols)).
Definition values_piece (m : sbm) (upper : bool) (cstart i c : nat) (e : nat * mat) : outcome (list num) :=
  let '(r, B) := e in
  let n := if upper && (base_of (rbi m) r =? cstart) then c + 1 else length B in
  let d := storage (size_of (cbi m) i) B in
  if c * length B + n <=? length d then Ok (firstn n (skipn (c * length B) d)) else UB.
Definition values_column (m : sbm) (upper : bool) (i c : nat) : outcome (list num) :=
  match nth_error (bcols m) i with
  | None => UB
  | Some col => omap (@concat _) (mapo (values_piece m upper (base_of (cbi m) i) i c) col)
  end.
Definition fill_values (m : sbm) (upper : bool) : outcome (list num) :=
  omap (@concat _) (mapo (fun p => values_column m upper (fst p) (snd p)) (scalar_columns m)).

(** 744-806: the rest of the column below the diagonal, read from the row of
    blocks to the right. *)
Definition mirror_piece (m : sbm) (i c cb : nat) : outcome (list (nat * num)) :=
  do b <- get i cb m;
  match b with
  | None => Ok []
  | Some B =>
      let from := if i =? cb then c + 1 else 0 in
      mapo (fun ci => do v <- elem B c ci; Ok (base_of (cbi m) cb + ci, v))
        (seq from (size_of (cbi m) cb - from))
  end.
Definition full_column (m : sbm) (i c : nat) : outcome (list (nat * num)) :=
  do up <- ccs_column m true i c;
  do low <- mapo (mirror_piece m i c) (seq i (length (bcols m) - i));
  Ok (up ++ concat low).
Definition full_columns (m : sbm) : outcome (list (list (nat * num))) :=
  mapo (fun p => full_column m (fst p) (snd p)) (scalar_columns m).
Definition fill_upper_triangle_ccs (m : sbm) : outcome ccs :=
  do cols <- full_columns m;
  Ok (Ccs (column_starts 0 cols) (map fst (concat cols)) (map snd (concat cols))).

(** 808-863: the values only. *)
Definition mirror_values (m : sbm) (i c cb : nat) : outcome (list num) :=
  do b <- get i cb m;
  match b with
  | None => Ok []
  | Some B =>
      let from := if i =? cb then c + 1 else 0 in
      mapo (fun ci => elem B c ci) (seq from (size_of (cbi m) cb - from))
  end.
Definition full_values_column (m : sbm) (i c : nat) : outcome (list num) :=
  do up <- values_column m true i c;
  do low <- mapo (mirror_values m i c) (seq i (length (bcols m) - i));
  Ok (up ++ concat low).
Definition fill_upper_triangle_values (m : sbm) : outcome (list num) :=
  omap (@concat _) (mapo (fun p => full_values_column m (fst p) (snd p)) (scalar_columns m)).

(** 865-888: pattern of the upper triangle of blocks. *)
Definition block_structure (m : sbm) : list nat * list nat :=
  let cols := map (fun p => filter (fun r => r <=? fst p) (map fst (snd p)))
                  (combine (seq 0 (length (bcols m))) (bcols m)) in
  (fold_left (fun l k => l ++ [last l 0 + length k]) cols [0], concat cols).
End Sbm.
Arguments Sbm {A}.
Arguments rbi {A}.
Arguments cbi {A}.
Arguments bcols {A}.
Arguments owns {A}.
Arguments Ccs {A}.
Arguments ccs_p {A}.
Arguments ccs_i {A}.
Arguments ccs_x {A}.
