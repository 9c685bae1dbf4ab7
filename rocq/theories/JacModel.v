(** Model of the Jacobian container
      /repo/aslam_optimizer/aslam_backend/include/aslam_backend/backend/JacobianContainer.hpp
      /repo/aslam_optimizer/aslam_backend/src/JacobianContainer.cpp
    A std::map ordered by block index is a sorted association list ([OMap]).
    Dense matrices are lists of rows. *)
From Coq Require Import ZArith List Bool.
From Verif Require Import Base Arith OMap.
Import ListNotations.

Section Mat.
Variable A : Arith.
Notation num := (num A).

(** Eigen::MatrixXd: rows of equal length. *)
Definition mat := list (list num).
(** [+=] of equally sized matrices *)
Definition madd (a b : mat) : mat :=
  map (fun p => vadd A (fst p) (snd p)) (combine a b).
(** Eigen's [+=] asserts equal sizes in debug builds only; otherwise reads and
    writes are out of bounds. *)
Definition same_shape (a b : mat) : bool :=
  Nat.eqb (length a) (length b) &&
  forallb (fun p => Nat.eqb (length (fst p)) (length (snd p))) (combine a b).
Definition maddo (a b : mat) : outcome mat :=
  if same_shape a b then Ok (madd a b) else UB.
(** column [j]; entries outside a row count as zero and never occur in a
    well-formed matrix *)
Definition column (j : nat) (b : mat) : list num := map (fun r => nth j r (of_Z A 0)) b.
(** product of [a] with the [n]-column matrix [b] *)
Definition mmul (n : nat) (a b : mat) : mat :=
  map (fun r => map (fun j => dot A r (column j b)) (seq 0 n)) a.
End Mat.

(** What the container needs of a DesignVariable: identity, block index,
    minimal dimensions, active flag (DesignVariable.hpp). *)
Record dvref := DvRef { ptr : nat; block : Z; mindim : nat; is_active : bool }.

Section Container.
Variable A : Arith.
Notation mat := (mat A).

(** JacobianContainer.hpp 111-115.  The key of an entry is the block index of
    its design variable, read when the entry is made. *)
Record container := Container {
  crows : nat; cmap : list (Z * (dvref * mat)) }.

(** number of columns of a stored Jacobian, and shape *)
Definition shaped (r c : nat) (m : mat) : bool :=
  Nat.eqb (length m) r && forallb (fun row => Nat.eqb (length row) c) m.

(** JacobianContainer.hpp 119-135.  The debug-only assertions (block index not
    negative, equal block index means equal design variable) are compiled out
    of release builds and left out here. *)
Definition add_one (d : dvref) (J : mat) (c : container) : outcome container :=
  if shaped (crows c) (mindim d) J then
    if is_active d then
      match mget Z.compare (block d) (cmap c) with
      | None => Ok (Container (crows c) (mput Z.compare (block d) (d, J) (cmap c)))
      | Some (d0, J0) =>
          do J1 <- maddo A J0 J;
          Ok (Container (crows c) (mput Z.compare (block d) (d0, J1) (cmap c)))
      end
    else Ok c
  else Throw.

(** std::map::insert: does nothing when the key is present. *)
Definition minsert {V} (k : Z) (v : V) (m : list (Z * V)) : list (Z * V) :=
  if mhas Z.compare k m then m else mput Z.compare k v m.

(** Incrementing a map iterator that points at key [k]. *)
Fixpoint next {V} (k : Z) (m : list (Z * V)) : option Z :=
  match m with
  | [] => None
  | (k', _) :: r => if Z.ltb k k' then Some k' else next k r
  end.

(** JacobianContainer.cpp 34-38: insert the entries of the right-hand side that
    lie before key [k]. *)
Fixpoint forward (k : Z) (rt m : list (Z * (dvref * mat)))
  : list (Z * (dvref * mat)) * list (Z * (dvref * mat)) :=
  match rt with
  | [] => ([], m)
  | (kr, v) :: rt' =>
      if Z.ltb kr k then forward k rt' (minsert kr v m) else (rt, m)
  end.

(** JacobianContainer.cpp 30-49; [lt] is the key the left iterator points at.
    The matching right-hand entry is added but not skipped. *)
Fixpoint add_loop (fuel : nat) (lt : option Z) (rt m : list (Z * (dvref * mat)))
  : outcome (list (Z * (dvref * mat))) :=
  match lt with
  | None => Ok (fold_left (fun m e => minsert (fst e) (snd e) m) rt m)
  | Some k =>
      match rt with
      | [] => Ok m
      | _ =>
          match fuel with
          | O => Hang
          | S fuel =>
              let '(rt1, m1) := forward k rt m in
              match rt1 with
              | [] => Ok m1
              | (kr, (_, J)) :: _ =>
                  do m2 <-
                    (if Z.eqb kr k then
                       match mget Z.compare k m1 with
                       | Some (d0, J0) =>
                           do J1 <- maddo A J0 J;
                           Ok (mput Z.compare k (d0, J1) m1)
                       | None => Ok m1
                       end
                     else Ok m1);
                  add_loop fuel (next k m2) rt1 m2
              end
          end
      end
  end.

(** JacobianContainer.cpp 20-50.  [rhs] is read as a value: when it is the
    container itself each entry is still read before it is changed, so the
    result is the same. *)
Definition add_all (rhs c : container) : outcome container :=
  if Nat.eqb (crows c) (crows rhs) then
    do m <- add_loop (S (length (cmap c)))
              (match cmap c with [] => None | (k, _) :: _ => Some k end)
              (cmap rhs) (cmap c);
    Ok (Container (crows c) m)
  else Throw.

(** JacobianContainer.cpp 90-98; [cols] is the width of the row-list matrix. *)
Definition chain_rule (cols : nat) (M : mat) (c : container) : outcome container :=
  if Nat.eqb cols (crows c) then
    Ok (Container (length M)
          (map (fun e => (fst e, (fst (snd e),
                    mmul A (mindim (fst (snd e))) M (snd (snd e))))) (cmap c)))
  else Throw.

(** JacobianContainer.cpp 196-205. *)
Definition creset (rows : nat) : container := Container rows [].

(** JacobianContainer.cpp 169-174: lookup through the block ordering. *)
Definition jacobian (d : dvref) (c : container) : outcome mat :=
  match mget Z.compare (block d) (cmap c) with
  | Some (_, J) => Ok J
  | None => Throw
  end.

(** JacobianContainer.cpp 53-56 and 260-268. *)
Definition num_dvs (c : container) : nat := length (cmap c).
Definition ccols (c : container) : nat :=
  fold_left (fun s e => (s + mindim (fst (snd e)))%nat) (cmap c) O.

End Container.
Arguments Container {A}. Arguments crows {A}. Arguments cmap {A}.
