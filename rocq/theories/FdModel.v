(** * Model: Jacobians by finite differences

    Schweizer-Messer/sm_eigen/include/sm_eigen/NumericalDiff.hpp,
    aslam_optimizer/aslam_backend/src/ErrorTerm.cpp lines 196-263
    (evaluateJacobiansFiniteDifference),
    aslam_optimizer/aslam_backend/include/aslam_backend/backend/implementation/ErrorTerm.hpp
    lines 52-88 and 203-232 (checkJacobiansNumerical; ErrorTermDs.cpp 43-79 and
    178-205 are the same), and
    aslam_cv/aslam_cameras/include/aslam_cameras/cameras/FiniteDifferences.hpp.

    Doubles are reals; a matrix is the list of its columns.  A design variable is
    its current and its previous value (DvModel.v); [move i v d] is the value
    that the update [d] makes of [v]. *)
From Coq Require Import Reals List Bool Arith.
From Verif Require Import Base.
Import ListNotations.
Local Close Scope Z_scope.
Local Open Scope R_scope.

(** x(c) += d *)
Definition bump (x : list R) (c : nat) (d : R) : list R := firstn c x ++ match skipn c x with [] => [] | a :: r => (a + d) :: r end.
(** (a - b)/w *)
Fixpoint quotients (a b : list R) (w : R) : list R :=
  match a, b with p :: a', m :: b' => (p - m) / w :: quotients a' b' w | _, _ => [] end.

(** ** NumericalDiff::estimateJacobian, lines 42-68 *)
Section NumericalDiff.
Context {S : Type}.
(** The functor, with the state it changes. *)
Variable f : S -> list R -> S * list R.
Variable eps : R.

(** Lines 58-65; a value of another size than the first is an error of Eigen
    that only debug builds notice. *)
Fixpoint columns (M : nat) (x0 : list R) (cs : list nat) (s : S) : outcome (S * list (list R)) :=
  match cs with
  | [] => Ok (s, [])
  | c :: cs' =>
      let h := Rmax (Rabs (nth c x0 0) * eps) eps in
      let '(s, fxp) := f s (bump x0 c h) in
      let '(s, fxm) := f s (bump x0 c (- h)) in
      if ((length fxp =? M) && (length fxm =? M))%nat then
        do '(s, J) <- columns M x0 cs' s; Ok (s, quotients fxp fxm (h * 2) :: J)
      else UB
  end.
Definition estimate (s : S) (x0 : list R) : outcome (S * list (list R)) :=
  let '(s, fx0) := f s x0 in columns (length fx0) x0 (seq 0 (length x0)) s.
End NumericalDiff.

(** ** Error terms *)
Section Term.
Context {val : Type}.
Variable dim : nat -> nat.
Variable move : nat -> val -> list R -> val.
(** What evaluateError stores as the error. *)
Variable err : (nat -> val) -> list R.

(** All design variables: current and previous values. *)
Definition store := nat -> val * val.
Definition now (e : store) : nat -> val := fun i => fst (e i).
Definition put (e : store) (i : nat) (v : val * val) : store := fun j => if (j =? i)%nat then v else e j.

(** operator(), ErrorTerm.cpp lines 215-232, ErrorTerm.hpp lines 68-85: [ids] are
    the design variables still to come. *)
Fixpoint update_all (ids : list nat) (dr : list R) (e : store) : store :=
  match ids with
  | [] => e
  | i :: r => update_all r (skipn (dim i) dr) (put e i (move i (now e i) (firstn (dim i) dr), now e i))
  end.
Fixpoint revert_all (ids : list nat) (e : store) : store :=
  match ids with [] => e | i :: r => revert_all r (put e i (snd (e i), snd (e i))) end.
(** The state: design variables and the stored error. *)
Definition functor (ids : list nat) (s : store * list R) (dr : list R) : (store * list R) * list R :=
  let e := update_all ids dr (fst s) in
  let v := err (now e) in
  ((revert_all ids e, v), v).
Definition input_size (ids : list nat) : nat := fold_left (fun n i => (n + dim i)%nat) ids 0%nat.
(** The blocks of the columns, one for each design variable. *)
Fixpoint blocks (ids : list nat) (J : list (list R)) : list (nat * list (list R)) :=
  match ids with [] => [] | i :: r => (i, firstn (dim i) J) :: blocks r (skipn (dim i) J) end.
(** evaluateJacobiansFiniteDifference, lines 239-260: the calls of add. *)
Definition term_jacobians (ids : list nat) (s : store * list R) : outcome ((store * list R) * list (nat * list (list R))) :=
  do '(s, J) <- estimate (functor ids) (1 / 10 ^ 6) s (repeat 0 (input_size ids)); Ok (s, blocks ids J).

(** checkJacobiansNumerical, lines 203-232: [ana i] is what the container of the
    analytical Jacobians has for design variable [i] (it throws if there is
    none).  The result says whether an exception was thrown. *)
Fixpoint near_column (tol : R) (a n : list R) : bool :=
  match a, n with
  | x :: a', y :: n' => (if Rle_dec (Rabs (y - x)) (Rabs tol) then true else false) && near_column tol a' n'
  | _, _ => true
  end.
Fixpoint near_block (tol : R) (a n : list (list R)) : bool :=
  match a, n with c :: a', d :: n' => near_column tol c d && near_block tol a' n' | _, _ => true end.
Fixpoint compare_blocks (tol : R) (ana : nat -> option (list (list R))) (bs : list (nat * list (list R))) : bool :=
  match bs with
  | [] => true
  | (i, n) :: r => match ana i with Some a => near_block tol a n && compare_blocks tol ana r | None => false end
  end.
Definition check_numerical (ids : list nat) (tol : R) (ana : nat -> option (list (list R))) (s : store * list R) : outcome ((store * list R) * bool) :=
  do '(s, J) <- estimate (functor ids) tol s (repeat 0 (input_size ids));
  Ok (s, compare_blocks tol ana (blocks ids J)).
End Term.

(** ** The macros of the camera library *)

(** ASLAM_CAMERAS_ESTIMATE_JACOBIAN, lines 4-25 *)
Fixpoint point_columns (f : list R -> list R) (step : R) (x : list R) (cs : list nat) : list (list R) :=
  match cs with
  | [] => []
  | c :: cs' =>
      let x1 := bump x c step in
      let x2 := bump x1 c (- (2 * step)) in
      let x3 := bump x2 c step in
      quotients (f x1) (f x2) (step * 2) :: point_columns f step x3 cs'
  end.
Definition estimate_point (f : list R -> list R) (step : R) (x0 : list R) : list (list R) := point_columns f step x0 (seq 0 (length x0)).

(** (8 b + d - a - 8 c)/(12 step) *)
Fixpoint stencil (a b c d : list R) (step : R) : list R :=
  match a, b, c, d with
  | a0 :: a', b0 :: b', c0 :: c', d0 :: d' => (8 * b0 + d0 - a0 - 8 * c0) / (step * 12) :: stencil a' b' c' d' step
  | _, _, _, _ => []
  end.
(** ASLAM_CAMERAS_ESTIMATE_INTRINSIC_JACOBIAN, lines 27-64, and
    ASLAM_CAMERAS_ESTIMATE_DISTORTION_JACOBIAN, lines 66-108: [f] is the function
    of the parameters.  The vector I keeps the last value given to its component
    when the loop goes on; only the object's parameters are set back. *)
Fixpoint param_columns (f : list R -> list R) (step : R) (I : list R) (cs : list nat) : list (list R) :=
  match cs with
  | [] => []
  | c :: cs' =>
      let Ia := bump I c (2 * step) in
      let Ib := bump Ia c (- step) in
      let Ic := bump Ib c (- (2 * step)) in
      let Id := bump Ic c (- step) in
      stencil (f Ia) (f Ib) (f Ic) (f Id) step :: param_columns f step Id cs'
  end.
Definition estimate_intrinsic (f : list R -> list R) (step : R) (I : list R) : list (list R) := param_columns f step I (seq 0 (length I)).
(** The columns from the last to the first. *)
Definition estimate_distortion (f : list R -> list R) (step : R) (I : list R) : list (list R) := rev (param_columns f step I (rev (seq 0 (length I)))).
