(** Specification vocabulary for Grid and Histogram. *)
From Coq Require Import ZArith QArith List.
From Verif Require Import Base GridModel.
Import ListNotations.
Open Scope Z_scope.

(** An index tuple inside the grid. *)
Definition inside (nums idx : list Z) : Prop := Forall2 (fun n i => 0 <= i < n) nums idx.

(** A point lies in a cell: half-open boxes, except that the cell at the end of a
    dimension also holds the maximum. *)
Definition in_cell_Z (d : Z * Z * Z) (i p : Z) : Prop :=
  let '(mn, mx, r) := d in
  mn <= p <= mx /\ mn + i * r <= p < mn + (i + 1) * r.
Definition in_cell_Q (d : Q * Q * Q) (i : Z) (p : Q) : Prop :=
  let '(mn, mx, r) := d in
  (mn <= p /\ p <= mx /\ mn + inject_Z i * r <= p /\
   (p < mn + (inject_Z i + 1) * r \/ (p == mx /\ p == mn + (inject_Z i + 1) * r)))%Q.

(** A well-formed dimension. *)
Definition good_dim_Z (d : Z * Z * Z) : Prop := let '(mn, mx, r) := d in 0 < r /\ mn < mx /\ r <= mx - mn.
Definition good_dim_Q (d : Q * Q * Q) : Prop := let '(mn, mx, r) := d in (0 < r /\ mn < mx /\ r <= mx - mn)%Q.

Definition count {A} (f : A -> bool) (l : list A) : Z := Z.of_nat (length (filter f l)).
Definition total (l : list Z) : Z := fold_right Z.add 0 l.

(** Every coordinate lies between the minimum and the maximum. *)
Definition in_range_Z (dims : list (Z * Z * Z)) (p : list Z) : Prop :=
  Forall2 (fun d x => let '(mn, mx, r) := d in mn <= x <= mx) dims p.
Definition in_range_Q (dims : list (Q * Q * Q)) (p : list Q) : Prop :=
  Forall2 (fun d x => let '(mn, mx, r) := d in mn <= x /\ x <= mx)%Q dims p.

(** The point lies in the cell with that index tuple. *)
Definition point_in_cell {X} (in_cell : X * X * X -> Z -> X -> Prop) (dims : list (X * X * X)) (p : list X) (idx : list Z) : Prop :=
  length p = length dims /\ Forall2 (fun dp i => in_cell (fst dp) i (snd dp)) (combine dims p) idx.

(** Decidable versions, to count samples: [holds has dims idx p] says that [p] lies in
    the cell [idx]. *)
Definition has_Z (d : Z * Z * Z) (i x : Z) : bool :=
  let '(mn, mx, r) := d in
  ((mn <=? x) && (x <=? mx) && (mn + i * r <=? x) && (x <? mn + (i + 1) * r))%bool.
Definition has_Q (d : Q * Q * Q) (i : Z) (x : Q) : bool :=
  let '(mn, mx, r) := d in
  (Qle_bool mn x && Qle_bool x mx && Qle_bool (mn + inject_Z i * r) x &&
   (negb (Qle_bool (mn + (inject_Z i + 1) * r) x) ||
    (Qeq_bool x mx && Qeq_bool x (mn + (inject_Z i + 1) * r))))%bool.
Fixpoint holds {X} (has : X * X * X -> Z -> X -> bool) (dims : list (X * X * X)) (idx : list Z) (p : list X) : bool :=
  match dims, idx, p with
  | d :: dr, i :: ir, x :: pr => has d i x && holds has dr ir pr
  | [], [], [] => true
  | _, _, _ => false
  end.
Definition within_Z (dims : list (Z * Z * Z)) (p : list Z) : bool :=
  forallb (fun '((mn, mx, r), x) => (mn <=? x) && (x <=? mx)) (combine dims p).
Definition within_Q (dims : list (Q * Q * Q)) (p : list Q) : bool :=
  forallb (fun '((mn, mx, r), x) => Qle_bool mn x && Qle_bool x mx) (combine dims p).
