(** * What reading the cells of a tag means *)
From Coq Require Import Reals List ZArith Bool.
From Verif Require Import LutModel GfModel TdModel GmModel.
Import ListNotations.
Local Open Scope R_scope.

(** A bilinear gray value, and its squared error at observations (x, y, value) *)
Definition bilinear (c : vec) (x y : R) : R := v0 c * x + v1 c * y + v2 c * (x * y) + v3 c.
Definition observation := (R * R * R)%type.
Definition sum_over (l : list observation) (f : R -> R -> R -> R) : R := fold_right (fun o s => f (fst (fst o)) (snd (fst o)) (snd o) + s) 0 l.
Definition squared_error (c : vec) (l : list observation) : R := sum_over l (fun x y v => (bilinear c x y - v) * (bilinear c x y - v)).
(** The matrix of the normal equations *)
Definition normal_matrix (l : list observation) : sym :=
  Sym (sum_over l (fun x _ _ => x * x)) (sum_over l (fun x y _ => x * y)) (sum_over l (fun x y _ => x * (x * y))) (sum_over l (fun x _ _ => x))
      (sum_over l (fun _ y _ => y * y)) (sum_over l (fun x y _ => y * (x * y))) (sum_over l (fun _ y _ => y))
      (sum_over l (fun x y _ => x * y * (x * y))) (sum_over l (fun x y _ => x * y)) (sum_over l (fun _ _ _ => 1)).
Definition entry (A : sym) (i j : nat) : R :=
  match Nat.min i j, Nat.max i j with
  | 0%nat, 0%nat => a00 A | 0%nat, 1%nat => a01 A | 0%nat, 2%nat => a02 A | 0%nat, _ => a03 A
  | 1%nat, 1%nat => a11 A | 1%nat, 2%nat => a12 A | 1%nat, _ => a13 A
  | 2%nat, 2%nat => a22 A | 2%nat, _ => a23 A | _, _ => a33 A
  end.
(** What a matrix inverse returns is an inverse *)
Definition times4 (A B : nat -> nat -> R) (i j : nat) : R := A i 0%nat * B 0%nat j + A i 1%nat * B 1%nat j + A i 2%nat * B 2%nat j + A i 3%nat * B 3%nat j.
Definition identity (i j : nat) : R := if (i =? j)%nat then 1 else 0.
Definition gives_inverses (inverse : sym -> option (nat -> nat -> R)) : Prop :=
  forall A M, inverse A = Some M -> forall i j, (i < 4)%nat -> (j < 4)%nat -> times4 (entry A) M i j = identity i j /\ times4 M (entry A) i j = identity i j.
(** Enough observations to determine a bilinear gray value *)
Definition determined (inverse : sym -> option (nat -> nat -> R)) (l : list observation) : Prop := (6 <= length l)%nat /\ inverse (normal_matrix l) <> None.

(** The pixel whose value is taken for a point of the image *)
Definition seen (fim : image) (p : point) : option R :=
  if Rlt_dec (-3 / 2) (fst p) then if Rlt_dec (fst p) (INR (width fim) - / 2) then
  if Rlt_dec (-3 / 2) (snd p) then if Rlt_dec (snd p) (INR (height fim) - / 2) then
    Some (nth (Z.to_nat (trunc (snd p + / 2)) * width fim + Z.to_nat (trunc (fst p + / 2))) (pixels fim) 0)
  else None else None else None else None.
(** The point of cell (iy, ix) of a tag of [dd] cells a side in a quadrilateral *)
Definition cell_place (q : nat -> point) (dd iy ix : Z) : point := interpolate01 q ((IZR ix + / 2) / IZR dd) ((IZR iy + / 2) / IZR dd).
(** Observations in the ring just outside the tag, and in its outermost ring *)
Definition outside_ring (dd iy ix : Z) : bool := ((iy =? -1) || (iy =? dd) || (ix =? -1) || (ix =? dd))%Z.
Definition border_ring (dd iy ix : Z) : bool := negb (outside_ring dd iy ix) && ((iy =? 0) || (iy =? dd - 1) || (ix =? 0) || (ix =? dd - 1))%Z.
Definition observations (fim : image) (q : nat -> point) (dd : Z) (ring : Z -> Z -> bool) : list observation :=
  let range := map (fun k => Z.of_nat k - 1)%Z (seq 0 (Z.to_nat (dd + 2))) in
  flat_map (fun iy => flat_map (fun ix =>
    if ring iy ix then match seen fim (cell_place q dd iy ix) with Some v => [((IZR ix + / 2) / IZR dd, (IZR iy + / 2) / IZR dd, v)] | None => [] end else []) range) range.
(** The observations show the gray value [c]: exactly, and either [c] is constant
    or there are enough observations *)
Definition shows (inverse : sym -> option (nat -> nat -> R)) (l : list observation) (c : vec) : Prop :=
  l <> [] /\ (forall x y v, In (x, y, v) l -> v = bilinear c x y) /\ (determined inverse l \/ (v0 c = 0 /\ v1 c = 0 /\ v2 c = 0)).
(** All points of the cells can be converted to int *)
Definition representable (q : nat -> point) (dd : Z) : Prop :=
  forall iy ix, (-1 <= iy <= dd)%Z -> (-1 <= ix <= dd)%Z -> Rabs (fst (cell_place q dd iy ix)) < 2147483647 /\ Rabs (snd (cell_place q dd iy ix)) < 2147483647.

(** The gray value predicted from observations: zero without any, the mean if they
    do not determine one, and otherwise the best one *)
Definition predicted (inverse : sym -> option (nat -> nat -> R)) (l : list observation) (c : vec) : Prop :=
  (l = [] -> c = Vec 0 0 0 0) /\
  (l <> [] -> ~ determined inverse l -> c = Vec 0 0 0 (sum_over l (fun _ _ v => v) / INR (length l))) /\
  (determined inverse l -> forall c', squared_error c l <= squared_error c' l /\ (squared_error c' l <= squared_error c l -> c' = c)).
(** The observations made so far *)
Definition observed (ops : list op) : list observation := flat_map (fun o => match o with Observe x y v => [(x, y, v)] | Ask _ _ => [] end) ops.
