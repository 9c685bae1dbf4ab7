(** * What the Jacobians of matrix and quaternion expressions have to be *)
From Coquelicot Require Import Coquelicot.
From Coq Require Import Reals List Arith.
From Verif Require Import BsplModel KinModel GqModel.
Import ListNotations.
Local Open Scope R_scope.

(** Every design variable is updated by [s] times its direction. *)
Definition moved (K : nat -> kind) (th d : env) (s : R) : env :=
  fun i => stepped (K i) (th i) (fun r => s * d i r).
(** Row [r] of the sum over the blocks of Jacobian times direction. *)
Fixpoint applied (L : list (nat * nat * mat)) (d : env) (r : nat) : R :=
  match L with
  | [] => 0
  | (i, n, J) :: L => bsum n (fun c => J r c * d i c) + applied L d r
  end.

(** Rows and columns of an expression whose sizes fit. *)
Inductive shaped (K : nat -> kind) : expr -> nat -> nat -> Prop :=
  | S_var i : shaped K (Evar i) (size (K i)) 1
  | S_vector i n : K i = Kvector n -> shaped K (Evector i) n 1
  | S_const A m n : shaped K (Econst A) m n
  | S_copy a m n : shaped K a m n -> shaped K (Ecopy a) m n
  | S_trans a m n : shaped K a m n -> shaped K (Etrans a) n m
  | S_inv a n : shaped K a n n -> shaped K (Einv n a) n n
  | S_mul a b m k n : shaped K a m k -> shaped K b k n -> shaped K (Emul k a b) m n
  | S_add a b m n : shaped K a m n -> shaped K b m n -> shaped K (Eadd a b) m n
  | S_sub a b m n : shaped K a m n -> shaped K b m n -> shaped K (Esub a b) m n
  | S_neg a m n : shaped K a m n -> shaped K (Eneg a) m n
  | S_scale a s m n : shaped K a m n -> shaped K (Escale a s) m n
  | S_cross_r a b n : shaped K a 3 1 -> shaped K b 3 n -> shaped K (Ecross 1 n a b) 3 n
  | S_cross_l a b n : shaped K a 3 n -> shaped K b 3 1 -> shaped K (Ecross n 1 a b) 3 n
  | S_qmul m a b : shaped K a 4 1 -> shaped K b 4 1 -> shaped K (Eqmul m a b) 4 1
  | S_qinv m a : shaped K a 4 1 -> shaped K (Eqinv m a) 4 1
  | S_qconj m a : shaped K a 4 1 -> shaped K (Eqconj m a) 4 1
  | S_qimag m a : shaped K a 4 1 -> shaped K (Eqimag m a) 3 1
  | S_qrot m a b : shaped K a 4 1 -> shaped K b 3 1 -> shaped K (Eqrot m a b) 3 1
  | S_qexp m a : shaped K a 3 1 -> shaped K (Eqexp m a) 4 1.

(** No design variable is a left-translated quaternion, and no exponential is taken of a
    vector expression directly. *)
Fixpoint supported (K : nat -> kind) (e : expr) : Prop :=
  match e with
  | Evar i => match K i with Kquaternion _ LEFT_TRANSLATED => False | _ => True end
  | Evector _ | Econst _ => True
  | Ecopy a | Etrans a | Einv _ a | Eneg a | Escale a _ | Eqinv _ a | Eqconj _ a | Eqimag _ a =>
      supported K a
  | Emul _ a b | Eadd a b | Esub a b | Ecross _ _ a b | Eqmul _ a b | Eqrot _ a b =>
      supported K a /\ supported K b
  | Eqexp _ a => match a with Evector _ => False | _ => supported K a end
  end.

Definition is_inverse (n : nat) (A V : mat) : Prop :=
  forall r c, (r < n)%nat -> (c < n)%nat ->
    bsum n (fun j => A r j * V j c) = (if (r =? c)%nat then 1 else 0) /\
    bsum n (fun j => V r j * A j c) = (if (r =? c)%nat then 1 else 0).
(** Along the motion: Eigen's inverse inverts what it is given nearby, inverted quaternions
    are not zero, and exponentials are taken of vectors long enough for their formula. *)
Fixpoint regular (K : nat -> kind) (inverse : nat -> mat -> mat) (th d : env) (e : expr) : Prop :=
  match e with
  | Evar _ | Evector _ | Econst _ => True
  | Ecopy a | Etrans a | Eneg a | Escale a _ | Eqconj _ a | Eqimag _ a => regular K inverse th d a
  | Emul _ a b | Eadd a b | Esub a b | Ecross _ _ a b | Eqmul _ a b | Eqrot _ a b =>
      regular K inverse th d a /\ regular K inverse th d b
  | Einv n a => regular K inverse th d a /\
      locally 0 (fun s => is_inverse n (value K inverse (moved K th d s) a)
                                       (inverse n (value K inverse (moved K th d s) a)))
  | Eqinv m a => regular K inverse th d a /\
      v4_dot (toq m (value K inverse th a)) (toq m (value K inverse th a)) <> 0
  | Eqexp _ a => regular K inverse th d a /\
      eps4 < v3_norm (v3_scale 2 (col3 (value K inverse th a) 0))
  end.

(** A differential handed in by the caller: its maps are linear, and its matrix fits an
    expression of [m] rows. *)
Definition linear (f : mat -> mat) : Prop :=
  forall A B s, f (fun r c => A r c + s * B r c) = (fun r c => f A r c + s * f B r c).
Fixpoint linear_diff (D : differential) : Prop :=
  match D with
  | DIdentity | DMatrix _ _ => True
  | DMap f next => linear f /\ linear_diff next
  | DMatrixThen _ _ next => linear_diff next
  end.
Definition accepts (D : differential) (m : nat) : Prop :=
  match D with
  | DIdentity | DMap _ _ => True
  | DMatrix k _ => k = m
  | DMatrixThen k _ _ => False
  end.
