(** * What the Jacobians of expressions have to be

    All design variables move along their own updates at once; the contributions
    added to the container, times the directions of motion, must give the rate of
    the value. *)
From Coquelicot Require Import Coquelicot.
From Coq Require Import Reals List Arith.
From Verif Require Import KinModel KinSpec KinCurve TfModel TfSpec BpModel ExprModel.
Import ListNotations.
Local Open Scope R_scope.

(** The step [s] times [d] for every design variable. *)
Definition along (s : R) (d : steps) : steps :=
  Steps (fun i => v3_scale s (dq d i)) (fun i => v3_scale s (dp d i)) (fun i => v3_scale s (dh d i))
        (fun i => s * ds d i) (fun i => (s * fst (dd d i), s * snd (dd d i))) (fun i => map (Rmult s) (dm d i)).
(** The states reached from [th] by updates along [d]. *)
Definition moved (th : env) (d : steps) (s : R) : env := update th (along s d).

(** The numbers of the step of one design variable. *)
Definition coords (d : steps) (i : dvid) : list R :=
  match i with
  | IQ k => [x0 (dq d k); x1 (dq d k); x2 (dq d k)]
  | IP k => [x0 (dp d k); x1 (dp d k); x2 (dp d k)]
  | IH k => [x0 (dh d k); x1 (dh d k); x2 (dh d k)]
  | IS k => [ds d k]
  | ID k => [fst (dd d k); snd (dd d k)]
  | IM k => dm d k
  end.
Fixpoint ldot (a b : list R) : R :=
  match a, b with x :: a, y :: b => x * y + ldot a b | _, _ => 0 end.
(** Row [r] of the sum over all design variables of Jacobian times step. *)
Fixpoint applied (L : list (dvid * (nat -> list R))) (d : steps) (r : nat) : R :=
  match L with
  | [] => 0
  | (i, row) :: L => ldot (row r) (coords d i) + applied L d r
  end.

(** The [r]-th number of a vector. *)
Definition v4_at (v : v4) (r : nat) : R :=
  match r with 0%nat => q0 v | 1%nat => q1 v | 2%nat => q2 v | 3%nat => q3 v | _ => 0 end.
Definition v6_at (v : v6) (r : nat) : R :=
  if (r <? 3)%nat then v3_at (hd3 v) r else v3_at (tl3 v) (r - 3).

(** Eigen's inverses invert what is invertible (4x4: for matrices of an affine map). *)
Definition inverts3 (inv3 : m3 -> m3) : Prop := forall A, m3_det A <> 0 ->
  m3_mul A (inv3 A) = m3_I /\ m3_mul (inv3 A) A = m3_I.
Definition inverts4 (inv4 : m4 -> m4) : Prop := forall A t, m3_det A <> 0 ->
  m4_mul (rt A t) (inv4 (rt A t)) = m4_I /\ m4_mul (inv4 (rt A t)) (rt A t) = m4_I.

(** The rotation moves at time 0 with angular velocity [w]. *)
Definition turning (C : R -> m3) (w : v3) : Prop :=
  m3_derive C 0 (m3_mul (m3_scale (-1) (crossMx w)) (C 0)).

(** At the rotation [C] the parameters of [K] are a chart: when a rotation at [C]
    turns, its parameters move, the S matrix takes their rate to the angular
    velocity, and can be inverted. *)
Definition chart (K : rotk) (C : m3) : Prop :=
  m3_det (kS K (kP K C)) <> 0 /\
  forall c w, c 0 = C -> turning c w ->
    exists pd, v3_derive (fun s => kP K (c s)) 0 pd /\ m3_vec (kS K (kP K C)) pd = w.

(** The point (x, y) is not on the ray where its polar angle jumps. *)
Definition off_cut (y x : R) : Prop := y <> 0 \/ 0 < x.

(** The state suits the expression: quaternions have length one, constant
    transformations are rigid, points are not at infinity, no division by zero. *)
Section Ok.
Variable inv4 : m4 -> m4.
Fixpoint ok_s (th : env) (e : sexp) : Prop :=
  match e with
  | SDv _ | SConst _ => True
  | SMul l r | SAdd l r _ => ok_s th l /\ ok_s th r
  | SDiv l r => ok_s th l /\ ok_s th r /\ value_s th r <> 0
  end.
Fixpoint ok_r (th : env) (e : rexp) : Prop :=
  match e with
  | RDv i => unit4 (vq th i)
  | RMul l r => ok_r th l /\ ok_r th r
  | RInv r => ok_r th r
  | RTf t => ok_t th t
  end
with ok_e (th : env) (e : eexp) : Prop :=
  match e with
  | EDv _ | EDir _ | EConst _ => True
  | EMul l r => ok_r th l /\ ok_e th r
  | EMat _ r => ok_e th r
  | ECross l r | EAdd l r | ESub l r | EElem l r => ok_e th l /\ ok_e th r
  | ESubV e _ | ENeg e => ok_e th e
  | EScale p s => ok_e th p /\ ok_s th s
  | ETrans t => ok_t th t
  | EPar K r => ok_r th r /\ chart K (value_r inv4 th r)
  | EHom h => ok_h th h /\ q3 (value_h inv4 th h) <> 0
  end
with ok_t (th : env) (e : texp) : Prop :=
  match e with
  | TBasic r t => ok_r th r /\ ok_e th t
  | TMul l r => ok_t th l /\ ok_t th r
  | TInv t => ok_t th t
  | TConst T => SE3 T
  end
with ok_h (th : env) (e : hexp) : Prop :=
  match e with
  | HDv _ | HConst _ => True
  | HMul l r => ok_t th l /\ ok_h th r
  | HEuc e => ok_e th e
  end.
End Ok.

(** Two states that agree on the design variables of a list. *)
Definition agree (L : list dvid) (a b : env) : Prop :=
  vsel a = vsel b /\ (forall i, vsel a i = [] -> vm a i = vm b i) /\
  (forall i, In (IQ i) L -> vq a i = vq b i) /\ (forall i, In (IP i) L -> vp a i = vp b i) /\
  (forall i, In (IH i) L -> vh a i = vh b i) /\ (forall i, In (IS i) L -> vs a i = vs b i) /\
  (forall i, In (ID i) L -> vd a i = vd b i) /\ (forall i, In (IM i) L -> vm a i = vm b i).
