(** * What spline design variables and their expressions must satisfy *)
From Coquelicot Require Import Coquelicot.
From Coq Require Import Reals List Arith.
From Verif Require Import Base KinModel KinSpec KinCurve TfModel TfSpec BsplModel BsplSpec BshModel BpModel BpSpec SplModel.
Import ListNotations.
Local Open Scope R_scope.

(** ** Histories *)
Inductive op :=
| Update (id : nat) (dp : vec)
| Revert (id : nat)
| SetParameters (id : nat) (x : vec)
| AddSegment (solve : nat -> mat -> vec -> vec) (junk : vec) (t : R) (n : nat) (p : vec)
| AddPoseSegment (solve : nat -> mat -> vec -> vec) (junk : vec) (K : rotk) (t : R) (T : m4)
| RemoveSegment.
Definition step (sv : splvar) (o : op) : outcome splvar :=
  match o with
  | Update id dp => update sv id dp
  | Revert id => revert sv id
  | SetParameters id x => set_parameters sv id x
  | AddSegment solve junk t n p => add_seg solve junk sv t n p
  | AddPoseSegment solve junk K t T => add_pose_seg solve junk K sv t T
  | RemoveSegment => remove_seg sv
  end.
Fixpoint run (sv : splvar) (ops : list op) : outcome splvar :=
  match ops with [] => Ok sv | o :: r => do sv' <- step sv o; run sv' r end.
(** The states a program can be in. *)
Definition reachable (sv : splvar) : Prop := exists b ops, run (create b) ops = Ok sv.

(** ** Jacobians *)

(** Component [r] of an evaluated vector. *)
Definition component (o : outcome vec) (r : nat) : R := match o with Ok v => v r | _ => 0 end.
(** The variables move with a parameter s: [svs s] is the state at s, [svs 0]
    has the values of [sv], and [rate id] is the rate of variable [id]. *)
Definition moving_vars (sv : splvar) (rate : nat -> nat -> R) (svs : R -> splvar) : Prop :=
  exists y yd bs, moving (cv sv) (dim (cv sv) * ncols (cv sv)) y yd bs /\
    (forall s, svs s = Spl (bs s) (vars sv) (fresh sv)) /\
    forall i id, design_variable sv i = Ok id -> forall r, (r < dim (cv sv))%nat ->
      is_derive (fun s => component (value_of (svs s) id) r) 0 (rate id r).

(** The sum over the entries of block times rate; [f] takes one row of a
    column; [w] is the width of a block. *)
Fixpoint applied {A} (w : nat) (f : A -> R) (es : list (nat * (nat -> A))) (rate : nat -> nat -> R) : R :=
  match es with
  | [] => 0
  | (id, B) :: r => total w (fun j => f (B j) * rate id j) + applied w f r rate
  end.
Definition applied3 {A} (f : A -> v3) (es : list (nat * (nat -> A))) rate : v3 :=
  V3 (applied 6 (fun x => x0 (f x)) es rate) (applied 6 (fun x => x1 (f x)) es rate) (applied 6 (fun x => x2 (f x)) es rate).
Definition applied6 (es : list (nat * (nat -> v6))) rate : v6 := V6 (applied3 hd3 es rate) (applied3 tl3 es rate).
