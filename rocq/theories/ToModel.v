(** * Model of the transformation expression at an estimated time

    Models TransformationTimeOffsetExpressionNode of
    aslam_nonparametric_estimation/aslam_splines/src/BSplineExpressions.cpp,
    lines 406-555, made by BSplinePoseDesignVariable::transformationAtTime
    (src/BSplinePoseDesignVariable.cpp lines 211-222).  Conventions of SplModel.

    The time is a scalar expression: its current value [t] is an argument, and
    what the node passes to it when the Jacobians are evaluated is the last
    part of the result (a column, which the scalar expression multiplies with
    its own Jacobian, C70). *)
From Coq Require Import Reals List Arith ZArith Bool.
From Verif Require Import Base KinModel RotModel TfModel BsplModel BshModel BpModel SplModel.
Import ListNotations.
Local Open Scope R_scope.

(** _bufferTmin, _bufferTmax and _localCoefficientIndices *)
Record tnode := TNode { buf_lo : R; buf_hi : R; local_idx : list nat }.

(** lines 406-437; [bl] and [br] are bufferTmin and bufferTmax.  A vector of
    negative size is [UB]. *)
Definition make_time_node (sv : splvar) (t bl br : R) : outcome tnode :=
  let b := cv sv in
  do hi <- t_max b;
  do right <- if rltb hi (br + t) then isub (num_segments b) 1 else segment_index b (t + br);
  do lo <- t_min b;
  do left <- if rltb (t - bl) lo then Ok 0%nat else segment_index b (t - bl);
  do '(r0, r1) <- time_interval b right;
  do '(l0, l1) <- time_interval b left;
  do li <- local_vv_indices b ((l0 + l1) / 2);
  do ri <- local_vv_indices b ((r0 + r1) / 2);
  match li, ri with
  | l :: _, _ :: _ =>
      let r := last ri 0%nat in
      do n <- isub (r + 1) l; Ok (TNode l0 r1 (seq l n))
  | _, _ => UB
  end.

(** The assertion of lines 447, 461 and 503. *)
Definition in_buffer (n : tnode) (t : R) : bool := rleb (buf_lo n) t && rltb t (buf_hi n).

(** lines 445-449 *)
Definition time_node (K : rotk) (sv : splvar) (n : tnode) (t : R) : outcome m4 :=
  if in_buffer n t then transformation K (cv sv) t else Throw.

(** The loop of lines 481-489; [k] columns of six, [c] runs over
    _localCoefficientIndices, [i] is its position. *)
Fixpoint plain_loop (sv : splvar) (k : nat) (J : nat -> v6) (lo hi i : nat) (idx : list nat)
    : outcome (list (nat * (nat -> v6))) :=
  match idx with
  | [] => Ok []
  | c :: r =>
      do id <- design_variable sv c;
      do B <- if (lo <=? c)%nat && (c <=? hi)%nat
              then do p <- isub i lo;
                   if (p * 6 + 6 <=? k * 6)%nat then Ok (fun j => J (p * 6 + j)%nat) else UB
              else Ok (fun _ => V6 v3_zero v3_zero);
      do es <- plain_loop sv k J lo hi (S i) r;
      Ok ((id, B) :: es)
  end.
(** The loop of lines 525-535; [j] is the counter of active blocks. *)
Fixpoint chain_loop (sv : splvar) (k : nat) (J : nat -> v6) (A : nat -> v6) (lo hi j : nat) (idx : list nat)
    : outcome (list (nat * (nat -> vec))) :=
  match idx with
  | [] => Ok []
  | c :: r =>
      do id <- design_variable sv c;
      if (lo <=? c)%nat && (c <=? hi)%nat
      then if (j * 6 + 6 <=? k * 6)%nat
           then do es <- chain_loop sv k J A lo hi (S j) r;
                Ok ((id, fun m => chain6 A (J (j * 6 + m)%nat)) :: es)
           else UB
      else do es <- chain_loop sv k J A lo hi j r;
           Ok ((id, fun _ => chain6 A (V6 v3_zero v3_zero)) :: es)
  end.

(** The first and last active index, J and the time derivative of the pose. *)
Definition time_parts (K : rotk) (sv : splvar) (t : R) : outcome (nat * nat * (nat -> v6) * v6) :=
  do dv <- local_vv_indices (cv sv) t;
  do '(p, js, _) <- eval_D_and_jacobian (cv sv) t 0;
  let '(_, jt) := curve_to_T_J K p in
  do pd <- eval_D (cv sv) t 1;
  match dv with
  | [] => UB
  | lo :: _ => Ok (lo, last dv 0%nat, fun m => m6_vec jt (column js m), m6_vec jt (V6 (head3 pd) (tail3 pd)))
  end.

(** lines 451-493; transformationAndJacobian (line 467) has no effect that
    lasts *)
Definition time_node_J (K : rotk) (sv : splvar) (n : tnode) (t : R) : outcome (list (nat * (nat -> v6)) * v6) :=
  if in_buffer n t then
    do '(lo, hi, J, td) <- time_parts K sv t;
    do es <- plain_loop sv (order (cv sv)) J lo hi 0 (local_idx n);
    Ok (es, td)
  else Throw.
(** lines 495-544 *)
Definition time_node_chain (K : rotk) (sv : splvar) (n : tnode) (t : R) (A : nat -> v6)
    : outcome (list (nat * (nat -> vec)) * vec) :=
  if in_buffer n t then
    do '(lo, hi, J, td) <- time_parts K sv t;
    do es <- chain_loop sv (order (cv sv)) J A lo hi 0 (local_idx n);
    Ok (es, chain6 A td)
  else Throw.

(** lines 546-555, without the variables of the time *)
Fixpoint variables_of (sv : splvar) (idx : list nat) : outcome (list nat) :=
  match idx with
  | [] => Ok []
  | c :: r => do id <- design_variable sv c; do ids <- variables_of sv r; Ok (id :: ids)
  end.
Definition time_node_variables (sv : splvar) (n : tnode) : outcome (list nat) := variables_of sv (local_idx n).
