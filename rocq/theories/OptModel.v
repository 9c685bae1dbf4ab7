(** Model of the non-linear least-squares optimiser:
      /repo/aslam_optimizer/aslam_backend/src/Optimizer2.cpp
      /repo/aslam_optimizer/aslam_backend/src/TrustRegionPolicy.cpp
      /repo/aslam_optimizer/aslam_backend/src/GaussNewtonTrustRegionPolicy.cpp
      /repo/aslam_optimizer/aslam_backend/src/LevenbergMarquardtTrustRegionPolicy.cpp
      /repo/aslam_optimizer/aslam_backend/src/DogLegTrustRegionPolicy.cpp
      /repo/aslam_optimizer/aslam_backend/src/{SparseCholesky,BlockCholesky,
        DenseQr,SparseQr}LinearSystemSolver.cpp, LinearSystemSolver.cpp

    What is kept concrete: the optimiser loop, its counters and flags, the
    trust-region bookkeeping, the damping and trust-radius updates, which
    design-variable values the Jacobian, the right-hand side and the residual
    vector held by the linear solver were computed at.
    What is an oracle ([World] below): the cost function, the gradient, the
    curvature along it, the answer of the numerical factorisation, the update
    rule of a design variable, and [pow]. *)
From Coq Require Import ZArith List Bool.
From Verif Require Import Base Arith.
Import ListNotations.
Set Implicit Arguments.

(** The four linear system solvers. *)
Inductive solver_kind := SparseCholesky | BlockCholesky | DenseQr | SparseQr.

Section Model.
Variable A : Arith.
Notation num := (num A).
Notation cst := (of_Z A).

(** 1e-16 and 1e-15, correctly rounded quotients of exact integers. *)
Definition lambda_floor : num := div A (cst 1) (cst (10 ^ 16)).
Definition lambda_reset : num := div A (cst 1) (cst (10 ^ 15)).

Section W.
(** [V]: the value held by a design variable. *)
Variable V : Type.

(** What one numerical solve is asked: the design-variable values at which the
    Jacobian in use was evaluated, the values at which the residual (or
    right-hand side) in use was evaluated, and the amount added to the diagonal
    of the normal matrix.  [q_no] is the number of the call, so that the oracle
    may answer differently each time. *)
Record query := Query {
  q_no : nat; q_jac : list V; q_res : list V; q_diag : num }.

Record World := MkWorld {
  boxplus : V -> list num -> V;              (* DesignVariable::update *)
  cost : list V -> num;                      (* sum of weighted squared errors *)
  gradient : list V -> list V -> list num;   (* J(x)^T e(y) *)
  curvature : list V -> list num -> num;     (* |J(x) g|^2 *)
  answer : query -> bool * list num;         (* success flag, output vector *)
  power : num -> Z -> num;                   (* std::pow(double, int) *)
  stray_flag : bool                          (* an indeterminate bool *)
}.
Variable w : World.

(** *** Design variables *)

(** DesignVariable.hpp; every implementation in the repository keeps the value
    before the last update ([old]) and reverts to it. [scale] is scaling(). *)
Record dvar := DV {
  cur : V; old : V; dim : nat; scale : num; active : bool }.

Definition values (ds : list dvar) : list V := map cur ds.

(** Optimizer2.cpp 103-124: active design variables in problem order get
    consecutive block indices, and column bases that are running sums of the
    minimal dimensions.  An inactive variable gets none. *)
Fixpoint layout (i col : nat) (ds : list dvar) : list (option (nat * nat)) :=
  match ds with
  | [] => []
  | d :: r =>
      if active d then Some (i, col) :: layout (S i) (col + dim d) r
      else None :: layout i col r
  end.

(** Optimizer2.cpp 290-302: walk the active variables, each consuming its slice
    of the step, scaled; a slice outside the vector is undefined. *)
Fixpoint apply_update (start : nat) (ds : list dvar) (dx : list num)
  : option (list dvar) :=
  match ds with
  | [] => Some []
  | d :: r =>
      if active d then
        if Nat.leb (start + dim d) (length dx) then
          let seg := map (fun v => mul A v (scale d))
                         (firstn (dim d) (skipn start dx)) in
          let d' := if Nat.ltb 0 (dim d)
                    then DV (boxplus w (cur d) seg) (cur d)
                            (dim d) (scale d) (active d)
                    else d in
          option_map (cons d') (apply_update (start + dim d) r dx)
        else None
      else option_map (cons d) (apply_update start r dx)
  end.

(** Optimizer2.cpp 313-318. *)
Definition revert (ds : list dvar) : list dvar :=
  map (fun d => if active d
                then DV (old d) (old d) (dim d) (scale d) (active d)
                else d) ds.

(** *** Linear system solver *)

(** State of a LinearSystemSolver. [jac_at]: values at which the Jacobian (or
    Hessian) was built; [rhs_jac], [rhs_res]: values of the Jacobian and the
    residual in the stored right-hand side; [res_at]: values at which the
    stored residual vector was evaluated; [cond]: the constant conditioner;
    [shift]: what is left on the Hessian's diagonal by earlier solves. *)
Record lin := Lin {
  jac_at : list V; rhs_jac : list V; rhs_res : list V; res_at : list V;
  cond : num; shift : num; augmented : bool; calls : nat }.

(** LinearSystemSolver.cpp 12-23, 81-92: evaluating the error rewrites the
    residual vector. *)
Definition lin_error (x : list V) (l : lin) : lin * num :=
  (Lin (jac_at l) (rhs_jac l) (rhs_res l) x (cond l) (shift l)
       (augmented l) (calls l), cost w x).

(** SparseCholesky 39-46, BlockCholesky 58-72, DenseQr 33-38, SparseQr 54-62:
    the Jacobian is evaluated at the current values, the right-hand side is
    formed with the residuals of the last error evaluation. *)
Definition lin_build (x : list V) (l : lin) : lin :=
  Lin x x (res_at l) (res_at l) (cond l) (cst 0) (augmented l) (calls l).

(** LinearSystemSolver.cpp 111-114. *)
Definition lin_condition (c : num) (l : lin) : lin :=
  Lin (jac_at l) (rhs_jac l) (rhs_res l) (res_at l) c (shift l)
      (augmented l) (calls l).

(** LinearSystemSolver.cpp 99-102. *)
Definition lin_rhs (l : lin) : list num := gradient w (rhs_jac l) (rhs_res l).

(** initMatrixStructure: LinearSystemSolver.cpp 117-138, and which solver
    remembers the request for an augmented diagonal: SparseCholesky 22,
    BlockCholesky 45, SparseQr 38 (always off), DenseQr 27-31 (the flag is never
    written: its value is indeterminate). *)
Definition lin_init (k : solver_kind) (aug : bool) : lin :=
  Lin [] [] [] [] (cst 0) (cst 0)
      (match k with
       | SparseCholesky | BlockCholesky => aug
       | SparseQr => false
       | DenseQr => stray_flag w
       end) 0.

(** solveSystem: SparseCholesky 48-89 (right-hand side, conditioner appended
    and removed), BlockCholesky 74-106 (squared conditioner added to the
    diagonal, the conditioner itself subtracted afterwards), DenseQr 41-58 and
    SparseQr 64-108 (residual vector instead of the right-hand side). *)
Definition lin_solve (k : solver_kind) (l : lin)
  : lin * query * (bool * list num) :=
  let sq := mul A (cond l) (cond l) in
  let diag := match k with
              | BlockCholesky =>
                  if augmented l then add A (shift l) sq else shift l
              | _ => if augmented l then sq else cst 0
              end in
  let res := match k with
             | SparseCholesky | BlockCholesky => rhs_res l
             | DenseQr | SparseQr => res_at l
             end in
  let q := Query (calls l) (jac_at l) res diag in
  let shift' := match k with
                | BlockCholesky =>
                    if augmented l then sub A diag (cond l) else shift l
                | _ => shift l
                end in
  (Lin (jac_at l) (rhs_jac l) (rhs_res l) (res_at l) (cond l) shift'
       (augmented l) (S (calls l)), q, answer w q).

(** *** Trust region policies *)

(** TrustRegionPolicy.hpp: the base class' bookkeeping. *)
Record base := Base {
  bJ : num; bpJ : num; last_ok : num; first : bool }.

(** TrustRegionPolicy.cpp 30-37. *)
Definition base_start (J : num) : base := Base J J J true.

(** TrustRegionPolicy.cpp 40-48. *)
Definition base_solve (J : num) (failed : bool) (b : base) : base :=
  if failed then Base J (bpJ b) (last_ok b) (first b)
  else Base J (last_ok b) J (first b).

(** TrustRegionPolicy.cpp 50 and 54-57. *)
Definition base_done (b : base) : base :=
  Base (bJ b) (bpJ b) (last_ok b) false.
Definition base_dJ (b : base) : num := sub A (bpJ b) (bJ b).

(** LevenbergMarquardtTrustRegionPolicy.hpp: parameters and running state. *)
Record lm_cfg := LmCfg {
  lambda0 : num; gamma0 : num; beta0 : num; p0 : Z; mu0 : num }.
Record lm := Lm { lambda : num; mu : num; lm_dx : list num }.

(** LevenbergMarquardtTrustRegionPolicy.cpp 7-14: the defaults. *)
Definition lm_default : lm_cfg :=
  LmCfg (div A (cst 1) (cst 1000)) (cst 3) (cst 2) 3 (cst 2).

(** DogLegTrustRegionPolicy.hpp; [step_type]. *)
Inductive step_type := NoStep | SD | GN | DL.
Record dl := Dl {
  dl_dx : list num; dx_sd : list num; dx_gn : list num;
  sd_norm : num; gn_norm : num; L0 : num; sd_scale : num;
  dl_beta : num; delta : num; stype : step_type }.

Inductive policy := PGN | PLM (c : lm_cfg) (s : lm) | PDL (s : dl).

(** revertOnFailure(), requiresAugmentedDiagonal(). *)
Definition reverts (p : policy) : bool :=
  match p with PGN => false | _ => true end.
Definition wants_diagonal (p : policy) : bool :=
  match p with PLM _ _ => true | _ => false end.

(** optimizationStartingImplementation: LM 40-49, DogLeg 11-22 (the vectors and
    the step type of an earlier run stay), GN 12-15. *)
Definition policy_start (p : policy) : policy :=
  match p with
  | PGN => PGN
  | PLM c s => PLM c (Lm (lambda0 c) (mu0 c) (lm_dx s))
  | PDL s => PDL (Dl (dl_dx s) (dx_sd s) (dx_gn s) (cst 0) (cst 0) (cst 0)
                     (cst 0) (cst 0) (cst 0) (stype s))
  end.

(** LevenbergMarquardtTrustRegionPolicy.cpp 101-107; vectors of different
    lengths are undefined. *)
Definition lm_rho (b : base) (s : lm) (l : lin) : outcome num :=
  if Nat.eqb (length (lm_dx s)) (length (lin_rhs l)) then
    Ok (div A (base_dJ b)
          (dot A (lm_dx s)
             (vadd A (vscale A (lambda s) (lm_dx s)) (lin_rhs l))))
  else UB.

(** LevenbergMarquardtTrustRegionPolicy.cpp 58-83: new damping, and whether
    the system is rebuilt. *)
Definition lm_damp (c : lm_cfg) (s : lm) (rho : num) (failed : bool)
  : num * num * bool :=
  if failed then
    let m := mul A (mu s) (cst 2) in (mul A (lambda s) m, m, false)
  else if le A rho (cst 0) then
    let m := mul A (mu s) (cst 10) in (mul A (lambda s) m, m, false)
  else if lt A lambda_floor (lambda s) then
    let u1 := div A (cst 1) (gamma0 c) in
    let u2 := sub A (cst 1)
                (mul A (sub A (beta0 c) (cst 1))
                   (power w (sub A (mul A (cst 2) rho) (cst 1)) (p0 c))) in
    (mul A (lambda s) (if lt A u2 u1 then u1 else u2), beta0 c, true)
  else (lambda_reset, mu s, true).

(** LevenbergMarquardtTrustRegionPolicy.cpp 52-91. The gain ratio, a local
    variable of the code, is returned for the log. *)
Definition lm_solve (k : solver_kind) (c : lm_cfg) (b : base) (failed : bool)
    (x : list V) (s : lm) (l : lin)
  : outcome (lm * lin * list query * option num * option (list num)) :=
  do '(lam, m, l1, gain) <-
    (if first b then Ok (lambda s, mu s, lin_build x l, None)
     else do rho <- lm_rho b s l;
          let '(lam, m, rebuild) := lm_damp c s rho failed in
          Ok (lam, m, if rebuild then lin_build x l else l, Some rho));
  let '(l2, q, (ok, dx)) := lin_solve k (lin_condition lam l1) in
  Ok (Lm lam m dx, l2, [q], gain, if ok then Some dx else None).

(** GaussNewtonTrustRegionPolicy.cpp 18-22. *)
Definition gn_solve (k : solver_kind) (x : list V) (l : lin)
  : outcome (lin * list query * option (list num)) :=
  let '(l1, q, (ok, dx)) := lin_solve k (lin_build x l) in
  Ok (l1, [q], if ok then Some dx else None).

(** DogLegTrustRegionPolicy.cpp 30-62: the new trust radius. *)
Definition dl_radius (b : base) (s : dl) : num :=
  let rho := div A (base_dJ b) (L0 s) in
  if first b then delta s
  else if lt A (div A (cst 3) (cst 4)) rho then
    let n3 := mul A (cst 3) (norm A (dl_dx s)) in
    if lt A n3 (delta s) then delta s else n3
  else if lt A (cst 0) rho && lt A rho (div A (cst 1) (cst 4)) then
    div A (delta s) (cst 2)
  else if le A rho (cst 0) then
    match stype s with
    | GN => div A (gn_norm s) (cst 2)
    | _ => div A (delta s) (cst 2)
    end
  else delta s.

(** DogLegTrustRegionPolicy.cpp 119-135: the position on the line from the
    Cauchy point to the Gauss-Newton point. *)
Definition dl_position (sd gn : list num) (sdn rad : num) : num :=
  let dgnsd := vsub A gn sd in
  let n2 := sqnorm A dgnsd in
  let c := dot A sd dgnsd in
  let room := sub A (mul A rad rad) (mul A sdn sdn) in
  let disc := root A (add A (mul A c c) (mul A n2 room)) in
  if le A c (cst 0) then
    div A (add A (sub A (cst 0) c) disc) n2
  else div A room (add A c disc).

(** DogLegTrustRegionPolicy.cpp 64-78: steepest descent part, after building
    the system. *)
Definition dl_cauchy (s : dl) (l : lin) : dl :=
  let g := lin_rhs l in
  let sc := div A (sqnorm A g) (curvature w (jac_at l) g) in
  let v := vscale A sc g in
  Dl (dl_dx s) v (dx_gn s) (norm A v) (gn_norm s) (L0 s) sc
     (dl_beta s) (delta s) (stype s).

(** DogLegTrustRegionPolicy.cpp 106-143: choosing between the Gauss-Newton
    point and the dog leg once a Gauss-Newton point is there.  [1/2] in the
    predicted decrease is an integer division, i.e. 0. *)
Definition dl_choose (J : num) (s : dl) (l : lin) : outcome dl :=
  if Nat.eqb (length (dx_sd s)) (length (dx_gn s)) then
    let rad := if eqn A (delta s) (cst 0)
               then norm A (vadd A (dx_sd s)
                       (vscale A (div A (cst 1) (cst 2))
                          (vsub A (dx_gn s) (dx_sd s))))
               else delta s in
    if le A (gn_norm s) rad then
      Ok (Dl (dx_gn s) (dx_sd s) (dx_gn s) (sd_norm s) (gn_norm s) J
             (sd_scale s) (dl_beta s) rad GN)
    else
      let be := dl_position (dx_sd s) (dx_gn s) (sd_norm s) rad in
      let one_be := sub A (cst 1) be in
      let half := mul A (mul A (mul A (mul A (cst 0) (sd_scale s)) one_be)
                           one_be) (sqnorm A (lin_rhs l)) in
      Ok (Dl (vadd A (dx_sd s) (vscale A be (vsub A (dx_gn s) (dx_sd s))))
             (dx_sd s) (dx_gn s) (sd_norm s) (gn_norm s)
             (add A half (mul A (mul A be (sub A (cst 2) be)) J))
             (sd_scale s) be rad DL)
  else UB.

(** DogLegTrustRegionPolicy.cpp 25-148. *)
Definition dl_solve (k : solver_kind) (J : num) (b : base) (failed : bool)
    (x : list V) (s : dl) (l : lin)
  : outcome (dl * lin * list query * option (list num)) :=
  let rad := dl_radius b s in
  let s0 := Dl (dl_dx s) (dx_sd s) (dx_gn s) (sd_norm s) (gn_norm s) (L0 s)
               (sd_scale s) (dl_beta s) rad (stype s) in
  let l1 := if failed then l else lin_build x l in
  let s1 := if failed then s0 else dl_cauchy s0 l1 in
  if le A rad (sd_norm s1) && negb (eqn A rad (cst 0)) then
    let v := vscale A (div A rad (sd_norm s1)) (dx_sd s1) in
    let pred := div A (mul A rad (sub A (mul A (cst 2) (sd_norm s1)) rad))
                      (mul A (cst 2) (sd_scale s1)) in
    Ok (Dl v (dx_sd s1) (dx_gn s1) (sd_norm s1) (gn_norm s1) pred
           (sd_scale s1) (dl_beta s1) rad SD, l1, [], Some v)
  else if failed then
    (* gnComputed is still true: the stored point is used *)
    do s2 <- dl_choose J s1 l1;
    Ok (s2, l1, [], Some (dl_dx s2))
  else
    let '(l2, q, (ok, v)) := lin_solve k l1 in
    let s2 := Dl (dl_dx s1) (dx_sd s1) v (sd_norm s1) (gn_norm s1) (L0 s1)
                 (sd_scale s1) (dl_beta s1) rad (stype s1) in
    if ok then
      let s3 := Dl (dl_dx s2) (dx_sd s2) v (sd_norm s2) (norm A v) (L0 s2)
                   (sd_scale s2) (dl_beta s2) rad (stype s2) in
      do s4 <- dl_choose J s3 l2;
      Ok (s4, l2, [q], Some (dl_dx s4))
    else Ok (s2, l2, [q], None).

(** TrustRegionPolicy::solveSystem, TrustRegionPolicy.cpp 40-52. *)
Definition policy_solve (k : solver_kind) (J : num) (failed : bool)
    (x : list V) (bp : base * policy) (l : lin)
  : outcome (base * policy * lin * list query * option num * option (list num)) :=
  let b := base_solve J failed (fst bp) in
  match snd bp with
  | PGN =>
      do '(l1, qs, r) <- gn_solve k x l;
      Ok (base_done b, PGN, l1, qs, None, r)
  | PLM c s =>
      do '(s1, l1, qs, gain, r) <- lm_solve k c b failed x s l;
      Ok (base_done b, PLM c s1, l1, qs, gain, r)
  | PDL s =>
      do '(s1, l1, qs, r) <- dl_solve k J b failed x s l;
      Ok (base_done b, PDL s1, l1, qs, None, r)
  end.

(** *** The optimiser loop *)

(** Optimizer2Options.hpp. *)
Record options := Options { conv_dJ : num; conv_dX : num; max_iter : Z }.

(** What one pass of the loop did; a log that the program does not keep. *)
Record event := Event {
  ev_at : list V;               (* values when the pass began *)
  ev_queries : list query;      (* numerical solves *)
  ev_gain : option num;         (* gain ratio of the step before, if computed *)
  ev_step : option (list num);  (* None: the solver reported failure *)
  ev_tried : list V;            (* values after the update *)
  ev_cost : num;                (* cost evaluated there *)
  ev_kept : bool                (* false: the update was reverted *)
}.

(** Local variables of optimize() and the members it uses. *)
Record ost := Ost {
  dvs : list dvar; ls : lin; pol : base * policy;
  oJ : num; opJ : num; dX : num; dJ : num;
  prev_failed : bool; solver_failed : bool;
  iterations : Z; failures : Z; log : list event }.

(** Optimizer2.cpp 215-219. *)
Definition continues (o : options) (s : ost) : bool :=
  Z.ltb (iterations s) (max_iter o) && Z.ltb (failures s) (max_iter o) &&
  (lt A (conv_dX o) (dX s) && lt A (conv_dJ o) (absv A (dJ s))
   || solver_failed s).

(** Optimizer2.cpp 221-265: one pass. *)
Definition pass (k : solver_kind) (s : ost) : outcome ost :=
  let x := values (dvs s) in
  do '(b, p, l1, qs, g, r) <-
    policy_solve k (oJ s) (prev_failed s) x (pol s) (ls s);
  match r with
  | None =>
      Ok (Ost (dvs s) l1 (b, p) (oJ s) (opJ s) (dX s) (dJ s) true true
              (iterations s) (failures s + 1)
              (log s ++ [Event x qs g None x (oJ s) true]))
  | Some dx =>
      match apply_update 0 (dvs s) dx, maxabs A dx with
      | Some ds1, Some step =>
          let '(l2, J) := lin_error (values ds1) l1 in
          let dj := sub A (opJ s) J in
          if reverts p then
            if lt A dj (cst 0) then
              Ok (Ost (revert ds1) l2 (b, p) J (opJ s) step dj true
                      (solver_failed s) (iterations s + 1) (failures s + 1)
                      (log s ++ [Event x qs g (Some dx) (values ds1) J false]))
            else
              Ok (Ost ds1 l2 (b, p) J J step dj false
                      (solver_failed s) (iterations s + 1) (failures s)
                      (log s ++ [Event x qs g (Some dx) (values ds1) J true]))
          else
            Ok (Ost ds1 l2 (b, p) J J step dj (prev_failed s)
                    (solver_failed s) (iterations s + 1) (failures s)
                    (log s ++ [Event x qs g (Some dx) (values ds1) J true]))
      | _, _ => UB
      end
  end.

(** Optimizer2.cpp 215-266. *)
Fixpoint loop (fuel : nat) (k : solver_kind) (o : options) (s : ost)
  : outcome ost :=
  if continues o s then
    match fuel with
    | O => Hang
    | S f => do s1 <- pass k s; loop f k o s1
    end
  else Ok s.

(** backend.hpp 15-30, the part optimize() fills in. *)
Record result := Result {
  JStart : num; JFinal : num; n_iterations : Z; n_failed : Z;
  dXFinal : num; dJFinal : num; solver_failure : bool }.

(** Optimizer2.cpp 60-77: with the sparse QR solver a Levenberg-Marquardt policy
    is replaced by a new dog-leg policy. *)
Definition effective_policy (k : solver_kind) (p : policy) : policy :=
  match k, p with
  | SparseQr, PLM _ _ =>
      PDL (Dl [] [] [] (cst 0) (cst 0) (cst 0) (cst 0) (cst 0) (cst 0) NoStep)
  | _, _ => p
  end.

(** Optimizer2.cpp 103-115, 137, 191-212: the state in which the loop starts.
    [nterms] is the number of error terms. A null problem is not modelled. *)
Definition start (k : solver_kind) (o : options) (p : policy) (nterms : nat)
    (ds : list dvar) : outcome ost :=
  if negb (existsb active ds) then Throw
  else if Nat.eqb nterms 0 then Throw
  else
    let p := effective_policy k p in
    let l0 := lin_init k (wants_diagonal p) in
    let '(l1, J) := lin_error (values ds) l0 in
    Ok (Ost ds l1 (base_start J, policy_start p) J J
            (add A (conv_dX o) (cst 1)) (add A (conv_dJ o) (cst 1))
            false false 0 0 []).

(** Optimizer2.cpp 183-273. Fuel: each pass raises one of two counters that are
    both below [max_iter]. *)
Definition optimize (k : solver_kind) (o : options) (p : policy) (nterms : nat)
    (ds : list dvar) : outcome (ost * result) :=
  do s0 <- start k o p nterms ds;
  do s <- loop (Z.to_nat (2 * max_iter o)) k o s0;
  Ok (s, Result (oJ s0) (opJ s) (iterations s) (failures s)
                (dX s) (dJ s) (solver_failed s)).

End W.
End Model.
