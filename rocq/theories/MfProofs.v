(** * Proofs about the motion error terms of a curve *)
From Coquelicot Require Import Coquelicot.
From Coq Require Import Reals List Arith ZArith Bool Lia Lra.
From Verif Require Import Base BsplModel BsplSpec BsplProofs BsdProofs BsplProps BsdProps BsqModel BsqProofs BsqProps MeCurve.
From Verif Require Import SplModel SplSpec SplProofs MgModel MfModel MfSpec.
Import ListNotations.
Local Open Scope R_scope.

Ltac conj := repeat match goal with |- _ /\ _ => split end.

(** ** The square root from a singular value decomposition *)
Lemma ortho_l n (U : mat) (s : vec) (V : mat) k i : orthonormal n U -> (k < n)%nat -> (i < n)%nat ->
  (* the k-th column of U picks the k-th column of V *)
  bsum n (fun j => bsum n (fun q => U j q * (s q * V i q)) * U j k) = s k * V i k.
Proof.
  intros O Lk Li.
  transitivity (bsum n (fun q => s q * V i q * bsum n (fun j => U j q * U j k))).
  - transitivity (bsum n (fun j => bsum n (fun q => U j q * (s q * V i q) * U j k))).
    { apply bsum_ext. intros j _. rewrite <- bsum_scal_r. reflexivity. }
    rewrite bsum_swap. apply bsum_ext. intros q _. rewrite <- bsum_scal. apply bsum_ext. intros j _. ring.
  - rewrite (bsum_single n k); [ | exact Lk | ].
    + change (bsum n (fun j => U j k * U j k)) with (total n (fun j => U j k * U j k)). rewrite (O k k Lk Lk), Nat.eqb_refl. ring.
    + intros q Lq N. change (bsum n (fun j => U j q * U j k)) with (total n (fun j => U j q * U j k)). rewrite (O q k Lq Lk). destruct (Nat.eqb_spec q k); [ contradiction | ring ].
Qed.

Lemma sum_of_squares_zero n x : bsum n (fun i => x i * x i) = 0 -> forall i, (i < n)%nat -> x i = 0.
Proof.
  induction n as [ | n IH ]; intros H i Li; [ lia | ]. cbn [bsum] in H.
  assert (P : 0 <= bsum n (fun i => x i * x i)) by (apply bsum_nonneg; intros; apply Rle_0_sqr).
  assert (P2 := Rle_0_sqr (x n)). unfold Rsqr in P2.
  destruct (Nat.eq_dec i n) as [ -> | N ].
  - assert (X : x n * x n = 0) by lra. destruct (Rmult_integral _ _ X); assumption.
  - apply IH; [ lra | lia ].
Qed.

Lemma svd_root n M U s : psd n M -> decomposes n M U s -> forall i j, (i < n)%nat -> (j < n)%nat ->
  bsum n (fun k => (U i k * sqrt (s k)) * (U j k * sqrt (s k))) = M i j.
Proof.
  intros [SY PS] (OU & SN & V & OV & E) i j Li Lj. rewrite (E i j Li Lj). change total with bsum. apply bsum_ext. intros k Lk.
  replace (U i k * sqrt (s k) * (U j k * sqrt (s k))) with (U i k * (sqrt (s k) * sqrt (s k) * U j k)) by ring.
  rewrite sqrt_sqrt by (apply SN; exact Lk). f_equal.
  (* M u_k = s_k v_k and M v_k = s_k u_k *)
  assert (MU : forall a, (a < n)%nat -> bsum n (fun q => M a q * U q k) = s k * V a k).
  { intros a La. rewrite <- (ortho_l n U s V k a OU Lk La). apply bsum_ext. intros q Lq.
    rewrite (SY a q La Lq), (E q a Lq La). reflexivity. }
  assert (MV : forall a, (a < n)%nat -> bsum n (fun q => M a q * V q k) = s k * U a k).
  { intros a La. rewrite <- (ortho_l n V s U k a OV Lk La). apply bsum_ext. intros q Lq.
    rewrite (E a q La Lq). change total with bsum. f_equal. apply bsum_ext. intros t _. ring. }
  set (w := fun a => U a k - V a k).
  assert (MW : forall a, (a < n)%nat -> bsum n (fun q => M a q * w q) = - s k * w a).
  { intros a La. unfold w. transitivity (bsum n (fun q => M a q * U q k) - bsum n (fun q => M a q * V q k)).
    - rewrite <- bsum_minus. apply bsum_ext. intros. ring.
    - rewrite (MU a La), (MV a La). ring. }
  assert (P := PS w). change total with bsum in P.
  assert (Q : bsum n (fun a => bsum n (fun q => M a q * (w a * w q))) = - s k * bsum n (fun a => w a * w a)).
  { rewrite <- bsum_scal. apply bsum_ext. intros a La.
    transitivity (w a * bsum n (fun q => M a q * w q)); [ rewrite <- bsum_scal; apply bsum_ext; intros; ring | ].
    rewrite (MW a La). ring. }
  rewrite Q in P. assert (N := SN k Lk).
  assert (WW : 0 <= bsum n (fun a => w a * w a)) by (apply bsum_nonneg; intros; apply Rle_0_sqr).
  destruct (Req_dec (s k) 0) as [ -> | NZ ]; [ ring | ].
  assert (Z : bsum n (fun a => w a * w a) = 0).
  { assert (0 < s k) by lra. revert P WW. generalize (bsum n (fun a => w a * w a)). intros z P WW. nra. }
  assert (X := sum_of_squares_zero n w Z j Lj). unfold w in X. replace (U j k) with (V j k) by lra. reflexivity.
Qed.

(** |R x|^2 = x^T (R^T R) x *)
Lemma square_form n (R' M : mat) x : (forall i j, (i < n)%nat -> (j < n)%nat -> bsum n (fun k => R' k i * R' k j) = M i j) ->
  bsum n (fun k => bsum n (fun j => R' k j * x j) * bsum n (fun j => R' k j * x j)) = bil n M x x.
Proof.
  intros H. unfold bil.
  transitivity (bsum n (fun k => bsum n (fun i => bsum n (fun j => x i * (R' k i * R' k j * x j))))).
  { apply bsum_ext. intros k _. rewrite <- bsum_scal_r. apply bsum_ext. intros i _.
    rewrite <- bsum_scal. apply bsum_ext. intros j _. ring. }
  rewrite bsum_swap. apply bsum_ext. intros i Li. rewrite bsum_swap.
  rewrite <- bsum_scal. apply bsum_ext. intros j Lj. rewrite <- (H i j Li Lj).
  rewrite <- bsum_scal_r, <- bsum_scal. reflexivity.
Qed.

(** ** The matrix of a segment *)
Lemma segment_symmetric b W seg d q : wf b -> (1 <= dim b)%nat -> (seg + order b <= ncols b)%nat ->
  (forall r s, (r < dim b)%nat -> (s < dim b)%nat -> W r s = W s r) -> segment_Q b (dim b) (dim b) W seg d = Ok q ->
  forall i j, (i < order b * dim b)%nat -> (j < order b * dim b)%nat -> q i j = q j i.
Proof.
  intros WF PD L SW E i j Li Lj. destruct (segment_entries b W seg d q WF L E) as (v & SV & EV).
  rewrite (Nat.div_mod i (dim b)), (Nat.div_mod j (dim b)), !(Nat.mul_comm (dim b)) by lia.
  assert (i / dim b < order b)%nat by (apply Nat.div_lt_upper_bound; lia). assert (j / dim b < order b)%nat by (apply Nat.div_lt_upper_bound; lia).
  assert (i mod dim b < dim b)%nat by (apply Nat.mod_upper_bound; lia). assert (j mod dim b < dim b)%nat by (apply Nat.mod_upper_bound; lia).
  rewrite !EV by assumption. rewrite SV, SW by assumption. reflexivity.
Qed.

Lemma total_derivs k l D C c b d z : built k l D C c b -> nondecreasing l -> long_end k l ->
  exists F, set_coef_vector b (D * C) z = Ok (with_coefs b z) /\
    forall r, is_evalD (with_coefs b z) (first_time k l) (last_time k l) d r (F r).
Proof.
  intros H ND LE.
  destruct (built_wf _ _ _ _ _ _ H ND) as [WF [O [K [DD [NC [_ [K2 [CC LL]]]]]]]]. destruct (built_times _ _ _ _ _ _ H ND) as [T1 [T2 T3]].
  exists (fun r t => match eval_D (with_coefs b z) t (Z.of_nat d) with Ok v => v r | _ => 0 end).
  split; [ unfold set_coef_vector; rewrite DD, NC, Nat.eqb_refl; unfold with_coefs; rewrite DD, NC; reflexivity | ].
  assert (WZ := with_coefs_wf b z WF). intros r t I. unfold long_end in LE.
  destruct (located_closed (with_coefs b z) t WZ) as [s [LO [P _]]].
  - change (lo (with_coefs b z)) with (lo b). change (hi (with_coefs b z)) with (hi b). rewrite T1, T2. exact I.
  - unfold resolved. change (last_start (with_coefs b z)) with (last_start b). change (hi (with_coefs b z)) with (hi b).
    rewrite T2, T3. destruct (Rle_dec (last_knot k l) t); [ right; assumption | left; lra ].
  - change (last_start (with_coefs b z)) with (last_start b). change (hi (with_coefs b z)) with (hi b). rewrite T2, T3. lra.
  - destruct (eval_D_ok (with_coefs b z) t s (Z.of_nat d) WZ LO P) as [m [v [_ [E _]]]]; [ lia | ].
    exists v. rewrite E. split; reflexivity.
Qed.

Lemma segment_psd k l D C c b W d seg : built k l D C c b -> nondecreasing l -> long_end k l -> (1 <= D)%nat -> psd D W -> (seg + k <= C)%nat ->
  exists M, segment_Q b D D W seg (Z.of_nat d) = Ok M /\ psd (k * D) M /\
    forall x bx f, set_coef_vector b (D * C) x = Ok bx ->
      (forall i, (i < D)%nat -> is_evalD bx (first_time k l) (last_time k l) d i (f i)) ->
      is_RInt (weighted D W f f) (knot l (seg + k - 1)) (knot l (seg + k)) (bil (k * D) M (fun i => x (seg * D + i)%nat) (fun i => x (seg * D + i)%nat)).
Proof.
  intros H ND LE PD [SW PW] L.
  destruct (built_wf _ _ _ _ _ _ H ND) as [WF [O [K [DD [NC [_ [K2 [CC LL]]]]]]]].
  destruct (C66_segment k l D C c b W (fun _ => 0) d seg H ND LE L) as [(M & E & RP) _].
  { intros i j Li Lj. rewrite (SW i j Li Lj), Rminus_eq_0, Rabs_R0. lra. }
  assert (HR : forall x bx f, set_coef_vector b (D * C) x = Ok bx ->
      (forall i, (i < D)%nat -> is_evalD bx (first_time k l) (last_time k l) d i (f i)) ->
      is_RInt (weighted D W f f) (knot l (seg + k - 1)) (knot l (seg + k)) (bil (k * D) M (fun i => x (seg * D + i)%nat) (fun i => x (seg * D + i)%nat))).
  { intros x bx f EX A. exact (RP x x bx bx f f EX EX A A). }
  exists M. split; [ exact E | ]. split; [ split | exact HR ].
  - rewrite <- DD, <- O, <- NC in *. intros i j Li Lj. apply (segment_symmetric b W seg (Z.of_nat d) M WF); assumption.
  - intros x. destruct (total_derivs k l D C c b d (fun a => x (a - seg * D)%nat) H ND LE) as (F & SC & A).
    assert (I := HR _ _ F SC (fun i _ => A i)).
    assert (TT : knot l (seg + k - 1) <= knot l (seg + k)) by (apply ND; lia).
    replace (total (k * D) (fun i => total (k * D) (fun j => M i j * (x i * x j)))) with
      (bil (k * D) M (fun i => x (seg * D + i - seg * D)%nat) (fun i => x (seg * D + i - seg * D)%nat)).
    + apply (is_RInt_ge_0 _ _ _ _ TT I). intros t _. exact (PW (fun i => F i t)).
    + unfold bil. change total with bsum. apply bsum_ext. intros i _. rewrite <- bsum_scal. apply bsum_ext. intros j _.
      replace (seg * D + i - seg * D)%nat with i by lia. replace (seg * D + j - seg * D)%nat with j by lia. ring.
Qed.

(** ** Loops *)
Lemma collect_ok {A B} (f : A -> outcome B) (g : A -> B) : forall l, (forall x, In x l -> f x = Ok (g x)) -> collect f l = Ok (map g l).
Proof.
  induction l as [ | x l IH ]; intros H; cbn [collect map]; [ reflexivity | ].
  rewrite (H x (or_introl eq_refl)). cbn [obind]. rewrite IH by (intros y Hy; apply H; right; exact Hy). reflexivity.
Qed.
Lemma differences_cols D (g : nat -> vec) : forall k s n o y, (o + k * D <= n)%nat ->
  exists z, differences n o (map (fun j => (D, g j)) (seq s k)) y = Ok z /\ (forall i, (i < o)%nat -> z i = y i) /\
    forall j r, (j < k)%nat -> (r < D)%nat -> z (o + (j * D + r))%nat = g (s + j)%nat r.
Proof.
  induction k as [ | k IH ]; intros s n o y L; cbn [seq map differences].
  - exists y. split; [ reflexivity | ]. split; [ reflexivity | ]. intros. lia.
  - unfold put_segment. destruct (Z.leb_spec 0 (Z.of_nat o)); [ | lia ].
    destruct (Z.leb_spec (Z.of_nat o + Z.of_nat D) (Z.of_nat n)); [ | lia ]. cbn [andb obind].
    match goal with |- context [ differences _ _ _ ?W ] => set (y1 := W) end.
    destruct (IH (S s) n (o + D)%nat y1 ltac:(lia)) as (z & E & A & B). exists z. split; [ exact E | ]. split.
    + intros i Hi. rewrite A by lia. unfold y1. destruct (Z.leb_spec (Z.of_nat o) (Z.of_nat i)); [ lia | reflexivity ].
    + intros j r Lj Lr. destruct j as [ | j ].
      * rewrite A by lia. unfold y1. destruct (Z.leb_spec (Z.of_nat o) (Z.of_nat (o + (0 * D + r)))); [ | lia ].
        destruct (Z.ltb_spec (Z.of_nat (o + (0 * D + r))) (Z.of_nat o + Z.of_nat D)); [ | lia ]. cbn [andb].
        rewrite Nat2Z.id, Nat.add_0_r. f_equal. lia.
      * replace (o + (S j * D + r))%nat with (o + D + (j * D + r))%nat by lia. rewrite (B j r) by lia. f_equal. lia.
Qed.

(** ** States of the variables *)
Definition same_vars (sv sv' : splvar) : Prop :=
  order (cv sv') = order (cv sv) /\ dim (cv sv') = dim (cv sv) /\ ncols (cv sv') = ncols (cv sv) /\ map mid (vars sv') = map mid (vars sv).
Lemma step_same sv o sv' : value_op o -> step sv o = Ok sv' -> same_vars sv sv'.
Proof.
  intros V E. destruct o as [ id dp | id | id x | | | ]; try contradiction; cbn [step] in E.
  - unfold update in E. destruct (object sv id) as [ v | | | ]; cbn [obind] in E; try discriminate.
    match type of E with Ok ?e = _ => assert (X : sv' = e) by congruence; rewrite X end.
    split; [ reflexivity | ]. split; [ reflexivity | ]. split; [ reflexivity | apply with_prev_mid ].
  - unfold revert in E. destruct (object sv id) as [ v | | | ]; cbn [obind] in E; try discriminate.
    match type of E with Ok ?e = _ => assert (X : sv' = e) by congruence; rewrite X end.
    split; [ reflexivity | ]. split; [ reflexivity | ]. split; reflexivity.
  - unfold set_parameters in E. destruct (object sv id) as [ v | | | ]; cbn [obind] in E; try discriminate.
    match type of E with Ok ?e = _ => assert (X : sv' = e) by congruence; rewrite X end.
    split; [ reflexivity | ]. split; [ reflexivity | ]. split; [ reflexivity | apply with_prev_mid ].
Qed.
Lemma run_same : forall ops sv sv', Forall value_op ops -> run sv ops = Ok sv' -> same_vars sv sv'.
Proof.
  induction ops as [ | o ops IH ]; intros sv sv' F E; cbn [run] in E.
  - assert (sv' = sv) by congruence. subst. split; [ reflexivity | ]. split; [ reflexivity | ]. split; reflexivity.
  - destruct (step sv o) as [ s1 | | | ] eqn:ES; cbn [obind] in E; try discriminate.
    apply Forall_cons_iff in F as [F1 F2]. destruct (step_same _ _ _ F1 ES) as (A1 & A2 & A3 & A4). destruct (IH _ _ F2 E) as (B1 & B2 & B3 & B4).
    split; [ congruence | ]. split; [ congruence | ]. split; congruence.
Qed.

Definition id_of (sv : splvar) (j : nat) : nat := nth j (map mid (vars sv)) 0%nat.
Lemma var_id sv j : aligned sv -> (j < ncols (cv sv))%nat ->
  design_variable sv j = Ok (id_of sv j) /\ value_of sv (id_of sv j) = Ok (col (cv sv) j) /\
  forall xh, minimal_difference sv (id_of sv j) (dim (cv sv)) xh = Ok (fun r => previous sv j r - xh r).
Proof.
  intros A L. destruct (aligned_var sv j A L) as (v & E & DV & OB & MC).
  assert (X : id_of sv j = mid v).
  { unfold id_of. apply nth_error_nth. rewrite nth_error_map, E. reflexivity. }
  rewrite X. split; [ exact DV | ]. split; [ unfold value_of; rewrite OB; cbn [obind]; rewrite MC; reflexivity | ].
  intros xh. unfold minimal_difference, previous. rewrite OB, E, Nat.eqb_refl. reflexivity.
Qed.

Section Terms.
Variable svd : nat -> mat -> mat * vec.
Definition root_of (n : nat) (M : mat) : mat := fun i j => fst (svd n M) j i * sqrt (snd (svd n M) i).
(** The term of segment [s]. *)
Definition term_of (sv : splvar) (M : mat) (s : nat) : mterm :=
  let b := cv sv in let n := (order b * dim b)%nat in
  Mterm (Prior (map (fun id => Dv id (dim b) 1 false) (map (id_of sv) (seq s (order b)))) n n n (root_of n M)
          (fun r => bsum n (fun j => root_of n M r j * coef b (j mod dim b)%nat (j / dim b + s)%nat)))
    (map (id_of sv) (seq s (order b))) (map (col b) (seq s (order b))).

Lemma motion_term_ok sv W d M s : aligned sv -> wf (cv sv) -> (s < num_segments (cv sv))%nat ->
  (0 <= d < 2 ^ 31)%Z -> segment_Q (cv sv) (dim (cv sv)) (dim (cv sv)) W s d = Ok M ->
  motion_term svd sv (dim (cv sv)) (dim (cv sv)) W d s = Ok (term_of sv M s).
Proof.
  intros A WF L LD E. unfold motion_term, segment_integral.
  assert (OI : order_int d = d) by (unfold order_int; rewrite Z.mod_small by lia; lia).
  rewrite OI, E. cbn [obind]. destruct (svd (order (cv sv) * dim (cv sv)) M) as [U sg] eqn:ES. cbn [obind].
  unfold segment_coefs, segment_vv_indices. rewrite (proj2 (Nat.ltb_lt _ _) L). cbn [obind].
  assert (NS := num_segments_wf (cv sv) WF). assert (WF' := WF). destruct WF' as [O2 _ C2 _ _].
  assert (IN : forall j, In j (seq s (order (cv sv))) -> (j < ncols (cv sv))%nat) by (intros j Hj; apply in_seq in Hj; lia).
  rewrite (collect_ok (design_variable sv) (id_of sv)) by (intros j Hj; exact (proj1 (var_id sv j A (IN j Hj)))). cbn [obind].
  assert (NE : map (fun id => Dv id (dim (cv sv)) 1 false) (map (id_of sv) (seq s (order (cv sv)))) <> []).
  { destruct (order (cv sv)); [ lia | discriminate ]. }
  assert (HV : collect (value_of sv) (map (id_of sv) (seq s (order (cv sv)))) = Ok (map (col (cv sv)) (seq s (order (cv sv))))).
  { clear NE. assert (IN' : forall j, In j (seq s (order (cv sv))) -> (j < ncols (cv sv))%nat) by (intros j Hj; apply in_seq in Hj; lia).
    revert IN'. generalize (seq s (order (cv sv))). intros q. induction q as [ | j q IH ]; intros H; cbn [map collect]; [ reflexivity | ].
    rewrite (proj1 (proj2 (var_id sv j A (H j (or_introl eq_refl))))). cbn [obind]. rewrite IH by (intros y Hy; apply H; right; exact Hy). reflexivity. }
  rewrite HV. unfold term_of, make_prior. 
  assert (RO : root_of (order (cv sv) * dim (cv sv)) M = (fun i j => U j i * sqrt (sg i))) by (unfold root_of; rewrite ES; reflexivity).
  rewrite RO. destruct (map (fun id => Dv id (dim (cv sv)) 1 false) (map (id_of sv) (seq s (order (cv sv))))) as [ | v0 vr ]; [ contradiction | ].
  reflexivity.
Qed.

Lemma term_cost_ok sv sv' M s : aligned sv -> aligned sv' -> same_vars sv sv' -> (1 <= dim (cv sv))%nat -> (s + order (cv sv) <= ncols (cv sv))%nat ->
  psd (order (cv sv) * dim (cv sv)) M ->
  decomposes (order (cv sv) * dim (cv sv)) M (fst (svd (order (cv sv) * dim (cv sv)) M)) (snd (svd (order (cv sv) * dim (cv sv)) M)) ->
  let x := fun a => previous sv' (a / dim (cv sv))%nat (a mod dim (cv sv))%nat - 2 * coef (cv sv) (a mod dim (cv sv))%nat (a / dim (cv sv))%nat in
  term_cost sv' (term_of sv M s) = Ok (bil (order (cv sv) * dim (cv sv)) M (fun i => x (s * dim (cv sv) + i)%nat) (fun i => x (s * dim (cv sv) + i)%nat)).
Proof.
  intros A A' (E1 & E2 & E3 & E4) PD L PS DC x. set (D := dim (cv sv)) in *. set (k := order (cv sv)) in *. set (n := (k * D)%nat) in *.
  unfold term_cost, term_of. cbv zeta. cbn [mt_ids mt_hats mt_prior]. rewrite E2. fold D k. fold n.
  assert (CO : collect (fun e : nat * vec => do x <- minimal_difference sv' (fst e) D (snd e); Ok (D, x))
      (combine (map (id_of sv) (seq s k)) (map (col (cv sv)) (seq s k))) =
    Ok (map (fun j => @pair nat vec D (fun r => previous sv' j r - coef (cv sv) r j)) (seq s k))).
  { assert (IN' : forall j, In j (seq s k) -> (j < ncols (cv sv))%nat) by (intros j Hj; apply in_seq in Hj; lia).
    revert IN'. generalize (seq s k). intros q. induction q as [ | j q IH ]; intros H; cbn [map combine collect]; [ reflexivity | ].
    cbn [fst snd]. assert (Lj : (j < ncols (cv sv'))%nat) by (rewrite E3; apply H; left; reflexivity).
    destruct (var_id sv' j A' Lj) as (_ & _ & MD). replace (id_of sv j) with (id_of sv' j) by (unfold id_of; rewrite E4; reflexivity).
    rewrite E2 in MD. fold D in MD. rewrite MD. cbn [obind]. rewrite IH by (intros y Hy; apply H; right; exact Hy). reflexivity. }
  rewrite CO. cbn [obind]. unfold prior_cost, prior_error. cbn [pcols pdrows prows pR pd]. rewrite Nat.eqb_refl.
  destruct (differences_cols D (fun j r => previous sv' j r - coef (cv sv) r j) k s n 0 (fun _ => 0) ltac:(unfold n; lia)) as (z & EZ & _ & VZ).
  rewrite EZ. cbn [obind]. f_equal.
  rewrite <- (square_form n (root_of n M) M).
  - apply bsum_ext. intros i Li.
    assert (X : - (bsum n (fun j => root_of n M i j * coef (cv sv) (j mod D)%nat (j / D + s)%nat) - bsum n (fun j => root_of n M i j * z j)) =
      bsum n (fun j => root_of n M i j * x (s * D + j)%nat)).
    { rewrite <- bsum_minus. replace (- bsum n (fun i0 => root_of n M i i0 * coef (cv sv) (i0 mod D)%nat (i0 / D + s)%nat - root_of n M i i0 * z i0))
        with (-1 * bsum n (fun i0 => root_of n M i i0 * coef (cv sv) (i0 mod D)%nat (i0 / D + s)%nat - root_of n M i i0 * z i0)) by ring.
      rewrite <- bsum_scal. apply bsum_ext. intros j Lj. unfold x.
      assert (Lq : (j / D < k)%nat) by (apply Nat.div_lt_upper_bound; unfold n in Lj; lia).
      assert (Lm : (j mod D < D)%nat) by (apply Nat.mod_upper_bound; lia).
      assert (DJ : j = (j / D * D + j mod D)%nat) by (rewrite (Nat.mul_comm (j / D)); apply Nat.div_mod; lia).
      assert (ZJ := VZ (j / D)%nat (j mod D)%nat Lq Lm). rewrite <- DJ in ZJ. cbn [Nat.add] in ZJ. rewrite ZJ.
      replace ((s * D + j) / D)%nat with (s + j / D)%nat by (rewrite Nat.div_add_l by lia; reflexivity).
      replace ((s * D + j) mod D)%nat with (j mod D)%nat by (rewrite Nat.add_comm, Nat.mod_add by lia; reflexivity).
      rewrite (Nat.add_comm (j / D) s). ring. }
    rewrite X. reflexivity.
  - intros i j Li Lj. exact (svd_root n M _ _ PS DC i j Li Lj).
Qed.
End Terms.

Lemma terms_cost_sum sv (t : nat -> mterm) (e : nat -> R) : forall n s, (forall i, (s <= i < s + n)%nat -> term_cost sv (t i) = Ok (e i)) ->
  terms_cost sv (map t (seq s n)) = Ok (bsum n (fun i => e (s + i)%nat)).
Proof.
  induction n as [ | n IH ]; intros s H; cbn [seq map terms_cost]; [ reflexivity | ].
  rewrite (H s ltac:(lia)). cbn [obind]. rewrite (IH (S s)) by (intros i Hi; apply H; lia). cbn [obind]. f_equal.
  rewrite bsum_first. rewrite Nat.add_0_r. f_equal. apply bsum_ext. intros i _. f_equal. lia.
Qed.

Lemma chasles (f : R -> R) (kn : nat -> R) (e : nat -> R) : forall n o, (forall i, (i < n)%nat -> is_RInt f (kn (o + i)%nat) (kn (o + i + 1)%nat) (e i)) ->
  is_RInt f (kn o) (kn (o + n)%nat) (bsum n e).
Proof.
  induction n as [ | n IH ]; intros o H; cbn [bsum].
  - rewrite Nat.add_0_r. apply (is_RInt_point (V := R_NormedModule)).
  - replace (o + S n)%nat with (o + n + 1)%nat by lia.
    apply (is_RInt_Chasles (V := R_NormedModule) f (kn o) (kn (o + n)%nat) (kn (o + n + 1)%nat)).
    + apply IH. intros i Li. apply H. lia.
    + apply H. lia.
Qed.
