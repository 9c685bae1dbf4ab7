(** C48: marginal covariances from a Cholesky factor. *)
From Coq Require Import ZArith List Bool Lia Reals Lra Permutation.
From Verif Require Import Base Arith RArith OMap JacModel CcmModel SbmModel SbmSpec SbmProofs SbmMore SbmReal
  LsModel LsProofs LsProps McModel McSpec McProofs.
Import ListNotations.
Open Scope nat_scope.

(** A factor: L = [[2,0],[1,1]], stored by columns, of the matrix
    [[2,2],[2,4]] with its two variables exchanged. *)
Definition ex_l (i j : nat) : R := nth j (nth i [[2; 0]; [1; 1]]%R []) 0%R.
Definition ex_h (i j : nat) : R := nth j (nth i [[2; 2]; [2; 4]]%R []) 0%R.
Definition ex_c (i j : nat) : R := nth j (nth i [[1; -1/2]; [-1/2; 1/2]]%R []) 0%R.
Example C48_ex_factor :
  lower_factor 2 [0; 2; 3] [0; 1; 1] [2; 1; 1]%R ex_l /\ pinv_ok 2 (Some [1; 0]) /\
  factored 2 ex_h ex_l (place (Some [1; 0])) /\ inverse_of 2 ex_h ex_c.
Proof.
  split; [ | split; [ | split]].
  - intros [ | [ | c]] H; [ | | lia].
    + exists 2%R, [(1, 1%R)]. split.
      { exists 0. split; [reflexivity | ]. split; [reflexivity | ].
        intros [ | [ | [ | k]]] r v K; try discriminate; injection K as <- <-; split; reflexivity. }
      split; [lra | ]. split; [repeat constructor; cbn; tauto | ].
      split; [intros r v [K | []]; injection K as <- <-; lia | ].
      intros [ | [ | [ | r]]]; reflexivity.
    + exists 1%R, []. split.
      { exists 2. split; [reflexivity | ]. split; [reflexivity | ].
        intros [ | [ | k]] r v K; try discriminate; injection K as <- <-; split; reflexivity. }
      split; [lra | ]. split; [constructor | ]. split; [intros r v [] | ].
      intros [ | [ | [ | r]]]; reflexivity.
  - split; [reflexivity | ]. split.
    + intros [ | [ | a]] H; cbn; lia.
    + intros [ | [ | a]] [ | [ | b]] Ha Hb E; cbn in E; lia.
  - intros [ | [ | a]] [ | [ | b]] Ha Hb; try lia; unfold gram, ex_h, ex_l; cbn; lra.
  - intros [ | [ | a]] [ | [ | b]] Ha Hb; try lia; unfold ex_h, ex_c; cbn; lra.
Qed.

(** One entry: with the recursion started on an empty table, every entry of the
    inverse of L L^T. *)
Theorem C48_entry n p i (x : list R) pinv f P r c :
  lower_factor n p i x f -> inverse_of n (gram n f) P ->
  (Z.of_nat n * Z.of_nat n <= 2147483648)%Z -> r <= c -> c < n ->
  exists F (mp : list (Z * R)), set_factor RA n p i x pinv = Ok F /\
    entry_of RA (fuel_for RA F) F r c [] = Ok (P r c, mp).
Proof.
  intros HL HP HI Hrc Hc. destruct (set_factor_ok n p i x pinv f HL) as (F & E & En & E1 & E2 & E3 & _ & HD).
  destruct (entry_ok n f P F En HI) with (fuel := fuel_for RA F) (r := r) (c := c) (mp := @nil (Z * R))
    as (mp & EE & _); auto.
  - now rewrite E1, E2, E3.
  - unfold fuel_for. lia.
  - split; [exact I | ]. intros idx v K. discriminate.
  - exists F, mp. auto.
Qed.
Print Assumptions C48_entry.
Example C48_ex_entry : exists P, inverse_of 2 (gram 2 ex_l) P /\ P 0 1 = (-1/2)%R.
Proof.
  exists (fun i j => ex_c (1 - i) (1 - j)). split; [ | unfold ex_c; cbn; lra].
  intros [ | [ | a]] [ | [ | b]] Ha Hb; try lia; unfold gram, ex_l, ex_c; cbn; lra.
Qed.

(** The blocks on the diagonal of the inverse of H, for H factored under a
    permutation, written completely into the caller's memory. *)
Theorem C48_blocks n p i (x : list R) pinv f H C (mem : list (list R)) bi :
  lower_factor n p i x f -> pinv_ok n pinv -> factored n H f (place pinv) -> inverse_of n H C ->
  (Z.of_nat n * Z.of_nat n <= 2147483648)%Z ->
  layout bi -> total bi <= n -> length mem = length bi ->
  (forall b m, nth_error mem b = Some m -> length m = size_of bi b * size_of bi b) ->
  exists F (out : list (list R)), set_factor RA n p i x pinv = Ok F /\
    covariance_blocks RA F mem bi = Ok out /\ length out = length bi /\
    forall b, b < length bi -> exists m, nth_error out b = Some m /\ length m = size_of bi b * size_of bi b /\
      forall i j, i < size_of bi b -> j < size_of bi b ->
        nth_error m (i * size_of bi b + j) = Some (C (base_of bi b + i) (base_of bi b + j)).
Proof.
  intros HL HQ HF HC HI LB TB LM SM.
  destruct (set_factor_ok n p i x pinv f HL) as (F & E & En & E1 & E2 & E3 & E4 & HD).
  destruct (blocks_result n H C f pinv F En HI E4) with (mem := mem) (bi := bi) as (out & EO & LO & V); auto.
  - now rewrite E1, E2, E3.
  - exists F, out. auto.
Qed.
Print Assumptions C48_blocks.

(** Any chosen blocks: exactly those are stored, and they hold the inverse. *)
Theorem C48_sparse n p i (x : list R) pinv f H C l bs :
  lower_factor n p i x f -> pinv_ok n pinv -> factored n H f (place pinv) -> inverse_of n H C ->
  (Z.of_nat n * Z.of_nat n <= 2147483648)%Z ->
  layout l -> total l <= n -> (forall b, In b bs -> fst b < length l /\ snd b < length l) ->
  exists F (m : sbm RA), set_factor RA n p i x pinv = Ok F /\
    covariance_sparse RA F l bs = Ok m /\ wf m /\ rbi m = l /\ cbi m = l /\
    (forall r c, blk m r c <> None <-> In (r, c) bs) /\
    forall br i bc j, In (br, bc) bs -> i < size_of l br -> j < size_of l bc ->
      el m (base_of l br + i) (base_of l bc + j) = C (base_of l br + i) (base_of l bc + j).
Proof.
  intros HL HQ HF HC HI LB TB B.
  destruct (set_factor_ok n p i x pinv f HL) as (F & E & En & E1 & E2 & E3 & E4 & HD).
  destruct (sparse_result n H C f pinv F En HI E4) with (l := l) (bs := bs) as (m & EM & W & R0 & C0 & V); auto.
  - now rewrite E1, E2, E3.
  - exists F, m. do 5 (split; [assumption | ]). exact V.
Qed.
Print Assumptions C48_sparse.
Example C48_ex_layout : layout [1; 2] /\ total [1; 2] <= 2 /\
  (forall b, In b [(0, 1); (1, 1)] -> fst b < length [1; 2] /\ snd b < length [1; 2]).
Proof.
  split; [apply layoutb_ok; reflexivity | ]. split; [cbn; lia | ].
  intros b [<- | [<- | []]]; cbn; lia.
Qed.

(** The permutation as the solvers get it: CHOLMOD factors H(p, p), and the
    solver inverts p. *)
Theorem C48_solver n pm p i (x : list R) f H C l bs :
  Permutation pm (seq 0 n) -> lower_factor n p i x f ->
  (forall a b, a < n -> b < n -> gram n f a b = H (nth a pm 0) (nth b pm 0)) -> inverse_of n H C ->
  (Z.of_nat n * Z.of_nat n <= 2147483648)%Z ->
  layout l -> total l = n -> (forall b, In b bs -> fst b < length l /\ snd b < length l) ->
  exists v F (m : sbm RA), invert pm = Ok v /\ set_factor RA n p i x (Some v) = Ok F /\
    covariance_sparse RA F l bs = Ok m /\
    forall br i bc j, In (br, bc) bs -> i < size_of l br -> j < size_of l bc ->
      el m (base_of l br + i) (base_of l bc + j) = C (base_of l br + i) (base_of l bc + j).
Proof.
  intros PM HL HF HC HI LB TB B.
  assert (L : length pm = n) by (rewrite (Permutation_length PM), seq_length; reflexivity).
  destruct (C47_inverse pm) as (v & EV & LV & V1 & V2); [now rewrite L | ].
  rewrite L in *.
  assert (R0 : forall a, a < n -> nth a v 0 < n).
  { intros a Ha. assert (K : In a pm) by (apply (Permutation_in _ (Permutation_sym PM)), in_seq; lia).
    destruct (In_nth pm a 0 K) as (k & Hk & <-). rewrite L in Hk. now rewrite V1. }
  destruct (C48_sparse n p i x (Some v) f H C l bs) as (F & m & E1 & E2 & _ & _ & _ & _ & V); auto.
  - split; [exact LV | ]. split; [exact R0 | ]. intros a b Ha Hb E. rewrite <- (V2 a Ha), <- (V2 b Hb). now rewrite E.
  - intros a b Ha Hb. cbn [place]. rewrite HF by auto. now rewrite !V2.
  - lia.
  - exists v, F, m. auto.
Qed.
Print Assumptions C48_solver.

(** From 46341 variables on the table's index leaves the int range. *)
Theorem C48_large_refuted (A : Arith) (F : chol A) mp : (46341 <= Z.of_nat (cn F))%Z ->
  entry_of A (fuel_for A F) F (cn F - 1) (cn F - 1) mp = UB.
Proof.
  intro H. unfold fuel_for. rewrite Nat.add_1_r. cbn [entry_of].
  replace (index A F (cn F - 1) (cn F - 1)) with (@UB Z); [reflexivity | ].
  unfold index, ret_i32. destruct (in_i32b _) eqn:E; [ | reflexivity].
  apply in_i32b_iff in E. unfold in_i32, INT_MIN, INT_MAX in E. exfalso.
  replace (Z.of_nat (cn F - 1)) with (Z.of_nat (cn F) - 1)%Z in E by lia. nia.
Qed.
Print Assumptions C48_large_refuted.
Example C48_ex_large : exists F : chol RA, (46341 <= Z.of_nat (cn F))%Z.
Proof. exists (Chol (A := RA) (Z.to_nat 46341) [] [] [] None []). cbn [cn]. rewrite Z2Nat.id; lia. Qed.
