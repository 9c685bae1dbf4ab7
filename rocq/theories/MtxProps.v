(** * C116: matrices with an update pattern *)
From Coq Require Import Reals ZArith List Bool Arith Lia Lra.
From Verif Require Import Base MtxModel MtxSpec MtxProofs.
Import ListNotations.
Local Open Scope R_scope.

Definition lower : list Z := [1; 1; 1; 0; 1; 1; 0; 0; 1]%Z.
Definition eye : list R := [1; 0; 0; 0; 1; 0; 0; 0; 1].

(** If the last entry of the pattern is free, a step of as many numbers as the variable has
    dimensions is added to the free entries in turn, changes no other entry, and can be taken
    back. *)
Theorem C116_update A pat dp : zero_one pat -> length A = 9%nat -> nth 8 pat 0%Z = 1%Z -> length dp = dimension (patterned A pat) ->
  exists m, update (patterned A pat) dp = Ok m /\ length (value m) = 9%nat /\ value (revert m) = A /\
  forall i, (i < 9)%nat -> nth i (value m) 0 = nth i A 0 + (if Z.eqb (nth i pat 0%Z) 1 then nth (rank pat i) dp 0 else 0).
Proof.
  intros [L F] LA N D. cbn [patterned dimension] in D.
  assert (La : last pat 0%Z = 1%Z).
  { destruct pat as [|p0 [|p1 [|p2 [|p3 [|p4 [|p5 [|p6 [|p7 [|p8 [|p9 pat]]]]]]]]]]; try discriminate L. exact N. }
  destruct (add_ok pat A dp 0 ltac:(lia) F (or_intror La) ltac:(lia)) as [A' [E1 [E2 E3]]].
  unfold update. cbn [patterned pattern value]. rewrite E1. cbn [obind]. eexists. split; [reflexivity|]. cbn [value revert kept].
  split; [lia|]. split; [reflexivity|]. intros i Hi. apply E3. lia.
Qed.
Print Assumptions C116_update.
Example C116_update_ex : zero_one lower /\ nth 8 lower 0%Z = 1%Z /\ dimension (patterned eye lower) = 6%nat /\
  update (patterned eye lower) [1; 2; 3; 4; 5; 6] =
    Ok (MatVar [1 + 1 * 1; 0 + 1 * 2; 0 + 1 * 3; 0 + 0 * 4; 1 + 1 * 4; 0 + 1 * 5; 0 + 0 * 6; 0 + 0 * 6; 1 + 1 * 6] eye lower 6).
Proof.
  split; [split; [reflexivity | repeat (constructor; [(now left) || (now right)|]); constructor]|].
  split; [reflexivity|]. split; reflexivity.
Qed.

(** In every state, not only a fresh one, a step or a value that was set can be taken back. *)
Theorem C116_revert m dp m' A : update m dp = Ok m' ->
  value (revert m') = value m /\ pattern (revert m') = pattern m /\ dimension (revert m') = dimension m /\
  value (revert (set_parameters m A)) = value m.
Proof.
  unfold update. destruct (add_entries (pattern m) (value m) dp 0) as [B| | |]; cbn [obind]; try discriminate.
  intros E. injection E as <-. split; [reflexivity|]. split; [reflexivity|]. split; reflexivity.
Qed.
Print Assumptions C116_revert.
Example C116_revert_ex : exists m m', update (patterned eye lower) [1; 2; 3; 4; 5; 6] = Ok m /\ update m [6; 5; 4; 3; 2; 1] = Ok m' /\
  value (revert m') = value m /\ kept m = eye.
Proof. eexists _, _. split; [reflexivity|]. split; [reflexivity|]. split; reflexivity. Qed.

(** If the last entry of the pattern is constant, every step reads past the end of the
    numbers it is given. *)
Theorem C116_update_refuted A pat dp : length pat = 9%nat -> length A = 9%nat -> nth 8 pat 0%Z <> 1%Z -> length dp = dimension (patterned A pat) ->
  update (patterned A pat) dp = UB.
Proof.
  intros L LA N D. cbn [patterned dimension] in D. unfold update. cbn [patterned pattern value].
  rewrite (add_ub pat A dp 0); [reflexivity | intros ->; discriminate | lia | | lia].
  destruct pat as [|p0 [|p1 [|p2 [|p3 [|p4 [|p5 [|p6 [|p7 [|p8 [|p9 pat]]]]]]]]]]; try discriminate L. exact N.
Qed.
Print Assumptions C116_update_refuted.
Example C116_update_refuted_ex : dimension (patterned eye [1; 0; 0; 1; 1; 0; 1; 1; 0]%Z) = 5%nat /\
  update (patterned eye [1; 0; 0; 1; 1; 0; 1; 1; 0]%Z) [1; 2; 3; 4; 5] = UB.
Proof. split; reflexivity. Qed.

(** The block emitted for the matrix in the product with a vector is exact: through a chain of
    three rows, a step changes the value by the block times the step.  So is the block handed
    to the vector. *)
Theorem C116_blocks n0 m p chain dp m' : mat n0 = m -> vec n0 = p ->
  zero_one (pattern m) -> length (value m) = 9%nat -> dimension m = count_ones (pattern m) ->
  length chain = 3%nat -> dimension m <> 0%nat -> update m dp = Ok m' ->
  let n := fst (evaluate n0) in
  exists J K, blocks n chain = Ok (J, K) /\ length J = 3%nat /\ length K = 3%nat /\
  (forall k c row, nth_error chain k = Some c -> nth_error J k = Some row ->
     dot3 c (snd (evaluate (multiply m' p))) = dot3 c (snd (evaluate n)) + dot row dp) /\
  (forall k c row d, nth_error chain k = Some c -> nth_error K k = Some row ->
     dot3 c (snd (evaluate (multiply m (add3 p d)))) = dot3 c (snd (evaluate n)) + dot row (list3 d)).
Proof.
  intros M0 P0 [L F] LA _ LC D0 U n. unfold blocks, jacobian. cbn [n multiply evaluate fst snd mat vec mat_copy vec_copy].
  rewrite M0, P0.
  apply Nat.eqb_neq in D0. rewrite D0, map_length, LC. cbn [Nat.eqb obind].
  eexists _, _. split; [reflexivity|]. rewrite !map_length. split; [exact LC|]. split; [exact LC|]. split.
  - intros k c row Hc HJ. rewrite map_map in HJ. rewrite (map_nth_error (fun x => pick (pattern m) (full_row p x)) k chain Hc) in HJ.
    injection HJ as <-. unfold update in U.
    destruct (add_entries (pattern m) (value m) dp 0) as [B| | |] eqn:E; try discriminate U. cbn [obind] in U. injection U as <-.
    cbn [value]. assert (LB : length B = 9%nat).
    { rewrite (add_length _ _ _ _ _ (eq_trans L (eq_sym LA)) E). exact LA. }
    rewrite <- (full_dot p c B LB), <- (full_dot p c (value m) LA).
    exact (add_dot _ _ _ _ _ (full_row p c) (eq_trans L (eq_sym LA)) (eq_trans (full_length p c) (eq_sym LA)) F E).
  - intros k c row d Hc HK. rewrite (map_nth_error (fun x => row_times x (value m)) k chain Hc) in HK. injection HK as <-. apply row_dot.
Qed.
Print Assumptions C116_blocks.
Example C116_blocks_ex : exists J K, blocks (multiply (patterned eye lower) (1, 2, 3)) [(1, 0, 0); (0, 1, 0); (0, 0, 1)] = Ok (J, K) /\
  nth 1 J [] = [0 * 1; 1 * 1; 0 * 1; 1 * 2; 0 * 2; 0 * 3].
Proof. eexists _, _. split; reflexivity. Qed.

(** A chain that does not have three rows, as under an image error, is not handled. *)
Theorem C116_rows_refuted n chain : length chain <> 3%nat -> dimension (mat n) <> 0%nat -> blocks n chain = UB.
Proof.
  intros L D. apply Nat.eqb_neq in L. apply Nat.eqb_neq in D. unfold blocks, jacobian. now rewrite D, map_length, L.
Qed.
Print Assumptions C116_rows_refuted.
Example C116_rows_ex : blocks (multiply (patterned eye lower) (1, 2, 3)) [(1, 0, 0); (0, 1, 0)] = UB.
Proof. reflexivity. Qed.

(** The blocks are those at the last evaluation: changing the operands does not change them. *)
Theorem C116_stale_refuted n c n' chain : alter n c = Ok n' -> blocks n' chain = blocks n chain.
Proof.
  destruct c as [dp| |A|p]; cbn [alter].
  - unfold update. destruct (add_entries _ _ _ _); cbn [obind]; try discriminate. intros [= <-]. reflexivity.
  - intros [= <-]. reflexivity.
  - intros [= <-]. reflexivity.
  - intros [= <-]. reflexivity.
Qed.
Print Assumptions C116_stale_refuted.
Example C116_stale_ex : exists n, alter (multiply (free_matrix eye) (1, 2, 3)) (Set_vector (4, 5, 6)) = Ok n /\
  (exists J K, blocks n [(1, 0, 0); (0, 1, 0); (0, 0, 1)] = Ok (J, K) /\ nth 0 J [] = [1 * 1; 0 * 1; 0 * 1; 1 * 2; 0 * 2; 0 * 2; 1 * 3; 0 * 3; 0 * 3]) /\
  (exists J K, blocks (fst (evaluate n)) [(1, 0, 0); (0, 1, 0); (0, 0, 1)] = Ok (J, K) /\ nth 0 J [] = [1 * 4; 0 * 4; 0 * 4; 1 * 5; 0 * 5; 0 * 5; 1 * 6; 0 * 6; 0 * 6]).
Proof. eexists. split; [reflexivity|]. split; eexists _, _; (split; reflexivity). Qed.
