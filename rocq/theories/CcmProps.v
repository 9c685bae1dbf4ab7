(** The compressed-column matrix of transposed Jacobians. *)
From Coq Require Import ZArith List Bool Lia Permutation Sorted Reals.
From Verif Require Import Base Arith RArith F64Proofs OMap JacModel JacSpec JacProofs JacProps
  CcmModel CcmSpec CcmProofs CcmBuild CcmOps CcmReal.
Import ListNotations.
Open Scope nat_scope.

(** Build a problem whose active design variables are numbered and whose error
    terms use only those.  The structure can always be laid out, whatever the
    matrix held before.  Then let the error terms write their Jacobians, in any
    order, any number of times: the matrix is well formed and holds, dense or
    element by element, the transpose of the stacked Jacobians of the last
    round. *)
Theorem C27_builds : forall A base dvs ts m0,
  numbered base dvs -> dvs <> [] -> Forall (term_ok dvs) ts ->
  exists ps m1, init_structure A base dvs ts m0 = Ok (ps, m1) /\ length ps = length ts /\
    forall rounds ks js,
      Forall (fun w => exists ks', Forall2 (fills A) ts ks' /\ Permutation w (combine ks' ps)) rounds ->
      Forall2 (fills A) ts ks -> Permutation js (combine ks ps) ->
      exists m2, write_all A (concat rounds ++ js) m1 = Ok m2 /\ well_formed A m2 /\
        nrows m2 = dims dvs /\ ncols m2 = height A ks /\
        dense_is A m2 (fun r c => stacked A base ks c r).
Proof.
  intros A base dvs ts m0 N H T.
  destruct (exists_last H) as (l & d & ->).
  destruct (init_structure_ok A base l d ts m0) as (m1 & E & R1 & N1 & D1).
  exists (ptrs 0 ts), m1. split; [exact E | ]. split.
  { clear. generalize 0. induction ts as [ | t ts IH]; intro n; [reflexivity | ].
    cbn [ptrs length]. now rewrite IH. }
  intros rounds ks js HW F P.
  assert (R1' := R1). destruct R1' as [V R C Nc].
  destruct (rounds_ok A base ts rounds m1 HW R C Nc) as (m2 & E2 & N2 & C2 & R2 & P2 & D2 & V2).
  { now rewrite V, R, !map_length. }
  destruct (written A base ts ks js m2 F P) as (m3 & E3 & R3 & N3 & C3 & _); try congruence.
  { rewrite V2, R2, V, R, !map_length. reflexivity. }
  assert (App : forall a b x, write_all A (a ++ b) x = (do y <- write_all A a x; write_all A b y)).
  { clear. induction a as [ | [k p] a IHa]; intros b x; [reflexivity | ].
    cbn [app write_all]. destruct (write_jacobians A k p x); cbn [obind]; [apply IHa | reflexivity..]. }
  assert (Nr : nrows m3 = dims (l ++ [d])) by (rewrite N3, N2, N1; now apply numbered_rows).
  assert (Ok3 : Forall (col_ok A (nrows m3)) (final_cols A base ks))
    by (rewrite Nr; now apply final_ok with ts).
  assert (Hc : ncols m3 = height A ks) by (rewrite (r_ncols _ _ _ R3); apply final_length).
  exists m3. rewrite App, E2. split; [exact E3 | ]. split; [now apply repr_wf with (final_cols A base ks) | ].
  split; [exact Nr | ]. split; [exact Hc | ].
  apply dense_is_ext with (1 := repr_dense_is A m3 _ R3 Ok3). intros r c Hr Hcc.
  apply nth_final. now rewrite <- Hc.
Qed.
Print Assumptions C27_builds.

(** Two design variables (dimensions 2 and 1) and two error terms, the second
    using only the first design variable. *)
Definition d0 := DvRef 10 0 2 true.
Definition d1 := DvRef 11 1 1 true.
Definition dx := DvRef 12 5 4 false.
Definition base2 (d : dvref) : nat := match block d with 0%Z => 0 | _ => 2 end.
Definition two : list dvref := [d0; d1].
Definition terms2 : list term := [Term 1 [d1; dx; d0]; Term 2 [d0]].
Definition k1 : container ZA := Container (A := ZA) 1 [(0%Z, (d0, [[1; 2]%Z])); (1%Z, (d1, [[3]%Z]))].
Definition k2 : container ZA := Container (A := ZA) 2 [(0%Z, (d0, [[4; 5]; [6; 7]]%Z))].

Example C27_ex_hyps : numbered base2 two /\ Forall (term_ok two) terms2 /\
  Forall2 (fills ZA) terms2 [k1; k2].
Proof.
  split; [ | split].
  - intros [ | [ | i]] d H; cbn in H; try injection H as <-.
    + auto.
    + auto.
    + destruct i; discriminate.
  - constructor; [ | constructor; [ | constructor]].
    + split.
      * cbn. constructor; [cbn; intros [X | []]; discriminate X | ]. constructor; [intros [] | constructor].
      * cbn. intros d [<- | [<- | [<- | []]]] X; try discriminate X; auto.
    + split.
      * cbn. constructor; [intros [] | constructor].
      * cbn. intros d [<- | []] _. auto.
  - constructor; [ | constructor; [ | constructor]]; (split; [ | split; [reflexivity | ]]).
    + split.
      * cbn. constructor; [constructor; constructor | ]. constructor; [reflexivity | constructor].
      * constructor; [now cbn | ]. constructor; [now cbn | constructor].
    + cbn. apply perm_swap.
    + split.
      * cbn. constructor; constructor.
      * constructor; [now cbn | constructor].
    + cbn. reflexivity.
Qed.

Example C27_ex_builds :
  (do '(ps, m1) <- init_structure ZA base2 two terms2 (empty ZA);
   do m2 <- write_all ZA (rev (combine [k1; k2] ps)) m1; to_dense ZA m2)
  = Ok [1; 2; 3; 4; 5; 0; 6; 7; 0]%Z.
Proof. vm_compute. reflexivity. Qed.

(** Appending a diagonal block gives [J^T | D]; removing it restores the matrix
    exactly; replacing it equals removing it and appending the new one. *)
Theorem C27_push_pop : forall A m f d d', well_formed A m -> dense_is A m f -> diag m = false ->
  length d = nrows m -> length d' = nrows m ->
  exists m', push_diag A d m = Ok m' /\ well_formed A m' /\ diag m' = true /\
    nrows m' = nrows m /\ ncols m' = ncols m + nrows m /\
    dense_is A m' (fun r c => if Nat.ltb c (ncols m) then f r c
                              else if Nat.eqb r (c - ncols m) then nth r d (of_Z A 0) else of_Z A 0) /\
    pop_diag A m' = Ok m /\
    update_diag A d' m' = push_diag A d' m.
Proof.
  intros A m f d d' W F D L L'. destruct (wf_repr A m W) as (cols & R & K).
  destruct (push_ok A m cols d R D L) as (m' & E & R' & N & C & D' & _).
  destruct (push_pop A m cols d R D L) as (m2 & E2 & P2).
  destruct (push_update A m cols d d' R D L L') as (m3 & E3 & U3).
  assert (m2 = m') by congruence. assert (m3 = m') by congruence. subst m2 m3.
  assert (K' : Forall (col_ok A (nrows m')) (cols ++ diag_cols A d)).
  { rewrite N. apply Forall_app. split; [exact K | ]. rewrite <- L. apply diag_cols_ok. }
  exists m'. split; [exact E | ]. split; [now apply repr_wf with (cols ++ diag_cols A d) | ].
  split; [exact D' | ]. split; [exact N | ]. split; [exact C | ]. split; [ | split; assumption].
  apply dense_is_ext with (1 := repr_dense_is A m' _ R' K'). intros r c Hr Hc.
  rewrite N in Hr. rewrite C in Hc.
  assert (Hn := r_ncols _ _ _ R). destruct (Nat.ltb_spec c (ncols m)) as [Lc | Lc].
  - rewrite app_nth1 by lia.
    exact (dense_is_unique A m _ f r c (repr_dense_is A m cols R K) F Hr Lc).
  - rewrite diag_lookup by lia. now rewrite Hn.
Qed.
Print Assumptions C27_push_pop.

Definition small : ccm ZA := Ccm (A := ZA) 2 1 [3; 4]%Z [0; 1] [0; 2] false.
Example C27_ex_push :
  (do m <- push_diag ZA [8; 9]%Z small; to_dense ZA m) = Ok [3; 4; 8; 0; 0; 9]%Z /\
  (do m <- push_diag ZA [8; 9]%Z small; pop_diag ZA m) = Ok small.
Proof. vm_compute. split; reflexivity. Qed.

(** The misuses that throw: a second diagonal, removing or replacing one that is
    not there, appending columns while it is there, a block of another size. *)
Theorem C27_push_rejects : forall A base m d n dvs, well_formed A m ->
  (diag m = true -> length d = nrows m -> push_diag A d m = Throw) /\
  (diag m = true -> append A base n dvs m = Throw) /\
  (diag m = false -> pop_diag A m = Throw) /\
  (diag m = false -> update_diag A d m = Throw) /\
  (length d <> nrows m -> push_diag A d m = Throw).
Proof.
  intros A base m d n dvs W. destruct (wf_repr A m W) as (cols & R & _).
  assert (Ck := repr_check A m cols R).
  split; [ | split; [ | split; [ | split]]].
  - intros D L. unfold push_diag. rewrite Ck. cbn [obind]. now rewrite L, Nat.eqb_refl, D.
  - intro D. unfold append. now rewrite D.
  - intro D. unfold pop_diag. now rewrite D.
  - intro D. unfold update_diag. now rewrite D.
  - intro D. unfold push_diag. rewrite Ck. cbn [obind].
    now rewrite (proj2 (Nat.eqb_neq _ _) D).
Qed.
Print Assumptions C27_push_rejects.

(** Clearing a matrix that is not square leaves it unusable: the column pointers
    get one entry per row. *)
Theorem C27_clear_refuted : exists m : ccm ZA, well_formed ZA m /\ diag m = false /\
  append ZA base2 1 [d1] m <> Throw /\ append ZA base2 1 [d1] (clear ZA m) = Throw.
Proof.
  exists small. split; [ | split; [reflexivity | split; [vm_compute; discriminate | reflexivity]]].
  apply repr_wf with [[(0, 3%Z); (1, 4%Z)]].
  - constructor; reflexivity.
  - constructor; [ | constructor]. split.
    + cbn. constructor; [constructor; constructor | ]. constructor; [lia | constructor].
    + constructor; [cbn; lia | ]. constructor; [cbn; lia | constructor].
Qed.
Print Assumptions C27_clear_refuted.

(** Re-initialising a used matrix without clearing it keeps the old entries, and
    the next append throws. *)
Theorem C27_reinit_refuted : exists m : ccm ZA,
  append ZA base2 1 [d1] (init ZA 3 0 (empty ZA)) <> Throw /\
  append ZA base2 1 [d1] (init ZA 3 0 m) = Throw.
Proof. exists small. split; [vm_compute; discriminate | reflexivity]. Qed.
Print Assumptions C27_reinit_refuted.

(** An error term that gives no Jacobian for one of its active design variables:
    the remaining values land in the wrong rows. *)
Theorem C27_missing_jacobian_refuted : exists ts ks,
  Forall (term_ok two) ts /\ Forall2 (fun t k => container_ok k /\ crows k = tdim t /\
    incl (map (fun e => fst (snd e)) (cmap k)) (tdvs t)) ts ks /\
  exists ps m1 m2, init_structure ZA base2 two ts (empty ZA) = Ok (ps, m1) /\
    write_all ZA (combine ks ps) m1 = Ok m2 /\
    value ZA m2 2 0 = Ok 0%Z /\ value ZA m2 0 0 = Ok 3%Z /\
    stacked ZA base2 ks 0 2 = 3%Z /\ stacked ZA base2 ks 0 0 = 0%Z.
Proof.
  exists [Term 1 [d0; d1]], [Container (A := ZA) 1 [(1%Z, (d1, [[3]%Z]))]].
  split; [ | split].
  - constructor; [ | constructor]. split.
    + cbn. constructor; [cbn; intros [X | []]; discriminate X | ]. constructor; [intros [] | constructor].
    + cbn. intros d [<- | [<- | []]] _; auto.
  - constructor; [ | constructor]. split; [split | split; [reflexivity | ]].
    + cbn. constructor; constructor.
    + constructor; [cbn; auto | constructor].
    + cbn. intros x [<- | []]. right. now left.
  - do 3 eexists. split; [vm_compute; reflexivity | ]. split; [vm_compute; reflexivity | ].
    vm_compute. auto.
Qed.
Print Assumptions C27_missing_jacobian_refuted.

(** Building from a dense matrix keeps exactly the entries whose magnitude is
    above the tolerance. *)
Theorem C43_from_dense : forall A rows cols M tol m, exists m',
  from_dense_tol A rows cols M tol m = Ok m' /\ well_formed A m' /\
  nrows m' = rows /\ ncols m' = cols /\
  dense_is A m' (fun r c => let x := nth c (nth r M []) (of_Z A 0) in
                            if lt A (absv A tol) (absv A x) then x else of_Z A 0) /\
  (forall i r, nth_error (rind m') i = Some r ->
     exists x, nth_error (vals m') i = Some x /\ lt A (absv A tol) (absv A x) = true).
Proof.
  intros A rows cols M tol m. destruct (from_dense_ok A M tol rows cols m) as (m' & E & R & N & C & _).
  assert (K : Forall (col_ok A (nrows m')) (map (dcol A M tol rows) (seq 0 cols))).
  { apply Forall_forall. intros k Hk. apply in_map_iff in Hk. destruct Hk as (c & <- & _).
    rewrite N. apply dcol_ok. }
  exists m'. split; [exact E | ]. split; [eapply repr_wf; eassumption | ].
  split; [exact N | ]. split; [exact C | ]. split.
  - apply dense_is_ext with (1 := repr_dense_is A m' _ R K). intros r c Hr Hc.
    rewrite N in Hr. rewrite C in Hc. cbv zeta.
    rewrite (nth_indep _ [] (dcol A M tol rows 0)) by (rewrite map_length, seq_length; exact Hc).
    rewrite map_nth, seq_nth by exact Hc. cbn [Nat.add]. now apply dcol_lookup.
  - intros i r Hi. rewrite (r_rind _ _ _ R), nth_error_map in Hi. rewrite (r_vals _ _ _ R), nth_error_map.
    destruct (nth_error (concat (map (dcol A M tol rows) (seq 0 cols))) i) as [e | ] eqn:Ee; [ | discriminate].
    exists (snd e). split; [reflexivity | ].
    apply nth_error_In, in_concat in Ee. destruct Ee as (k & Hk & He).
    apply in_map_iff in Hk. destruct Hk as (c & <- & _). unfold dcol in He.
    apply in_flat_map in He. destruct He as (q & _ & He).
    destruct (kept A M tol q c) eqn:Kq; [ | contradiction]. destruct He as [<- | []]. exact Kq.
Qed.
Print Assumptions C43_from_dense.

Example C43_ex_dense :
  (do m <- from_dense_tol ZA 2 3 [[5; -1; 0]; [-7; 0; 2]]%Z (-1)%Z (empty ZA); to_dense ZA m)
  = Ok [5; -7; 0; 0; 0; 2]%Z.
Proof. vm_compute. reflexivity. Qed.

(** Element access outside the matrix throws; inside a well-formed matrix it
    never fails, and agrees with the dense form. *)
Theorem C43_access : forall A m, well_formed A m ->
  (exists f, dense_is A m f) /\
  (forall r c, nrows m <= r \/ ncols m <= c -> value A m r c = Throw).
Proof.
  intros A m W. split.
  - destruct (wf_repr A m W) as (cols & R & K). eexists. exact (repr_dense_is A m cols R K).
  - intros r c H. unfold value.
    destruct (Nat.ltb_spec r (nrows m)), (Nat.ltb_spec c (ncols m)); try reflexivity. lia.
Qed.
Print Assumptions C43_access.

(** Dense to sparse to dense is the identity with tolerance zero, over the
    reals. *)
Theorem C43_round_trip : forall rows cols (M : mat RA) m,
  exists m', from_dense RA rows cols M m = Ok m' /\
    dense_is RA m' (fun r c => nth c (nth r M []) 0%R).
Proof.
  intros rows cols M m. destruct (C43_from_dense RA rows cols M (of_Z RA 0) m)
    as (m' & E & _ & _ & _ & D & _).
  exists m'. split; [exact E | ]. apply dense_is_ext with (1 := D). intros r c _ _. cbv zeta.
  change (of_Z RA 0) with 0%R. set (x := nth c (nth r M []) 0%R). clearbody x.
  cbn [lt absv RA]. rewrite Rabs_R0.
  unfold rlt. destruct (Rlt_dec 0 (Rabs x)) as [L | L]; [reflexivity | ].
  destruct (Req_dec x 0) as [-> | Nx]; [reflexivity | ].
  exfalso. apply L. now apply Rabs_pos_lt.
Qed.
Print Assumptions C43_round_trip.

(** A not-a-number entry is dropped: the sparse matrix holds zero instead. *)
Theorem C43_nan_dropped_refuted : exists x m',
  lt F64 x x = false /\ lt F64 x (of_Z F64 0) = false /\ lt F64 (of_Z F64 0) x = false /\
  from_dense F64 1 1 [[x]] (empty F64) = Ok m' /\ value F64 m' 0 0 = Ok (of_Z F64 0).
Proof.
  exists SpecFloat.S754_nan. eexists.
  split; [reflexivity | ]. split; [reflexivity | ]. split; [reflexivity | ].
  split; [unfold from_dense, from_dense_tol; reflexivity | reflexivity].
Qed.
Print Assumptions C43_nan_dropped_refuted.

(** The flag for the diagonal block survives: a matrix rebuilt from dense data
    after a diagonal was appended still counts its last columns as that block,
    so removing "the diagonal" cuts data away or throws. *)
Theorem C43_stale_diagonal_refuted : exists m1 m2 : ccm ZA,
  push_diag ZA [8; 9]%Z small = Ok m1 /\
  from_dense ZA 2 3 [[1; 0; 2]; [3; 4; 0]]%Z m1 = Ok m2 /\
  right_multiply ZA [1; 1; 1]%Z m2 = Throw /\
  (exists m3 m4, from_dense ZA 1 2 [[5; 6]]%Z m1 = Ok m3 /\ pop_diag ZA m3 = Ok m4 /\
     to_dense ZA m4 = Ok [5]%Z).
Proof.
  do 2 eexists. split; [vm_compute; reflexivity | ]. split; [vm_compute; reflexivity | ].
  split; [vm_compute; reflexivity | ]. do 2 eexists. split; [vm_compute; reflexivity | ].
  split; vm_compute; reflexivity.
Qed.
Print Assumptions C43_stale_diagonal_refuted.

(** Products with vectors, over exact reals: the data columns (all but the
    diagonal block) times a vector, and the transposed product. *)
Theorem C44_right : forall (m : ccm RA) f n (x : list R), well_formed RA m -> dense_is RA m f ->
  data_cols RA m = Some n -> length x = n ->
  exists y : list R, right_multiply RA x m = Ok y /\ length y = nrows m /\
    forall r, r < nrows m -> nth r y 0%R = rdot (map (f r) (seq 0 n)) x.
Proof.
  intros m f n x W F D L. destruct (wf_repr RA m W) as (cols & R & K).
  destruct (right_ok m cols n x R K D L) as (y & E & Ly & P).
  exists y. split; [exact E | ]. split; [exact Ly | ]. intros r Hr. rewrite (P r Hr).
  f_equal. apply map_ext_in. intros c Hc. apply in_seq in Hc.
  assert (Hn := data_cols_ok m n D).
  apply (dense_is_unique RA m _ f r c (repr_dense_is RA m cols R K) F Hr). lia.
Qed.
Print Assumptions C44_right.

Theorem C44_left : forall (m : ccm RA) f n (x : list R), well_formed RA m -> dense_is RA m f ->
  data_cols RA m = Some n -> length x = nrows m ->
  exists y : list R, left_multiply RA x m = Ok y /\ length y = n /\
    forall c, c < n -> nth c y 0%R = rdot (map (fun r => f r c) (seq 0 (nrows m))) x.
Proof.
  intros m f n x W F D L. destruct (wf_repr RA m W) as (cols & R & K).
  destruct (left_ok m cols n x R K D L) as (y & E & Ly & P).
  exists y. split; [exact E | ]. split; [exact Ly | ]. intros c Hc. rewrite (P c Hc).
  f_equal. apply map_ext_in. intros r Hr. apply in_seq in Hr.
  assert (Hn := data_cols_ok m n D).
  apply (dense_is_unique RA m _ f r c (repr_dense_is RA m cols R K) F); lia.
Qed.
Print Assumptions C44_left.

(** Vectors of another size throw, in any arithmetic. *)
Theorem C44_sizes : forall A m n x, data_cols A m = Some n ->
  (length x <> n -> right_multiply A x m = Throw) /\
  (length x <> nrows m -> left_multiply A x m = Throw).
Proof.
  intros A m n x D. unfold right_multiply, left_multiply. rewrite D.
  split; intro H; now rewrite (proj2 (Nat.eqb_neq _ _) H).
Qed.
Print Assumptions C44_sizes.

(** The diagonal block is left out of both products. *)
Theorem C44_ignores_diagonal : forall (m : ccm RA) f (d x : list R),
  well_formed RA m -> dense_is RA m f -> diag m = false -> length d = nrows m ->
  exists m', push_diag RA d m = Ok m' /\
    right_multiply RA x m' = right_multiply RA x m /\
    left_multiply RA x m' = left_multiply RA x m.
Proof.
  intros m f d x W F D L.
  destruct (C27_push_pop RA m f d d W F D L L) as (m' & E & W' & D' & N & C & F' & _).
  exists m'. split; [exact E | ].
  assert (Dm : data_cols RA m = Some (ncols m)) by (unfold data_cols; now rewrite D).
  assert (Dm' : data_cols RA m' = Some (ncols m)).
  { unfold data_cols. rewrite D', N, C, (proj2 (Nat.leb_le _ _)) by lia. f_equal. lia. }
  split.
  - destruct (Nat.eq_dec (length x) (ncols m)) as [Lx | Lx].
    + destruct (C44_right m f _ x W F Dm Lx) as (y & Ey & Ly & Py).
      destruct (C44_right m' _ _ x W' F' Dm' Lx) as (y' & Ey' & Ly' & Py').
      rewrite Ey, Ey'. f_equal. apply nth_ext with 0%R 0%R; [congruence | ].
      intros r Hr. rewrite Py, Py' by congruence. f_equal. apply map_ext_in.
      intros c Hc. apply in_seq in Hc. cbv beta. now rewrite (proj2 (Nat.ltb_lt _ _)) by lia.
    + now rewrite (proj1 (C44_sizes RA m _ x Dm) Lx), (proj1 (C44_sizes RA m' _ x Dm') Lx).
  - destruct (Nat.eq_dec (length x) (nrows m)) as [Lx | Lx].
    + destruct (C44_left m f _ x W F Dm Lx) as (y & Ey & Ly & Py).
      destruct (C44_left m' _ _ x W' F' Dm' ltac:(congruence)) as (y' & Ey' & Ly' & Py').
      rewrite Ey, Ey'. f_equal. apply nth_ext with 0%R 0%R; [congruence | ].
      intros c Hc. assert (Hc' : c < ncols m) by (rewrite <- Ly'; exact Hc).
      rewrite Py, Py' by congruence. rewrite N. f_equal.
      apply map_ext_in. intros r Hr. cbv beta. now rewrite (proj2 (Nat.ltb_lt _ _) Hc').
    + rewrite (proj2 (C44_sizes RA m _ x Dm) Lx). apply (proj2 (C44_sizes RA m' _ x Dm')). rewrite N. exact Lx.
Qed.
Print Assumptions C44_ignores_diagonal.

Example C44_ex_products :
  let m := Ccm (A := ZA) 2 3 [1; 3; 4; 2]%Z [0; 1; 1; 0] [0; 2; 3; 4] false in
  right_multiply ZA [1; 10; 100]%Z m = Ok [201; 43]%Z /\
  left_multiply ZA [1; 10]%Z m = Ok [31; 40; 2]%Z.
Proof. vm_compute. split; reflexivity. Qed.
