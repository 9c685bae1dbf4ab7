(** * The steps of the solver put together *)
From Coq Require Import Reals List Arith ZArith Bool Lia Lra.
From Verif Require Import Base BsplModel BsplSpec BsplProofs SvModel SvSpec SvProofs.
Import ListNotations.
Local Open Scope R_scope.

Section Main.
Variables (qr : R -> sparse -> mat * (vec -> vec)) (svd : nat -> mat -> mat * vec * mat) (o : options) (A : sparse) (j : nat).
Let m := nrow A.
Let n := ncol A.
Let B := scaled o A.
Let g := column_factor o A.
Definition left_block : sparse := Sparse (nrow A) j (scaled o A) (stored A).
Definition right_block : sparse := Sparse (nrow A) (ncol A - j) (fun i c => scaled o A i (j + c)%nat) (fun c => stored A (j + c)%nat).
Hypothesis Hj : (0 < j < ncol A)%nat.

Lemma left_sub : column_submatrix A 0 (Z.of_nat j - 1) = Ok (Sparse (nrow A) j (entry A) (stored A)).
Proof.
  unfold column_submatrix. rewrite (proj2 (Z.ltb_ge _ _)) by lia. rewrite (proj2 (Z.leb_gt _ _)) by lia.
  replace (0 <? 0)%Z with false by reflexivity. replace (Z.to_nat (Z.of_nat j - 1 - 0 + 1)) with j by lia. reflexivity.
Qed.
Lemma right_sub : column_submatrix A (Z.of_nat j) (Z.of_nat (ncol A) - 1) =
  Ok (Sparse (nrow A) (ncol A - j) (fun i c => entry A i (j + c)%nat) (fun c => stored A (j + c)%nat)).
Proof.
  unfold column_submatrix. rewrite (proj2 (Z.ltb_ge _ _)) by lia. rewrite (proj2 (Z.leb_gt _ _)) by lia.
  rewrite (proj2 (Z.ltb_ge _ _)) by lia. replace (Z.to_nat (Z.of_nat (ncol A) - 1 - Z.of_nat j + 1)) with (ncol A - j)%nat by lia. rewrite Nat2Z.id. reflexivity.
Qed.
Lemma left_scaled : scale_columns (scale_of o (Sparse (nrow A) j (entry A) (stored A))) (Sparse (nrow A) j (entry A) (stored A)) = left_block.
Proof. unfold left_block, scale_columns, scale_of, scaled, column_factor. destruct (scaling o); reflexivity. Qed.
Lemma right_scaled : let X := Sparse (nrow A) (ncol A - j) (fun i c => entry A i (j + c)%nat) (fun c => stored A (j + c)%nat) in
  scale_columns (scale_of o X) X = right_block.
Proof. cbv zeta. unfold right_block, scale_columns, scale_of, scaled, column_factor. destruct (scaling o); reflexivity. Qed.
Lemma left_factor c : scale_of o (Sparse (nrow A) j (entry A) (stored A)) c = column_factor o A c.
Proof. unfold scale_of, column_factor. destruct (scaling o); reflexivity. Qed.
Lemma right_factor c : scale_of o (Sparse (nrow A) (ncol A - j) (fun i c => entry A i (j + c)%nat) (fun c => stored A (j + c)%nat)) c = column_factor o A (j + c).
Proof. unfold scale_of, column_factor. destruct (scaling o); reflexivity. Qed.

Definition tol_used : R := if Req_EM_T (qr_tolerance o) (-1) then qr_tol left_block (eps_qr o) else qr_tolerance o.
Definition fac : factor := factorize qr o left_block.
Lemma fac_eq : fac = Factor j (fst (qr tol_used left_block)) (snd (qr tol_used left_block)).
Proof. unfold fac, factorize, tol_used. destruct (qr _ left_block) as [Q back]. reflexivity. Qed.

(** The rows of Q' A_r and of Q' b *)
Definition Wm (F : factor) (i c : nat) : R := dot (nrow A) (fun k => f_Q F k i) (fun k => scaled o A k (j + c)%nat).
Lemma bsum_tail M (f : vec) : (S j <= M)%nat -> bsum (M - S j) (fun i => f (S j + i)%nat) = bsum M f - bsum (S j) f.
Proof. intros H. replace M with (S j + (M - S j))%nat at 2 by lia. rewrite bsum_app. ring. Qed.
Lemma reduce_left_ok F : f_n F = j -> orthogonal (nrow A) (f_Q F) -> (j < nrow A)%nat ->
  exists Om ArtQ, reduce_left F (transpose right_block) = Ok (Om, ArtQ) /\ ncol ArtQ = S j /\
    (forall c i, entry ArtQ c i = Wm F i c) /\
    (forall c d, Om c d = bsum (nrow A - S j) (fun i => Wm F (S j + i) c * Wm F (S j + i) d)).
Proof.
  intros HF O Hm. unfold reduce_left, column_submatrix. rewrite HF. cbn [ncol nrow times_Q transpose right_block].
  rewrite (proj2 (Z.ltb_ge _ _)) by lia. rewrite (proj2 (Z.leb_gt _ _)) by lia. replace (0 <? 0)%Z with false by reflexivity. cbn [obind].
  replace (Z.to_nat (Z.of_nat j - 0 + 1)) with (S j) by lia. eexists. eexists. split; [ reflexivity | ].
  cbn [ncol entry]. split; [ reflexivity | ].
  assert (E : forall c i, entry (times_Q F (transpose right_block)) c i = Wm F i c).
  { intros c i. cbn [entry times_Q transpose right_block ncol nrow]. unfold Wm, dot. apply bsum_ext. intros k _. ring. }
  split; [ intros c i; exact (E c i) | ]. intros c d.
  rewrite (bsum_tail (nrow A) (fun i => Wm F i c * Wm F i d)) by lia. unfold aat. cbn [ncol entry nrow transpose right_block].
  unfold Wm at 1 2. rewrite (dot_rotated (nrow A) (f_Q F) (fun k => scaled o A k (j + c)%nat) (fun k => scaled o A k (j + d)%nat) O). f_equal.
  apply bsum_ext. intros i _. rewrite <- (E c i), <- (E d i). reflexivity.
Qed.
Lemma reduce_left_small F : f_n F = j -> (nrow A <= j)%nat -> reduce_left F (transpose right_block) = Throw.
Proof.
  intros HF Hm. unfold reduce_left, column_submatrix. rewrite HF. cbn [ncol nrow times_Q transpose right_block].
  rewrite (proj2 (Z.ltb_ge _ _)) by lia. rewrite (proj2 (Z.leb_le _ _)) by lia. reflexivity.
Qed.
Lemma reduce_right_ok F ArtQ b : f_n F = j -> orthogonal (nrow A) (f_Q F) -> (j < nrow A)%nat -> ncol ArtQ = S j ->
  (forall c i, entry ArtQ c i = Wm F i c) ->
  exists br, reduce_right F (transpose right_block) ArtQ (nrow A) b = Ok br /\
    forall c, br c = bsum (nrow A - S j) (fun i => Wm F (S j + i) c * dot (nrow A) (fun k => f_Q F k (S j + i)%nat) b).
Proof.
  intros HF O Hm HC HE. unfold reduce_right, row_submatrix. rewrite HF. cbn [nrow column_vector].
  rewrite (proj2 (Z.ltb_ge _ _)) by lia. rewrite (proj2 (Z.leb_gt _ _)) by lia. replace (0 <? 0)%Z with false by reflexivity. cbn [obind].
  eexists. split; [ reflexivity | ]. intros c. unfold multiply. cbn [entry ncol transpose right_block nrow column_vector]. rewrite HC.
  rewrite (bsum_tail (nrow A) (fun i => Wm F i c * dot (nrow A) (fun k => f_Q F k i) b)) by lia.
  unfold Wm at 1. rewrite (dot_rotated (nrow A) (f_Q F) (fun k => scaled o A k (j + c)%nat) b O). f_equal.
  apply bsum_ext. intros i _. rewrite HE. reflexivity.
Qed.

(** ** The result of [solve] *)
Definition after_svd (s : state) (Om : mat) : state := with_svd svd (refresh s left_block) (ncol A - j) Om.
Definition tol_of (N : nat) (D : vec) : R := if Req_EM_T (svd_tol o) (-1) then D 0%nat * eps_svd o * INR N else svd_tol o.
Lemma with_rank_ok s : (0 < nsv s)%nat -> let t := tol_of (nsv s) (sv s) in
  with_rank o s = Ok (State (sizes s) (Z.of_nat (estimate_rank (nsv s) (sv s) t)) (Z.of_nat (nsv s) - Z.of_nat (estimate_rank (nsv s) (sv s) t)) t (nsv s) (sv s) (matU s) (matV s)) /\
  (0 < estimate_rank (nsv s) (sv s) t <= nsv s)%nat.
Proof.
  intros H t.
  assert (P : (0 < estimate_rank (nsv s) (sv s) t <= nsv s)%nat).
  { unfold estimate_rank.
    assert (L : forall i k, (i < k)%nat -> (0 < rank_loop (sv s) t i k <= k)%nat).
    { induction i as [ | i IH]; intros k Hk; cbn [rank_loop]; [ lia | ]. destruct (Rlt_dec t (sv s (S i))); [ lia | ]. specialize (IH (k - 1)%nat ltac:(lia)). lia. }
    apply L. lia. }
  split; [ | exact P ].
  unfold with_rank, rank_tol. rewrite (proj2 (Nat.eqb_neq (nsv s) 0)) by lia.
  assert (E : (if Req_EM_T (svd_tol o) (-1) then Ok (sv s 0%nat * eps_svd o * INR (nsv s)) else Ok (svd_tol o)) = Ok t)
    by (unfold t, tol_of; destruct (Req_EM_T (svd_tol o) (-1)); reflexivity).
  rewrite E. cbn [obind]. rewrite (proj2 (Nat.eqb_neq _ 0)) by lia. reflexivity.
Qed.

Lemma with_svd_eq s k Om : with_svd svd s k Om =
  State (sizes s) (rank s) (deficiency s) (tolerance s) k (snd (fst (svd k Om))) (fst (fst (svd k Om))) (snd (svd k Om)).
Proof. unfold with_svd. destruct (svd k Om) as [[U D] V]. reflexivity. Qed.

Definition joined (xl xr : vec) : vec := fun c => if (c <? j)%nat then xl c else xr (c - j)%nat.
Lemma solve_ok s b : orthogonal (nrow A) (f_Q fac) -> (j < nrow A)%nat ->
  exists Om br,
    (forall c d, Om c d = bsum (nrow A - S j) (fun i => Wm fac (S j + i) c * Wm fac (S j + i) d)) /\
    (forall c, br c = bsum (nrow A - S j) (fun i => Wm fac (S j + i) c * dot (nrow A) (fun k => f_Q fac k (S j + i)%nat) b)) /\
    let U := fst (fst (svd (ncol A - j) Om)) in
    let D := snd (fst (svd (ncol A - j) Om)) in
    let V := snd (svd (ncol A - j) Om) in
    let t := tol_of (ncol A - j) D in
    let r := estimate_rank (ncol A - j) D t in
    (0 < r <= ncol A - j)%nat /\
    exists s', nsv s' = (ncol A - j)%nat /\ rank s' = Z.of_nat r /\ sv s' = D /\ matU s' = U /\ matV s' = V /\ tolerance s' = t /\
      deficiency s' = (Z.of_nat (ncol A - j) - Z.of_nat r)%Z /\ sizes s' = Some (nrow A, j, count_stored A j) /\
      ((exists k, (k < r)%nat /\ D k = 0) /\ solve qr svd o s A (nrow A) b (Z.of_nat j) = (s', Ok None) \/
       (forall k, (k < r)%nat -> D k <> 0) /\
       exists x, solve qr svd o s A (nrow A) b (Z.of_nat j) = (s', Ok (Some x)) /\
         let xr := zr (ncol A - j) U V D r br in
         let xl := f_solve fac (fun i => dot (nrow A) (fun k => f_Q fac k i) (fun i => b i - bsum (ncol A - j) (fun c => scaled o A i (j + c)%nat * xr c))) in
         forall c, (c < ncol A)%nat -> x c = column_factor o A c * joined xl xr c).
Proof.
  intros O Hm. destruct (reduce_left_ok fac) as (Om & ArtQ & RL & HC & HE & HO); [ rewrite fac_eq; reflexivity | exact O | exact Hm | ].
  destruct (reduce_right_ok fac ArtQ b) as (br & RR & HB); [ rewrite fac_eq; reflexivity | exact O | exact Hm | exact HC | exact HE | ].
  destruct (with_rank_ok (after_svd s Om)) as (WR & HR).
  { unfold after_svd. rewrite with_svd_eq. cbn [nsv]. lia. }
  unfold after_svd in WR, HR. rewrite with_svd_eq in WR, HR. cbn [nsv sv matU matV sizes] in WR, HR.
  set (t := tol_of (ncol A - j) (snd (fst (svd (ncol A - j) Om)))) in *.
  exists Om, br. split; [ exact HO | ]. split; [ exact HB | ]. cbv zeta. fold t. split; [ exact HR | ].
  eexists (State _ _ _ _ _ _ _ _). cbn [nsv rank sv matU matV tolerance deficiency sizes].
  split; [ reflexivity | ]. split; [ reflexivity | ]. split; [ reflexivity | ]. split; [ reflexivity | ]. split; [ reflexivity | ]. split; [ reflexivity | ]. split; [ reflexivity | ].
  assert (Z : sizes (refresh s left_block) = Some (nrow A, j, count_stored A j)).
  { assert (CS : forall k, count_stored left_block k = count_stored A k) by (induction k as [ | k IH]; cbn [count_stored]; [ reflexivity | rewrite IH; reflexivity ]).
    unfold refresh. cbn [left_block nrow ncol]. destruct (sizes s) as [[[a c] e] | ] eqn:Es; [ | cbn [sizes]; do 2 f_equal; exact (CS j) ].
    destruct ((a =? nrow A)%nat && (c =? j)%nat && (e =? count_stored left_block j)%nat) eqn:Eq; [ | cbn [sizes]; do 2 f_equal; exact (CS j) ].
    apply andb_prop in Eq as [Eq E3]. apply andb_prop in Eq as [E1 E2].
    apply Nat.eqb_eq in E1, E2, E3. rewrite Es, E1, E2, E3, CS. reflexivity. }
  split; [ exact Z | ].
  assert (ST : forall (X : state * outcome (option vec)),
     match solve_svd (ncol A - j) br (fst (fst (svd (ncol A - j) Om))) (snd (fst (svd (ncol A - j) Om))) (snd (svd (ncol A - j) Om)) (estimate_rank (ncol A - j) (snd (fst (svd (ncol A - j) Om))) t) with
     | Some xr => (State (sizes (refresh s left_block)) (Z.of_nat (estimate_rank (ncol A - j) (snd (fst (svd (ncol A - j) Om))) t))
              (Z.of_nat (ncol A - j) - Z.of_nat (estimate_rank (ncol A - j) (snd (fst (svd (ncol A - j) Om))) t)) t (ncol A - j) (snd (fst (svd (ncol A - j) Om))) (fst (fst (svd (ncol A - j) Om))) (snd (svd (ncol A - j) Om)),
           Ok (Some (fun c => if (c <? j)%nat then scale_of o (Sparse (nrow A) j (entry A) (stored A)) c * solve_qr fac (nrow A) b right_block xr c
             else scale_of o (Sparse (nrow A) (ncol A - j) (fun i c => entry A i (j + c)%nat) (fun c => stored A (j + c)%nat)) (c - j)%nat * xr (c - j)%nat)))
     | None => (State (sizes (refresh s left_block)) (Z.of_nat (estimate_rank (ncol A - j) (snd (fst (svd (ncol A - j) Om))) t))
              (Z.of_nat (ncol A - j) - Z.of_nat (estimate_rank (ncol A - j) (snd (fst (svd (ncol A - j) Om))) t)) t (ncol A - j) (snd (fst (svd (ncol A - j) Om))) (fst (fst (svd (ncol A - j) Om))) (snd (svd (ncol A - j) Om)), Ok None)
     end = X -> solve qr svd o s A (nrow A) b (Z.of_nat j) = X).
  { intros X <-. unfold solve. rewrite Nat.eqb_refl. cbn [negb]. rewrite left_sub. cbv zeta. rewrite left_scaled, right_sub, right_scaled.
    change (factorize qr o left_block) with fac. rewrite RL. rewrite with_svd_eq. rewrite RR.
    change (ncol right_block) with (ncol A - j)%nat. change (ncol left_block) with j. rewrite WR. cbn [matU matV sv rank]. rewrite Nat2Z.id. reflexivity. }
  unfold solve_svd in ST.
  destruct (existsb _ _) eqn:EX in ST.
  - left. split; [ | apply ST; reflexivity ]. apply existsb_exists in EX as (k & Ik & Ek). apply in_seq in Ik. exists k. split; [ lia | ].
    destruct (Req_EM_T (snd (fst (svd (ncol A - j) Om)) k) 0); [ assumption | discriminate ].
  - right. split.
    { intros k Hk Dk. rewrite <- not_true_iff_false in EX. apply EX. apply existsb_exists. exists k. split; [ apply in_seq; lia | ].
      destruct (Req_EM_T (snd (fst (svd (ncol A - j) Om)) k) 0); [ reflexivity | contradiction ]. }
    eexists. split; [ apply ST; reflexivity | ]. cbv zeta. intros c Hc. unfold joined. destruct (Nat.ltb_spec c j) as [L | L].
    + rewrite left_factor. reflexivity.
    + rewrite right_factor. replace (j + (c - j))%nat with c by lia. reflexivity.
Qed.
Lemma solve_small s b : (nrow A <= j)%nat -> snd (solve qr svd o s A (nrow A) b (Z.of_nat j)) = Throw.
Proof.
  intros Hm. unfold solve. rewrite Nat.eqb_refl. cbn [negb]. rewrite left_sub. cbv zeta. rewrite left_scaled, right_sub, right_scaled.
  change (factorize qr o left_block) with fac. rewrite reduce_left_small; [ reflexivity | rewrite fac_eq; reflexivity | exact Hm ].
Qed.
End Main.
