From Coquelicot Require Import Coquelicot.
From Coq Require Import ZArith List Bool Lia Reals Lra.
From Verif Require Import Base Arith RArith MatReal OMap JacModel JacSpec JacDiffSpec JacProofs JacReal MEstModel.
Import ListNotations.
Open Scope R_scope.

(** [ring] on goals whose type is an instance of the reals. *)
Ltac rring := match goal with |- @eq _ ?a ?b => change (@eq R a b) end; ring.

Notation entry := (Z * (dvref * mat RA))%type.

Lemma mat_vec_mv (M : rmat) v : mat_vec RA M v = mv M v.
Proof. unfold mat_vec, mv. apply map_ext. intro r. apply dot_rdot. Qed.

Lemma map_scale_r (a : R) (x : list R) : map (fun y => y * a) x = vscale RA a x.
Proof. unfold vscale. apply map_ext. intro y. apply Rmult_comm. Qed.

Lemma rdot_scale_both a x : rdot (vscale RA a x) (vscale RA a x) = a * a * rdot x x.
Proof. rewrite rdot_scale_l, rdot_scale_r. ring. Qed.

Lemma weighted_error_eq u (t : eterm RA) :
  weighted_error RA u t = vscale RA (sqrt_weight RA u t) (mv (esqrt_t t) (eerror t)).
Proof. rewrite <- mat_vec_mv. apply map_ext. intro y. apply Rmult_comm. Qed.
Lemma chi_squared_eq (t : eterm RA) :
  chi_squared RA t = rdot (mv (esqrt_t t) (eerror t)) (mv (esqrt_t t) (eerror t)).
Proof. unfold chi_squared. cbv zeta. rewrite mat_vec_mv. apply dot_rdot. Qed.

Lemma vscale_vadd a : forall x y : list R,
  vscale RA a (vadd RA x y) = vadd RA (vscale RA a x) (vscale RA a y).
Proof.
  induction x as [ | u x IH]; intros [ | v y]; [reflexivity | reflexivity | reflexivity | ].
  change (a * (u + v) :: vscale RA a (vadd RA x y) =
          (a * u + a * v) :: vadd RA (vscale RA a x) (vscale RA a y)).
  rewrite IH. f_equal. rring.
Qed.
Lemma vscale_zeros a n : vscale RA a (repeat 0 n) = repeat 0 n.
Proof.
  induction n as [ | n IH]; [reflexivity | ].
  change (a * 0 :: vscale RA a (repeat 0 n) = 0 :: repeat 0 n). rewrite IH. f_equal. rring.
Qed.

Lemma mv_scaled (a b : R) (J : rmat) (v : list R) :
  mv (map (map (fun x => x * (a * b))) J) v = vscale RA a (mv J (vscale RA b v)).
Proof.
  unfold mv. unfold vscale at 1. rewrite !map_map. apply map_ext. intro r.
  rewrite (map_scale_r (a * b) r). rewrite rdot_scale_l.
  change (mul RA a (rdot r (vscale RA b v))) with (a * rdot r (vscale RA b v)).
  rewrite rdot_scale_r. rring.
Qed.

Lemma diff_scaled (sw : R) (scale : dvref -> R) (sc : Z -> R) (delta : Z -> list R) rows (m : list entry) :
  Forall (fun e => scale (fst (snd e)) = sc (fst e)) m ->
  differential delta (Container (A := RA) rows
    (map (fun e : entry => (fst e, (fst (snd e),
       map (map (fun x => mul RA x (mul RA sw (scale (fst (snd e)))))) (snd (snd e))))) m)) =
  vscale RA sw (differential (fun b => vscale RA (sc b) (delta b)) (Container (A := RA) rows m)).
Proof.
  unfold differential. cbn [crows cmap mul RA].
  induction m as [ | e m IH]; intro F; cbn [map fold_right fst snd].
  - symmetry. apply vscale_zeros.
  - rewrite IH by exact (Forall_inv_tail F). rewrite vscale_vadd. f_equal.
    rewrite (Forall_inv F). apply mv_scaled.
Qed.

Lemma chain_owner n M (c c1 : container RA) (P : Z -> dvref -> Prop) : chain_rule RA n M c = Ok c1 ->
  Forall (fun e : entry => P (fst e) (fst (snd e))) (cmap c) ->
  Forall (fun e : entry => P (fst e) (fst (snd e))) (cmap c1).
Proof.
  unfold chain_rule. destruct (Nat.eqb n (crows c)); [ | discriminate]. intros [= <-] F.
  cbn [cmap]. apply Forall_map. cbn [fst snd]. exact F.
Qed.

(** Derivatives of inner products along a curve. *)
Section Curve.
Variable x : R.
Definition at_ (es : list (R -> R)) (t : R) : list R := map (fun f => f t) es.

Lemma derive_rdot (r : list R) : forall es ds,
  Forall2 (fun f d => is_derive f x d) es ds ->
  is_derive (fun t => rdot r (at_ es t)) x (rdot r ds).
Proof.
  induction r as [ | a r IH]; intros es ds F.
  - cbn [rdot]. apply (is_derive_const (K := R_AbsRing) (V := R_NormedModule) 0 x).
  - destruct F as [ | f d es ds Hf F].
    + cbn [at_ map rdot]. apply (is_derive_const (K := R_AbsRing) (V := R_NormedModule) 0 x).
    + cbn [at_ map rdot]. apply (is_derive_plus (K := R_AbsRing) (V := R_NormedModule)
        (fun t => a * f t) (fun t => rdot r (at_ es t))).
      * apply (is_derive_scal f x a d Hf).
      * now apply IH.
Qed.

Lemma derive_square (M : rmat) : forall es ds,
  Forall2 (fun f d => is_derive f x d) es ds ->
  is_derive (fun t => rdot (mv M (at_ es t)) (mv M (at_ es t))) x
            (2 * rdot (mv M (at_ es x)) (mv M ds)).
Proof.
  intros es ds F. induction M as [ | r M IH].
  - cbn [mv map rdot]. rewrite Rmult_0_r.
    apply (is_derive_const (K := R_AbsRing) (V := R_NormedModule) 0 x).
  - change (is_derive (fun t => rdot r (at_ es t) * rdot r (at_ es t)
               + rdot (mv M (at_ es t)) (mv M (at_ es t))) x
       (2 * (rdot r (at_ es x) * rdot r ds + rdot (mv M (at_ es x)) (mv M ds)))).
    rewrite Rmult_plus_distr_l.
    apply (is_derive_plus (K := R_AbsRing) (V := R_NormedModule)
      (fun t => rdot r (at_ es t) * rdot r (at_ es t))
      (fun t => rdot (mv M (at_ es t)) (mv M (at_ es t)))); [ | exact IH].
    assert (D := derive_rdot r es ds F).
    assert (X := is_derive_mult (fun t => rdot r (at_ es t)) (fun t => rdot r (at_ es t)) x _ _ D D Rmult_comm).
    replace (2 * (rdot r (at_ es x) * rdot r ds)) with
      (rdot r ds * rdot r (at_ es x) + rdot r (at_ es x) * rdot r ds) by ring.
    exact X.
Qed.
End Curve.
