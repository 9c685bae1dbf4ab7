(** Exact real arithmetic as an instance of [Arith], and elementary vector
    algebra over it. *)
From Coq Require Import ZArith Reals List Bool Lra Lia.
From Verif Require Import Arith.
Import ListNotations.
Open Scope R_scope.

Definition rlt (x y : R) : bool := if Rlt_dec x y then true else false.
Definition rle (x y : R) : bool := if Rle_dec x y then true else false.
Definition req (x y : R) : bool := if Req_EM_T x y then true else false.

Definition RA : Arith :=
  MkArith R IZR Rplus Rminus Rmult Rdiv sqrt Rabs rlt rle req.

Lemma rlt_true x y : rlt x y = true <-> x < y.
Proof. unfold rlt. destruct (Rlt_dec x y); split; intros; try easy; lra. Qed.
Lemma rlt_false x y : rlt x y = false <-> y <= x.
Proof. unfold rlt. destruct (Rlt_dec x y); split; intros; try easy; lra. Qed.
Lemma rle_true x y : rle x y = true <-> x <= y.
Proof. unfold rle. destruct (Rle_dec x y); split; intros; try easy; lra. Qed.
Lemma rle_false x y : rle x y = false <-> y < x.
Proof. unfold rle. destruct (Rle_dec x y); split; intros; try easy; lra. Qed.
Lemma req_true x y : req x y = true <-> x = y.
Proof. unfold req. destruct (Req_EM_T x y); split; intros; try easy; lra. Qed.
Lemma req_false x y : req x y = false <-> x <> y.
Proof. unfold req. destruct (Req_EM_T x y); split; intros; try easy; congruence. Qed.

(** Inner product by structural recursion. *)
Fixpoint rdot (x y : list R) : R :=
  match x, y with
  | a :: x', b :: y' => a * b + rdot x' y'
  | _, _ => 0
  end.

Lemma dot_rdot x y : dot RA x y = rdot x y.
Proof.
  unfold dot. cbn [of_Z add mul RA].
  enough (H : forall s, fold_left (fun s p => s + fst p * snd p) (combine x y) s
                        = s + rdot x y) by (rewrite H; cbn; lra).
  revert y. induction x as [ | a x IH]; intros [ | b y] s;
    cbn [combine fold_left rdot]; try lra.
  rewrite IH. cbn [fst snd]. lra.
Qed.

Lemma rdot_nonneg x : 0 <= rdot x x.
Proof.
  induction x as [ | a x IH]; cbn [rdot]; [lra | ].
  assert (0 <= a * a) by nra. lra.
Qed.

Lemma rdot_sym x y : rdot x y = rdot y x.
Proof.
  revert y. induction x as [ | a x IH]; intros [ | b y]; cbn [rdot]; try reflexivity.
  rewrite IH. lra.
Qed.

Lemma vsub_length (x y : list R) :
  length x = length y -> length (vsub RA x y) = length y.
Proof. intro H. unfold vsub. rewrite map_length, combine_length.
  etransitivity; [ | apply (Nat.min_id (length y))].
  f_equal; exact H. Qed.

Lemma vadd_length (x y : list R) :
  length x = length y -> length (vadd RA x y) = length y.
Proof. intro H. unfold vadd. rewrite map_length, combine_length.
  etransitivity; [ | apply (Nat.min_id (length y))].
  f_equal; exact H. Qed.

Lemma vscale_length (a : R) (x : list R) : length (vscale RA a x) = length x.
Proof. apply map_length. Qed.

Lemma rdot_scale_l a x y : rdot (vscale RA a x) y = a * rdot x y.
Proof.
  revert y. induction x as [ | b x IH]; intros [ | c y]; cbn [vscale map rdot];
    try lra.
  change (map (mul RA a) x) with (vscale RA a x). rewrite IH. cbn [mul RA]. lra.
Qed.

Lemma rdot_scale_r a x y : rdot x (vscale RA a y) = a * rdot x y.
Proof. rewrite rdot_sym, rdot_scale_l, rdot_sym. reflexivity. Qed.

Lemma rdot_vadd_l x y z : length x = length y ->
  rdot (vadd RA x y) z = rdot x z + rdot y z.
Proof.
  revert y z. induction x as [ | a x IH]; intros [ | b y] [ | c z] H;
    try discriminate H; cbn [vadd combine map rdot]; try lra.
  change (map (fun p => add RA (fst p) (snd p)) (combine x y)) with (vadd RA x y).
  injection H as H. rewrite (IH y z H). cbn [fst snd add RA]. lra.
Qed.

Lemma rdot_vsub_l x y z : length x = length y ->
  rdot (vsub RA x y) z = rdot x z - rdot y z.
Proof.
  revert y z. induction x as [ | a x IH]; intros [ | b y] [ | c z] H;
    try discriminate H; cbn [vsub combine map rdot]; try lra.
  change (map (fun p => sub RA (fst p) (snd p)) (combine x y)) with (vsub RA x y).
  injection H as H. rewrite (IH y z H). cbn [fst snd sub RA]. lra.
Qed.

(** |x + t y|^2 *)
Lemma rdot_line x y t : length x = length y ->
  rdot (vadd RA x (vscale RA t y)) (vadd RA x (vscale RA t y))
  = rdot x x + 2 * t * rdot x y + t * t * rdot y y.
Proof.
  intro H.
  assert (HL : length x = length (vscale RA t y)) by now rewrite vscale_length.
  rewrite (rdot_vadd_l x _ _ HL).
  rewrite (rdot_sym x), (rdot_sym (vscale RA t y)).
  rewrite !(rdot_vadd_l x _ _ HL), !rdot_scale_l, !rdot_scale_r, !(rdot_sym y x).
  lra.
Qed.

Lemma norm_rdot x : norm RA x = sqrt (rdot x x).
Proof. unfold norm, sqnorm. now rewrite dot_rdot. Qed.

Lemma norm_nonneg x : 0 <= norm RA x.
Proof. rewrite norm_rdot. apply sqrt_pos. Qed.

Lemma norm_square x : norm RA x * norm RA x = rdot x x.
Proof. rewrite norm_rdot. apply sqrt_sqrt, rdot_nonneg. Qed.

Lemma norm_of_square x r : 0 <= r -> rdot x x = r * r -> norm RA x = r.
Proof. intros H E. rewrite norm_rdot, E. now apply sqrt_square. Qed.

Lemma norm_scale a x : norm RA (vscale RA a x) = Rabs a * norm RA x.
Proof.
  rewrite !norm_rdot, rdot_scale_l, rdot_scale_r, <- Rmult_assoc.
  rewrite sqrt_mult; [ | nra | apply rdot_nonneg].
  f_equal. apply sqrt_Rsqr_abs.
Qed.
