(** * C128: configurations of cameras and targets are checked *)
From Coq Require Import QArith List Bool ZArith Lia Lqa.
From Verif Require Import YkrModel YkrSpec YkrProofs.
Import ListNotations.

(** Exactly the valid intrinsics are accepted. *)
Theorem C128_intrinsics : forall m l, check_intrinsics m l = Accepted <-> valid_intrinsics m l.
Proof. exact check_intrinsics_spec. Qed.
Print Assumptions C128_intrinsics.

(** What was set is delivered, with the same numbers. *)
Theorem C128_kept : forall m l d, set_intrinsics m l = Some d ->
  get_intrinsics d = Some d /\ fst d = m /\ map num (snd d) = map num l.
Proof.
  intros m l d H. unfold set_intrinsics in H. destruct (check_intrinsics m l) eqn:C; try discriminate H.
  destruct (to_floats l) as [f |] eqn:F; [| discriminate H]. injection H as <-.
  apply check_intrinsics_spec in C. pose proof (to_floats_valid m l f C F) as V. apply check_intrinsics_spec in V.
  split; [unfold get_intrinsics; cbn [fst snd]; rewrite V; reflexivity |]. split; [reflexivity | exact (to_floats_num l f F)].
Qed.
Print Assumptions C128_kept.

(** Each distortion model takes its number of coefficients. *)
Theorem C128_distortion : forall m l, check_distortion m l = Accepted <->
  match m with
  | Radtan | Equidistant => length l = 4%nat
  | Fov => length l = 1%nat
  | NoDist => l = []
  | UnknownDist => False
  end.
Proof.
  intros m l. unfold check_distortion. destruct m; cbv zeta.
  - destruct (Nat.eqb_spec (length l) 4); split; congruence.
  - destruct (Nat.eqb_spec (length l) 4); split; congruence.
  - destruct (Nat.eqb_spec (length l) 1); split; congruence.
  - destruct (Nat.eqb_spec (length l) 0) as [E | E]; split; try congruence.
    + intros _. apply length_zero_iff_nil. exact E.
    + intros ->. contradiction E. reflexivity.
  - split; [discriminate | intros []].
Qed.
Print Assumptions C128_distortion.

(** The parameters of a target are delivered exactly if they are valid. *)
Theorem C128_target : forall t, target_params t = Accepted <-> valid_target t.
Proof. exact target_spec. Qed.
Print Assumptions C128_target.

(** Known violation: invalid parameters of a known target are never refused by the
    reader's own error; the attempt to note it fails. *)
Theorem C128_message_refuted : forall t, t <> UnknownTarget -> ~ valid_target t -> target_params t = Crashed.
Proof.
  intros t N V. rewrite <- target_spec in V.
  assert (C : forall c n, n <> Refused -> crash_if c n <> Refused) by (intros [[|] |] n H; simpl; congruence).
  assert (R : target_params t <> Refused).
  { destruct t as [r c a b | r c a y | r c a b |]; cbn [target_params]; [| | | contradiction N; reflexivity];
      apply C, C, C, C; discriminate. }
  destruct (target_params t); [contradiction V | contradiction R |]; reflexivity.
Qed.
Print Assumptions C128_message_refuted.

(** Known violation: focal lengths of zero and resolutions that are not positive
    are accepted. *)
Theorem C128_zero_refuted : check_intrinsics Pinhole [VFloat 0; VFloat 0; VFloat 0; VFloat 0] = Accepted /\
  forall a b, check_resolution [VInt a; VInt b] = Accepted.
Proof. split; reflexivity. Qed.
Print Assumptions C128_zero_refuted.

(** Known violation: the first parameter of the double sphere is not looked at, so
    that what is no number passes the check and fails only when stored. *)
Theorem C128_first_refuted : check_intrinsics Ds [VOther; VFloat (1 # 2); VFloat 400; VFloat 400; VFloat 320; VFloat 240] = Accepted /\
  set_intrinsics Ds [VOther; VFloat (1 # 2); VFloat 400; VFloat 400; VFloat 320; VFloat 240] = None.
Proof. split; reflexivity. Qed.
Print Assumptions C128_first_refuted.

Example C128_ex : set_intrinsics Omni [VInt 1; VFloat 400; VFloat 401; VFloat 320; VFloat 240] =
    Some (Omni, [VFloat 1; VFloat 400; VFloat 401; VFloat 320; VFloat 240]) /\
  check_intrinsics Eucm [VFloat 1; VFloat 1; VFloat 400; VFloat 400; VFloat 320; VFloat 240] = Refused /\
  valid_target (Aprilgrid (VInt 6) (VInt 6) (VFloat (88 # 1000)) (VFloat (3 # 10))) /\
  ~ valid_target (Aprilgrid (VInt 2) (VInt 6) (VFloat (88 # 1000)) (VFloat (3 # 10))) /\
  check_distortion Radtan [VInt 0; VInt 0; VInt 0; VInt 0] = Accepted.
Proof.
  split; [reflexivity |]. split; [reflexivity |]. split.
  - apply target_spec. reflexivity.
  - split; [| reflexivity]. intros H. apply target_spec in H. discriminate H.
Qed.
