(** Facts about the executable binary64 arithmetic of [Arith.F64], obtained
    from Flocq's correctness theorems. *)
From Coq Require Import ZArith Reals Bool Lra Lia.
From Coq Require Import Floats.SpecFloat.
From Flocq Require Import Core BinarySingleNaN.
From Flocq Require Import Plus_error.
From Verif Require Import Arith.

Notation b64 := (binary_float 53 1024).

Lemma prec_gt : FLX.Prec_gt_0 53.
Proof. reflexivity. Qed.
Lemma prec_lt : Prec_lt_emax 53 1024.
Proof. reflexivity. Qed.
#[local] Existing Instance prec_gt.
#[local] Existing Instance prec_lt.

Definition b64_of (x : spec_float) (H : valid64 x) : b64 := SF2B x H.

Lemma b64_of_sf : forall x H, B2SF (b64_of x H) = x.
Proof. intros. apply B2SF_SF2B. Qed.

Lemma valid_of_b64 : forall b : b64, valid64 (B2SF b).
Proof. intro b. apply valid_binary_B2SF. Qed.

(** *** The library's operations are Flocq's *)
Lemma nearest_even_same s m l :
  round_nearest_even m l = choice_mode mode_NE s m l.
Proof.
  case l; [reflexivity | intro c].
  case c; [ | reflexivity..].
  now simpl; unfold Round.cond_incr; case Z.even.
Qed.

Lemma round_aux_same sx mx ex lx :
  SpecFloat.binary_round_aux 53 1024 sx mx ex lx
  = binary_round_aux 53 1024 mode_NE sx mx ex lx.
Proof.
  unfold SpecFloat.binary_round_aux, binary_round_aux.
  set (mrse' := shr_fexp _ _ _).
  case mrse'; intros mrs' e'; simpl.
  now rewrite (nearest_even_same sx).
Qed.

Lemma round_same s m e :
  SpecFloat.binary_round 53 1024 s m e = binary_round 53 1024 mode_NE s m e.
Proof.
  unfold SpecFloat.binary_round, binary_round, shl_align_fexp.
  set (mez := shl_align _ _ _); case mez as [mz ez].
  apply round_aux_same.
Qed.

Lemma normalize_same m e szero :
  SpecFloat.binary_normalize 53 1024 m e szero
  = B2SF (binary_normalize 53 1024 prec_gt prec_lt mode_NE m e szero).
Proof.
  case m as [ | p | p].
  - now simpl.
  - simpl; rewrite B2SF_SF2B; apply round_same.
  - simpl; rewrite B2SF_SF2B; apply round_same.
Qed.

Lemma add_same (x y : b64) :
  SFadd 53 1024 (B2SF x) (B2SF y) = B2SF (Bplus mode_NE x y).
Proof.
  destruct x as [sx|sx| |sx mx ex Bx]; destruct y as [sy|sy| |sy my ey By];
    [now (trivial || simpl; case Bool.eqb).. | ].
  apply normalize_same.
Qed.

Lemma sub_same (x y : b64) :
  SFsub 53 1024 (B2SF x) (B2SF y) = B2SF (Bminus mode_NE x y).
Proof.
  destruct x as [sx|sx| |sx mx ex Bx]; destruct y as [sy|sy| |sy my ey By];
    [now (trivial || simpl; case Bool.eqb).. | ].
  simpl. unfold Zminus. rewrite <- cond_Zopp_negb.
  apply normalize_same.
Qed.

Lemma mul_same (x y : b64) :
  SFmul 53 1024 (B2SF x) (B2SF y) = B2SF (Bmult mode_NE x y).
Proof.
  destruct x as [sx|sx| |sx mx ex Bx]; destruct y as [sy|sy| |sy my ey By];
    [now trivial.. | ].
  simpl. rewrite B2SF_SF2B. apply round_aux_same.
Qed.

Lemma valid_add x y : valid64 x -> valid64 y -> valid64 (SFadd 53 1024 x y).
Proof.
  intros H1 H2.
  rewrite <- (b64_of_sf x H1), <- (b64_of_sf y H2), add_same.
  apply valid_of_b64.
Qed.

Lemma valid_sub x y : valid64 x -> valid64 y -> valid64 (SFsub 53 1024 x y).
Proof.
  intros H1 H2.
  rewrite <- (b64_of_sf x H1), <- (b64_of_sf y H2), sub_same.
  apply valid_of_b64.
Qed.

Lemma valid_mul x y : valid64 x -> valid64 y -> valid64 (SFmul 53 1024 x y).
Proof.
  intros H1 H2.
  rewrite <- (b64_of_sf x H1), <- (b64_of_sf y H2), mul_same.
  apply valid_of_b64.
Qed.

Lemma valid_of_Z z : valid64 (of_Z F64 z).
Proof.
  change (valid64 (SpecFloat.binary_normalize 53 1024 z 0 false)).
  rewrite normalize_same. apply valid_of_b64.
Qed.

(** *** Order *)
Lemma b64_le_refl (x : b64) : is_nan x = false -> Bleb x x = true.
Proof.
  intro N. destruct x as [s|s| |s m e B]; try discriminate.
  - now destruct s.
  - now destruct s.
  - rewrite Bleb_correct by reflexivity.
    destruct (Rle_bool_spec (B2R (B754_finite s m e B)) (B2R (B754_finite s m e B)));
      [reflexivity | lra].
Qed.

Lemma b64_le_trans (x y z : b64) :
  Bleb x y = true -> Bleb y z = true -> Bleb x z = true.
Proof.
  intros H1 H2.
  destruct (is_finite x) eqn:Fx, (is_finite y) eqn:Fy, (is_finite z) eqn:Fz.
  { rewrite Bleb_correct in * by assumption.
    destruct (Rle_bool_spec (B2R x) (B2R y)); [ | discriminate].
    destruct (Rle_bool_spec (B2R y) (B2R z)); [ | discriminate].
    destruct (Rle_bool_spec (B2R x) (B2R z)); [reflexivity | lra]. }
  all: clear - H1 H2 Fx Fy Fz;
    destruct x as [[|]|[|]| |[|] mx ex Bx]; try discriminate;
    destruct y as [[|]|[|]| |[|] my ey By]; try discriminate;
    destruct z as [[|]|[|]| |[|] mz ez Bz]; try discriminate; reflexivity.
Qed.

(** The computed difference has the sign of the exact one: rounding never
    turns a non-zero difference into zero. *)
Lemma b64_sub_sign (x y : b64) :
  is_nan x = false -> is_nan y = false ->
  SFltb (B2SF (Bminus mode_NE x y)) (S754_zero false) = false ->
  Bleb y x = true.
Proof.
  intros Nx Ny H.
  destruct (is_finite x) eqn:Fx.
  2:{ destruct x as [s|[|]| |s m e B]; try discriminate.
      - destruct y as [s|[|]| |s m e B]; try discriminate. reflexivity.
      - destruct y as [[|]|[|]| |[|] m e B]; try discriminate; reflexivity. }
  destruct (is_finite y) eqn:Fy.
  2:{ destruct y as [s|[|]| |s m e B]; try discriminate.
      - destruct x as [[|]|[|]| |[|] m e B]; try discriminate; reflexivity.
      - destruct x as [[|]|[|]| |[|] m e B]; try discriminate. }
  rewrite Bleb_correct by assumption.
  destruct (Rle_bool_spec (B2R y) (B2R x)) as [L | L]; [reflexivity | exfalso].
  assert (NZ : round radix2 (SpecFloat.fexp 53 1024) (round_mode mode_NE)
                 (B2R x - B2R y) <> 0%R).
  { unfold Rminus. apply round_plus_neq_0.
    - apply (fexp_correct 53 1024). exact prec_gt.
    - change (Exp_not_FTZ (FLT_exp (3 - 1024 - 53) 53)).
      apply monotone_exp_not_FTZ; [exact (fexp_correct 53 1024 prec_gt) | exact (fexp_monotone 53 1024)].
    - apply valid_rnd_round_mode.
    - apply generic_format_B2R.
    - apply generic_format_opp, generic_format_B2R.
    - lra. }
  generalize (Bminus_correct 53 1024 prec_gt prec_lt mode_NE x y Fx Fy).
  destruct (Rlt_bool_spec (Rabs (round radix2 (SpecFloat.fexp 53 1024)
              (round_mode mode_NE) (B2R x - B2R y))) (bpow radix2 1024))
    as [B | B].
  - intros (HR & HF & HS).
    rewrite (Rcompare_Lt (B2R x - B2R y) 0) in HS by lra.
    set (d := Bminus mode_NE x y) in *.
    destruct d as [s|s| |s m e Bd]; try discriminate.
    + cbn [B2R] in HR. congruence.
    + cbn [Bsign] in HS. subst s. discriminate H.
  - intros (HV & HS). rewrite HV in H.
    (* overflow: the signs of x and -y agree, and x < y forces x negative *)
    destruct (Bsign x) eqn:Sx.
    + discriminate H.
    + assert (Sy : Bsign y = true) by (destruct (Bsign y); [reflexivity | discriminate]).
      assert (Px : (0 <= B2R x)%R).
      { destruct x as [s|s| |s m e Bx]; try discriminate; cbn [B2R].
        - lra.
        - cbn [Bsign] in Sx. subst s. apply F2R_ge_0. cbn. lia. }
      assert (Py : (B2R y <= 0)%R).
      { destruct y as [s|s| |s m e By]; try discriminate; cbn [B2R].
        - lra.
        - cbn [Bsign] in Sy. subst s. apply F2R_le_0. cbn. lia. }
      lra.
Qed.

Lemma ordered_nan x H : ordered x -> is_nan (b64_of x H) = false.
Proof.
  intro O. destruct x; try reflexivity. now elim O.
Qed.

Lemma f64_le_refl x : valid64 x -> ordered x -> SFleb x x = true.
Proof.
  intros H O. rewrite <- (b64_of_sf x H). apply b64_le_refl.
  now apply ordered_nan.
Qed.

Lemma f64_le_trans x y z :
  valid64 x -> valid64 y -> valid64 z ->
  SFleb x y = true -> SFleb y z = true -> SFleb x z = true.
Proof.
  intros H1 H2 H3.
  rewrite <- (b64_of_sf x H1), <- (b64_of_sf y H2), <- (b64_of_sf z H3).
  apply b64_le_trans.
Qed.

Lemma f64_sub_sign p j :
  valid64 p -> valid64 j -> ordered p -> ordered j ->
  lt F64 (sub F64 p j) (of_Z F64 0) = false -> SFleb j p = true.
Proof.
  intros H1 H2 O1 O2.
  change (lt F64 (sub F64 p j) (of_Z F64 0))
    with (SFltb (SFsub 53 1024 p j) (S754_zero false)).
  rewrite <- (b64_of_sf p H1), <- (b64_of_sf j H2), sub_same.
  apply b64_sub_sign; now apply ordered_nan.
Qed.
