(** * C87: motion errors of B-spline curves *)
From Coquelicot Require Import Coquelicot.
From Coq Require Import ZArith List Bool Lia Reals Lra.
From Verif Require Import Base Arith OMap RArith BsplModel BsplSpec BsplProofs BsplProps BsdProps BsqModel BsqProofs BsqProps BshModel MeCurve MeLine.
From Verif Require Import JacModel SbmModel SbmSpec SbmProofs SbmMore SbmReal HesModel HesProofs MeModel MeSpec MeProofs.
Import ListNotations.
Local Close Scope Z_scope.
Local Open Scope R_scope.

Lemma order_converted k d : (2 <= k)%nat -> (Z.of_nat d < 2 ^ 31)%Z -> reduced k (Z.of_nat d) = Z.of_nat (motion_order k d).
Proof.
  intros K L. unfold reduced, as_int, motion_order.
  rewrite Z.mod_small by lia. destruct (Nat.leb_spec 2 k); [ | lia ]. rewrite andb_true_r.
  destruct (Z.leb_spec (Z.of_nat k) (Z.of_nat d + 2 ^ 31 - 2 ^ 31)); lia.
Qed.
Lemma coefs_set b x bx : (1 <= dim b)%nat -> set_coef_vector b (dim b * ncols b) x = Ok bx -> shape_of b bx /\ forall a, coefs bx a = x a.
Proof.
  intros P E. apply set_coef_inv in E. subst bx. split; [ split; reflexivity | ]. intros a. unfold coefs, with_coefs. cbn [coef dim].
  f_equal. rewrite (Nat.mul_comm (a / dim b)), <- (Nat.div_mod a (dim b)) by lia. reflexivity.
Qed.
Lemma bil_coefs b x bx n Q : (1 <= dim b)%nat -> set_coef_vector b (dim b * ncols b) x = Ok bx -> bil n Q (coefs bx) (coefs bx) = bil n Q x x.
Proof. intros P E. destruct (coefs_set b x bx P E) as [_ C]. apply bil_ext; intros; try apply C; reflexivity. Qed.

(** The value of a motion error is the integral of the weighted square of the
    derivative it was made for; an order the curve does not have is replaced by
    the highest one it has.  A weight that is not symmetric is rejected. *)
Theorem C87_error : forall k l D C c b W d, built k l D C c b -> nondecreasing l -> long_end k l -> (1 <= D)%nat ->
  (Z.of_nat d < 2 ^ 31)%Z ->
  ((forall i j, (i < D)%nat -> (j < D)%nat -> Rabs (W i j - W j i) <= / 10 ^ 14) ->
   exists m, make_motion b D D W (Z.of_nat d) = Ok m /\
     forall x b' f, set_coef_vector b (D * C) x = Ok b' ->
       (forall i, (i < D)%nat -> is_evalD b' (first_time k l) (last_time k l) (motion_order k d) i (f i)) ->
       exists e, motion_error m b' = Ok e /\ is_RInt (BsqProps.weighted D W f f) (first_time k l) (last_time k l) e) /\
  ((exists i j, (i < D)%nat /\ (j < D)%nat /\ / 10 ^ 14 < Rabs (W i j - W j i)) -> make_motion b D D W (Z.of_nat d) = Throw).
Proof.
  intros k l D C c b W d H ND LE PD LD.
  destruct (built_wf _ _ _ _ _ _ H ND) as [WF [O [K [DD [NC [_ [K2 [CC LL]]]]]]]]. split.
  - intros S. destruct (curve_error k l D C c b W (motion_order k d) H ND LE S) as (Q & E & R').
    destruct (make_motion_ok b W (Z.of_nat d) Q WF) as (m & Em & St & _).
    + lia.
    + rewrite DD, O, order_converted by assumption. exact E.
    + rewrite DD in Em. exists m. split; [ exact Em | ]. intros x b' f EX A. assert (I := R' x b' f EX A).
      rewrite <- DD, <- NC in EX. destruct (coefs_set b x b') as [SH _]; [ lia | exact EX | ].
      eexists. split; [ apply (motion_error_ok b b' m Q); [ lia | exact St | exact SH ] | ].
      rewrite (bil_coefs b x) by (first [ lia | exact EX ]). rewrite DD, NC. exact I.
  - intros A. unfold make_motion, curve_Q_sparse. destruct (Nat.eqb_spec (dim b) 0); [ lia | ].
    assert (N := num_segments_wf b WF). destruct (num_segments b) as [ | n' ]; [ lia | ]. cbn [sparse_segments].
    rewrite O, order_converted by assumption. rewrite (curve_asymmetric k l D C c b W _ H ND LE A). reflexivity.
Qed.
Print Assumptions C87_error.

(** Without an order the motion error is that of the acceleration. *)
Theorem C87_default : forall b wr wc W, make_motion_default b wr wc W = make_motion b wr wc W (Z.of_nat 2).
Proof. reflexivity. Qed.
Print Assumptions C87_default.

(** The vector [rhs] is minus half the gradient: the error of a changed curve
    is exactly the error, minus twice the product with the change, plus the
    error of the change. *)
Theorem C87_rhs : forall k l D C c b W d m, built k l D C c b -> nondecreasing l -> long_end k l -> (1 <= D)%nat ->
  (Z.of_nat d < 2 ^ 31)%Z -> (forall i j, (i < D)%nat -> (j < D)%nat -> W i j = W j i) -> make_motion b D D W (Z.of_nat d) = Ok m ->
  forall y by' x bx bs, set_coef_vector b (D * C) y = Ok by' -> set_coef_vector b (D * C) x = Ok bx ->
    set_coef_vector b (D * C) (fun a => y a + x a) = Ok bs ->
    exists v e ex es, motion_rhs m by' = Ok v /\ length v = (D * C)%nat /\
      motion_error m by' = Ok e /\ motion_error m bx = Ok ex /\ motion_error m bs = Ok es /\
      es = e - 2 * BsplSpec.total (D * C) (fun a => x a * nth a v 0) + ex.
Proof.
  intros k l D C c b W d m H ND LE PD LD SW EM y by' x bx bs EY EX ES.
  destruct (built_wf _ _ _ _ _ _ H ND) as [WF [O [K [DD [NC [_ [K2 [CC LL]]]]]]]].
  destruct (curve_error k l D C c b W (motion_order k d) H ND LE) as (Q & E & _).
  { intros i j Li Lj. rewrite (SW i j Li Lj), Rminus_eq_0, Rabs_R0. lra. }
  destruct (make_motion_ok b W (Z.of_nat d) Q WF) as (m' & Em & St & _).
  { lia. }
  { rewrite DD, O, order_converted by assumption. exact E. }
  rewrite DD in Em. assert (m' = m) by congruence. subst m'.
  assert (SWB : forall r s, (r < dim b)%nat -> (s < dim b)%nat -> W r s = W s r) by (rewrite DD; exact SW).
  assert (E' := E). rewrite <- DD in E'. destruct (curve_exchange b W _ Q WF ltac:(lia) SWB E') as [_ TR].
  rewrite <- DD, <- NC in EY, EX, ES |- *. rewrite <- DD in PD.
  destruct (coefs_set b y by' PD EY) as [SY CY]. destruct (coefs_set b x bx PD EX) as [SX CX].
  destruct (coefs_set b _ bs PD ES) as [SS CS].
  destruct (motion_rhs_ok b by' m Q PD St SY) as (v & EV & LV & VV).
  exists v. do 3 eexists. split; [ exact EV | ]. split; [ exact LV | ].
  split; [ apply (motion_error_ok b by' m Q PD St SY) | ]. split; [ apply (motion_error_ok b bx m Q PD St SX) | ].
  split; [ apply (motion_error_ok b bs m Q PD St SS) | ].
  rewrite (bil_coefs b y by'), (bil_coefs b x bx), (bil_coefs b _ bs) by (first [ exact PD | eassumption ]).
  rewrite bil_add.
  - change (BsplSpec.total (dim b * ncols b) (fun a => x a * nth a v 0)) with (bsum (dim b * ncols b) (fun a => x a * nth a v 0)).
    rewrite (bsum_ext (dim b * ncols b) (fun a => x a * nth a v 0) (fun a => -1 * (x a * mapply (dim b * ncols b) Q y a))).
    + rewrite bsum_scal. change bsum with sumn. ring.
    + intros a La. rewrite (VV a La). unfold mapply. rewrite (bsum_ext _ _ (fun r => Q a r * y r)); [ ring | ].
      intros r _. rewrite CY. reflexivity.
  - intros a e La Le. destruct (split_index _ _ a PD La) as (i & r & Hi & Hr & ->). destruct (split_index _ _ e PD Le) as (j & t & Hj & Ht & ->).
    apply TR; assumption.
Qed.
Print Assumptions C87_rhs.

(** What is added to the system of the optimizer, when the active variables
    stand in the system in the order of the curve, is the exact second order
    expansion of the error for any step. *)
Theorem C87_system : forall k l D C c b W d m dvs lay (H : sbm RA) (rhs : list R),
  built k l D C c b -> nondecreasing l -> long_end k l -> (1 <= D)%nat -> (Z.of_nat d < 2 ^ 31)%Z ->
  (forall i j, (i < D)%nat -> (j < D)%nat -> W i j = W j i) -> make_motion b D D W (Z.of_nat d) = Ok m ->
  layout lay -> placed lay D dvs -> in_order dvs -> length dvs = C ->
  SbmSpec.wf H -> owns H = true -> rbi H = lay -> cbi H = lay -> length rhs = SbmModel.total lay ->
  forall y by', set_coef_vector b (D * C) y = Ok by' ->
  exists H' rhs', motion_hessian m by' dvs H rhs = Ok (H', rhs') /\ SbmSpec.wf H' /\ length rhs' = length rhs /\
    forall x bz, set_coef_vector b (D * C) (fun a => y a + displacement lay D dvs x a) = Ok bz ->
    exists e ez, motion_error m by' = Ok e /\ motion_error m bz = Ok ez /\
      ez = e - 2 * sumn (SbmModel.total lay) (fun a => x a * (nth a rhs' 0 - nth a rhs 0))
        + sumn (SbmModel.total lay) (fun a => x a * sumn (SbmModel.total lay) (fun j => x j * (sym H' a j - sym H a j))).
Proof.
  intros k l D C c b W d m dvs lay H rhs HB ND LE PD LD SW EM LY PL IO LN WH OH ER EC LR y by' EY.
  destruct (built_wf _ _ _ _ _ _ HB ND) as [WF [O [K [DD [NC [_ [K2 [CC LL]]]]]]]].
  destruct (curve_error k l D C c b W (motion_order k d) HB ND LE) as (Q & E & _).
  { intros i j Li Lj. rewrite (SW i j Li Lj), Rminus_eq_0, Rabs_R0. lra. }
  destruct (make_motion_ok b W (Z.of_nat d) Q WF) as (m' & Em & St & _).
  { lia. }
  { rewrite DD, O, order_converted by assumption. exact E. }
  rewrite DD in Em. assert (m' = m) by congruence. subst m'.
  assert (SWB : forall r s, (r < dim b)%nat -> (s < dim b)%nat -> W r s = W s r) by (rewrite DD; exact SW).
  assert (E' := E). rewrite <- DD in E'. destruct (curve_exchange b W _ Q WF ltac:(lia) SWB E') as [XC TR].
  rewrite <- DD, <- NC in EY |- *. rewrite <- DD in PD, PL. rewrite <- NC in LN.
  destruct (coefs_set b y by' PD EY) as [SY CY].
  destruct (motion_hessian_ok lay b by' dvs m Q H rhs LY PD PL LN St SY WH OH ER EC LR) as (H' & rhs' & EH & WH' & _ & LR' & _).
  exists H', rhs'. split; [ exact EH | ]. split; [ exact WH' | ]. split; [ congruence | ]. intros x bz EZ.
  destruct (coefs_set b _ bz PD EZ) as [SZ CZ]. do 2 eexists.
  split; [ apply (motion_error_ok b by' m Q PD St SY) | ]. split; [ apply (motion_error_ok b bz m Q PD St SZ) | ].
  apply (motion_expansion lay b by' bz dvs m Q H H' rhs rhs' x LY PD PL IO LN St XC TR SY SZ WH OH ER EC LR); [ | exact EH ].
  intros a _. rewrite CZ, CY. reflexivity.
Qed.
Print Assumptions C87_system.

(** ** A straight line from 1 to 2: the error of order 1 is the square of its
    slope *)
Definition line_W : nat -> nat -> R := fun _ _ => 1.
Lemma line_motion : exists b m Q, built 2 knots_line 1 2 (fun _ _ => 0) b /\ make_motion b 1 1 line_W (Z.of_nat 1) = Ok m /\
  stands_for b m Q /\ dim b = 1%nat /\ ncols b = 2%nat /\ Q 0%nat 0%nat = 1 /\ Q 0%nat 1%nat = -1 /\ Q 1%nat 0%nat = -1 /\ Q 1%nat 1%nat = 1.
Proof.
  destruct (line_built (fun _ _ => 0)) as (b & HB). destruct knots_line_times as (_ & _ & _ & LE).
  destruct (built_wf _ _ _ _ _ _ HB knots_line_nd) as [WF [O [K [DD [NC _]]]]].
  destruct (curve_error 2 knots_line 1 2 _ b line_W 1 HB knots_line_nd LE) as (Q & E & _).
  { intros i j _ _. unfold line_W. rewrite Rminus_eq_0, Rabs_R0. lra. }
  destruct (make_motion_ok b line_W (Z.of_nat 1) Q WF) as (m & Em & St & _).
  { lia. }
  { rewrite DD, O. exact E. }
  rewrite DD in Em. exists b, m, Q. split; [ exact HB | ]. split; [ exact Em | ]. split; [ exact St | ]. split; [ exact DD | ]. split; [ exact NC | ].
  assert (P := line_penalty _ b Q HB E).
  assert (E' := E). rewrite <- DD in E'. destruct (curve_exchange b line_W _ Q WF ltac:(lia) ltac:(reflexivity) E') as [_ TR]. rewrite DD in TR.
  assert (S : Q 0%nat 1%nat = Q 1%nat 0%nat) by exact (TR 0%nat 1%nat 0%nat 0%nat ltac:(lia) ltac:(lia)).
  assert (P1 := P (fun i => match i with 0%nat => 1 | _ => 0 end)). assert (P2 := P (fun i => match i with 0%nat => 0 | _ => 1 end)).
  assert (P3 := P (fun _ => 1)). unfold bil, bsum in P1, P2, P3. repeat split; lra.
Qed.

(** Variables that stand in the system in another order than in the curve: part
    of the error is entered below the diagonal and lost. *)
Theorem C87_order_refuted : exists b m (dvs : list dvref) (H : sbm RA) (rhs : list R) y by' H' rhs' x bz e ez,
  built 2 knots_line 1 2 (fun _ _ => 0) b /\ make_motion b 1 1 line_W (Z.of_nat 1) = Ok m /\
  placed [1; 2]%nat 1 dvs /\ length dvs = 2%nat /\ H = fresh RA [1; 2]%nat [1; 2]%nat /\ rhs = [0; 0] /\
  set_coef_vector b 2 y = Ok by' /\ set_coef_vector b 2 (fun a => y a + displacement [1; 2]%nat 1 dvs x a) = Ok bz /\
  motion_hessian m by' dvs H rhs = Ok (H', rhs') /\ motion_error m by' = Ok e /\ motion_error m bz = Ok ez /\
  ez <> e - 2 * sumn 2 (fun a => x a * (nth a rhs' 0 - nth a rhs 0)) + sumn 2 (fun a => x a * sumn 2 (fun j => x j * (sym H' a j - sym H a j))).
Proof.
  destruct line_motion as (b & m & Q & HB & EM & St & DD & NC & Q00 & Q01 & Q10 & Q11).
  set (dvs := [DvRef 0 1 1 true; DvRef 1 0 1 true]). set (y := fun _ : nat => 0). set (x := fun _ : nat => 1).
  assert (LY : layout [1; 2]%nat).
  { assert (X := lay_layout 1 2). exact X. }
  assert (PL : placed [1; 2]%nat (dim b) dvs).
  { rewrite DD. intros d [ <- | [ <- | [] ] ] _; cbn [block mindim length]; split; try lia; split; reflexivity. }
  assert (EY : set_coef_vector b (dim b * ncols b) y = Ok (with_coefs b y)).
  { unfold set_coef_vector, with_coefs. rewrite DD, NC. reflexivity. }
  assert (EZ : set_coef_vector b (dim b * ncols b) (fun a => y a + displacement [1; 2]%nat 1 dvs x a) =
    Ok (with_coefs b (fun a => y a + displacement [1; 2]%nat 1 dvs x a))).
  { unfold set_coef_vector, with_coefs. rewrite DD, NC. reflexivity. }
  destruct (coefs_set b y _ ltac:(lia) EY) as [SY CY]. destruct (coefs_set b _ _ ltac:(lia) EZ) as [SZ CZ].
  assert (WH := fresh_wf RA [1; 2]%nat [1; 2]%nat LY LY).
  destruct (motion_hessian_ok [1; 2]%nat b (with_coefs b y) dvs m Q (fresh RA [1; 2]%nat [1; 2]%nat) [0; 0] LY ltac:(lia) PL) as
    (H' & rhs' & EH & WH' & (A1 & A2 & A3 & _) & LR' & V & U).
  { rewrite NC. reflexivity. }
  { exact St. }
  { exact SY. }
  { exact WH. }
  { reflexivity. }
  { reflexivity. }
  { reflexivity. }
  { reflexivity. }
  assert (ER := motion_error_ok b _ m Q ltac:(lia) St SY). assert (EZR := motion_error_ok b _ m Q ltac:(lia) St SZ).
  exists b, m, dvs, (fresh RA [1; 2]%nat [1; 2]%nat), [0; 0], y, (with_coefs b y), H', rhs', x, (with_coefs b (fun a => y a + displacement [1; 2]%nat 1 dvs x a)).
  do 2 eexists. split; [ exact HB | ]. split; [ exact EM | ]. split; [ rewrite DD in PL; exact PL | ]. split; [ reflexivity | ].
  split; [ reflexivity | ]. split; [ reflexivity | ]. split; [ rewrite DD, NC in EY; exact EY | ]. split; [ rewrite DD, NC in EZ; exact EZ | ].
  split; [ exact EH | ]. split; [ exact ER | ]. split; [ exact EZR | ].
  rewrite (bil_coefs b _ _ _ Q ltac:(lia) EY), (bil_coefs b _ _ _ Q ltac:(lia) EZ).
  assert (SE := proj1 (proj2 (proj2 (proj2 St)))). unfold same_entries in SE. rewrite DD, NC in *.
  assert (F0 : forall i j, val (fresh RA [1; 2]%nat [1; 2]%nat) i 0 j 0 = 0).
  { intros i j. unfold val, val_at. rewrite fresh_blk. reflexivity. }
  assert (EL : forall (h : sbm RA) r c, SbmSpec.wf h -> rbi h = [1; 2]%nat -> cbi h = [1; 2]%nat -> (r < 2)%nat -> (c < 2)%nat -> el h r c = val h r 0 c 0).
  { intros h r c Wh Rh Ch Lr Lc. pose proof (elr_at h r 0 c 0 Wh) as Y. rewrite Rh, Ch in Y.
    replace (base_of [1; 2]%nat r + 0)%nat with r in Y by (destruct r as [ | [ | r ] ]; [ reflexivity | reflexivity | lia ]).
    replace (base_of [1; 2]%nat c + 0)%nat with c in Y by (destruct c as [ | [ | c ] ]; [ reflexivity | reflexivity | lia ]).
    apply Y; try assumption.
    - destruct r as [ | [ | r ] ]; cbn; lia.
    - destruct c as [ | [ | c ] ]; cbn; lia. }
  assert (R2 : rbi H' = [1; 2]%nat) by exact A1. assert (C2 : cbi H' = [1; 2]%nat) by exact A2.
  assert (V00 : val (mQ m) 0 0 0 0 = 1) by (rewrite (SE 0 0 0 0)%nat by lia; exact Q00).
  assert (V11 : val (mQ m) 1 0 1 0 = 1) by (rewrite (SE 1 0 1 0)%nat by lia; exact Q11).
  assert (U0 := U 0%nat 0%nat ltac:(cbn; lia) ltac:(cbn; lia)). assert (U1 := U 1%nat 0%nat ltac:(cbn; lia) ltac:(cbn; lia)).
  change (base_of [1; 2]%nat 0 + 0)%nat with 0%nat in U0. change (base_of [1; 2]%nat 1 + 0)%nat with 1%nat in U1.
  assert (MZ : forall a, mapply (1 * 2) Q (coefs (with_coefs b y)) a = 0).
  { intros a. unfold mapply. cbn [bsum Nat.mul Nat.add]. rewrite (CY 0%nat), (CY 1%nat). unfold y. ring. }
  assert (E1 : nth 0 rhs' 0 = 0).
  { rewrite U0. cbn [length dvs sumn nth]. rewrite !MZ. repeat match goal with |- context [if ?c then _ else _] => destruct c end; lra. }
  assert (E2 : nth 1 rhs' 0 = 0).
  { rewrite U1. cbn [length dvs sumn nth]. rewrite !MZ. repeat match goal with |- context [if ?c then _ else _] => destruct c end; lra. }
  cbn [sumn nth]. unfold x, sym. cbn [Nat.leb].
  rewrite !(EL H') by (first [ assumption | lia ]). rewrite !(EL (fresh RA [1; 2]%nat [1; 2]%nat)) by (first [ exact WH | reflexivity | lia ]).
  rewrite !V, !F0, E1, E2. cbn [length dvs sumn nth]. unfold bo. cbn [is_active block andb].
  change (Z.to_nat 1) with 1%nat. change (Z.to_nat 0) with 0%nat. cbn [Nat.eqb Nat.leb andb]. rewrite V00, V11.
  unfold bil, bsum, displacement. cbn [Nat.mul Nat.add Nat.div fst Nat.divmod Nat.modulo snd Nat.sub nth_error dvs is_active]. unfold y. rewrite Q00, Q01, Q10, Q11. lra.
Qed.
Print Assumptions C87_order_refuted.

Definition line_vars : list dvref := [DvRef 0 0 1 true; DvRef 1 1 1 true].
Lemma line_layout : layout [1; 2]%nat.
Proof. assert (X := lay_layout 1 2). exact X. Qed.
Lemma line_placed : placed [1; 2]%nat 1 line_vars /\ in_order line_vars.
Proof.
  split.
  - intros d [ <- | [ <- | [] ] ] _; cbn [block mindim length]; split; try lia; split; reflexivity.
  - intros i j di dj L Ei Ej _ _. destruct i as [ | i ].
    + destruct j as [ | [ | j ] ]; [ lia | | destruct j; discriminate Ej ].
      assert (di = DvRef 0 0 1 true) by (cbn in Ei; congruence). assert (dj = DvRef 1 1 1 true) by (cbn in Ej; congruence). subst. reflexivity.
    + destruct j as [ | [ | j ] ]; [ lia | lia | destruct j; discriminate Ej ].
Qed.

(** The case of the theorems above: a line at rest, its end moved by one. *)
Example C87_ex : exists b m H' rhs' by' bz, built 2 knots_line 1 2 (fun _ _ => 0) b /\ nondecreasing knots_line /\ long_end 2 knots_line /\
  make_motion b 1 1 line_W (Z.of_nat 1) = Ok m /\ layout [1; 2]%nat /\ placed [1; 2]%nat 1 line_vars /\ in_order line_vars /\
  set_coef_vector b 2 (fun _ => 0) = Ok by' /\ set_coef_vector b 2 (fun a => if (a =? 1)%nat then 1 else 0) = Ok bz /\
  motion_hessian m by' line_vars (fresh RA [1; 2]%nat [1; 2]%nat) [0; 0] = Ok (H', rhs') /\
  motion_error m by' = Ok 0 /\ motion_error m bz = Ok 1.
Proof.
  destruct line_motion as (b & m & Q & HB & EM & St & DD & NC & Q00 & Q01 & Q10 & Q11). destruct knots_line_times as (_ & _ & _ & LE).
  assert (SET : forall z, set_coef_vector b (dim b * ncols b) z = Ok (with_coefs b z)).
  { intros z. unfold set_coef_vector, with_coefs. rewrite DD, NC. reflexivity. }
  assert (ERR : forall z, motion_error m (with_coefs b z) = Ok ((z 1%nat - z 0%nat) * (z 1%nat - z 0%nat))).
  { intros z. rewrite (motion_error_ok b _ m Q ltac:(lia) St (proj1 (coefs_set b z _ ltac:(lia) (SET z)))).
    rewrite (bil_coefs b z _ _ Q ltac:(lia) (SET z)), DD, NC. unfold bil, bsum. cbn [Nat.mul Nat.add]. rewrite Q00, Q01, Q10, Q11. f_equal. ring. }
  destruct line_placed as [PL IO].
  destruct (C87_system 2 knots_line 1 2 _ b line_W 1 m line_vars [1; 2]%nat (fresh RA [1; 2]%nat [1; 2]%nat) [0; 0] HB knots_line_nd LE) with
    (y := fun _ : nat => 0) (by' := with_coefs b (fun _ => 0)) as (H' & rhs' & EH & _);
    try lia; try reflexivity; try assumption.
  { exact line_layout. }
  { apply fresh_wf; exact line_layout. }
  { rewrite <- SET. rewrite DD, NC. reflexivity. }
  exists b, m, H', rhs', (with_coefs b (fun _ => 0)), (with_coefs b (fun a => if (a =? 1)%nat then 1 else 0)).
  split; [ exact HB | ]. split; [ exact knots_line_nd | ]. split; [ exact LE | ]. split; [ exact EM | ]. split; [ exact line_layout | ].
  split; [ exact PL | ]. split; [ exact IO | ]. split; [ rewrite <- SET, DD, NC; reflexivity | ]. split; [ rewrite <- SET, DD, NC; reflexivity | ].
  split; [ exact EH | ]. split.
  - rewrite ERR. f_equal. ring.
  - rewrite ERR. cbn [Nat.eqb]. f_equal. ring.
Qed.

(** The scaling of a design variable, by which the optimizer multiplies the
    step, is not part of the system: with a scaling other than one the added
    terms are not the expansion of the error for the step that is applied. *)
Theorem C87_scaling_refuted : exists b m H' rhs' by' bz e ez (scaling : R) x,
  built 2 knots_line 1 2 (fun _ _ => 0) b /\ make_motion b 1 1 line_W (Z.of_nat 1) = Ok m /\ scaling = 2 /\
  set_coef_vector b 2 (fun _ => 0) = Ok by' /\
  set_coef_vector b 2 (fun a => 0 + displacement [1; 2]%nat 1 line_vars (fun i => scaling * x i) a) = Ok bz /\
  motion_hessian m by' line_vars (fresh RA [1; 2]%nat [1; 2]%nat) [0; 0] = Ok (H', rhs') /\
  motion_error m by' = Ok e /\ motion_error m bz = Ok ez /\
  ez <> e - 2 * sumn 2 (fun a => x a * (nth a rhs' 0 - nth a [0; 0] 0))
    + sumn 2 (fun a => x a * sumn 2 (fun j => x j * (sym H' a j - sym (fresh RA [1; 2]%nat [1; 2]%nat) a j))).
Proof.
  destruct line_motion as (b & m & Q & HB & EM & St & DD & NC & Q00 & Q01 & Q10 & Q11). destruct knots_line_times as (_ & _ & _ & LE).
  assert (SET : forall z, set_coef_vector b 2 z = Ok (with_coefs b z)).
  { intros z. unfold set_coef_vector, with_coefs. rewrite DD, NC. reflexivity. }
  assert (SETD : forall z, set_coef_vector b (dim b * ncols b) z = Ok (with_coefs b z)) by (rewrite DD, NC; exact SET).
  assert (ERR : forall z, motion_error m (with_coefs b z) = Ok ((z 1%nat - z 0%nat) * (z 1%nat - z 0%nat))).
  { intros z. rewrite (motion_error_ok b _ m Q ltac:(lia) St (proj1 (coefs_set b z _ ltac:(lia) (SETD z)))).
    rewrite (bil_coefs b z _ _ Q ltac:(lia) (SETD z)), DD, NC. unfold bil, bsum. cbn [Nat.mul Nat.add]. rewrite Q00, Q01, Q10, Q11. f_equal. ring. }
  destruct line_placed as [PL IO].
  destruct (C87_system 2 knots_line 1 2 _ b line_W 1 m line_vars [1; 2]%nat (fresh RA [1; 2]%nat [1; 2]%nat) [0; 0] HB knots_line_nd LE) with
    (y := fun _ : nat => 0) (by' := with_coefs b (fun _ => 0)) as (H' & rhs' & EH & _ & _ & X);
    try lia; try reflexivity; try assumption.
  { exact line_layout. }
  { apply fresh_wf; exact line_layout. }
  { apply SET. }
  set (x := fun a : nat => if (a =? 1)%nat then 1 else 0).
  destruct (X x _ (SET _)) as (e & ez & Ee & Eez & EQ).
  exists b, m, H', rhs', (with_coefs b (fun _ => 0)). do 3 eexists. exists 2, x.
  split; [ exact HB | ]. split; [ exact EM | ]. split; [ reflexivity | ]. split; [ apply SET | ]. split; [ apply SET | ].
  split; [ exact EH | ]. split; [ exact Ee | ]. split; [ apply ERR | ].
  change (SbmModel.total [1; 2]%nat) with 2%nat in EQ. rewrite <- EQ. rewrite ERR in Eez.
  assert (D0 : displacement [1; 2]%nat 1 line_vars x 0 = 0) by reflexivity. assert (D1 : displacement [1; 2]%nat 1 line_vars x 1 = 1) by reflexivity.
  assert (S0 : displacement [1; 2]%nat 1 line_vars (fun i => 2 * x i) 0 = 2 * 0) by reflexivity.
  assert (S1 : displacement [1; 2]%nat 1 line_vars (fun i => 2 * x i) 1 = 2 * 1) by reflexivity.
  rewrite D0, D1 in Eez. rewrite S0, S1. match type of Eez with Ok ?t = _ => assert (ET : ez = t) by congruence end. rewrite ET. lra.
Qed.
Print Assumptions C87_scaling_refuted.

(** The coefficients are read in the number they had when the error was made:
    after a segment has been removed from the curve the error reads past their
    end. *)
Theorem C87_shrunk_refuted : exists b m, built 2 knots_line 1 2 (fun _ _ => 0) b /\ make_motion b 1 1 line_W (Z.of_nat 1) = Ok m /\
  motion_error m b = Ok 0 /\ motion_error m (remove_segment b) = UB.
Proof.
  destruct line_motion as (b & m & Q & HB & EM & St & DD & NC & Q00 & Q01 & Q10 & Q11). exists b, m.
  destruct (built_wf _ _ _ _ _ _ HB knots_line_nd) as [WF [O [K [_ [_ [CO _]]]]]].
  split; [ exact HB | ]. split; [ exact EM | ]. split.
  - rewrite (motion_error_ok b b m Q ltac:(lia) St) by (split; reflexivity). rewrite DD, NC. unfold bil, bsum, coefs. rewrite CO. f_equal. cbn [Nat.mul Nat.add]. ring.
  - assert (LM := proj2 (proj2 (proj2 (proj2 St)))). unfold motion_error, mapped_coefs, remove_segment. rewrite LM, K, DD, NC. reflexivity.
Qed.
Print Assumptions C87_shrunk_refuted.
