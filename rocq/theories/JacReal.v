From Coq Require Import ZArith List Bool Lia Reals Lra.
From Verif Require Import Base Arith RArith MatReal OMap JacModel JacSpec JacDiffSpec JacProofs.
Import ListNotations.
Open Scope R_scope.

Section D.
Variable lay : Z -> nat.
Variable delta : Z -> list R.
Notation zget := (mget Z.compare).
Notation zsorted := (sorted Z.compare).
Notation entry := (Z * (dvref * mat RA))%type.

(** contribution of one lookup to row [i] *)
Definition part (i : nat) (x : Z) (v : option (dvref * mat RA)) : R :=
  match v with Some (_, J) => rdot (nth i J []) (delta x) | None => 0 end.

Fixpoint total (f : Z -> R) (K : list Z) : R :=
  match K with [] => 0 | x :: r => f x + total f r end.

Lemma total_ext f g K : (forall x, In x K -> f x = g x) -> total f K = total g K.
Proof.
  induction K as [ | x K IH]; intro H; [reflexivity | ]. cbn [total].
  rewrite (H x), IH; [reflexivity | | now left].
  intros y Hy. apply H. now right.
Qed.

Lemma total_plus f g K : total (fun x => f x + g x) K = total f K + total g K.
Proof. induction K as [ | x K IH]; cbn [total]; [ring | rewrite IH; ring]. Qed.

Lemma total_zero K : total (fun _ => 0) K = 0.
Proof. induction K as [ | x K IH]; cbn [total]; [ring | rewrite IH; ring]. Qed.

Lemma total_one b (v : R) K : NoDup K -> In b K ->
  total (fun x => if Z.eqb x b then v else 0) K = v.
Proof.
  induction 1 as [ | x K N _ IH]; intro Hin; [contradiction | ]. cbn [total].
  destruct (Z.eqb_spec x b) as [-> | Nx].
  - rewrite (total_ext _ (fun _ => 0)), total_zero; [ring | ].
    intros y Hy. destruct (Z.eqb_spec y b) as [-> | ]; [contradiction | reflexivity].
  - destruct Hin as [-> | Hin]; [congruence | ]. rewrite IH by exact Hin. ring.
Qed.

(** sum over the entries of a map = sum over any key set that contains them *)
Lemma total_map i : forall (m : list entry) K, zsorted m -> NoDup K ->
  incl (map fst m) K ->
  fold_right (fun e s => rdot (nth i (snd (snd e)) []) (delta (fst e)) + s) 0 m =
  total (fun x => part i x (zget x m)) K.
Proof.
  induction m as [ | [k [d J]] m IH]; intros K S N H.
  - cbn [fold_right]. symmetry. apply total_zero.
  - cbn [fold_right fst snd]. rewrite (IH K) by
      (exact (proj2 S) || exact N || (intros y Hy; apply H; now right)).
    assert (Hk : In k K) by (apply H; now left).
    etransitivity;
      [eapply Rplus_eq_compat_r; symmetry;
       exact (total_one k (rdot (nth i J []) (delta k)) K N Hk) | ].
    rewrite <- total_plus. apply total_ext. intros x _. cbn [mget].
    destruct (Z.eqb_spec x k) as [-> | Nx].
    + rewrite Z.compare_refl.
      rewrite (above_get Z.compare k m) by (exact (proj2 S) || exact (proj1 S)).
      cbn [part]. ring.
    + destruct (Z.compare_spec x k); [congruence | | ring].
      rewrite (above_get Z.compare x m).
      * cbn [part]. ring.
      * exact (proj2 S).
      * apply above_trans with k; [apply Zcompare_order | now apply Z.compare_lt_iff | exact (proj1 S)].
Qed.

Lemma good_rows c : good RA lay c ->
  Forall (fun e => length (snd (snd e)) = crows c) (cmap c).
Proof.
  intros ((_ & F) & _). eapply Forall_impl; [ | exact F].
  intros e (_ & _ & H). now apply shaped_iff in H.
Qed.

Lemma differential_length c : good RA lay c -> length (differential delta c) = crows c.
Proof.
  intro G. assert (F := good_rows c G). unfold differential.
  induction F as [ | e m H F IH]; cbn [fold_right].
  - apply repeat_length.
  - rewrite vadd_length; [exact IH | ]. rewrite mv_length. etransitivity; [exact H | symmetry; exact IH].
Qed.

Lemma nth_differential i c : good RA lay c ->
  nth i (differential delta c) 0 =
  fold_right (fun e s => rdot (nth i (snd (snd e)) []) (delta (fst e)) + s) 0 (cmap c).
Proof.
  intro G. assert (F := good_rows c G). unfold differential.
  assert (L : forall m, Forall (fun e : entry => length (snd (snd e)) = crows c) m ->
    length (fold_right (fun e acc => vadd RA (mv (snd (snd e)) (delta (fst e))) acc)
             (repeat 0 (crows c)) m) = crows c).
  { induction 1 as [ | e m H F' IH]; cbn [fold_right].
    - apply repeat_length.
    - rewrite vadd_length; [exact IH | ]. rewrite mv_length. etransitivity; [exact H | symmetry; exact IH]. }
  induction F as [ | e m H F IH]; cbn [fold_right].
  - destruct (Nat.lt_ge_cases i (crows c)).
    + apply nth_repeat.
    + apply nth_repeat.
  - rewrite nth_vadd.
    + rewrite IH, nth_mv. reflexivity.
    + rewrite mv_length. etransitivity; [exact H | symmetry; exact (L m F)].
Qed.

Lemma nth_differential_total i c K : good RA lay c -> NoDup K ->
  incl (map fst (cmap c)) K ->
  nth i (differential delta c) 0 = total (fun x => part i x (zget x (cmap c))) K.
Proof.
  intros G N H. rewrite (nth_differential i c G). apply total_map; [ | exact N | exact H].
  apply (proj1 (good_iff RA lay c) G).
Qed.

Lemma part_both i x r a b : (forall d J, a = Some (d, J) -> shaped RA r (lay x) J = true) ->
  (forall d J, b = Some (d, J) -> shaped RA r (lay x) J = true) ->
  part i x (both RA a b) = part i x a + part i x b.
Proof.
  intros Ha Hb. destruct a as [[d J] | ], b as [[d' J'] | ]; cbn [both part]; try ring.
  rewrite <- !nth_mv. rewrite (mv_madd r (lay x)).
  - apply nth_vadd. rewrite !mv_length.
    specialize (Ha d J eq_refl). specialize (Hb d' J' eq_refl).
    apply shaped_iff in Ha, Hb. destruct Ha as (-> & _), Hb as (-> & _). reflexivity.
  - exact (Ha d J eq_refl).
  - exact (Hb d' J' eq_refl).
Qed.

Lemma list_eq_nth (x y : list R) : length x = length y ->
  (forall i, nth i x 0 = nth i y 0) -> x = y.
Proof.
  intros L H. apply nth_ext with 0 0; [exact L | ]. intros n _. apply H.
Qed.

Definition keyset (l : list Z) : list Z := nodup Z.eq_dec l.

Lemma differential_both c c' r (K0 : list Z) (w : list R) :
  good RA lay c -> good RA lay c' -> crows c' = crows c -> length w = crows c ->
  (forall x d J, r x = Some (d, J) -> shaped RA (crows c) (lay x) J = true) ->
  (forall x, zget x (cmap c') = both RA (zget x (cmap c)) (r x)) ->
  (forall K, NoDup K -> incl K0 K -> forall i,
     nth i w 0 = total (fun x => part i x (r x)) K) ->
  differential delta c' = vadd RA (differential delta c) w.
Proof.
  intros G G' HR HW Hr E HT. apply list_eq_nth.
  - rewrite (differential_length c' G'), vadd_length; [congruence | ].
    rewrite (differential_length c G). congruence.
  - intro i. rewrite nth_vadd by (rewrite (differential_length c G); congruence).
    set (K := keyset (K0 ++ map fst (cmap c) ++ map fst (cmap c'))).
    assert (N : NoDup K) by apply NoDup_nodup.
    assert (I0 : forall y, In y (K0 ++ map fst (cmap c) ++ map fst (cmap c')) -> In y K)
      by (intros y Hy; now apply nodup_In).
    rewrite (nth_differential_total i c' K G' N), (nth_differential_total i c K G N), (HT K N).
    + rewrite <- total_plus. apply total_ext. intros x _. rewrite E.
      apply part_both with (crows c).
      * intros d J Ex. exact (proj2 (proj2 (proj2 (proj2 (proj1 (good_iff RA lay c) G) x d J Ex)))).
      * intros d J Ex. exact (Hr x d J Ex).
    + intros y Hy. apply I0. apply in_or_app. now left.
    + intros y Hy. apply I0. apply in_or_app. right. apply in_or_app. now left.
    + intros y Hy. apply I0. apply in_or_app. right. apply in_or_app. now right.
Qed.

Lemma diff_add_one d J c c' : good RA lay c -> op_ok lay (OpOne d J) ->
  add_one RA d J c = Ok c' ->
  differential delta c' =
  if is_active d then vadd RA (differential delta c) (mv J (delta (block d)))
  else differential delta c.
Proof.
  intros G HO E. cbn [op_ok] in HO.
  destruct (shaped RA (crows c) (mindim d) J) eqn:Es.
  2:{ unfold add_one in E. rewrite Es in E. discriminate. }
  destruct (add_one_spec RA lay d J c G HO Es) as (c1 & E1 & G1 & R1 & H1).
  rewrite E in E1. injection E1 as <-.
  destruct (is_active d) eqn:Ea.
  2:{ unfold add_one in E. rewrite Es, Ea in E. now injection E as <-. }
  specialize (HO eq_refl). cbn [andb] in H1.
  apply differential_both with
    (r := fun x => if Z.eqb x (block d) then Some (d, J) else None) (K0 := [block d]);
    try assumption.
  - rewrite mv_length. now apply shaped_iff in Es.
  - intros x d0 J0 H. destruct (Z.eqb_spec x (block d)) as [-> | ]; [ | discriminate].
    injection H as <- <-. now rewrite <- HO.
  - intros K N HI i. rewrite nth_mv.
    etransitivity;
      [symmetry; apply (total_one (block d) (rdot (nth i J []) (delta (block d))) K N);
       apply HI; now left | ].
    apply total_ext. intros x _. destruct (Z.eqb_spec x (block d)) as [-> | ]; reflexivity.
Qed.

Lemma diff_add_all r c c' : good RA lay c -> good RA lay r ->
  add_all RA r c = Ok c' ->
  differential delta c' = vadd RA (differential delta c) (differential delta r).
Proof.
  intros G GR E.
  destruct (Nat.eq_dec (crows r) (crows c)) as [Er | Er].
  2:{ unfold add_all in E. destruct (Nat.eqb_spec (crows c) (crows r)); [congruence | discriminate]. }
  destruct (add_all_good RA lay r c G GR Er) as (c1 & E1 & G1 & R1 & H1).
  rewrite E in E1. injection E1 as <-.
  apply differential_both with
    (r := fun x => zget x (cmap r)) (K0 := map fst (cmap r)); try assumption.
  - rewrite (differential_length r GR). exact Er.
  - intros x d0 J0 H. rewrite <- Er.
    exact (proj2 (proj2 (proj2 (proj2 (proj1 (good_iff RA lay r) GR) x d0 J0 H)))).
  - intros K N HI i. now apply nth_differential_total.
Qed.

Lemma mv_zeros n (M : rmat) : mv M (repeat 0 n) = repeat 0 (length M).
Proof.
  unfold mv. induction M as [ | r M IH]; [reflexivity | ]. cbn [map length repeat].
  f_equal; [ | exact IH]. clear. revert n.
  induction r as [ | x r IH]; intros [ | n]; cbn [repeat rdot]; try reflexivity.
  rewrite IH. ring.
Qed.

Lemma mv_vadd (M : rmat) x y : length x = length y ->
  mv M (vadd RA x y) = vadd RA (mv M x) (mv M y).
Proof.
  intro L. induction M as [ | r M IH]; [reflexivity | ].
  change (rdot r (vadd RA x y) :: mv M (vadd RA x y) =
          (rdot r x + rdot r y) :: vadd RA (mv M x) (mv M y)).
  rewrite IH. f_equal.
  rewrite (rdot_sym r), (rdot_sym r x), (rdot_sym r y).
  exact (rdot_vadd_l x y r L).
Qed.

Lemma diff_chain n M c c' : good RA lay c -> chain_rule RA n M c = Ok c' ->
  differential delta c' = mv M (differential delta c).
Proof.
  intros G E. unfold chain_rule in E.
  destruct (Nat.eqb_spec n (crows c)); [ | discriminate]. injection E as <-.
  assert (F := good_rows c G). destruct G as ((_ & Fs) & _).
  unfold differential. cbn [crows cmap].
  assert (L : forall m, Forall (fun e : entry => length (snd (snd e)) = crows c) m ->
    length (fold_right (fun e acc => vadd RA (mv (snd (snd e)) (delta (fst e))) acc)
             (repeat 0 (crows c)) m) = crows c).
  { induction 1 as [ | e' m H F' IH]; cbn [fold_right].
    - apply repeat_length.
    - rewrite vadd_length; [exact IH | ]. rewrite mv_length. etransitivity; [exact H | symmetry; exact IH]. }
  induction F as [ | x m H F IH]; cbn [map fold_right fst snd].
  - symmetry. apply mv_zeros.
  - inversion_clear Fs. rewrite (IH H1). clear IH H1.
    rewrite mv_vadd by (rewrite mv_length; etransitivity; [exact H | symmetry; exact (L m F)]).
    rewrite mv_mmul; [reflexivity | ]. destruct H0 as (_ & _ & H0).
    now apply shaped_iff in H0.
Qed.

Lemma run_meaning ops : forall c c', good RA lay c -> Forall (op_ok lay) ops ->
  run ops c = Ok c' -> differential delta c' = meaning delta ops (differential delta c).
Proof.
  induction ops as [ | op ops IH]; intros c c' G H E; cbn [run meaning] in *.
  - now injection E as <-.
  - inversion_clear H.
    destruct (apply op c) as [c1 | | | ] eqn:E1; try discriminate. cbn [obind] in E.
    assert (G1 : good RA lay c1) by (exact (proj1 (apply_total RA lay op c G H0) c1 E1)).
    rewrite (IH c1 c' G1 H1 E). destruct op as [d J | r | n M]; cbn [apply] in E1.
    + now rewrite (diff_add_one d J c c1 G H0 E1).
    + now rewrite (diff_add_all r c c1 G H0 E1).
    + now rewrite (diff_chain n M c c1 G E1).
Qed.
End D.
