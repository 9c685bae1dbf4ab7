(** Proofs about the target detector. *)
From Coq Require Import ZArith Reals List Bool Lia Lra.
From Verif Require Import Base Arith RArith CcmModel CcmProofs TgtModel ObsSpec ObsProofs.
Import ListNotations.
Open Scope nat_scope.

Section Detector.
Variable A : Arith.
Variable T : Type.
Notation pt2 := (num A * num A)%type.

(** What the extraction found, as a sighting. *)
Definition found_sighting (pts : list pt2) (seen : list bool) : sighting A :=
  fun i => match nth_error seen i with Some true => nth_error pts i | _ => None end.

Lemma copy_points_ok t pts seen : length seen = length pts -> length pts <= tsize t ->
  forall is o f, (forall i, In i is -> i < length pts) -> repr A T o t f ->
  exists o', copy_points A T is pts seen o = Ok o' /\
    repr A T o' t (fun i => if existsb (Nat.eqb i) is then
                              match found_sighting pts seen i with Some p => Some p | None => f i end
                            else f i) /\
    otrafo o' = otrafo o /\ otrafo_set o' = otrafo_set o.
Proof.
  intros L B is. induction is as [ | i is IH]; intros o f Hb H.
  - exists o. split; [reflexivity | ]. split; [exact H | now split].
  - assert (Hi : i < length pts) by (apply Hb; now left).
    assert (Hb' : forall k, In k is -> k < length pts) by (intros; apply Hb; now right).
    cbn [copy_points].
    destruct (nth_error seen i) as [b | ] eqn:Es; [ | apply nth_error_None in Es; lia].
    destruct (nth_error pts i) as [p | ] eqn:Ep; [ | apply nth_error_None in Ep; lia].
    assert (Ls : load seen i = Ok b) by now apply load_ok.
    assert (Lp : load pts i = Ok p) by now apply load_ok.
    rewrite Ls. cbn [obind]. destruct b.
    + rewrite Lp. cbn [obind].
      destruct (update_repr A T o t f i p H ltac:(lia)) as (o1 & E1 & R1 & T1 & T2).
      rewrite E1. cbn [obind]. destruct (IH o1 _ Hb' R1) as (o2 & E2 & R2 & T3 & T4).
      exists o2. split; [exact E2 | ]. split; [ | split; congruence].
      eapply repr_ext; [ | exact R2]. intros k Hk. cbv beta. cbn [existsb].
      destruct (Nat.eqb_spec k i) as [ -> | Q]; cbn [orb].
      * unfold found_sighting. rewrite Es, Ep. destruct (existsb (Nat.eqb i) is); reflexivity.
      * reflexivity.
    + destruct (IH o f Hb' H) as (o2 & E2 & R2 & T3 & T4). exists o2. split; [exact E2 | ].
      split; [ | split; congruence]. eapply repr_ext; [ | exact R2]. intros k Hk. cbv beta. cbn [existsb].
      destruct (Nat.eqb_spec k i) as [ -> | Q]; cbn [orb]; [ | reflexivity].
      unfold found_sighting. rewrite Es. now destruct (existsb (Nat.eqb i) is).
Qed.

Lemma existsb_seq i n : existsb (Nat.eqb i) (seq 0 n) = (i <? n).
Proof.
  destruct (Nat.ltb_spec i n) as [H | H].
  - apply existsb_exists. exists i. split; [apply in_seq; lia | apply Nat.eqb_refl].
  - destruct (existsb (Nat.eqb i) (seq 0 n)) eqn:E; [ | reflexivity].
    apply existsb_exists in E. destruct E as (k & Hk & Q). apply Nat.eqb_eq in Q. apply in_seq in Hk. lia.
Qed.

Lemma find_no_trafo_ok t ok pts seen o : length seen = length pts -> length pts <= tsize t ->
  exists o', find_no_trafo A T t (ok, pts, seen) o = Ok (ok, o') /\
    repr A T o' t (found_sighting pts seen) /\ otrafo o' = otrafo o /\ otrafo_set o' = otrafo_set o.
Proof.
  intros L B. unfold find_no_trafo.
  destruct (copy_points_ok t pts seen L B (seq 0 (length pts)) (set_target A T t o) none_seen)
    as (o' & E & R & T1 & T2).
  - intros i Hi. now apply seq_bound.
  - apply set_target_repr.
  - rewrite E. cbn [obind]. exists o'. split; [reflexivity | ]. split; [ | now split].
    eapply repr_ext; [ | exact R]. intros i Hi. cbv beta. rewrite existsb_seq.
    destruct (Nat.ltb_spec i (length pts)) as [Q | Q].
    + unfold none_seen. now destruct (found_sighting pts seen i).
    + unfold none_seen, found_sighting. destruct (nth_error seen i) as [[ | ] | ]; try reflexivity.
      symmetry. apply nth_error_None. lia.
Qed.

Lemma remove_all_ok t : forall is o f, (forall i, In i is -> i < tsize t) -> repr A T o t f ->
  exists o', remove_all A T is o = Ok o' /\
    repr A T o' t (fun i => if existsb (Nat.eqb i) is then None else f i) /\
    otrafo o' = otrafo o /\ otrafo_set o' = otrafo_set o.
Proof.
  induction is as [ | i is IH]; intros o f Hb H; [exists o; split; [reflexivity | split; [exact H | now split]] | ].
  cbn [remove_all]. destruct (remove_repr A T o t f i H (Hb i (or_introl eq_refl))) as (o1 & E1 & R1 & T1 & T2).
  rewrite E1. cbn [obind]. destruct (IH o1 _ ltac:(intros; apply Hb; now right) R1) as (o2 & E2 & R2 & T3 & T4).
  exists o2. split; [exact E2 | ]. split; [ | split; congruence].
  eapply repr_ext; [ | exact R2]. intros k Hk. cbv beta. cbn [existsb].
  destruct (Nat.eqb_spec k i); cbn [orb]; [now destruct (existsb (Nat.eqb k) is) | reflexivity].
Qed.
End Detector.

(** ** Statistics. *)
Section Stats.
Open Scope R_scope.

Lemma fold_sum (l : list R) : forall a, fold_left Rplus l a = a + sum l.
Proof. induction l as [ | x l IH]; intro a; cbn [fold_left sum]; [ring | rewrite IH; ring]. Qed.
Lemma total_sum (l : list R) : total_of RA l = sum l.
Proof. unfold total_of. cbn [add of_Z RA]. change (num RA) with R. rewrite fold_sum. cbn. ring. Qed.
Lemma mean_ok (l : list R) : mean_of RA l = mean l.
Proof. unfold mean_of, mean. rewrite total_sum. cbn [div of_Z RA]. now rewrite <- INR_IZR_INZ. Qed.
Lemma std_ok (l : list R) : std_of RA l = deviation l.
Proof.
  unfold std_of, deviation. rewrite total_sum, mean_ok. cbn [div of_Z RA root mul sub].
  rewrite <- INR_IZR_INZ. do 3 f_equal. apply map_ext. intro x. change (num RA) with R. cbn [pow]. now rewrite Rmult_1_r.
Qed.
Lemma distance_ok (p q : R * R) : distance RA p q = gap p q.
Proof. unfold distance, gap. cbn [root add mul sub RA pow]. now rewrite !Rmult_1_r. Qed.

Lemma sum_squares_nonneg (l : list R) m : 0 <= sum (map (fun x => (x - m) ^ 2) l).
Proof. induction l as [ | x l IH]; cbn [map sum]; [lra | ]. assert (0 <= (x - m) ^ 2) by apply pow2_ge_0. lra. Qed.
Lemma far_sum (l : list R) m (b : R) (f : R -> bool) : (forall x, f x = true -> b < (x - m) ^ 2) ->
  INR (length (filter f l)) * b <= sum (map (fun x => (x - m) ^ 2) l) /\
  (filter f l <> [] -> INR (length (filter f l)) * b < sum (map (fun x => (x - m) ^ 2) l)).
Proof.
  intro H. induction l as [ | x l (I1 & I2)]; cbn [filter map sum].
  - cbn. split; [lra | congruence].
  - assert (P : 0 <= (x - m) ^ 2) by apply pow2_ge_0. destruct (f x) eqn:E.
    + specialize (H x E). cbn [length]. rewrite S_INR. split; [lra | ]. intros _. lra.
    + split; [lra | ]. intro Q. specialize (I2 Q). lra.
Qed.

Lemma Rdiv_le_0_compat' a b : 0 <= a -> 0 < b -> 0 <= a / b.
Proof. intros. apply Rmult_le_pos; [assumption | ]. left. now apply Rinv_0_lt_compat. Qed.

(** Chebyshev: fewer than one in k^2 lie more than k deviations above the mean. *)
Lemma few_far (l : list R) (k : R) (f : R -> bool) : 0 < k ->
  (forall x, f x = true -> mean l + k * deviation l < x) ->
  filter f l = [] \/ INR (length (filter f l)) * (k * k) < INR (length l).
Proof.
  intros Hk H. destruct (filter f l) as [ | y r] eqn:E; [now left | right]. rewrite <- E.
  assert (Ne : filter f l <> []) by congruence.
  assert (Hn : 0 < INR (length l)).
  { apply lt_0_INR. destruct l as [ | x l]; [discriminate | cbn; lia]. }
  set (V := sum (map (fun x => (x - mean l) ^ 2) l)).
  assert (HV : 0 <= V) by apply sum_squares_nonneg.
  assert (D2 : deviation l * deviation l = V / INR (length l)).
  { unfold deviation. apply sqrt_sqrt. now apply Rdiv_le_0_compat'. }
  assert (D0 : 0 <= deviation l) by apply sqrt_pos.
  destruct (far_sum l (mean l) (k * k * (deviation l * deviation l)) f) as (_ & F).
  { intros x Hx. specialize (H x Hx). assert (0 <= k * deviation l) by nra.
    replace (k * k * (deviation l * deviation l)) with ((k * deviation l) * (k * deviation l)) by ring.
    replace ((x - mean l) ^ 2) with ((x - mean l) * (x - mean l)) by ring.
    apply Rmult_le_0_lt_compat; lra. }
  specialize (F Ne). fold V in F. rewrite D2 in F.
  destruct (Rle_lt_or_eq_dec 0 V HV) as [PV | ZV].
  - assert (Q : V * (INR (length (filter f l)) * (k * k)) < V * INR (length l)).
    { replace (INR (length (filter f l)) * (k * k * (V / INR (length l))))
        with (V * (INR (length (filter f l)) * (k * k)) / INR (length l)) in F by (field; lra).
      apply (Rmult_lt_compat_r (INR (length l))) in F; [ | exact Hn].
      unfold Rdiv in F. rewrite Rmult_assoc, Rinv_l, Rmult_1_r in F by lra. exact F. }
    now apply Rmult_lt_reg_l in Q.
  - rewrite <- ZV in F. unfold Rdiv in F. lra.
Qed.

Lemma outlier_iff (p : detector_options RA) (errs : list R) (e : R) :
  outlier RA p errs e = true <-> mean errs + sigma p * deviation errs < e /\ min_error p < e.
Proof.
  unfold outlier. rewrite mean_ok, std_ok. cbn [lt add mul RA]. rewrite andb_true_iff.
  rewrite !rlt_true. reflexivity.
Qed.
End Stats.

Lemma count_removed {A} (f : sighting A) (b : nat -> bool) l :
  length (filter (seen_at (fun i => if b i then None else f i)) l) + length (filter b (filter (seen_at f) l))
  = length (filter (seen_at f) l).
Proof.
  induction l as [ | i l IH]; [reflexivity | ]. cbn [filter].
  assert (Q : seen_at (fun k => if b k then None else f k) i = negb (b i) && seen_at f i).
  { unfold seen_at. now destruct (b i). }
  rewrite Q. destruct (seen_at f i); cbn [filter]; destruct (b i); cbn [negb andb length]; lia.
Qed.
Lemma count_map {V W} (g : V -> W) (b : W -> bool) l : length (filter b (map g l)) = length (filter (fun i => b (g i)) l).
Proof. induction l as [ | i l IH]; [reflexivity | ]. cbn [map filter]. destruct (b (g i)); cbn [length]; lia. Qed.

(** ** Removal of outliers. *)
Section Filter.
Variable T : Type.
Notation P2 := (R * R)%type.
Notation P3 := (R * R * R)%type.

(** Reprojection error of a point seen. *)
Definition error_at (project : T -> P3 -> P2) (x : T) (t : target RA) (f : sighting RA) (i : nat) : R :=
  match point t i, f i with
  | Ok (a, b, _), Some p => gap p (project x (a, b, 0%R))
  | _, _ => 0%R
  end.

Lemma filter_snd_combine {V W} (g : V -> bool) (h : W -> V) (l : list W) :
  map snd (filter (fun y => g (fst y)) (combine (map h l) l)) = filter (fun i => g (h i)) l.
Proof.
  induction l as [ | i l IH]; [reflexivity | ]. cbn [map combine filter fst].
  destruct (g (h i)); cbn [map snd]; now rewrite IH.
Qed.

Lemma filter_ok (p : detector_options RA) project o t f : target_ok t -> repr RA T o t f -> otrafo_set o = true ->
  exists o' errs, filter_corners RA T p project o = Ok o' /\
    errs = map (error_at project (otrafo o) t f) (visible t f) /\
    repr RA T o' t (fun i => if outlier RA p errs (error_at project (otrafo o) t f i) then None else f i) /\
    otrafo o' = otrafo o /\ otrafo_set o' = true.
Proof.
  intros Ht H Hs. assert (Q := repr_answers RA T o t f Ht H). destruct Q as [_ Qi Qm Qc _ _ _].
  destruct Qm as (ps & Em & Fm). destruct Qc as (qs & Ec & Fc).
  unfold filter_corners, reprojection. rewrite Hs, Ec. cbn [obind]. rewrite Em. cbn [obind]. rewrite Qi. cbn [obind].
  set (err := error_at project (otrafo o) t f).
  assert (X : map (fun x => distance RA (snd x) (fst x)) (combine (map (project (otrafo o)) qs) ps) = map err (visible t f)).
  { assert (V : forall i, In i (visible t f) -> seen_at f i = true) by (intros i Hi; apply filter_In in Hi; tauto).
    revert V Fm Fc. generalize (visible t f) as l. clear - ps qs. revert ps qs.
    intros ps qs l. revert ps qs. induction l as [ | i l IH]; intros ps qs V Fm Fc.
    - inversion Fc; subst. reflexivity.
    - inversion Fc as [ | ? q ? qs' H1 H2]; subst. destruct ps as [ | r ps]; [discriminate | ].
      cbn [map] in Fm. cbn [map combine fst snd].
      rewrite (IH ps qs'); [ | intros; apply V; now right | congruence | exact H2].
      f_equal. destruct H1 as (a & b & z & E1 & ->). unfold err, error_at. rewrite E1.
      assert (E2 : f i = Some r) by congruence. rewrite E2. apply distance_ok. }
  rewrite X. set (errs := map err (visible t f)).
  assert (G : map snd (filter (fun x => outlier RA p errs (fst x)) (combine errs (visible t f))) =
          filter (fun i => outlier RA p errs (err i)) (visible t f)).
  { unfold errs at 2. exact (filter_snd_combine (outlier RA p errs) err (visible t f)). }
  change (num RA) with R in *. rewrite G.
  destruct (remove_all_ok RA T t (filter (fun i => outlier RA p errs (err i)) (visible t f)) o f) as (o' & E & R & T1 & T2).
  - intros i Hi. apply filter_In in Hi. destruct Hi as (Hi & _). apply filter_In in Hi. now apply seq_bound.
  - exact H.
  - exists o', errs. split; [exact E | ]. split; [reflexivity | ]. split; [ | split; congruence].
    eapply repr_ext; [ | exact R]. intros i Hi. cbv beta. fold err.
    destruct (existsb (Nat.eqb i) (filter (fun i0 => outlier RA p errs (err i0)) (visible t f))) eqn:Ex.
    + apply existsb_exists in Ex. destruct Ex as (k & Hk & Q). apply Nat.eqb_eq in Q. subst k.
      apply filter_In in Hk. destruct Hk as (_ & Hk). now rewrite Hk.
    + destruct (outlier RA p errs (err i)) eqn:Eo; [ | reflexivity].
      destruct (f i) as [q | ] eqn:Ef; [ | reflexivity]. exfalso.
      assert (Y : existsb (Nat.eqb i) (filter (fun i0 => outlier RA p errs (err i0)) (visible t f)) = true).
      { apply existsb_exists. exists i. split; [ | apply Nat.eqb_refl]. apply filter_In. split; [ | exact Eo].
        apply filter_In. split; [apply in_seq; lia | ]. unfold seen_at. now rewrite Ef. }
      congruence.
Qed.
End Filter.
