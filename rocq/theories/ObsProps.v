(** C51: observations of a target, their extraction and the outlier filter. *)
From Coq Require Import ZArith Reals List Bool Lia Lra Sorted Permutation.
From Verif Require Import Base Arith RArith CcmModel CcmProofs JacProps TgtModel TgtProofs ObsSpec ObsProofs AprilProofs DetProofs.
Import ListNotations.
Open Scope nat_scope.

(** Whatever the history of updates, removals and changes of target, every
    query answers from the points seen now; updates and removals out of range
    are refused. *)
Theorem C51_history : forall A T (t : target A) (x : T) cs,
  target_ok t -> Forall (change_ok A) cs ->
  exists o, apply_changes A T cs (new_obs A T t x) = Ok o /\
    let s := fold_left (fun s c => see c s) cs (t, none_seen) in
    answers A T o (fst s) (snd s) /\
    (forall i p, tsize (fst s) <= i -> update_point A T i p o = Throw /\ remove_point A T i o = Throw) /\
    (forall i p, i < tsize (fst s) ->
       (exists o', update_point A T i p o = Ok o') /\ (exists o', remove_point A T i o = Ok o')).
Proof.
  intros A T t x cs Ht Hc.
  destruct (apply_changes_ok A T cs (new_obs A T t x) t none_seen (new_obs_repr A T t x) Ht Hc) as (o & E & R & K).
  exists o. split; [exact E | ]. cbv zeta. split; [now apply repr_answers | ]. split.
  - intros i p Hi. split; [now apply (update_out A T o _ _ i p R) | now apply (remove_out A T o _ _ i R)].
  - intros i p Hi. destruct (update_repr A T o _ _ i p R Hi) as (o1 & E1 & _).
    destruct (remove_repr A T o _ _ i R Hi) as (o2 & E2 & _). split; eauto.
Qed.
Print Assumptions C51_history.

Definition board : target ZA := Target (A := ZA) 2 2 [(0,0,0); (1,0,0); (0,1,0); (1,1,0)]%Z.
Example C51_ex_history :
  let cs := [Update (A := ZA) 2 (7, 8)%Z; Update (A := ZA) 0 (5, 6)%Z; Remove 2; Update (A := ZA) 3 (1, 2)%Z; Update (A := ZA) 9 (0, 0)%Z] in
  target_ok board /\ Forall (change_ok ZA) cs /\
  exists o, apply_changes ZA unit cs (new_obs ZA unit board tt) = Ok o /\
    corners_idx ZA unit o = Ok [0; 3] /\ corners_image ZA unit o = Ok [(5, 6); (1, 2)]%Z.
Proof.
  cbv zeta. split; [reflexivity | ]. split; [repeat constructor | ].
  eexists. split; [reflexivity | ]. split; reflexivity.
Qed.

(** Which detected tags are used. *)
Theorem C51_usable : forall (o : april_options RA) (t : target RA) (w h : R) (d : detection RA),
  usable RA o t w h d = true <->
  dgood d = true /\ (did d < Z.of_nat (tsize t / 4))%Z /\
  forall x y : R, In (x, y) (dcorners d) ->
    (min_border o <= x <= w - min_border o)%R /\ (min_border o <= y <= h - min_border o)%R.
Proof.
  intros o t w h d. unfold usable. rewrite !andb_true_iff, forallb_forall, Z.ltb_lt.
  assert (K : forall p : R * R, corner_inside RA o w h p = true <->
    (min_border o <= fst p <= w - min_border o)%R /\ (min_border o <= snd p <= h - min_border o)%R).
  { intros [x y]. unfold corner_inside. cbn [fst snd lt sub RA]. rewrite !andb_true_iff, !negb_true_iff, !rlt_false. tauto. }
  split.
  - intros ((H1 & H2) & H3). split; [exact H2 | ]. split; [exact H3 | ]. intros x y Hp. exact (proj1 (K (x, y)) (H1 _ Hp)).
  - intros (H2 & H3 & H1). split; [ | exact H3]. split; [ | exact H2]. intros [x y] Hp. apply K. now apply H1.
Qed.
Print Assumptions C51_usable.

(** Extraction of an Aprilgrid with empty outputs, as the detector calls it. *)
Theorem C51_april : forall (o : april_options RA) (t : target RA) tag_rows tag_cols (w h : R) refine
    (tags : list (detection RA)) (raw : list (R * R)),
  trows t = 2 * tag_rows -> tcols t = 2 * tag_cols ->
  (forall d, In d tags -> (0 <= did d)%Z /\ @length (R * R) (dcorners d) = 4) ->
  length raw = tsize t ->
  let used := filter (usable RA o t w h) tags in
  let result := observe RA o t w h refine tags raw [] [] in
  (length used < min_tags o -> result = Ok (Some (false, [], []))) /\
  (min_tags o <= length used -> ~ NoDup (map did used) -> result = Ok None) /\
  (min_tags o <= length used -> NoDup (map did used) ->
     exists s (ref : list (list (R * R))) (pts : list (R * R)) seen,
       result = Ok (Some (true, pts, seen)) /\
       Permutation s used /\ StronglySorted (fun a b => (did a < did b)%Z) s /\
       ref = (if do_subpix o then refine (map dcorners s) else map dcorners s) /\
       length pts = tsize t /\ length seen = tsize t /\
       (forall k d q j (x y x' y' : R), nth_error s k = Some d -> nth_error ref k = Some q ->
          nth_error (dcorners d) j = Some (x, y) -> nth_error q j = Some (x', y') ->
          nth_error pts (corner_index RA t (Z.to_nat (did d)) j) = Some (x', y') /\
          (nth_error seen (corner_index RA t (Z.to_nat (did d)) j) = Some true <->
             ((x' - x) ^ 2 + (y' - y) ^ 2 <= max_displacement2 o)%R)) /\
       (forall i, i < tsize t -> (forall d j, In d used -> j < 4 -> i <> corner_index RA t (Z.to_nat (did d)) j) ->
          nth_error seen i = Some false)).
Proof.
  intros o t tr tc w h refine tags raw Hr Hc Ht Hraw used result.
  destruct (observe_ok RA o t tr tc w h refine tags raw [] [] Hr Hc Ht Hraw) as (H1 & H2 & H3).
  split; [exact H1 | ]. split; [exact H2 | ]. intros M N.
  destruct (H3 M N) as (s & ref & pts & seen & E & P & Srt & Er & L1 & L2 & I & O).
  exists s, ref, pts, seen. split; [exact E | ]. split; [exact P | ]. split; [exact Srt | ]. split; [exact Er | ].
  split; [exact L1 | ]. split; [exact L2 | ]. split.
  - intros k d q j x y x' y' K1 K2 K3 K4. destruct (I k d q j (x, y) (x', y') K1 K2 K3 K4) as (I1 & I2).
    split; [exact I1 | ]. rewrite I2. unfold flag, displacement2. cbn [le add mul sub RA fst snd pow].
    rewrite !Rmult_1_r. rewrite <- rle_true. split; congruence.
  - intros i Hi F. destruct (O i Hi F) as (_ & O2). rewrite O2. unfold resize. rewrite firstn_nil. cbn [app length].
    rewrite Nat.sub_0_r. now apply nth_error_repeat.
Qed.
Print Assumptions C51_april.

Definition tag (id : Z) (x y : Z) : detection ZA :=
  Detection (A := ZA) id true [(x, y); (x + 4, y); (x + 4, y + 4); (x, y + 4)]%Z.
Definition options : april_options ZA := AprilOptions (A := ZA) false 1%Z 1 2%Z.
Definition two_tags : target ZA := Target (A := ZA) 2 4 [].
Example C51_ex_april :
  observe ZA options two_tags 100%Z 100%Z (fun c => c) [tag 1 20 10; tag 0 5 5; tag 3 40 40] (repeat (9, 9)%Z 8) [] []
  = Ok (Some (true, [(5,5); (9,5); (20,10); (24,10); (5,9); (9,9); (20,14); (24,14)]%Z, repeat true 8)) /\
  observe ZA options two_tags 100%Z 100%Z (fun c => c) [tag 1 20 10; tag 1 5 5] (repeat (9, 9)%Z 8) [] [] = Ok None /\
  observe ZA options two_tags 100%Z 100%Z (fun c => c) [tag 1 1 10] (repeat (9, 9)%Z 8) [] [] = Ok (Some (false, [], [])).
Proof. split; [reflexivity | split; reflexivity]. Qed.

(** A caller that reuses the flags of an earlier image gets corners reported as
    seen that are not in the new one. *)
Theorem C51_april_stale_refuted : exists (tags : list (detection ZA)) raw pts seen pts' seen',
  length seen = tsize two_tags /\ length pts = tsize two_tags /\
  observe ZA options two_tags 100%Z 100%Z (fun c => c) tags raw pts seen = Ok (Some (true, pts', seen')) /\
  (forall d j, In d (filter (usable ZA options two_tags 100%Z 100%Z) tags) -> j < 4 ->
     2 <> corner_index ZA two_tags (Z.to_nat (did d)) j) /\
  nth_error seen' 2 = Some true.
Proof.
  exists [tag 0 5 5], [], (repeat (1, 1)%Z 8), (repeat true 8). do 2 eexists.
  split; [reflexivity | ]. split; [reflexivity | ]. split; [reflexivity | ]. split; [ | reflexivity].
  intros d j Hd Hj. cbn in Hd. destruct Hd as [<- | []].
  destruct j as [ | [ | [ | [ | ]]]]; [ | | | | lia]; cbn; discriminate.
Qed.
Print Assumptions C51_april_stale_refuted.

(** findTarget on what the extraction found. *)
Theorem C51_find : forall T (p : detector_options RA) project estimate (t : target RA) ok
    (pts : list (R * R)) seen (o : observation RA T),
  target_ok t -> length seen = length pts -> length pts <= tsize t ->
  let f : sighting RA := fun i => match nth_error seen i with Some true => nth_error pts i | _ => None end in
  exists o', find_no_trafo RA T t (ok, pts, seen) o = Ok (ok, o') /\ answers RA T o' t f /\
    ((ok = false \/ estimate o' = None) ->
       find_target RA T p project estimate t (ok, pts, seen) o = Ok (false, o') /\
       otrafo_set o' = otrafo_set o) /\
    (forall x, ok = true -> estimate o' = Some x ->
       exists r g, find_target RA T p project estimate t (ok, pts, seen) o = Ok (true, r) /\
         answers RA T r t g /\ otrafo r = x /\ otrafo_set r = true /\
         (filter_outliers p = false -> g = f)).
Proof.
  intros T p project estimate t ok pts seen o Ht L B f.
  destruct (find_no_trafo_ok RA T t ok pts seen o L B) as (o' & E0 & R & T1 & T2).
  assert (E : find_no_trafo RA T t (ok, pts, seen) o = Ok (ok, o')) by exact E0. clear E0.
  exists o'. split; [exact E | ]. split; [now apply repr_answers | ]. split.
  - intro H. split; [ | exact T2]. unfold find_target. rewrite E. cbn [obind].
    destruct ok; [ | reflexivity]. destruct H as [H | H]; [discriminate | now rewrite H].
  - intros x -> Ex. unfold find_target. rewrite E. cbn [obind]. rewrite Ex.
    assert (R' := set_trafo_repr RA T o' t f x R).
    destruct (filter_outliers p).
    + destruct (filter_ok T p project (set_trafo RA T x o') t f Ht R' eq_refl) as (r & errs & E1 & _ & R1 & T3 & T4).
      rewrite E1. cbn [obind]. eexists r, _. split; [reflexivity | ]. split; [apply repr_answers; eassumption | ].
      split; [exact T3 | ]. split; [exact T4 | discriminate].
    + eexists _, f. split; [reflexivity | ]. split; [now apply repr_answers | ]. now repeat split.
Qed.
Print Assumptions C51_find.

(** The outlier filter removes exactly the corners whose reprojection error is
    more than [sigma] standard deviations above the mean and above the
    threshold. *)
Theorem C51_filter : forall T (p : detector_options RA) project estimate (t : target RA)
    (pts : list (R * R)) seen (o o' : observation RA T) x,
  target_ok t -> length seen = length pts -> length pts <= tsize t ->
  filter_outliers p = true ->
  find_no_trafo RA T t (true, pts, seen) o = Ok (true, o') -> estimate o' = Some x ->
  let f : sighting RA := fun i => match nth_error seen i with Some true => nth_error pts i | _ => None end in
  exists r (err : nat -> R) g,
    find_target RA T p project estimate t (true, pts, seen) o = Ok (true, r) /\ answers RA T r t g /\
    (forall i a b z q, point t i = Ok (a, b, z) -> f i = Some q -> err i = gap q (project x (a, b, 0%R))) /\
    let errs := map err (visible t f) in
    (forall i q, i < tsize t ->
       (g i = Some q <-> f i = Some q /\
          ~ (mean errs + sigma p * deviation errs < err i /\ min_error p < err i)%R)) /\
    ((0 < sigma p)%R ->
       length (visible t g) = length (visible t f) \/
       (INR (length (visible t f) - length (visible t g)) * (sigma p * sigma p) < INR (length (visible t f)))%R).
Proof.
  intros T p project estimate t pts seen o o' x Ht L B Hf E Ex f.
  destruct (find_no_trafo_ok RA T t true pts seen o L B) as (o1 & E0 & Rp & _ & _).
  assert (E1 : find_no_trafo RA T t (true, pts, seen) o = Ok (true, o1)) by exact E0. clear E0.
  assert (o1 = o') by congruence. subst o1.
  assert (R' := set_trafo_repr RA T o' t f x Rp).
  destruct (filter_ok T p project (set_trafo RA T x o') t f Ht R' eq_refl) as (r & errs & E2 & Ee & R1 & T3 & T4).
  cbn [set_trafo otrafo] in Ee, R1, T3. set (err := error_at T project x t f) in *.
  exists r, err. eexists. split; [ | split; [apply repr_answers; eassumption | ]].
  { unfold find_target. rewrite E. cbn [obind]. rewrite Ex, Hf, E2. reflexivity. }
  split.
  { intros i a b z q P Q. unfold err, error_at. now rewrite P, Q. }
  cbv zeta. rewrite <- Ee. split.
  - intros i q Hi. rewrite <- outlier_iff. destruct (outlier RA p errs (err i)).
    + split; [discriminate | ]. intros (_ & H). now elim H.
    + split; [intro H; split; [exact H | discriminate] | tauto].
  - intro Hk.
    assert (Cnt := count_removed f (fun i => outlier RA p errs (err i)) (seq 0 (tsize t))).
    fold (visible t f) in Cnt.
    assert (C2 : length (filter (outlier RA p errs) errs) = length (filter (fun i => outlier RA p errs (err i)) (visible t f))).
    { transitivity (length (filter (outlier RA p errs) (map err (visible t f)))); [now rewrite <- Ee | ].
      exact (count_map err (outlier RA p errs) (visible t f)). }
    rewrite <- C2 in Cnt. clear C2.
    change (filter (seen_at (A := RA) (fun i => if outlier RA p errs (err i) then None else f i)) (seq 0 (tsize t)))
      with (visible t (fun i => if outlier RA p errs (err i) then None else f i)) in Cnt.
    change (num RA) with R in Cnt.
    destruct (few_far errs (sigma p) (outlier RA p errs) Hk) as [N | N]; try change (num RA) with R in N.
    + intros e He. now apply outlier_iff in He.
    + left. rewrite N in Cnt. cbn [length] in Cnt. rewrite Nat.add_0_r in Cnt. exact Cnt.
    + right.
      assert (Ln : length (visible t f) = length errs) by (rewrite Ee; symmetry; apply map_length).
      rewrite <- Ln in N.
      assert (X : forall a c b, a + c = b -> b - a = c) by (intros; lia). apply X in Cnt.
      exact (eq_ind_r (fun z => (INR z * (sigma p * sigma p) < INR (length (visible t f)))%R) N Cnt).
Qed.
Print Assumptions C51_filter.

(** An observation used for an earlier image keeps its pose when the target is
    not found, and reprojects with it. *)
Theorem C51_stale_pose_refuted : exists (p : detector_options RA) project (estimate : observation RA nat -> option nat)
    (t : target RA) (o r : observation RA nat),
  target_ok t /\ otrafo_set o = true /\
  find_target RA nat p project estimate t (false, [], []) o = Ok (false, r) /\
  otrafo_set r = true /\ otrafo r = 7 /\ reprojection RA nat project r = Ok [].
Proof.
  exists (DetOptions (A := RA) false 2 0)%R, (fun _ _ => (0, 0)%R), (fun _ => None).
  exists (Target (A := RA) 0 0 []), (Obs (Target (A := RA) 0 0 []) [] [] 7 true). eexists.
  split; [reflexivity | ]. split; [reflexivity | ]. split; [reflexivity | ].
  split; [reflexivity | ]. split; reflexivity.
Qed.
Print Assumptions C51_stale_pose_refuted.

(** The detector's own use: a new observation carries a pose exactly when the
    search succeeded. *)
Theorem C51_fresh_pose : forall T (p : detector_options RA) project estimate (t t0 : target RA) ok
    (pts : list (R * R)) seen (x0 : T),
  target_ok t -> length seen = length pts -> length pts <= tsize t ->
  exists b r, find_target RA T p project estimate t (ok, pts, seen) (new_obs RA T t0 x0) = Ok (b, r) /\
    otrafo_set r = b.
Proof.
  intros T p project estimate t t0 ok pts seen x0 Ht L B.
  destruct (C51_find T p project estimate t ok pts seen (new_obs RA T t0 x0) Ht L B) as (o' & _ & _ & H1 & H2).
  destruct ok.
  - destruct (estimate o') as [x | ] eqn:Ex.
    + destruct (H2 x eq_refl eq_refl) as (r & g & E & _ & _ & S & _). now exists true, r.
    + destruct (H1 (or_intror eq_refl)) as (E & S). now exists false, o'.
  - destruct (H1 (or_introl eq_refl)) as (E & S). now exists false, o'.
Qed.
Print Assumptions C51_fresh_pose.

(** The hypotheses of the filter theorem are met: a board of one row of five,
    all seen, one far off. *)
Definition row5 : target RA := Target (A := RA) 1 5 [(0,0,0); (1,0,0); (2,0,0); (3,0,0); (4,0,0)]%R.
Example C51_ex_filter : exists (pts : list (R * R)) (seen : list bool) (o o' : observation RA unit),
  target_ok row5 /\ length seen = length pts /\ length pts <= tsize row5 /\
  find_no_trafo RA unit row5 (true, pts, seen) o = Ok (true, o') /\
  visible row5 (fun i => match nth_error seen i with Some true => nth_error pts i | _ => None end) = [0; 1; 2; 3; 4] /\
  mean [0; 0; 0; 0; 10]%R = 2%R /\ deviation [0; 0; 0; 0; 10]%R = 4%R.
Proof.
  exists [(0,0); (1,0); (2,0); (3,0); (4,10)]%R, (repeat true 5), (new_obs RA unit row5 tt). eexists.
  split; [reflexivity | ]. split; [reflexivity | ]. split; [unfold row5, tsize; cbn; lia | ].
  split; [reflexivity | ]. split; [reflexivity | ].
  assert (M : mean [0; 0; 0; 0; 10]%R = 2%R) by (unfold mean; cbn [sum length INR]; lra).
  split; [exact M | ]. unfold deviation. rewrite M. cbn [map sum length INR pow].
  replace ((0 - 2) * ((0 - 2) * 1) + ((0 - 2) * ((0 - 2) * 1) + ((0 - 2) * ((0 - 2) * 1) + ((0 - 2) * ((0 - 2) * 1) + ((10 - 2) * ((10 - 2) * 1) + 0)))))%R
    with 80%R by ring.
  replace (80 / (1 + 1 + 1 + 1 + 1))%R with (4 * 4)%R by lra. apply sqrt_square. lra.
Qed.
