(** * Proofs for spline design variables *)
From Coquelicot Require Import Coquelicot.
From Coq Require Import Reals List Arith ZArith Bool Lia Lra.
From Verif Require Import Base KinModel KinSpec KinProofs KinCurve TfModel TfSpec BsplModel BsplSpec BsplProofs BsdProofs
  BsplProps BsdProps BshModel BpModel BpSpec BpProofs SplModel SplSpec.
Import ListNotations.
Local Open Scope R_scope.

(** ** The variables stay aligned with the coefficients *)
Record aligned (sv : splvar) : Prop := {
  al_len : length (vars sv) = ncols (cv sv);
  al_col : forall i v, nth_error (vars sv) i = Some v -> mcol v = i;
  al_dup : NoDup (map mid (vars sv));
  al_fresh : forall v, In v (vars sv) -> (mid v < fresh sv)%nat
}.

Lemma create_aligned b : aligned (create b).
Proof.
  unfold create. split; cbn [vars cv fresh].
  - rewrite map_length, seq_length. reflexivity.
  - intros i v E. rewrite nth_error_map in E. destruct (nth_error (seq 0 (ncols b)) i) as [ j | ] eqn:E'; [ | discriminate ].
    cbn in E. assert (L : (i < length (seq 0 (ncols b)))%nat) by (apply nth_error_Some; congruence).
    rewrite seq_length in L. apply nth_error_nth with (d := 0%nat) in E'. rewrite seq_nth in E' by exact L.
    assert (v = Mapped j j (col b j)) by congruence. subst v. cbn [mcol]. lia.
  - rewrite map_map. cbn [mid]. rewrite map_id. apply seq_NoDup.
  - intros v Hv. apply in_map_iff in Hv. destruct Hv as (i & <- & Hi). apply in_seq in Hi. cbn [mid]. lia.
Qed.

Lemma remap_spec b : forall n i vs vs', remap b i n vs = Ok vs' ->
  (n <= length vs)%nat /\ map mid vs' = map mid vs /\
  (forall m v', nth_error vs' m = Some v' -> if (m <? n)%nat then mcol v' = (i + m)%nat /\ mprev v' = col b (i + m) else nth_error vs m = Some v').
Proof.
  induction n as [ | n IH ]; intros i vs vs' E.
  - cbn [remap] in E. assert (vs' = vs) by congruence. subst vs'. split; [ lia | ]. split; [ reflexivity | ].
    intros m v' H. cbn [Nat.ltb Nat.leb]. exact H.
  - cbn [remap] in E. destruct vs as [ | v vs ]; [ discriminate | ].
    destruct (remap b (S i) n vs) as [ r' | | | ] eqn:E'; cbn [obind] in E; try discriminate.
    assert (vs' = Mapped (mid v) i (col b i) :: r') by congruence. subst vs'.
    destruct (IH _ _ _ E') as (L & M & N). split; [ cbn [length]; lia | ]. split; [ cbn [map mid]; rewrite M; reflexivity | ].
    intros m v' H. destruct m as [ | m ].
    + cbn [nth_error] in H. assert (v' = Mapped (mid v) i (col b i)) by congruence. subst v'.
      change (0 <? S n)%nat with true. cbv iota. cbn [mcol mprev]. rewrite Nat.add_0_r. split; reflexivity.
    + cbn [nth_error] in H. specialize (N m v' H). change (S m <? S n)%nat with (m <? n)%nat.
      destruct (m <? n)%nat; [ | exact N ]. replace (i + S m)%nat with (S i + m)%nat by lia. exact N.
Qed.

Lemma remap_total b : forall n i vs, (n <= length vs)%nat -> exists vs', remap b i n vs = Ok vs'.
Proof.
  induction n as [ | n IH ]; intros i vs L; [ exists vs; reflexivity | ].
  destruct vs as [ | v vs ]; [ cbn in L; lia | ]. cbn [length] in L.
  destruct (IH (S i) vs ltac:(lia)) as (r & E). cbn [remap]. rewrite E. cbn [obind]. eexists. reflexivity.
Qed.

Lemma with_prev_mid sv id p : map mid (with_prev sv id p) = map mid (vars sv).
Proof.
  unfold with_prev. rewrite map_map. apply map_ext. intros v. destruct (mid v =? id)%nat; reflexivity.
Qed.
Lemma with_prev_nth sv id p i v : nth_error (with_prev sv id p) i = Some v ->
  exists w, nth_error (vars sv) i = Some w /\ mid v = mid w /\ mcol v = mcol w /\ mprev v = if (mid w =? id)%nat then p else mprev w.
Proof.
  unfold with_prev. rewrite nth_error_map. destruct (nth_error (vars sv) i) as [ w | ]; [ | discriminate ].
  cbn [option_map]. intros E. exists w. split; [ reflexivity | ].
  destruct (mid w =? id)%nat; (assert (X := E); injection X as X; subst v); cbn [mid mcol mprev]; auto.
Qed.

Lemma aligned_same sv sv' : aligned sv -> ncols (cv sv') = ncols (cv sv) -> fresh sv' = fresh sv ->
  map mid (vars sv') = map mid (vars sv) ->
  (forall i v, nth_error (vars sv') i = Some v -> exists w, nth_error (vars sv) i = Some w /\ mcol v = mcol w) -> aligned sv'.
Proof.
  intros [L C D F] N FR M H. split.
  - rewrite N, <- L. rewrite <- (map_length mid), M, map_length. reflexivity.
  - intros i v E. destruct (H _ _ E) as (w & E' & ->). exact (C _ _ E').
  - rewrite M. exact D.
  - intros v Hv. rewrite FR. apply (in_map mid) in Hv. rewrite M in Hv. apply in_map_iff in Hv.
    destruct Hv as (w & <- & Hw). exact (F w Hw).
Qed.

Lemma add_segment_ncols solve junk b t n p b' : add_segment solve junk b t n p = Ok b' -> ncols b' = (ncols b + 1)%nat.
Proof.
  unfold add_segment. intros E.
  destruct (t_max b) as [ tm | | | ]; cbn [obind] in E; try discriminate.
  destruct (rltb tm t); [ | discriminate ]. destruct (n =? dim b)%nat; [ | discriminate ].
  destruct (isub (num_segments b) 1) as [ n1 | | | ]; cbn [obind] in E; try discriminate.
  destruct (time_interval b n1) as [ [i0 i1] | | | ]; cbn [obind] in E; try discriminate.
  destruct (eval b i1) as [ p0 | | | ]; cbn [obind] in E; try discriminate.
  destruct (compute_T_index b i0) as [ [w s] | | | ]; cbn [obind] in E; try discriminate.
  destruct (vat (knots b) (s + 1)) as [ kk | | | ]; cbn [obind] in E; try discriminate.
  match type of E with context [set_knots_and_coefs ?a ?b ?c ?d ?e] => destruct (set_knots_and_coefs a b c d e) as [ b2 | | | ] eqn:E2 end;
    cbn [obind] in E; try discriminate.
  assert (N2 : ncols b2 = (ncols b + 1)%nat).
  { unfold set_knots_and_coefs in E2.
    match type of E2 with context [verify_knots ?a ?b ?c] => destruct (verify_knots a b c) end; cbn [obind] in E2; try discriminate.
    match type of E2 with context [if ?c then _ else _] => destruct c end; try discriminate.
    match type of E2 with context [init_bases ?a ?b] => destruct (init_bases a b) as [ bs | | | ] end; cbn [obind] in E2; try discriminate.
    assert (X := E2). injection X as X. subst b2. reflexivity. }
  destruct (time_interval b2 (num_segments b)) as [ [t0 t1] | | | ]; cbn [obind] in E; try discriminate.
  destruct (local_coef_vector b2 t0) as [ fx | | | ]; cbn [obind] in E; try discriminate.
  destruct (Phi b2 t0 0) as [ P0 | | | ]; cbn [obind] in E; try discriminate.
  destruct (Phi b2 t1 0) as [ P1 | | | ]; cbn [obind] in E; try discriminate.
  destruct (isub (ncols b2) 2) as [ c2 | | | ]; cbn [obind] in E; try discriminate.
  injection E as <-. exact N2.
Qed.

(** What a successful extension or removal leaves. *)
Lemma added_spec sv b' : aligned sv -> ncols b' = (ncols (cv sv) + 1)%nat ->
  exists sv', added sv b' = Ok sv' /\ aligned sv' /\ cv sv' = b' /\ fresh sv' = S (fresh sv) /\
    map mid (vars sv') = map mid (vars sv) ++ [fresh sv] /\
    forall i v, nth_error (vars sv') i = Some v -> mprev v = col b' i.
Proof.
  intros [L C D F] N. unfold added. unfold isub. destruct (Nat.ltb_spec (ncols b') 1) as [ Q | Q ]; [ lia | ]. cbn [obind].
  set (nv := Mapped (fresh sv) (ncols b' - 1) (col b' (ncols b' - 1))).
  destruct (remap_total b' (ncols b' - 1) 0 (vars sv ++ [nv])) as (vs' & E); [ rewrite app_length; cbn [length]; lia | ].
  rewrite E. cbn [obind]. exists (Spl b' vs' (S (fresh sv))). split; [ reflexivity | ].
  destruct (remap_spec _ _ _ _ _ E) as (_ & M & H).
  assert (M' : map mid vs' = map mid (vars sv) ++ [fresh sv]) by (rewrite M, map_app; reflexivity).
  assert (LV : length vs' = ncols b').
  { rewrite <- (map_length mid), M', app_length, map_length. cbn [length]. lia. }
  assert (NTH : forall i v, nth_error vs' i = Some v -> mcol v = i /\ mprev v = col b' i).
  { intros i v Ei. specialize (H i v Ei). destruct (Nat.ltb_spec i (ncols b' - 1)) as [ Q1 | Q1 ]; [ exact H | ].
    assert (Li : (i < length vs')%nat) by (apply nth_error_Some; congruence).
    rewrite nth_error_app2 in H by lia. replace (i - length (vars sv))%nat with 0%nat in H by lia. cbn [nth_error] in H.
    injection H as <-. unfold nv. cbn [mcol mprev]. assert (i = (ncols b' - 1)%nat) by lia. subst i. split; reflexivity. }
  split.
  - split; cbn [vars cv fresh].
    + exact LV.
    + intros i v Ei. apply (NTH i v Ei).
    + rewrite M'. assert (NI : ~ In (fresh sv) (map mid (vars sv))).
      { intros Hin. apply in_map_iff in Hin. destruct Hin as (w & Ew & Hw). specialize (F w Hw). lia. }
      clear - D NI. revert D NI. generalize (fresh sv), (map mid (vars sv)). intros x0 ms D NI.
      induction ms as [ | a r IH ]; [ constructor; [ intros [] | constructor ] | ].
      inversion D as [ | x y Na Nr ]; subst. cbn [app]. constructor.
      * intros Hin. apply in_app_or in Hin. destruct Hin as [ Hin | [ -> | [] ] ]; [ exact (Na Hin) | apply NI; left; reflexivity ].
      * apply IH; [ exact Nr | intros Hin; apply NI; right; exact Hin ].
    + intros v Hv. apply (in_map mid) in Hv. rewrite M' in Hv. apply in_app_or in Hv. destruct Hv as [ Hv | [ <- | [] ] ]; [ | lia ].
      apply in_map_iff in Hv. destruct Hv as (w & Ew & Hw). specialize (F w Hw). lia.
  - cbn [cv fresh vars]. split; [ reflexivity | ]. split; [ reflexivity | ]. split; [ exact M' | ].
    intros i v Ei. apply (NTH i v Ei).
Qed.

Lemma remove_spec sv sv' : aligned sv -> remove_seg sv = Ok sv' ->
  aligned sv' /\ cv sv' = remove_segment (cv sv) /\ fresh sv' = fresh sv /\ map mid (vars sv') = tl (map mid (vars sv)) /\
  ncols (cv sv) = S (ncols (cv sv')).
Proof.
  intros [L C D F] E. unfold remove_seg in E. destruct (vars sv) as [ | v0 r ] eqn:EV; [ discriminate | ].
  destruct (remap (remove_segment (cv sv)) 0 (ncols (remove_segment (cv sv))) r) as [ vs | | | ] eqn:ER; cbn [obind] in E; try discriminate.
  injection E as <-. cbn [cv vars fresh]. destruct (remap_spec _ _ _ _ _ ER) as (LE & M & H). cbn [length] in L.
  assert (NC : ncols (remove_segment (cv sv)) = length r).
  { unfold remove_segment in *. destruct (knots (cv sv)); [ lia | ]. destruct (Nat.ltb_spec 0 (ncols (cv sv))); cbn [ncols] in *; lia. }
  split; [ | split; [ reflexivity | split; [ reflexivity | split; [ exact M | cbn [cv]; lia ] ] ] ].
  assert (LV : length vs = length r) by (rewrite <- (map_length mid), M, map_length; reflexivity).
  cbn [map] in D. inversion D as [ | x y Na Nr ]; subst. split; cbn [vars cv fresh].
  - lia.
  - intros i v Ei. specialize (H i v Ei). assert (Li : (i < length vs)%nat) by (apply nth_error_Some; congruence).
    destruct (Nat.ltb_spec i (ncols (remove_segment (cv sv)))) as [ Q | Q ]; [ exact (proj1 H) | lia ].
  - rewrite M. exact Nr.
  - intros v Hv. apply (in_map mid) in Hv. rewrite M in Hv. apply in_map_iff in Hv. destruct Hv as (w & <- & Hw).
    apply F. right. exact Hw.
Qed.

Lemma step_aligned sv o sv' : aligned sv -> step sv o = Ok sv' -> aligned sv'.
Proof.
  intros A E. destruct o as [ id dp | id | id x | solve junk t n p | solve junk K t T | ]; cbn [step] in E.
  - unfold update in E. destruct (object sv id) as [ v | | | ]; cbn [obind] in E; try discriminate. injection E as <-.
    apply (aligned_same sv); [ exact A | reflexivity | reflexivity | apply with_prev_mid | ].
    cbn [vars]. intros i w Ei. destruct (with_prev_nth _ _ _ _ _ Ei) as (z & Ez & _ & EC & _). exists z. split; assumption.
  - unfold revert in E. destruct (object sv id) as [ v | | | ]; cbn [obind] in E; try discriminate. injection E as <-.
    apply (aligned_same sv); [ exact A | reflexivity | reflexivity | reflexivity | ].
    cbn [vars]. intros i w Ei. exists w. split; [ exact Ei | reflexivity ].
  - unfold set_parameters in E. destruct (object sv id) as [ v | | | ]; cbn [obind] in E; try discriminate. injection E as <-.
    apply (aligned_same sv); [ exact A | reflexivity | reflexivity | apply with_prev_mid | ].
    cbn [vars]. intros i w Ei. destruct (with_prev_nth _ _ _ _ _ Ei) as (z & Ez & _ & EC & _). exists z. split; assumption.
  - unfold add_seg in E. destruct (add_segment solve junk (cv sv) t n p) as [ b' | | | ] eqn:EA; cbn [obind] in E; try discriminate.
    destruct (added_spec sv b' A (add_segment_ncols _ _ _ _ _ _ _ EA)) as (s & Es & As & _).
    assert (s = sv') by congruence. subst s. exact As.
  - unfold add_pose_seg, add_pose_segment in E. destruct (add_segment solve junk (cv sv) t 6 (T_to_curve K T)) as [ b' | | | ] eqn:EA; cbn [obind] in E; try discriminate.
    destruct (added_spec sv b' A (add_segment_ncols _ _ _ _ _ _ _ EA)) as (s & Es & As & _).
    assert (s = sv') by congruence. subst s. exact As.
  - exact (proj1 (remove_spec sv sv' A E)).
Qed.

Lemma run_aligned : forall ops sv sv', aligned sv -> run sv ops = Ok sv' -> aligned sv'.
Proof.
  induction ops as [ | o r IH ]; intros sv sv' A E; cbn [run] in E.
  - injection E as <-. exact A.
  - destruct (step sv o) as [ s | | | ] eqn:ES; cbn [obind] in E; try discriminate.
    exact (IH s sv' (step_aligned sv o s A ES) E).
Qed.
Lemma reachable_aligned sv : reachable sv -> aligned sv.
Proof. intros (b & ops & E). exact (run_aligned ops (create b) sv (create_aligned b) E). Qed.

(** ** Looking up objects *)
Lemma find_nth (vs : list mapped) : NoDup (map mid vs) -> forall i v, nth_error vs i = Some v ->
  find (fun w => (mid w =? mid v)%nat) vs = Some v.
Proof.
  induction vs as [ | a r IH ]; intros D i v E; [ destruct i; discriminate | ].
  cbn [map] in D. inversion D as [ | x y Na Nr ]; subst. destruct i as [ | i ]; cbn [nth_error] in E.
  - injection E as ->. cbn [find]. rewrite Nat.eqb_refl. reflexivity.
  - cbn [find]. destruct (Nat.eqb_spec (mid a) (mid v)) as [ Q | Q ]; [ | exact (IH Nr i v E) ].
    exfalso. apply Na. rewrite Q. apply in_map. exact (nth_error_In _ _ E).
Qed.
Lemma object_at sv i v : aligned sv -> nth_error (vars sv) i = Some v -> object sv (mid v) = Ok v.
Proof. intros A E. unfold object. rewrite (find_nth _ (al_dup _ A) i v E). reflexivity. Qed.
Lemma aligned_var sv i : aligned sv -> (i < ncols (cv sv))%nat -> exists v, nth_error (vars sv) i = Some v /\
  design_variable sv i = Ok (mid v) /\ object sv (mid v) = Ok v /\ mcol v = i.
Proof.
  intros A L. destruct (nth_error (vars sv) i) as [ v | ] eqn:E.
  - exists v. split; [ reflexivity | ]. split; [ unfold design_variable; rewrite E; reflexivity | ].
    split; [ exact (object_at sv i v A E) | exact (al_col _ A i v E) ].
  - exfalso. apply nth_error_None in E. rewrite (al_len _ A) in E. lia.
Qed.
Lemma design_var_inv sv i id : aligned sv -> design_variable sv i = Ok id ->
  exists v, nth_error (vars sv) i = Some v /\ id = mid v /\ object sv id = Ok v /\ mcol v = i /\ (i < ncols (cv sv))%nat.
Proof.
  intros A E. unfold design_variable in E. destruct (nth_error (vars sv) i) as [ v | ] eqn:EV; [ | discriminate ].
  exists v. assert (id = mid v) by congruence. subst id. split; [ reflexivity | ]. split; [ reflexivity | ].
  split; [ exact (object_at sv i v A EV) | ]. split; [ exact (al_col _ A i v EV) | ].
  rewrite <- (al_len _ A). apply nth_error_Some. congruence.
Qed.
Lemma alive_at sv i v : nth_error (vars sv) i = Some v -> alive sv (mid v) = true.
Proof.
  intros E. unfold alive. apply existsb_exists. exists v. split; [ exact (nth_error_In _ _ E) | apply Nat.eqb_refl ].
Qed.

(** ** Nodes *)
Lemma pick_spec vs : forall idx, (forall i, In i idx -> (i < length vs)%nat) -> exists ids, pick vs idx = Ok ids /\
  length ids = length idx /\
  forall m, (m < length idx)%nat -> exists v, nth_error vs (nth m idx 0%nat) = Some v /\ nth m ids 0%nat = mid v.
Proof.
  induction idx as [ | i r IH ]; intros H.
  - exists []. split; [ reflexivity | ]. split; [ reflexivity | ]. intros m Lm. cbn in Lm. lia.
  - destruct IH as (ids & E & L & N). { intros j Hj. apply H. right. exact Hj. }
    destruct (nth_error vs i) as [ v | ] eqn:EV.
    + exists (mid v :: ids). cbn [pick]. rewrite EV, E. cbn [obind]. split; [ reflexivity | ].
      split; [ cbn [length]; lia | ]. intros m Lm. destruct m as [ | m ]; cbn [nth].
      * exists v. split; [ exact EV | reflexivity ].
      * apply N. cbn [length] in Lm. lia.
    + exfalso. apply nth_error_None in EV. specialize (H i (or_introl eq_refl)). lia.
Qed.

Lemma indices_both b t idx : local_coef_indices b t = Ok idx ->
  exists f, idx = seq (f * dim b) (order b * dim b) /\ local_vv_indices b t = Ok (seq f (order b)).
Proof.
  unfold local_coef_indices, local_vv_indices. intros E.
  destruct (compute_T_index b t) as [ [w s] | | | ]; cbn [obind] in *; try discriminate.
  destruct (isub (s + 1) (order b)) as [ f | | | ]; cbn [obind] in *; try discriminate.
  exists f. unfold index_range in *. split; [ congruence | reflexivity ].
Qed.

(** A node in the state it is used in: its variables are those of the
    coefficients around its time. *)
Definition fits (sv : splvar) (n : node) : Prop := variables_at sv (ntime n) = Ok (nvars n).

Lemma applied_shift {A} (w : nat) (f : A -> R) (J : nat -> A) rate : forall ids a u,
  (forall i j, (i < length ids)%nat -> (j < w)%nat -> u ((a + i) * w + j)%nat = rate (nth i ids 0%nat) j) ->
  applied w f (map (fun p => (snd p, fun j => J (fst p * w + j)%nat)) (combine (seq a (length ids)) ids)) rate =
  bsum (length ids * w) (fun m => f (J (a * w + m)%nat) * u (a * w + m)%nat).
Proof.
  induction ids as [ | id r IH ]; intros a u U; [ reflexivity | ].
  cbn [length seq combine map applied fst snd]. rewrite (IH (S a) u).
  - change (S (length r) * w)%nat with (w + length r * w)%nat. rewrite bsum_app. f_equal.
    + rewrite <- bsum_total. apply bsum_ext. intros j Lj. specialize (U 0%nat j ltac:(cbn [length]; lia) Lj).
      rewrite Nat.add_0_r in U. cbn [nth] in U. rewrite U. reflexivity.
    + apply bsum_ext. intros m _. replace (S a * w + m)%nat with (a * w + (w + m))%nat by lia. reflexivity.
  - intros i j Li Lj. replace (S a + i)%nat with (a + S i)%nat by lia. rewrite U by (cbn [length]; lia). reflexivity.
Qed.
Lemma applied_blocks {A} (w k : nat) (f : A -> R) (J : nat -> A) rate ids u : length ids = k ->
  (forall i j, (i < k)%nat -> (j < w)%nat -> u (i * w + j)%nat = rate (nth i ids 0%nat) j) ->
  applied w f (blocks w J ids) rate = total (k * w) (fun m => f (J m) * u m).
Proof.
  intros L U. unfold blocks. rewrite (applied_shift w f J rate ids 0 u) by (rewrite L; exact U).
  rewrite L, bsum_total. reflexivity.
Qed.
Lemma applied_chained {A} (w : nat) (g : vec -> R) (f : A -> vec) rate : forall es,
  applied w g (chained f es) rate = applied w (fun x => g (f x)) es rate.
Proof. induction es as [ | [id B] r IH ]; [ reflexivity | ]. cbn [chained map applied fst snd]. unfold chained in IH. rewrite IH. reflexivity. Qed.

(** ** A curve of any dimension with moving coefficients *)
Lemma curve_moves_D k l D C c b d t y yd bs : (1 <= D)%nat ->
  built k l D C c b -> nondecreasing l -> long_end k l -> first_time k l <= t <= last_time k l -> (0 <= d)%Z ->
  moving b (D * C) y yd bs ->
  exists v J idx (V : R -> vec), eval_D_and_jacobian b t d = Ok (v, J, idx) /\ eval_D b t d = Ok v /\
    local_coef_indices b t = Ok idx /\ (forall i, In i idx -> (i < D * C)%nat) /\ (forall s, eval_D (bs s) t d = Ok (V s)) /\
    (forall r, (r < D)%nat -> V 0 r = v r) /\
    (forall r, (r < D)%nat -> is_derive (fun s => V s r) 0 (total (k * D) (fun m => J r m * picked yd idx m))).
Proof.
  intros D1 H ND LE I PD (M1 & M2 & M3).
  destruct (C65_jacobian k l D C c b d t H ND LE I PD D1) as (v & J & idx & lc & E & EV & _ & EI & LI & BI & _ & _ & CH).
  exists v, J, idx, (fun s => match eval_D (bs s) t d with Ok w => w | _ => fun _ => 0 end).
  assert (KEY : forall s, exists w, eval_D (bs s) t d = Ok w /\ forall r, (r < D)%nat -> w r =
    v r + total (k * D) (fun m => J r m * (y s (nth m idx 0%nat) - coef_vector b (nth m idx 0%nat)))).
  { intros s. destruct (CH (y s)) as (b' & v' & E1 & _ & E2 & X). rewrite M1 in E1.
    assert (b' = bs s) by congruence. subst b'. exists v'. split; [ exact E2 | ].
    intros r Lr. rewrite <- (X r Lr). ring. }
  split; [ exact E | ]. split; [ exact EV | ]. split; [ exact EI | ]. split; [ exact BI | ].
  split. { intros s. destruct (KEY s) as (w & -> & _). reflexivity. }
  set (V := fun s : R => match eval_D (bs s) t d with Ok w => w | _ => fun _ : nat => 0 end).
  assert (VK : forall s r, (r < D)%nat -> V s r =
    v r + total (k * D) (fun m => J r m * (y s (nth m idx 0%nat) - coef_vector b (nth m idx 0%nat)))).
  { intros s r Lr. unfold V. destruct (KEY s) as (w & -> & X). apply X. exact Lr. }
  assert (IN : forall m, (m < k * D)%nat -> (nth m idx 0%nat < D * C)%nat).
  { intros m Lm. apply BI. apply nth_In. rewrite LI. exact Lm. }
  split.
  { intros r Lr. change (V 0 r = v r). rewrite VK by exact Lr.
    replace (total (k * D) _) with (total (k * D) (fun m => 0 * 0)).
    - rewrite total_scale. ring.
    - apply total_ext. intros m Lm. rewrite M2 by (apply IN; exact Lm). ring. }
  intros r Lr. apply (is_derive_ext (fun s => v r + total (k * D) (fun m => J r m * (y s (nth m idx 0%nat) - coef_vector b (nth m idx 0%nat))))).
  { intros s. symmetry. apply VK. exact Lr. }
  replace (total (k * D) (fun m => J r m * picked yd idx m)) with (0 + total (k * D) (fun m => J r m * picked yd idx m)) by ring.
  apply (is_derive_plus (fun _ => v r)); [ exact (@is_derive_const _ R_NormedModule _ _) | ].
  apply (bsum_derive (k * D) (fun m s => J r m * (y s (nth m idx 0%nat) - coef_vector b (nth m idx 0%nat)))).
  intros m Lm. pose proof (M3 _ (IN m Lm)) as DD. unfold picked.
  pose proof (is_derive_scal _ 0 (J r m) _ (is_derive_minus _ (fun _ => coef_vector b (nth m idx 0%nat)) 0 _ _ DD (@is_derive_const _ R_NormedModule _ _))) as X.
  eapply eq_rect; [ exact X | ].
  match goal with |- ?a = ?b => change (@eq R a b) end. unfold minus, plus, opp, zero, mult. cbn. ring.
Qed.

(** What the motion of the variables is in terms of the coefficients, for the
    variables of a node. *)
Lemma node_rates sv n k l D C c rate y yd bs svs idx : (1 <= D)%nat ->
  aligned sv -> built k l D C c (cv sv) -> nondecreasing l -> fits sv n ->
  moving (cv sv) (D * C) y yd bs -> (forall s, svs s = Spl (bs s) (vars sv) (fresh sv)) ->
  (forall i id, design_variable sv i = Ok id -> forall r, (r < dim (cv sv))%nat ->
      is_derive (fun s => component (value_of (svs s) id) r) 0 (rate id r)) ->
  local_coef_indices (cv sv) (ntime n) = Ok idx -> (forall i, In i idx -> (i < D * C)%nat) ->
  length (nvars n) = k /\ forallb (alive sv) (nvars n) = true /\
  forall i j, (i < k)%nat -> (j < D)%nat -> picked yd idx (i * D + j) = rate (nth i (nvars n) 0%nat) j.
Proof.
  intros D1 A H ND FT (M1 & M2 & M3) SV RT EI BI.
  destruct (built_wf _ _ _ _ _ _ H ND) as [W [O [K [DD [NC [CO [K2 [CC LL]]]]]]]].
  destruct (indices_both _ _ _ EI) as (f & IX & EV). rewrite O, DD in IX. rewrite O in EV.
  assert (FB : (f + k <= C)%nat).
  { assert (X : (f * D + (k * D - 1) < D * C)%nat).
    { apply BI. rewrite IX. apply in_seq. assert (1 <= k * D)%nat by nia. lia. }
    nia. }
  destruct (pick_spec (vars sv) (seq f k)) as (ids & EP & LP & NP).
  { intros i Hi. apply in_seq in Hi. rewrite (al_len _ A), NC. lia. }
  unfold fits, variables_at in FT. rewrite EV in FT. cbn [obind] in FT. assert (ids = nvars n) by congruence. subst ids.
  rewrite seq_length in LP, NP. split; [ exact LP | ]. split.
  { apply forallb_forall. intros id Hid. apply (In_nth _ _ 0%nat) in Hid. destruct Hid as (m & Lm & <-).
    destruct (NP m) as (v & Ev & ->); [ lia | ]. exact (alive_at sv _ v Ev). }
  intros i j Li Lj. destruct (NP i Li) as (v & Ev & ->). rewrite seq_nth in Ev by exact Li.
  assert (DV : design_variable sv (f + i) = Ok (mid v)) by (unfold design_variable; rewrite Ev; reflexivity).
  specialize (RT _ _ DV j ltac:(rewrite DD; exact Lj)).
  unfold picked. rewrite IX. assert (L2 : (i * D + j < k * D)%nat) by nia. rewrite seq_nth by exact L2.
  assert (EQ : (f * D + (i * D + j) = (f + i) * D + j)%nat) by nia. rewrite EQ.
  assert (LC : ((f + i) * D + j < D * C)%nat) by nia.
  specialize (M3 _ LC). apply is_derive_unique in M3, RT. rewrite <- M3, <- RT.
  apply Derive_ext. intros s. rewrite SV. unfold value_of, object. cbn [vars cv].
  rewrite (find_nth _ (al_dup _ A) _ _ Ev). cbn [obind component]. unfold col.
  rewrite (al_col _ A _ _ Ev). specialize (M1 s). unfold set_coef_vector in M1. rewrite DD, NC, Nat.eqb_refl in M1.
  injection M1 as <-. cbn [coef]. reflexivity.
Qed.

Lemma applied_plus {A} (w : nat) (f g : A -> R) rate : forall es,
  applied w (fun x => f x + g x) es rate = applied w f es rate + applied w g es rate.
Proof.
  induction es as [ | [id B] r IH ]; cbn [applied]; [ ring | ]. rewrite IH.
  replace (total w (fun j => (f (B j) + g (B j)) * rate id j))
    with (total w (fun j => f (B j) * rate id j) + total w (fun j => g (B j) * rate id j)).
  - ring.
  - rewrite <- total_plus. apply total_ext. intros j _. ring.
Qed.
Lemma applied_scal {A} (w : nat) (a : R) (f : A -> R) rate : forall es,
  applied w (fun x => a * f x) es rate = a * applied w f es rate.
Proof.
  induction es as [ | [id B] r IH ]; cbn [applied]; [ ring | ]. rewrite IH.
  replace (total w (fun j => a * f (B j) * rate id j)) with (a * total w (fun j => f (B j) * rate id j)).
  - ring.
  - rewrite <- total_scale. apply total_ext. intros j _. ring.
Qed.
Lemma applied_dot {A} (w : nat) (a : v3) (f : A -> v3) rate es :
  applied w (fun x => v3_dot a (f x)) es rate =
  v3_dot a (V3 (applied w (fun x => x0 (f x)) es rate) (applied w (fun x => x1 (f x)) es rate) (applied w (fun x => x2 (f x)) es rate)).
Proof. unfold v3_dot. rewrite !applied_plus, !applied_scal. cbn [x0 x1 x2]. reflexivity. Qed.
Lemma chain6_applied B es rate r :
  applied 6 (fun x => x r) (chained (chain6 B) es) rate =
  v3_dot (hd3 (B r)) (hd3 (applied6 es rate)) + v3_dot (tl3 (B r)) (tl3 (applied6 es rate)).
Proof.
  rewrite applied_chained. unfold chain6. rewrite applied_plus, !applied_dot. reflexivity.
Qed.
Lemma chain3_applied B es rate r :
  applied 6 (fun x => x r) (three_chain B es) rate = v3_dot (B r) (applied3 (fun x => x) es rate).
Proof.
  unfold three_chain. rewrite applied_chained. unfold chain3. rewrite applied_dot. reflexivity.
Qed.
Lemma applied_sum {A} (w D : nat) (a : nat -> R) (f : A -> nat -> R) rate es :
  applied w (fun x => bsum D (fun i => a i * f x i)) es rate = bsum D (fun i => a i * applied w (fun x => f x i) es rate).
Proof.
  induction D as [ | D IH ]; cbn [bsum].
  - induction es as [ | [id B] r IHe ]; cbn [applied]; [ reflexivity | ]. rewrite IHe.
    replace (total w (fun j => 0 * rate id j)) with 0; [ ring | ].
    rewrite total_scale. ring.
  - rewrite applied_plus, IH, applied_scal. reflexivity.
Qed.

(** ** Values behind the Jacobians *)
Lemma eval_and_jacobian b t d v J idx : eval_D_and_jacobian b t d = Ok (v, J, idx) -> eval_D b t d = Ok v.
Proof.
  unfold eval_D_and_jacobian, eval_D. destruct (weights b t d) as [ [f w] | | | ]; cbn [obind]; try discriminate.
  destruct (coef_block b f); cbn [obind]; try discriminate. intros X. injection X as <- _ _. reflexivity.
Qed.
Lemma transformation_value K b t T J idx : transformation_J K b t = Ok (T, J, idx) -> transformation K b t = Ok T.
Proof.
  unfold transformation_J, transformation, eval. destruct (eval_D_and_jacobian b t 0) as [ [[v js] ix] | | | ] eqn:E; cbn [obind]; try discriminate.
  rewrite (eval_and_jacobian _ _ _ _ _ _ E). cbn [obind curve_to_T_J]. intros X. injection X as <- _ _. reflexivity.
Qed.
Lemma orientation_value K b t T J idx : orientation_J K b t = Ok (T, J, idx) -> orientation K b t = Ok T.
Proof.
  unfold orientation_J, orientation, eval. destruct (eval_D_and_jacobian b t 0) as [ [[v js] ix] | | | ] eqn:E; cbn [obind]; try discriminate.
  rewrite (eval_and_jacobian _ _ _ _ _ _ E). cbn [obind]. intros X. injection X as <- _ _. reflexivity.
Qed.

(** ** The blocks of a node *)
Section NODE.
Context (sv : splvar) (n : node) (k : nat) (l : list R) (D C : nat) (c : mat) (rate : nat -> nat -> R)
  (y : R -> nat -> R) (yd : nat -> R) (bs : R -> bspline) (svs : R -> splvar).
Context (D1 : (1 <= D)%nat) (AL : aligned sv) (BU : built k l D C c (cv sv)) (ND : nondecreasing l) (LE : long_end k l).
Context (I : first_time k l <= ntime n <= last_time k l) (FT : fits sv n).
Context (MV : moving (cv sv) (D * C) y yd bs) (SV : forall s, svs s = Spl (bs s) (vars sv) (fresh sv)).
Context (RT : forall i id, design_variable sv i = Ok id -> forall r, (r < dim (cv sv))%nat ->
      is_derive (fun s => component (value_of (svs s) id) r) 0 (rate id r)).

Lemma node_blocks {A} (J : nat -> A) : exists idx, local_coef_indices (cv sv) (ntime n) = Ok idx /\
  add_blocks sv D (k * D) J (nvars n) = Ok (blocks D J (nvars n)) /\
  forall f : A -> R, applied D f (blocks D J (nvars n)) rate = total (k * D) (fun m => f (J m) * picked yd idx m).
Proof using D1 AL BU ND LE I FT MV SV RT.
  destruct (curve_moves_D k l D C c (cv sv) 0 (ntime n) y yd bs D1 BU ND LE I ltac:(lia) MV) as (v & J0 & idx & V & _ & _ & EI & BI & _).
  destruct (node_rates sv n k l D C c rate y yd bs svs idx D1 AL BU ND FT MV SV RT EI BI) as (LN & AV & U).
  exists idx. split; [ exact EI | ]. split.
  - unfold add_blocks. rewrite AV, LN, Nat.leb_refl. reflexivity.
  - intros f. apply applied_blocks; assumption.
Qed.
End NODE.
