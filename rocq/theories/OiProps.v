(** * C90: the first guess of the intrinsics of an omnidirectional camera *)
From Coq Require Import Reals Lra Psatz List Arith Lia ZArith Bool.
From Verif Require Import Base KinModel KinSpec KinProofs DistModel PinModel CamSpec PinProofs OmniModel OmniSpec OmniProofs OmniProps
  IniModel IniSpec IniProofs IniLoop OiModel OiSpec OiProofs.
Import ListNotations.
Local Close Scope Z_scope.
Local Open Scope R_scope.

(** From the image of more than four points in a plane through the camera, the
    focal length comes out exactly, unless the plane is close to the axis. *)
Theorem C90_line : forall solve_z f cu cv n pts,
  null_solution (map (line_row cu cv) pts) (solve_z (map (line_row cu cv) pts)) -> 0 < f -> (4 < length pts)%nat ->
  plane_seen f cu cv n pts -> three_different pts ->
  (radial n -> row_gamma solve_z cu cv pts = None) /\ (~ radial n -> row_gamma solve_z cu cv pts = Some f).
Proof. exact row_gamma_plane. Qed.
Print Assumptions C90_line.
(** The matrix has one row per corner: zero on the line's vector exactly when the
    point is on the image of the plane. *)
Theorem C90_few : forall solve_z cu cv pts, (length pts <= 4)%nat -> row_gamma solve_z cu cv pts = None.
Proof. intros solve_z cu cv pts H. unfold row_gamma. rewrite (proj2 (Nat.ltb_ge _ _)) by exact H. reflexivity. Qed.
Print Assumptions C90_few.

(** The pose is estimated from the corners seen less than 80 degrees off the
    axis, with the coordinates an ideal pinhole camera would have measured. *)
Theorem C90_pinhole_view : forall D M b n T, omni_sync M -> fu (oi M) <> 0 -> fv (oi M) <> 0 ->
  (forall y, undistort D (distort D y) = Val y) ->
  (forall i k, (i < n)%nat -> corner (b_view b) i = Some k -> exists s, omni_project D M (T (b_point b i)) = (Val k, s)) ->
  pnp_input D M b n =
  flat_map (fun i => match corner (b_view b) i with
                     | Some _ => let X := T (b_point b i) in
                                 if Rlt_dec (cos (80 * PI / 180)) (x2 X / v3_norm X)
                                 then [(V3 (x0 (b_point b i)) (x1 (b_point b i)) 0, V2 (x0 X / x2 X) (x1 X / x2 X))] else []
                     | None => []
                     end) (seq 0 n).
Proof.
  intros D M b n T S Fu Fv HU HI. rewrite pnp_input_eq.
  assert (G : forall l, (forall i, In i l -> (i < n)%nat) ->
   flat_map (fun i => match corner (b_view b) i with
       | Some k => match front_ray D M k with Some p => [(flat_point (b_point b i), V2 (x0 p / x2 p) (x1 p / x2 p))] | None => [] end
       | None => [] end) l =
   flat_map (fun i => match corner (b_view b) i with
                     | Some _ => let X := T (b_point b i) in
                                 if Rlt_dec (cos (80 * PI / 180)) (x2 X / v3_norm X)
                                 then [(V3 (x0 (b_point b i)) (x1 (b_point b i)) 0, V2 (x0 X / x2 X) (x1 X / x2 X))] else []
                     | None => []
                     end) l).
  { induction l as [ | i l IH]; intros Hl; [ reflexivity | ]. cbn [flat_map].
    rewrite IH by (intros j Hj; apply Hl; right; exact Hj). f_equal.
    destruct (corner (b_view b) i) as [k | ] eqn:Ek; [ | reflexivity ].
    destruct (HI i k (Hl i (or_introl eq_refl)) Ek) as (s & E). set (X := T (b_point b i)) in *.
    pose proof (proj1 (C61_omni_round_trip D M S) X k s Fu Fv E HU) as L.
    destruct (proj1 (C61_omni_image D M X S) k s E) as (P1 & P2 & _).
    set (a := 1 / (x2 X + xi M * v3_norm X)) in *.
    assert (A : 0 < a) by (unfold a; apply Rdiv_lt_0_compat; lra).
    unfold front_ray. rewrite L.
    assert (NA : v3_norm (along_ray a X) = a * v3_norm X).
    { unfold v3_norm, along_ray, v3_dot. cbn [x0 x1 x2].
      replace (a * x0 X * (a * x0 X) + a * x1 X * (a * x1 X) + a * x2 X * (a * x2 X)) with ((a * a) * (x0 X * x0 X + x1 X * x1 X + x2 X * x2 X)) by ring.
      rewrite sqrt_mult_alt by (apply Rle_0_sqr). rewrite sqrt_square by lra. reflexivity. }
    assert (X0 : x0 (along_ray a X) = a * x0 X) by reflexivity.
    assert (X1 : x1 (along_ray a X) = a * x1 X) by reflexivity.
    assert (X2 : x2 (along_ray a X) = a * x2 X) by reflexivity.
    rewrite NA, X2.
    assert (NP : 0 <= v3_norm X) by apply sqrt_pos.
    assert (DV : a * x2 X / (a * v3_norm X) = x2 X / v3_norm X).
    { unfold Rdiv. rewrite Rinv_mult. replace (a * x2 X * (/ a * / v3_norm X)) with (a * / a * (x2 X * / v3_norm X)) by ring. rewrite Rinv_r by lra. ring. }
    rewrite DV. unfold IniModel.ltb. cbv zeta. destruct (Rlt_dec (cos (80 * PI / 180)) (x2 X / v3_norm X)) as [C | C]; [ | reflexivity ].
    rewrite X0, X1, X2.
    assert (ZP : x2 X <> 0).
    { intros Z. rewrite Z in C. unfold Rdiv in C at 2. rewrite Rmult_0_l in C.
      assert (0 < cos (80 * PI / 180)) by (apply cos_gt_0; pose proof PI_RGT_0; lra). lra. }
    unfold flat_point. f_equal. f_equal. f_equal; field; split; lra. }
  apply G. intros i Hi. apply in_seq in Hi. lia.
Qed.
Print Assumptions C90_pinhole_view.

Section Search.
Variable solve_z : list v4 -> v4.
Variable pnp : list (v3 * v2) -> v3 -> v3.
Variable D : distortion.
(** A row that leads to a focal length and its mean reprojection error: at least
    four corners for the pose and more than four reprojected. *)
Definition rated (o : view) (bs : list board) (g e : R) : Prop :=
  exists b rows cols r, row_in bs b rows cols r /\
    row_gamma solve_z ((INR (im_cols o) - 1) / 2) ((INR (im_rows o) - 1) / 2) (row_points (b_view b) cols r) = Some g /\
    let M := camera o g in
    let input := pnp_input D M b (rows * cols) in
    let es := errors D M (pnp input) b (rows * cols) in
    (4 <= length input)%nat /\ (4 < length es)%nat /\ e = mean es.
End Search.
Lemma trials_in bs b rows cols r : In (b, rows, cols, r) (trials bs) <-> row_in bs b rows cols r.
Proof.
  unfold trials, row_in. rewrite in_flat_map. split.
  - intros (x & Hx & H). destruct (v_target (b_view x)) as [[rw cl] | ] eqn:T; [ | destruct H ].
    apply in_map_iff in H as (y & E & Hy). apply in_seq in Hy.
    assert (x = b) by congruence. assert (rw = rows) by congruence. assert (cl = cols) by congruence. assert (y = r) by congruence. subst.
    split; [ exact Hx | split; [ exact T | lia ] ].
  - intros (Hb & T & Hr). exists b. split; [ exact Hb | ]. rewrite T. apply in_map_iff. exists r. split; [ reflexivity | apply in_seq; lia ].
Qed.
Lemma rated_trial solve_z pnp D o bs g e : rated solve_z pnp D o bs g e <-> exists t, In t (trials bs) /\ trial_result solve_z pnp D o t = Some (g, e).
Proof.
  split.
  - intros (b & rows & cols & r & I & G & P & N & E). exists (b, rows, cols, r). split; [ apply trials_in, I | ].
    unfold trial_result, row_result. rewrite G. unfold estimate_pose. rewrite (proj2 (Nat.ltb_ge _ _) P). rewrite reprojection_eq.
    rewrite (proj2 (Nat.ltb_lt _ _) N). rewrite E. reflexivity.
  - intros ([[[b rows] cols] r] & I & E). apply trials_in in I. exists b, rows, cols, r. split; [ exact I | ].
    unfold trial_result, row_result in E. destruct (row_gamma _ _ _ _) as [g' | ]; [ | discriminate ].
    unfold estimate_pose in E. destruct (Nat.ltb_spec (length (pnp_input D (camera o g') b (rows * cols))) 4) as [L | L]; [ discriminate | ].
    rewrite reprojection_eq in E. destruct (Nat.ltb_spec 4 (length (errors D (camera o g') (pnp (pnp_input D (camera o g') b (rows * cols))) b (rows * cols)))) as [N | N]; [ | discriminate ].
    assert (g' = g) by congruence. subst g'. split; [ reflexivity | ]. cbv zeta. split; [ exact L | split; [ exact N | ] ].
    unfold mean. congruence.
Qed.

(** The camera keeps the focal length with the least mean error of all rows; if
    there is none it reports failure and has focal length zero. *)
Theorem C90_best : forall solve_z pnp D b bs, (forall x, In x (b :: bs) -> v_target (b_view x) <> None) ->
  exists g ok, omni_initialize solve_z pnp D (b :: bs) = Ok (camera (b_view b) g, ok) /\
    (ok = true -> exists e, rated solve_z pnp D (b_view b) (b :: bs) g e /\ e < dbl_max /\
       forall g' e', rated solve_z pnp D (b_view b) (b :: bs) g' e' -> e <= e') /\
    (ok = false -> g = 0 /\ forall g' e', rated solve_z pnp D (b_view b) (b :: bs) g' e' -> dbl_max <= e').
Proof.
  intros solve_z pnp D b bs H. unfold omni_initialize. rewrite search_boards_eq by exact H. cbn [obind].
  pose proof (search_best solve_z pnp D (b_view b) (trials (b :: bs))) as B.
  set (s := fold_left _ _ _) in *. exists (gamma0 s), (success s). split; [ reflexivity | ]. unfold best_of in B.
  destruct (success s).
  - split; [ intros _ | discriminate ]. destruct B as (E & L & M). exists (best s). split; [ apply rated_trial, E | split; [ exact L | ] ].
    intros g' e' R. apply rated_trial in R as (t & I & Et). exact (M t g' e' I Et).
  - split; [ discriminate | intros _ ]. destruct B as (_ & G & M). split; [ exact G | ].
    intros g' e' R. apply rated_trial in R as (t & I & Et). exact (M t g' e' I Et).
Qed.
Print Assumptions C90_best.
(** The parameters besides the focal length *)
Theorem C90_centre : forall o g, xi (camera o g) = 1 /\ fu (oi (camera o g)) = g /\ fv (oi (camera o g)) = g /\
  cu (oi (camera o g)) = (INR (im_cols o) - 1) / 2 /\ cv (oi (camera o g)) = (INR (im_rows o) - 1) / 2 /\
  ru (oi (camera o g)) = Z.of_nat (im_cols o) /\ rv (oi (camera o g)) = Z.of_nat (im_rows o) /\ omni_sync (camera o g).
Proof.
  intros o g. unfold camera, make_omni, make_intr. cbn [xi oi fu fv cu cv ru rv].
  split; [ reflexivity | ]. split; [ reflexivity | ]. split; [ reflexivity | ]. split; [ reflexivity | ]. split; [ reflexivity | ].
  split; [ reflexivity | ]. split; [ reflexivity | ]. split; [ split; reflexivity | ]. split; reflexivity.
Qed.
Print Assumptions C90_centre.
(** Without noise, if every row of more than four corners is the image of a
    straight line, the right focal length is found whatever the poses. *)
Theorem C90_exact : forall solve_z pnp D b bs f, 0 < f -> (forall x, In x (b :: bs) -> v_target (b_view x) <> None) ->
  let cu := (INR (im_cols (b_view b)) - 1) / 2 in
  let cv := (INR (im_rows (b_view b)) - 1) / 2 in
  (forall x rows cols r, row_in (b :: bs) x rows cols r ->
     let pts := row_points (b_view x) cols r in
     (4 < length pts)%nat ->
     null_solution (map (line_row cu cv) pts) (solve_z (map (line_row cu cv) pts)) /\ three_different pts /\
     exists n, plane_seen f cu cv n pts) ->
  exists M ok, omni_initialize solve_z pnp D (b :: bs) = Ok (M, ok) /\ (ok = true -> M = camera (b_view b) f) /\
    (ok = true <-> exists e, rated solve_z pnp D (b_view b) (b :: bs) f e /\ e < dbl_max).
Proof.
  intros solve_z pnp D b bs f Hf HT cu cv HR.
  destruct (C90_best solve_z pnp D b bs HT) as (g & ok & E & Ht & Hn).
  exists (camera (b_view b) g), ok. split; [ exact E | ].
  assert (K : forall g' e, rated solve_z pnp D (b_view b) (b :: bs) g' e -> g' = f).
  { intros g' e (x & rows & cols & r & I & G & _). fold cu cv in G. specialize (HR x rows cols r I). cbv zeta in HR.
    destruct (le_lt_dec (length (row_points (b_view x) cols r)) 4) as [L | L].
    - rewrite (C90_few solve_z cu cv _ L) in G. discriminate.
    - destruct (HR L) as (S & T3 & n & PS).
      destruct (row_gamma_plane solve_z f cu cv n _ S Hf L PS T3) as [R1 R2].
      assert (DR : radial n \/ ~ radial n) by (unfold radial; destruct (Rlt_dec (95 / 100) (sqrt (x0 n * x0 n + x1 n * x1 n))); auto).
      destruct DR as [Hr | Hr]; [ rewrite (R1 Hr) in G; discriminate | ]. rewrite (R2 Hr) in G. congruence. }
  assert (A : ok = true -> g = f) by (intros H; destruct (Ht H) as (e & R & _); exact (K g e R)).
  split; [ intros H; rewrite (A H); reflexivity | ]. split.
  - intros H. destruct (Ht H) as (e & R & L & _). exists e. rewrite <- (A H). split; assumption.
  - intros (e & R & L). destruct ok; [ reflexivity | ]. destruct (Hn eq_refl) as (_ & M). pose proof (M f e R). lra.
Qed.
Print Assumptions C90_exact.
Theorem C90_throws : forall solve_z pnp D, omni_initialize solve_z pnp D [] = Throw /\
  forall bs b, In b bs -> v_target (b_view b) = None -> omni_initialize solve_z pnp D bs = Throw.
Proof.
  intros solve_z pnp D. split; [ reflexivity | ]. intros bs b I T.
  assert (G : forall o s, search_boards solve_z pnp D o bs s = Throw).
  { induction bs as [ | a bs IH]; [ destruct I | ]. intros o s. cbn [search_boards].
    destruct I as [-> | I]; [ rewrite T; reflexivity | ]. destruct (v_target (b_view a)) as [[rows cols] | ]; [ apply IH, I | reflexivity ]. }
  destruct bs as [ | a bs]; [ destruct I | ]. unfold omni_initialize. rewrite G. reflexivity.
Qed.
Print Assumptions C90_throws.
(** Failure is reported with focal lengths of zero in the camera. *)
Theorem C90_zero_refuted : exists solve_z pnp b, v_target (b_view b) <> None /\
  exists M, omni_initialize solve_z pnp nodist [b] = Ok (M, false) /\ fu (oi M) = 0 /\ fv (oi M) = 0.
Proof.
  exists (fun _ => V4 1 0 0 0), (fun _ p => p), (Board (View (Some (1, 4)%nat) 480 640 (fun _ => None)) (fun _ => V3 0 0 0)).
  split; [ discriminate | ].
  destruct (C90_best (fun _ => V4 1 0 0 0) (fun _ p => p) nodist (Board (View (Some (1, 4)%nat) 480 640 (fun _ => None)) (fun _ => V3 0 0 0)) []) as (g & ok & E & Ht & Hn).
  { intros x [<- | []]. discriminate. }
  assert (NR : forall g e, ~ rated (fun _ => V4 1 0 0 0) (fun _ p => p) nodist (View (Some (1, 4)%nat) 480 640 (fun _ => None)) [Board (View (Some (1, 4)%nat) 480 640 (fun _ => None)) (fun _ => V3 0 0 0)] g e).
  { intros g' e' (x & rows & cols & r & (I & T & Hr) & G & _). destruct I as [<- | []].
    cbn [b_view v_target] in T. assert (cols = 4%nat) by congruence. subst cols. rewrite C90_few in G; [ discriminate | ].
    cbn. lia. }
  destruct ok.
  - destruct (Ht eq_refl) as (e & R & _). exfalso. exact (NR g e R).
  - destruct (Hn eq_refl) as (-> & _). eexists. split; [ exact E | ]. destruct (C90_centre (b_view (Board (View (Some (1, 4)%nat) 480 640 (fun _ => None)) (fun _ => V3 0 0 0))) 0) as (_ & A & B & _).
    split; assumption.
Qed.
Print Assumptions C90_zero_refuted.

(** ** Example: five points on the line y = -4, z = 3, seen with focal length 100 *)
Definition ex_x (i : nat) : R := match i with 0%nat => -12 | 1%nat => - (15 / 4) | 2%nat => 0 | 3%nat => 15 / 4 | _ => 12 end.
Definition ex_r (i : nat) : R := match i with 0%nat => 13 | 1%nat => 25 / 4 | 2%nat => 5 | 3%nat => 25 / 4 | _ => 13 end.
Definition ex_T (p : v3) : v3 := V3 (x0 p) (x1 p - 4) (x2 p + 3).
Definition ex_point (i : nat) : v3 := V3 (ex_x i) 0 0.
Definition ex_k (i : nat) : v2 := V2 (100 * (ex_x i / (3 + ex_r i)) + 320) (100 * (-4 / (3 + ex_r i)) + 240).
Definition ex_board : board := Board (View (Some (1, 5)%nat) 481 641 (fun i => if (i <? 5)%nat then Some (ex_k i) else None)) ex_point.
Definition ex_n : v3 := V3 0 (3 / 5) (4 / 5).
Definition ex_sol : v4 := scale4 (/ sqrt (dot4 (line_vec 100 ex_n) (line_vec 100 ex_n))) (line_vec 100 ex_n).
Lemma ex_norm i : (i < 5)%nat -> v3_norm (V3 (ex_x i) (-4) 3) = ex_r i.
Proof.
  intros H. unfold v3_norm, v3_dot. cbn [x0 x1 x2].
  assert (E : ex_x i * ex_x i + -4 * -4 + 3 * 3 = ex_r i * ex_r i /\ 0 <= ex_r i).
  { destruct i as [ | [ | [ | [ | [ | i]]]]]; [ .. | lia ]; cbn [ex_x ex_r]; lra. }
  rewrite (proj1 E). apply sqrt_square, E.
Qed.
Lemma ex_pos i : 0 < 3 + ex_r i.
Proof. destruct i as [ | [ | [ | [ | i]]]]; cbn [ex_r]; lra. Qed.
Lemma ex_image i : (i < 5)%nat -> ex_k i = sphere_image 100 320 240 (V3 (ex_x i) (-4) 3).
Proof. intros H. unfold sphere_image. cbn [x0 x1 x2]. rewrite (ex_norm i H). reflexivity. Qed.
Lemma ex_cu : (INR (im_cols (b_view ex_board)) - 1) / 2 = 320 /\ (INR (im_rows (b_view ex_board)) - 1) / 2 = 240.
Proof.
  cbn [b_view ex_board im_cols im_rows].
  assert (E : INR 641 = 641) by (rewrite INR_IZR_INZ; reflexivity). assert (E' : INR 481 = 481) by (rewrite INR_IZR_INZ; reflexivity).
  rewrite E, E'. lra.
Qed.
Lemma ex_in_sensor i : (i < 5)%nat -> in_image (oi (camera (b_view ex_board) 100)) (ex_k i).
Proof.
  intros H. unfold in_image, camera, make_omni, make_intr. cbn [oi ru rv b_view ex_board im_cols im_rows]. unfold ex_k. cbn [u0 u1].
  destruct i as [ | [ | [ | [ | [ | i]]]]]; [ .. | lia ]; cbn [ex_x ex_r]; cbn [Z.of_nat Pos.of_succ_nat Pos.succ]; lra.
Qed.
Lemma ex_project i : (i < 5)%nat -> omni_project nodist (camera (b_view ex_board) 100) (ex_T (ex_point i)) = (Val (ex_k i), true).
Proof.
  intros H. destruct (C90_centre (b_view ex_board) 100) as (Ex & _ & _ & _ & _ & _ & _ & S).
  assert (EX : ex_T (ex_point i) = V3 (ex_x i) (-4) 3) by (unfold ex_T, ex_point; cbn [x0 x1 x2]; f_equal; lra).
  rewrite EX.
  assert (V : omni_valid (xi (camera (b_view ex_board) 100)) (V3 (ex_x i) (-4) 3)).
  { unfold omni_valid. change (p_norm (V3 (ex_x i) (-4) 3)) with (v3_norm (V3 (ex_x i) (-4) 3)). rewrite (ex_norm i H), Ex. cbn [x2].
    pose proof (ex_pos i). split; lra. }
  rewrite (omni_project_valid _ _ _ S V).
  assert (E : to_pixel (oi (camera (b_view ex_board) 100)) (distort nodist (omni_point (xi (camera (b_view ex_board) 100)) (V3 (ex_x i) (-4) 3))) = ex_k i).
  { unfold omni_point. change (p_norm (V3 (ex_x i) (-4) 3)) with (v3_norm (V3 (ex_x i) (-4) 3)). rewrite (ex_norm i H), Ex. cbn [x0 x1 x2 distort nodist].
    unfold to_pixel. destruct (C90_centre (b_view ex_board) 100) as (_ & -> & -> & -> & -> & _). destruct ex_cu as [-> ->]. cbn [u0 u1].
    unfold ex_k. pose proof (ex_pos i). f_equal; field; lra. }
  rewrite E. f_equal. apply on_sensor_spec, ex_in_sensor, H.
Qed.
Lemma ex_row : row_points (b_view ex_board) 5 0 = map ex_k (seq 0 5).
Proof. reflexivity. Qed.
Lemma ex_sol_ok pts : (forall k, In k pts -> exists i, (i < 5)%nat /\ k = ex_k i) -> null_solution (map (line_row 320 240) pts) ex_sol.
Proof.
  intros H. assert (P : 0 < dot4 (line_vec 100 ex_n) (line_vec 100 ex_n)) by (unfold dot4, line_vec, ex_n; cbn [q0 q1 q2 q3 x0 x1 x2]; lra).
  split.
  - unfold ex_sol. rewrite dot4_scale.
    replace (dot4 (scale4 (/ sqrt (dot4 (line_vec 100 ex_n) (line_vec 100 ex_n))) (line_vec 100 ex_n)) (line_vec 100 ex_n))
      with (/ sqrt (dot4 (line_vec 100 ex_n) (line_vec 100 ex_n)) * dot4 (line_vec 100 ex_n) (line_vec 100 ex_n)) by (unfold dot4, scale4; cbn [q0 q1 q2 q3]; ring).
    set (d := dot4 _ _) in *. rewrite <- (sqrt_sqrt d) at 3 by lra. assert (0 < sqrt d) by (apply sqrt_lt_R0, P). field. lra.
  - intros y _. rewrite residual_all; [ apply residual_nonneg | ].
    intros r Hr. apply in_map_iff in Hr as (k & <- & Hk). destruct (H k Hk) as (i & Hi & ->).
    unfold ex_sol. rewrite dot4_scale, (ex_image i Hi), plane_row; [ ring | lra | | ].
    + rewrite (ex_norm i Hi). cbn [x2]. apply ex_pos.
    + unfold v3_dot, ex_n; cbn [x0 x1 x2]. lra.
Qed.
Lemma cos80 : cos (80 * PI / 180) < 3 / 13.
Proof.
  replace (80 * PI / 180) with (PI / 2 - PI / 18) by field. rewrite cos_shift.
  pose proof PI_RGT_0. pose proof PI_4. apply Rlt_trans with (PI / 18); [ | lra ].
  apply sin_lt_x. lra.
Qed.
Example C90_ex : omni_initialize (fun _ => ex_sol) (fun _ => ex_T) nodist [ex_board] = Ok (camera (b_view ex_board) 100, true).
Proof.
  destruct ex_cu as [Ecu Ecv].
  assert (HT : forall x, In x [ex_board] -> v_target (b_view x) <> None) by (intros x [<- | []]; discriminate).
  destruct (C90_exact (fun _ => ex_sol) (fun _ => ex_T) nodist ex_board [] 100 ltac:(lra) HT) as (M & ok & E & A & B).
  { rewrite Ecu, Ecv. intros x rows cols r (I & T & Hr). destruct I as [<- | []].
    cbn [b_view ex_board v_target] in T. assert (rows = 1%nat) by congruence. assert (cols = 5%nat) by congruence. subst rows cols.
    assert (r = 0%nat) by lia. subst r. rewrite ex_row. cbv zeta. intros _.
    assert (IN : forall k, In k (map ex_k (seq 0 5)) -> exists i, (i < 5)%nat /\ k = ex_k i).
    { intros k Hk. apply in_map_iff in Hk as (i & <- & Hi). apply in_seq in Hi. exists i. split; [ lia | reflexivity ]. }
    split; [ apply ex_sol_ok, IN | split ].
    - exists (ex_k 0), (ex_k 2), (ex_k 4). split; [ left; reflexivity | ]. split; [ right; right; left; reflexivity | ].
      split; [ right; right; right; right; left; reflexivity | ].
      unfold ex_k. cbn [ex_x ex_r]. split; [ | split ]; intros Z.
      + assert (100 * (-12 / (3 + 13)) + 320 = 100 * (0 / (3 + 5)) + 320) by congruence. lra.
      + assert (100 * (-12 / (3 + 13)) + 320 = 100 * (12 / (3 + 13)) + 320) by congruence. lra.
      + assert (100 * (0 / (3 + 5)) + 320 = 100 * (12 / (3 + 13)) + 320) by congruence. lra.
    - exists ex_n. split; [ unfold v3_dot, ex_n; cbn [x0 x1 x2]; lra | ].
      intros k Hk. destruct (IN k Hk) as (i & Hi & ->). exists (V3 (ex_x i) (-4) 3).
      rewrite (ex_norm i Hi). cbn [x2]. split; [ apply ex_pos | ]. split; [ unfold v3_dot, ex_n; cbn [x0 x1 x2]; lra | apply ex_image, Hi ]. }
  assert (OK : ok = true).
  { apply B. exists 0. split.
    - exists ex_board, 1%nat, 5%nat, 0%nat. split; [ split; [ left; reflexivity | split; [ reflexivity | lia ] ] | ].
      assert (PI5 : pnp_input nodist (camera (b_view ex_board) 100) ex_board (1 * 5) = map (fun i => (V3 (ex_x i) 0 0, V2 (ex_x i / 3) (-4 / 3))) (seq 0 5)).
      { destruct (C90_centre (b_view ex_board) 100) as (_ & F1 & F2 & _ & _ & _ & _ & S).
        rewrite (C90_pinhole_view nodist _ ex_board (1 * 5) ex_T S); [ | rewrite F1; lra | rewrite F2; lra | reflexivity | ].
        - cbn [Nat.mul Nat.add seq flat_map map app].
          assert (ST : forall i, (i < 5)%nat ->
            (match corner (b_view ex_board) i with
             | Some _ => let X := ex_T (b_point ex_board i) in
                         if Rlt_dec (cos (80 * PI / 180)) (x2 X / v3_norm X)
                         then [(V3 (x0 (b_point ex_board i)) (x1 (b_point ex_board i)) 0, V2 (x0 X / x2 X) (x1 X / x2 X))] else []
             | None => [] end) = [(V3 (ex_x i) 0 0, V2 (ex_x i / 3) (-4 / 3))]).
          { intros i Hi. cbn [b_view ex_board corner b_point]. rewrite (proj2 (Nat.ltb_lt i 5) Hi). cbv zeta.
            assert (EX : ex_T (ex_point i) = V3 (ex_x i) (-4) 3) by (unfold ex_T, ex_point; cbn [x0 x1 x2]; f_equal; lra).
            rewrite EX, (ex_norm i Hi). cbn [x0 x1 x2 ex_point].
            destruct (Rlt_dec (cos (80 * PI / 180)) (3 / ex_r i)) as [_ | N]; [ reflexivity | exfalso; apply N ].
            pose proof cos80. destruct i as [ | [ | [ | [ | [ | i]]]]]; [ .. | lia ]; cbn [ex_r]; lra. }
          rewrite !ST by lia. reflexivity.
        - intros i k Hi Ek. exists true. cbn [b_view ex_board corner b_point] in *. rewrite (proj2 (Nat.ltb_lt i 5)) in Ek by lia.
          assert (k = ex_k i) by congruence. subst k. apply ex_project. lia. }
      split; [ | cbv zeta; split; [ rewrite PI5; cbn; lia | ] ].
      + rewrite Ecu, Ecv, ex_row.
        assert (NR : ~ radial ex_n).
        { unfold radial, ex_n. cbn [x0 x1]. replace (0 * 0 + 3 / 5 * (3 / 5)) with (3 / 5 * (3 / 5)) by ring. rewrite sqrt_square by lra. lra. }
        assert (IN : forall k, In k (map ex_k (seq 0 5)) -> exists i, (i < 5)%nat /\ k = ex_k i).
        { intros k Hk. apply in_map_iff in Hk as (i & <- & Hi). apply in_seq in Hi. exists i. split; [ lia | reflexivity ]. }
        apply (proj2 (C90_line (fun _ => ex_sol) 100 320 240 ex_n (map ex_k (seq 0 5)) (ex_sol_ok _ IN) ltac:(lra) ltac:(cbn; lia)
          ltac:(split; [ unfold v3_dot, ex_n; cbn [x0 x1 x2]; lra | intros k Hk; destruct (IN k Hk) as (i & Hi & ->); exists (V3 (ex_x i) (-4) 3);
             rewrite (ex_norm i Hi); cbn [x2]; split; [ apply ex_pos | split; [ unfold v3_dot, ex_n; cbn [x0 x1 x2]; lra | apply ex_image, Hi ] ] ])
          ltac:(exists (ex_k 0), (ex_k 2), (ex_k 4); split; [ left; reflexivity | split; [ right; right; left; reflexivity | split; [ right; right; right; right; left; reflexivity | ] ] ];
             unfold ex_k; cbn [ex_x ex_r]; split; [ | split ]; intros Z;
             [ assert (100 * (-12 / (3 + 13)) + 320 = 100 * (0 / (3 + 5)) + 320) by congruence; lra
             | assert (100 * (-12 / (3 + 13)) + 320 = 100 * (12 / (3 + 13)) + 320) by congruence; lra
             | assert (100 * (0 / (3 + 5)) + 320 = 100 * (12 / (3 + 13)) + 320) by congruence; lra ])) NR).
      + assert (ES : errors nodist (camera (b_view ex_board) 100) ex_T ex_board (1 * 5) = [0; 0; 0; 0; 0]).
        { unfold errors. cbn [Nat.mul Nat.add seq flat_map].
          assert (ST : forall i, (i < 5)%nat -> (match corner (b_view ex_board) i, omni_project nodist (camera (b_view ex_board) 100) (ex_T (b_point ex_board i)) with
             | Some y, (Val k, true) => [dist y k] | _, _ => [] end) = [0]).
          { intros i Hi. change (b_point ex_board i) with (ex_point i). rewrite (ex_project i Hi). cbn [b_view ex_board corner]. rewrite (proj2 (Nat.ltb_lt i 5) Hi).
            f_equal. unfold dist, sq_dist. rewrite !Rminus_diag_eq by reflexivity. rewrite Rmult_0_l, Rplus_0_l. apply sqrt_0. }
          rewrite !ST by lia. reflexivity. }
        rewrite ES. split; [ cbn; lia | ]. unfold mean. cbn [total length]. unfold Rdiv. rewrite !Rplus_0_l, Rmult_0_l. reflexivity.
    - unfold dbl_max. apply Rmult_lt_0_compat; [ | apply pow_lt; lra ].
      assert (/ 2 ^ 52 <= 1); [ | lra ]. rewrite <- Rinv_1. apply Rinv_le_contravar; [ lra | apply pow_R1_Rle; lra ]. }
  rewrite OK in *. rewrite E, (A eq_refl). reflexivity.
Qed.
