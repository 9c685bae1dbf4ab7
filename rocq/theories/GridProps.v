(** Properties of Grid and Histogram (C15, C16). *)
From Coq Require Import ZArith QArith List Lia Bool.
From Verif Require Import Base GridModel GridSpec GridProofs.
Import ListNotations.
Open Scope Z_scope.

(** * C15 *)

Theorem C15_linear_index_bijection : forall nums, Forall (fun n => 0 < n) nums ->
  (forall idx, inside nums idx -> 0 <= linear_index nums idx < prod nums) /\
  (forall a b, inside nums a -> inside nums b -> linear_index nums a = linear_index nums b -> a = b) /\
  (forall k, 0 <= k < prod nums -> exists idx, inside nums idx /\ linear_index nums idx = k).
Proof.
  intros nums H. split; [exact (linear_range nums)|]. split; [exact (linear_inj nums)|exact (linear_surj nums H)].
Qed.
Print Assumptions C15_linear_index_bijection.

(** A grid is built exactly when every dimension is sensible. *)
Theorem C15_constructor_int : forall (C : Type) (c0 : C) dims,
  (Forall good_dim_Z dims <-> exists g, make_grid int_dim c0 dims = Ok g) /\
  (~ Forall good_dim_Z dims <-> make_grid int_dim c0 dims = Throw).
Proof.
  intros C c0 dims.
  destruct (make_grid_spec int_dim good_dim_Z int_ncells_pos c0 int_ok_iff dims)
    as [[H (g & E & _)]|[H E]].
  - split; split; intros; eauto; try contradiction; congruence.
  - split; split; intros H'; auto; try contradiction. destruct H' as [g Eg]. congruence.
Qed.
Print Assumptions C15_constructor_int.

Theorem C15_constructor_real : forall (C : Type) (c0 : C) dims,
  (Forall good_dim_Q dims <-> exists g, make_grid real_dim c0 dims = Ok g) /\
  (~ Forall good_dim_Q dims <-> make_grid real_dim c0 dims = Throw).
Proof.
  intros C c0 dims.
  destruct (make_grid_spec real_dim good_dim_Q real_ncells_pos c0 real_ok_iff dims)
    as [[H (g & E & _)]|[H E]].
  - split; split; intros; eauto; try contradiction; congruence.
  - split; split; intros H'; auto; try contradiction. destruct H' as [g Eg]. congruence.
Qed.
Print Assumptions C15_constructor_real.

(** Looking up a point gives the cell that contains it; points outside are refused. *)
Theorem C15_get_index_int : forall (C : Type) (c0 : C) dims g p,
  make_grid int_dim c0 dims = Ok g -> length p = length dims ->
  (in_range_Z dims p -> exists idx c, get_index int_dim g p = Ok idx /\
     inside (g_nums g) idx /\ point_in_cell in_cell_Z dims p idx /\ get_cell g idx = Ok c) /\
  (~ in_range_Z dims p -> get_index int_dim g p = Throw).
Proof.
  intros C c0 dims g p Hg Hl.
  destruct (make_grid_spec int_dim good_dim_Z int_ncells_pos c0 int_ok_iff dims)
    as [[H (g' & E & Hd & Hp & Hn & Hc & _)]|[H E]]; [|congruence].
  assert (g' = g) by congruence. subst g'. unfold get_index. rewrite Hd. split.
  - intros Hr. apply int_inrange_iff in Hr; [|exact Hl]. rewrite Hr.
    destruct (index_of_spec int_dim good_dim_Z in_cell_Z int_dim_spec dims p H Hl Hr) as [Hi Hcell].
    rewrite <- Hn in Hi.
    destruct (get_cell_inside int_dim good_dim_Z g _ ltac:(unfold wf; rewrite Hd; auto) Hi) as (c & Ec & _).
    eexists. exists c. split; [reflexivity|]. split; [exact Hi|]. split; [split; [exact Hl|exact Hcell]|exact Ec].
  - intros Hr. destruct (all_in_range int_dim dims p) eqn:Ea; [|reflexivity].
    apply int_inrange_iff in Ea; [contradiction|exact Hl].
Qed.
Print Assumptions C15_get_index_int.

Theorem C15_get_index_real : forall (C : Type) (c0 : C) dims g p,
  make_grid real_dim c0 dims = Ok g -> length p = length dims ->
  (in_range_Q dims p -> exists idx c, get_index real_dim g p = Ok idx /\
     inside (g_nums g) idx /\ point_in_cell in_cell_Q dims p idx /\ get_cell g idx = Ok c) /\
  (~ in_range_Q dims p -> get_index real_dim g p = Throw).
Proof.
  intros C c0 dims g p Hg Hl.
  destruct (make_grid_spec real_dim good_dim_Q real_ncells_pos c0 real_ok_iff dims)
    as [[H (g' & E & Hd & Hp & Hn & Hc & _)]|[H E]]; [|congruence].
  assert (g' = g) by congruence. subst g'. unfold get_index. rewrite Hd. split.
  - intros Hr. apply real_inrange_iff in Hr; [|exact Hl]. rewrite Hr.
    destruct (index_of_spec real_dim good_dim_Q in_cell_Q real_dim_spec dims p H Hl Hr) as [Hi Hcell].
    rewrite <- Hn in Hi.
    destruct (get_cell_inside real_dim good_dim_Q g _ ltac:(unfold wf; rewrite Hd; auto) Hi) as (c & Ec & _).
    eexists. exists c. split; [reflexivity|]. split; [exact Hi|]. split; [split; [exact Hl|exact Hcell]|exact Ec].
  - intros Hr. destruct (all_in_range real_dim dims p) eqn:Ea; [|reflexivity].
    apply real_inrange_iff in Ea; [contradiction|exact Hl].
Qed.
Print Assumptions C15_get_index_real.

Example C15_ex : exists g, make_grid real_dim 0 [(0, 2, 1 # 2); (-1, 1, 3 # 4)]%Q = Ok g /\
  g_nums g = [4; 3] /\ get_index real_dim g [(7 # 4); 1]%Q = Ok [3; 2] /\
  get_index real_dim g [(9 # 4); 1]%Q = Throw /\
  get_coordinates real_dim g [3; 1] = Ok [(0 + (3 + (1 # 2)) * (1 # 2)); (-1 + (1 + (1 # 2)) * (3 # 4))]%Q.
Proof. eexists. split; [reflexivity|]. conj; reflexivity. Qed.

(** The centre of a cell is found in that cell, if it does not lie beyond the
    maximum; on integer grids additionally the minimum must not be negative. *)
Theorem C15_centre_in_its_cell_real : forall (C : Type) (c0 : C) dims g idx,
  make_grid real_dim c0 dims = Ok g -> inside (g_nums g) idx ->
  exists p, get_coordinates real_dim g idx = Ok p /\
    (in_range_Q dims p -> get_index real_dim g p = Ok idx).
Proof.
  intros C c0 dims g idx Hg Hi.
  destruct (make_grid_spec real_dim good_dim_Q real_ncells_pos c0 real_ok_iff dims)
    as [[H (g' & E & Hd & Hp & Hn & Hc & _)]|[H E]]; [|congruence].
  assert (g' = g) by congruence. subst g'. unfold get_coordinates. rewrite inside_valid by exact Hi.
  rewrite Hd. eexists. split; [reflexivity|]. intros Hr. pose proof (inside_length _ _ Hi) as Hl.
  rewrite Hn, map_length in Hl.
  apply real_inrange_iff in Hr; [|now apply center_of_length].
  unfold get_index. rewrite Hd, Hr. f_equal. rewrite Hn in Hi.
  apply (center_of_roundtrip real_dim good_dim_Q); auto. exact real_center_spec.
Qed.
Print Assumptions C15_centre_in_its_cell_real.

Theorem C15_centre_in_its_cell_int_nonneg : forall (C : Type) (c0 : C) dims g idx,
  make_grid int_dim c0 dims = Ok g -> inside (g_nums g) idx ->
  Forall (fun '(mn, mx, r) => 0 <= mn) dims ->
  exists p, get_coordinates int_dim g idx = Ok p /\
    (in_range_Z dims p -> get_index int_dim g p = Ok idx).
Proof.
  intros C c0 dims g idx Hg Hi Hmn.
  destruct (make_grid_spec int_dim good_dim_Z int_ncells_pos c0 int_ok_iff dims)
    as [[H (g' & E & Hd & Hp & Hn & Hc & _)]|[H E]]; [|congruence].
  assert (g' = g) by congruence. subst g'. unfold get_coordinates. rewrite inside_valid by exact Hi.
  rewrite Hd. eexists. split; [reflexivity|]. intros Hr. pose proof (inside_length _ _ Hi) as Hl.
  rewrite Hn, map_length in Hl.
  apply int_inrange_iff in Hr; [|now apply center_of_length].
  unfold get_index. rewrite Hd, Hr. f_equal. rewrite Hn in Hi.
  apply (center_of_roundtrip int_dim (fun d => good_dim_Z d /\ 0 <= fst (fst d))); auto.
  - intros d i [H1 H2]. now apply int_center_spec.
  - rewrite Forall_forall in *. intros d Hin. split; [auto|]. specialize (Hmn d Hin). destruct d as [[mn mx] r]. exact Hmn.
Qed.
Print Assumptions C15_centre_in_its_cell_int_nonneg.

(** On integer grids with a negative minimum the centre of a cell belongs to
    another cell, because the conversion to int truncates towards zero. *)
Theorem C15_centre_negative_int_refuted : exists dims g idx p,
  make_grid int_dim 0 dims = Ok g /\ inside (g_nums g) idx /\
  get_coordinates int_dim g idx = Ok p /\ in_range_Z dims p /\ get_index int_dim g p <> Ok idx.
Proof.
  exists [(-5, 5, 1)]. eexists. exists [0], [-4]. split; [reflexivity|]. split.
  - constructor; [vm_compute; intuition congruence|constructor].
  - split; [reflexivity|]. split; [constructor; [lia|constructor]|]. vm_compute. congruence.
Qed.
Print Assumptions C15_centre_negative_int_refuted.

(** The centre of the last cell may lie beyond the maximum. *)
Theorem C15_centre_beyond_maximum_refuted : exists dims g idx p,
  make_grid real_dim 0 dims = Ok g /\ inside (g_nums g) idx /\
  get_coordinates real_dim g idx = Ok p /\ get_index real_dim g p = Throw.
Proof.
  exists [(0, 1, 9 # 10)]%Q. eexists. exists [1], [(0 + (1 + (1 # 2)) * (9 # 10))]%Q. split; [reflexivity|]. split.
  - constructor; [vm_compute; intuition congruence|constructor].
  - split; [reflexivity|]. vm_compute. reflexivity.
Qed.
Print Assumptions C15_centre_beyond_maximum_refuted.

(** The bound check ignores negative indices (indices are ints): such an access
    passes the check and reads outside the cells. *)
Theorem C15_negative_index_accepted_refuted : exists dims g idx,
  make_grid int_dim 0 dims = Ok g /\ is_valid_index (g_nums g) idx = true /\ get_cell g idx = UB.
Proof.
  exists [(0, 10, 1)]. eexists. exists [-1]. split; [reflexivity|]. split; vm_compute; reflexivity.
Qed.
Print Assumptions C15_negative_index_accepted_refuted.

(** The loop used by all histogram statistics ends and visits every cell exactly once. *)
Theorem C15_iteration_visits_every_cell_once : forall nums, nums <> [] -> Forall (fun n => 0 < n) nums ->
  exists l, visits (Z.to_nat (prod nums)) nums (map (fun _ => 0) nums) = Some l /\
    NoDup l /\ (forall idx, In idx l <-> inside nums idx) /\ Z.of_nat (length l) = prod nums.
Proof. exact visits_all. Qed.
Print Assumptions C15_iteration_visits_every_cell_once.

Example C15_ex2 : visits 6 [2; 3] [0; 0] = Some [[0; 0]; [1; 0]; [0; 1]; [1; 1]; [0; 2]; [1; 2]].
Proof. reflexivity. Qed.

(** * C16 *)

(** From an empty histogram, after any samples: the contents sum to the number of
    in-range samples, and every bin holds the number of samples that lie in it. *)
Theorem C16_histogram_counts_int : forall dims g samples,
  make_grid int_dim 0 dims = Ok g -> Forall (fun p => length p = length dims) samples ->
  exists g', add_samples int_dim g samples = Ok g' /\
    get_sum g' = count (within_Z dims) samples /\
    forall idx, inside (g_nums g') idx ->
      get_cell g' idx = Ok (count (holds has_Z dims idx) samples).
Proof.
  intros dims g samples Hg Hl.
  destruct (make_grid_spec int_dim good_dim_Z int_ncells_pos 0 int_ok_iff dims)
    as [[H (g0 & E & Hd & Hp & Hn & Hc & Hz)]|[H E]]; [|congruence].
  assert (g0 = g) by congruence. subst g0.
  assert (Hw : wf int_dim good_dim_Z g) by (unfold wf; rewrite Hd; auto).
  destruct (add_samples_spec int_dim good_dim_Z in_cell_Z int_dim_spec samples g Hw) as (g' & Es & Hd' & Hn' & Hw' & Ht & Hcells).
  { rewrite Hd. exact Hl. }
  exists g'. split; [exact Es|]. rewrite Hd in *. split.
  - unfold get_sum. rewrite fold_left_add, Ht.
    rewrite (count_ext (all_in_range int_dim dims) (within_Z dims)) by (intros; apply within_Z_eq).
    replace (total (g_cells g)) with 0; [lia|]. clear - Hz. induction Hz; unfold total in *; cbn [fold_right]; lia.
  - intros idx Hi. rewrite (get_cell_cellv int_dim good_dim_Z g' idx Hw' Hi). f_equal. unfold cellv. rewrite Hn' in *.
    rewrite Hcells by exact Hi.
    rewrite (count_ext _ (holds has_Z dims idx)).
    2:{ intros p Hin. rewrite Forall_forall in Hl. rewrite Hn in Hi.
        apply (holds_index int_dim good_dim_Z); auto. exact int_has. }
    replace (nth _ (g_cells g) 0) with 0; [lia|].
    pose proof (linear_range _ _ Hi). rewrite Forall_forall in Hz. apply Hz. apply nth_In. lia.
Qed.
Print Assumptions C16_histogram_counts_int.

Theorem C16_histogram_counts_real : forall dims g samples,
  make_grid real_dim 0 dims = Ok g -> Forall (fun p => length p = length dims) samples ->
  exists g', add_samples real_dim g samples = Ok g' /\
    get_sum g' = count (within_Q dims) samples /\
    forall idx, inside (g_nums g') idx ->
      get_cell g' idx = Ok (count (holds has_Q dims idx) samples).
Proof.
  intros dims g samples Hg Hl.
  destruct (make_grid_spec real_dim good_dim_Q real_ncells_pos 0 real_ok_iff dims)
    as [[H (g0 & E & Hd & Hp & Hn & Hc & Hz)]|[H E]]; [|congruence].
  assert (g0 = g) by congruence. subst g0.
  assert (Hw : wf real_dim good_dim_Q g) by (unfold wf; rewrite Hd; auto).
  destruct (add_samples_spec real_dim good_dim_Q in_cell_Q real_dim_spec samples g Hw) as (g' & Es & Hd' & Hn' & Hw' & Ht & Hcells).
  { rewrite Hd. exact Hl. }
  exists g'. split; [exact Es|]. rewrite Hd in *. split.
  - unfold get_sum. rewrite fold_left_add, Ht.
    rewrite (count_ext (all_in_range real_dim dims) (within_Q dims)) by (intros; apply within_Q_eq).
    replace (total (g_cells g)) with 0; [lia|]. clear - Hz. induction Hz; unfold total in *; cbn [fold_right]; lia.
  - intros idx Hi. rewrite (get_cell_cellv real_dim good_dim_Q g' idx Hw' Hi). f_equal. unfold cellv. rewrite Hn' in *.
    rewrite Hcells by exact Hi.
    rewrite (count_ext _ (holds has_Q dims idx)).
    2:{ intros p Hin. rewrite Forall_forall in Hl. rewrite Hn in Hi.
        apply (holds_index real_dim good_dim_Q); auto. exact real_has. }
    replace (nth _ (g_cells g) 0) with 0; [lia|].
    pose proof (linear_range _ _ Hi). rewrite Forall_forall in Hz. apply Hz. apply nth_In. lia.
Qed.
Print Assumptions C16_histogram_counts_real.

Example C16_ex : exists g g', make_grid int_dim 0 [(0, 9, 3)] = Ok g /\
  add_samples int_dim g [[0]; [4]; [5]; [9]; [10]; [-1]; [8]] = Ok g' /\
  g_cells g' = [1; 2; 1; 1] /\ get_sum g' = 5 /\ mode_index g' = Ok [1] /\ median_index g' = Ok (Some [1]).
Proof. eexists. eexists. split; [reflexivity|]. split; [reflexivity|]. conj; reflexivity. Qed.

(** The mode is a bin with the largest count. *)
Theorem C16_mode_is_largest_bin : forall dims g samples g',
  make_grid real_dim 0 dims = Ok g -> dims <> [] -> Forall (fun p => length p = length dims) samples ->
  add_samples real_dim g samples = Ok g' ->
  exists i m, mode_index g' = Ok i /\ inside (g_nums g') i /\ get_cell g' i = Ok m /\
    forall j c, inside (g_nums g') j -> get_cell g' j = Ok c -> c <= m.
Proof.
  intros dims g samples g' Hg Hne Hl Es.
  destruct (make_grid_spec real_dim good_dim_Q real_ncells_pos 0 real_ok_iff dims)
    as [[H (g0 & E & Hd & Hp & Hn & Hc & Hz)]|[H E]]; [|congruence].
  assert (g0 = g) by congruence. subst g0.
  assert (Hw : wf real_dim good_dim_Q g) by (unfold wf; rewrite Hd; auto).
  destruct (add_samples_spec real_dim good_dim_Q in_cell_Q real_dim_spec samples g Hw) as (g1 & Es' & Hd' & Hn' & Hw' & Ht & Hcells).
  { rewrite Hd. exact Hl. }
  assert (g1 = g') by congruence. subst g1.
  apply (mode_index_spec real_dim good_dim_Q real_ncells_pos g' Hw').
  rewrite Hn', Hn. destruct dims; [contradiction|discriminate].
Qed.
Print Assumptions C16_mode_is_largest_bin.

(** The median bin: at most half of the samples lie before it, at least half up to it. *)
Theorem C16_median_splits_samples : forall dims g samples g',
  make_grid real_dim 0 dims = Ok g -> dims <> [] -> Forall (fun p => length p = length dims) samples ->
  add_samples real_dim g samples = Ok g' ->
  exists l i l1 l2, all_visits g' = Some l /\ median_index g' = Ok (Some i) /\ l = l1 ++ i :: l2 /\
    get_sum g' <= 2 * (total (map (cellv g') l1) + cellv g' i) /\
    2 * total (map (cellv g') l1) <= get_sum g'.
Proof.
  intros dims g samples g' Hg Hne Hl Es.
  destruct (make_grid_spec real_dim good_dim_Q real_ncells_pos 0 real_ok_iff dims)
    as [[H (g0 & E & Hd & Hp & Hn & Hc & Hz)]|[H E]]; [|congruence].
  assert (g0 = g) by congruence. subst g0.
  assert (Hw : wf real_dim good_dim_Q g) by (unfold wf; rewrite Hd; auto).
  destruct (add_samples_spec real_dim good_dim_Q in_cell_Q real_dim_spec samples g Hw) as (g1 & Es' & Hd' & Hn' & Hw' & Ht & Hcells).
  { rewrite Hd. exact Hl. }
  assert (g1 = g') by congruence. subst g1.
  replace (get_sum g') with (total (g_cells g')) by (unfold get_sum; rewrite fold_left_add; lia).
  apply (median_index_spec real_dim good_dim_Q real_ncells_pos g' Hw').
  - rewrite Hn', Hn. destruct dims; [contradiction|discriminate].
  - apply Forall_forall. intros c Hin. apply (In_nth _ _ 0) in Hin as (k & Hk & <-).
    pose proof (wf_pos real_dim good_dim_Q real_ncells_pos g' Hw') as Hpos.
    destruct Hw' as (_ & _ & Hlen).
    destruct (linear_surj (g_nums g') Hpos (Z.of_nat k)) as (i & Hi & Ei); [lia|].
    rewrite Hn' in Hi, Ei. specialize (Hcells i Hi). rewrite Ei, Nat2Z.id in Hcells. rewrite Hcells.
    assert (H0 : 0 = nth k (g_cells g) 0).
    { rewrite Forall_forall in Hz. apply Hz. apply nth_In.
      destruct Hw as (_ & _ & Hlen'). rewrite Hn' in Hlen. lia. }
    unfold count. lia.
Qed.
Print Assumptions C16_median_splits_samples.

(** A normalised non-empty histogram sums to one. *)
Theorem C16_normalized_sums_to_one : forall (X : Type) (g : grid X Z), get_sum g <> 0 ->
  (fold_right Qplus 0 (normalized g) == 1)%Q.
Proof.
  intros X g H. apply normalized_sum. unfold get_sum in H. rewrite fold_left_add in H. lia.
Qed.
Print Assumptions C16_normalized_sums_to_one.

(** Resetting a histogram gives back the freshly built one. *)
Theorem C16_reset_starts_over : forall (X : Type) (ops : dimops X) dims g samples g',
  make_grid ops 0 dims = Ok g -> add_samples ops g samples = Ok g' -> reset 0 g' = g.
Proof. intros. eapply reset_add; eauto. Qed.
Print Assumptions C16_reset_starts_over.
