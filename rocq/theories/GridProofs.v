From Coq Require Import ZArith QArith Qround List Bool Lia ZifyBool Lqa Permutation FinFun.
From Verif Require Import Base GridModel GridSpec.
Import ListNotations.
Open Scope Z_scope.
Ltac Zify.zify_post_hook ::= Z.div_mod_to_equations.

(** * Linear index *)
Lemma inside_cons n i nums idx : inside (n :: nums) (i :: idx) <-> 0 <= i < n /\ inside nums idx.
Proof. unfold inside. split; [intros H; inversion H; auto|intros [? ?]; constructor; auto]. Qed.

Lemma prod_pos nums : Forall (fun n => 0 < n) nums -> 0 < prod nums.
Proof.
  induction 1 as [|n nums Hn _ IH]; [cbn; lia|]. change (prod (n :: nums)) with (n * prod nums). nia.
Qed.

Lemma inside_pos nums idx : inside nums idx -> Forall (fun n => 0 < n) nums.
Proof. induction 1; constructor; auto; lia. Qed.

Lemma linear_cons n i nums idx : linear_index (n :: nums) (i :: idx) = prod nums * i + linear_index nums idx.
Proof. reflexivity. Qed.

Lemma linear_range nums idx : inside nums idx -> 0 <= linear_index nums idx < prod nums.
Proof.
  intros H. pose proof (inside_pos _ _ H) as Hp. induction H as [|n i nums idx Hi H IH]; [cbn; lia|].
  inversion Hp; subst. specialize (IH H3). rewrite linear_cons.
  pose proof (prod_pos nums H3). change (prod (n :: nums)) with (n * prod nums). nia.
Qed.

Lemma linear_inj nums : forall a b, inside nums a -> inside nums b ->
  linear_index nums a = linear_index nums b -> a = b.
Proof.
  induction nums as [|n nums IH]; intros a b Ha Hb E; inversion Ha; inversion Hb; subst; [reflexivity|].
  rewrite !linear_cons in E. pose proof (linear_range _ _ H3). pose proof (linear_range _ _ H8).
  assert (y = y0).
  { destruct (Z.lt_total y y0) as [L|[L|L]]; auto; exfalso; nia. }
  subst y0. f_equal. apply IH; auto. lia.
Qed.

Lemma linear_surj nums : Forall (fun n => 0 < n) nums -> forall k, 0 <= k < prod nums ->
  exists idx, inside nums idx /\ linear_index nums idx = k.
Proof.
  induction 1 as [|n nums Hn Hp IH]; intros k Hk.
  - exists []. split; [constructor|]. cbn in *. lia.
  - change (prod (n :: nums)) with (n * prod nums) in Hk. pose proof (prod_pos nums Hp).
    destruct (IH (k mod prod nums)) as (idx & Hi & He).
    { apply Z.mod_pos_bound. lia. }
    exists (k / prod nums :: idx). split.
    + apply inside_cons. split; [|exact Hi]. split; [apply Z.div_pos; lia|].
      apply Z.div_lt_upper_bound; lia.
    + rewrite linear_cons, He. pose proof (Z.div_mod k (prod nums)). lia.
Qed.

Lemma inside_valid nums idx : inside nums idx -> is_valid_index nums idx = true.
Proof. induction 1; cbn [is_valid_index]; [reflexivity|]. rewrite IHForall2. lia. Qed.

Lemma valid_inside nums idx : length idx = length nums -> Forall (fun i => 0 <= i) idx ->
  is_valid_index nums idx = true -> inside nums idx.
Proof.
  revert idx. induction nums as [|n nums IH]; intros [|i idx] Hl Hp Hv; cbn in *; try discriminate; [constructor|].
  inversion Hp; subst. apply andb_true_iff in Hv as [H1' H2']. constructor; [lia|]. apply IH; auto.
Qed.

(** * Enumeration by incrementIndex *)
Fixpoint ord (nums idx : list Z) : Z :=
  match nums, idx with
  | n :: nr, i :: ir => i + n * ord nr ir
  | _, _ => 0
  end.

Lemma ord_range nums idx : inside nums idx -> 0 <= ord nums idx < prod nums.
Proof.
  intros H. pose proof (inside_pos _ _ H) as Hp. induction H as [|n i nums idx Hi H IH]; [cbn; lia|].
  inversion Hp; subst. specialize (IH H3). cbn [ord].
  change (prod (n :: nums)) with (n * prod nums). nia.
Qed.

Lemma ord_inj nums : forall a b, inside nums a -> inside nums b -> ord nums a = ord nums b -> a = b.
Proof.
  induction nums as [|n nums IH]; intros a b Ha Hb E; inversion Ha; inversion Hb; subst; [reflexivity|].
  cbn [ord] in E.
  assert (E1 : ord nums l' = ord nums l'0).
  { destruct (Z.lt_total (ord nums l') (ord nums l'0)) as [L|[L|L]]; auto; exfalso; nia. }
  assert (y = y0) by (rewrite E1 in E; lia). subst y0. f_equal. apply IH; auto.
Qed.

Lemma inc_aux_spec nums : forall idx, nums <> [] -> inside nums idx ->
  match inc_aux nums idx with
  | Some i => inside nums i /\ ord nums i = ord nums idx + 1
  | None => ord nums idx = prod nums - 1
  end.
Proof.
  induction nums as [|n nums IH]; intros idx Hne H; [contradiction|].
  inversion H as [|? i ? ir Hi Hir]; subst. cbn [inc_aux].
  destruct (Z.ltb_spec (i + 1) n).
  - split; [apply inside_cons; split; [lia|auto]|]. cbn [ord]. lia.
  - destruct nums as [|n' nums'].
    + inversion Hir; subst. change (prod [n]) with (n * 1). cbn [ord]. lia.
    + specialize (IH ir ltac:(discriminate) Hir).
      destruct (inc_aux (n' :: nums') ir) as [i'|]; cbn [option_map].
      * destruct IH as [IH1 IH2]. split; [apply inside_cons; split; [lia|auto]|].
        change (0 + n * ord (n' :: nums') i' = i + n * ord (n' :: nums') ir + 1). nia.
      * change (i + n * ord (n' :: nums') ir = n * prod (n' :: nums') - 1). nia.
Qed.

Lemma list_eqb_eq a : forall b, list_eqb a b = true <-> a = b.
Proof.
  induction a as [|x a IH]; intros [|y b]; cbn [list_eqb]; split; intros E; try discriminate; auto.
  - apply andb_true_iff in E as [E1 E2]. apply IH in E2. f_equal; [lia|auto].
  - injection E as -> ->. apply andb_true_iff. split; [lia|now apply IH].
Qed.

Lemma inside_neq nums idx : nums <> [] -> inside nums idx -> list_eqb idx nums = false.
Proof.
  intros Hne H. destruct (list_eqb idx nums) eqn:E; [|reflexivity].
  apply list_eqb_eq in E. subst. destruct nums as [|n nums]; [contradiction|].
  inversion H. lia.
Qed.

Lemma visits_spec nums : nums <> [] -> forall fuel idx, inside nums idx ->
  Z.of_nat fuel = prod nums - ord nums idx ->
  exists l, visits fuel nums idx = Some l /\ Forall (inside nums) l /\
    length l = fuel /\ forall k, (k < fuel)%nat -> ord nums (nth k l []) = ord nums idx + Z.of_nat k.
Proof.
  intros Hne. induction fuel as [|fuel IH]; intros idx Hi Hf.
  - pose proof (ord_range _ _ Hi). lia.
  - cbn [visits]. rewrite inside_neq by auto. unfold increment_index.
    pose proof (inc_aux_spec nums idx Hne Hi) as Hs.
    destruct (inc_aux nums idx) as [i'|].
    + destruct Hs as [Hi' Ho]. destruct (IH i' Hi') as (l & El & Hl & Hlen & Hk); [lia|].
      rewrite El. cbn [option_map]. exists (idx :: l). split; [reflexivity|].
      split; [constructor; auto|]. split; [cbn; lia|].
      intros [|k] Hlt; cbn [nth]; [lia|]. rewrite Hk by lia. lia.
    + assert (fuel = 0%nat) by lia. subst fuel. cbn [visits].
      assert (E : list_eqb nums nums = true) by now apply list_eqb_eq. rewrite E. cbn [option_map].
      exists [idx]. split; [reflexivity|]. split; [constructor; auto|]. split; [reflexivity|].
      intros k Hlt. replace k with 0%nat by lia. cbn [nth]. lia.
Qed.

Lemma zero_inside nums : Forall (fun n => 0 < n) nums -> inside nums (map (fun _ => 0) nums) /\ ord nums (map (fun _ => 0) nums) = 0.
Proof.
  induction 1 as [|n nums Hn _ [IH1 IH2]]; [split; [constructor|reflexivity]|].
  cbn [map]. split; [apply inside_cons; split; [lia|auto]|]. cbn [ord]. rewrite IH2. lia.
Qed.

Lemma visits_all nums : nums <> [] -> Forall (fun n => 0 < n) nums ->
  exists l, visits (Z.to_nat (prod nums)) nums (map (fun _ => 0) nums) = Some l /\
    NoDup l /\ (forall idx, In idx l <-> inside nums idx) /\ Z.of_nat (length l) = prod nums.
Proof.
  intros Hne Hp. pose proof (prod_pos nums Hp) as Hpp. destruct (zero_inside nums Hp) as [Hz Ho].
  destruct (visits_spec nums Hne (Z.to_nat (prod nums)) _ Hz) as (l & El & Hl & Hlen & Hk); [lia|].
  exists l. split; [exact El|]. split; [|split].
  - apply (NoDup_nth l []). intros i j Hi Hj E.
    pose proof (Hk i ltac:(lia)) as H1. pose proof (Hk j ltac:(lia)) as H2. rewrite E in H1. lia.
  - intros idx. split.
    + intros Hin. rewrite Forall_forall in Hl. now apply Hl.
    + intros Hin. pose proof (ord_range _ _ Hin) as Hr.
      assert (E : nth (Z.to_nat (ord nums idx)) l [] = idx).
      { apply (ord_inj nums); auto.
        - rewrite Forall_forall in Hl. apply Hl. apply nth_In. lia.
        - rewrite Hk by lia. lia. }
      rewrite <- E. apply nth_In. lia.
  - lia.
Qed.

(** * One dimension *)
Lemma int_ok_iff d : d_ok int_dim d = true <-> good_dim_Z d.
Proof. destruct d as [[mn mx] r]. cbn. lia. Qed.

Lemma Qlt_bool_iff a b : Qlt_bool a b = true <-> (a < b)%Q.
Proof.
  unfold Qlt_bool. rewrite negb_true_iff. split.
  - intros H. apply Qnot_le_lt. intros L. apply Qle_bool_iff in L. congruence.
  - intros H. destruct (Qle_bool b a) eqn:E; [|reflexivity]. apply Qle_bool_iff in E.
    exfalso. now apply (Qlt_not_le _ _ H).
Qed.

Lemma Qle_bool_false a b : Qle_bool a b = false <-> (b < a)%Q.
Proof.
  rewrite <- Qlt_bool_iff. unfold Qlt_bool. now rewrite negb_true_iff.
Qed.

Lemma real_ok_iff d : d_ok real_dim d = true <-> good_dim_Q d.
Proof.
  destruct d as [[mn mx] r]. cbn [d_ok real_dim good_dim_Q].
  rewrite !andb_true_iff, !negb_true_iff, !Qle_bool_false.
  split; intros H; repeat split; try tauto.
  - destruct H as [_ H]. unfold Qlt_bool in H. apply negb_false_iff in H. now apply Qle_bool_iff.
  - destruct H as (_ & _ & H). unfold Qlt_bool. apply negb_false_iff. now apply Qle_bool_iff.
Qed.

Lemma int_dim_spec d p : good_dim_Z d -> d_inrange int_dim d p = true ->
  0 <= d_index int_dim d p < d_ncells int_dim d /\ in_cell_Z d (d_index int_dim d p) p.
Proof.
  destruct d as [[mn mx] r]. cbn [d_inrange d_index d_ncells int_dim good_dim_Z in_cell_Z].
  intros (H1 & H2 & H3) Hr.
  assert (Hd : forall a, 0 <= a -> Z.quot a r = a / r) by (intros; apply Z.quot_div_nonneg; lia).
  destruct (Z.eqb_spec p mx).
  - subst p. rewrite Hd by lia. pose proof (Z.div_mod (mx - mn) r ltac:(lia)).
    pose proof (Z.mod_pos_bound (mx - mn) r ltac:(lia)). pose proof (Z.div_pos (mx - mn) r). nia.
  - rewrite !Hd by lia. pose proof (Z.div_mod (p - mn) r ltac:(lia)).
    pose proof (Z.mod_pos_bound (p - mn) r ltac:(lia)). pose proof (Z.div_pos (p - mn) r).
    assert ((p - mn) / r <= (mx - mn) / r) by (apply Z.div_le_mono; lia). nia.
Qed.

Lemma Qdiv_mult_cancel a r : (0 < r)%Q -> (a / r * r == a)%Q.
Proof. intros H. field. intros E. rewrite E in H. now apply Qlt_irrefl in H. Qed.

Lemma Qmult_lt_inv x y r : (0 < r -> x * r < y * r -> x < y)%Q.
Proof. intros Hr H. apply Qmult_lt_r in H; auto. Qed.

Lemma real_ncells_pos d : good_dim_Q d -> 0 < d_ncells real_dim d.
Proof.
  destruct d as [[mn mx] r]. cbn [d_ncells real_dim good_dim_Q]. intros (H1 & H2 & H3).
  pose proof (Qle_ceiling ((mx - mn) / r)) as Hc. pose proof (Qdiv_mult_cancel (mx - mn) r H1) as E.
  assert (0 < (mx - mn) / r)%Q.
  { apply (Qmult_lt_inv _ _ r H1). rewrite E. lra. }
  assert (H' : (inject_Z 0 < inject_Z (Qceiling ((mx - mn) / r)))%Q) by (change (inject_Z 0) with 0%Q; lra).
  rewrite <- Zlt_Qlt in H'. exact H'.
Qed.

Lemma real_dim_spec d p : good_dim_Q d -> d_inrange real_dim d p = true ->
  0 <= d_index real_dim d p < d_ncells real_dim d /\ in_cell_Q d (d_index real_dim d p) p.
Proof.
  intros Hg. pose proof (real_ncells_pos d Hg) as Hn. revert Hn.
  destruct d as [[mn mx] r]. cbn [d_inrange d_index d_ncells real_dim good_dim_Q in_cell_Q] in *.
  destruct Hg as (H1 & H2 & H3). intros Hn Hr. apply andb_true_iff in Hr as [Hr1 Hr2].
  apply Qle_bool_iff in Hr1, Hr2.
  pose proof (Qdiv_mult_cancel (mx - mn) r H1) as EM.
  pose proof (Qdiv_mult_cancel (p - mn) r H1) as EP.
  pose proof (Qle_ceiling ((mx - mn) / r)) as Hc.
  pose proof (Qceiling_lt ((mx - mn) / r)) as Hc'.
  set (Ce := Qceiling ((mx - mn) / r)) in *.
  destruct (Qeq_bool p mx) eqn:E.
  - apply Qeq_bool_iff in E. split; [lia|].
    assert (Hlt : (inject_Z (Ce - 1) * r < (mx - mn) / r * r)%Q) by (apply Qmult_lt_r; auto).
    assert (Hle : ((mx - mn) / r * r <= inject_Z Ce * r)%Q) by (apply Qmult_le_r; auto).
    rewrite EM in Hlt, Hle.
    assert (Ei : (inject_Z (Ce - 1) + 1 == inject_Z Ce)%Q).
    { replace (inject_Z Ce) with (inject_Z (Ce - 1 + 1)) by (f_equal; lia). rewrite inject_Z_plus. reflexivity. }
    repeat split; try lra.
    rewrite Ei. destruct (Qlt_le_dec p (mn + inject_Z Ce * r)) as [L|L]; [left; exact L|right]. split; lra.
  - assert (Hne : (p < mx)%Q).
    { destruct (Qlt_le_dec p mx) as [L|L]; auto. exfalso. assert (p == mx)%Q by lra.
      apply Qeq_bool_iff in H. congruence. }
    pose proof (Qfloor_le ((p - mn) / r)) as Hf. pose proof (Qlt_floor ((p - mn) / r)) as Hf'.
    set (F := Qfloor ((p - mn) / r)) in *.
    assert (HF1 : (inject_Z F * r <= (p - mn) / r * r)%Q) by (apply Qmult_le_r; auto).
    assert (HF2 : ((p - mn) / r * r < inject_Z (F + 1) * r)%Q) by (apply Qmult_lt_r; auto).
    assert (HC2 : ((mx - mn) / r * r <= inject_Z Ce * r)%Q) by (apply Qmult_le_r; auto).
    rewrite EP in HF1, HF2. rewrite EM in HC2. rewrite inject_Z_plus in HF2. change (inject_Z 1) with 1%Q in HF2.
    assert (0 <= F).
    { assert (H : (inject_Z (-1) < inject_Z F)%Q).
      { apply (Qmult_lt_inv _ _ r H1). change (inject_Z (-1)) with (- (1))%Q. lra. }
      rewrite <- Zlt_Qlt in H. lia. }
    assert (F < Ce).
    { assert (H' : (inject_Z F < inject_Z Ce)%Q) by (apply (Qmult_lt_inv _ _ r H1); lra).
      now rewrite <- Zlt_Qlt in H'. }
    split; [lia|]. split; [lra|]. split; [lra|]. split; [lra|]. left. lra.
Qed.

(** Centre of a cell on an exact grid. *)
Lemma real_center_spec d i : good_dim_Q d -> 0 <= i < d_ncells real_dim d ->
  d_inrange real_dim d (d_center real_dim d i) = true ->
  d_index real_dim d (d_center real_dim d i) = i.
Proof.
  intros Hg Hi Hr. destruct (real_dim_spec d _ Hg Hr) as [Hj Hcell]. revert Hi Hj Hcell.
  generalize (d_index real_dim d (d_center real_dim d i)) as j. intros j Hi Hj.
  destruct d as [[mn mx] r]. cbn [d_center real_dim good_dim_Q in_cell_Q] in *.
  destruct Hg as (H1 & H2 & H3). intros (_ & _ & Ha & Hb).
  assert (A : (inject_Z j < inject_Z i + 1)%Q).
  { apply (Qmult_lt_inv _ _ r H1). nra. }
  assert (B : (inject_Z i < inject_Z j + 1)%Q).
  { apply (Qmult_lt_inv _ _ r H1). destruct Hb as [Hb|[_ Hb]]; nra. }
  change 1%Q with (inject_Z 1) in A, B. rewrite <- inject_Z_plus, <- Zlt_Qlt in A, B. lia.
Qed.

Lemma int_center_spec d i : good_dim_Z d -> 0 <= fst (fst d) -> 0 <= i < d_ncells int_dim d ->
  d_inrange int_dim d (d_center int_dim d i) = true ->
  d_index int_dim d (d_center int_dim d i) = i.
Proof.
  intros Hg Hmn Hi Hr. destruct (int_dim_spec d _ Hg Hr) as [Hj Hcell]. revert Hi Hj Hcell.
  generalize (d_index int_dim d (d_center int_dim d i)) as j. intros j Hi Hj.
  destruct d as [[mn mx] r]. cbn [d_center int_dim good_dim_Z in_cell_Z fst] in *.
  destruct Hg as (H1 & H2 & H3).
  rewrite Z.quot_div_nonneg by nia. intros (_ & Ha).
  assert (2 * mn + (2 * i + 1) * r = 2 * ((2 * mn + (2 * i + 1) * r) / 2) + (2 * mn + (2 * i + 1) * r) mod 2) by (apply Z.div_mod; lia).
  pose proof (Z.mod_pos_bound (2 * mn + (2 * i + 1) * r) 2 ltac:(lia)).
  set (c := (2 * mn + (2 * i + 1) * r) / 2) in *. clearbody c.
  assert (mn + i * r <= c < mn + (i + 1) * r) by nia. nia.
Qed.

Lemma upd_nth_length {C} (l : list C) : forall i f, length (upd_nth l i f) = length l.
Proof. induction l; intros [|i] f; cbn; auto. Qed.

Lemma nth_error_upd_nth {C} (l : list C) : forall i f k,
  nth_error (upd_nth l i f) k = if Nat.eqb k i then option_map f (nth_error l k) else nth_error l k.
Proof.
  induction l as [|x l IH]; intros [|i] f [|k]; cbn [upd_nth nth_error Nat.eqb option_map]; auto.
  - now destruct (Nat.eqb k i).
Qed.

Lemma fold_left_add l : forall a, fold_left Z.add l a = a + total l.
Proof. induction l as [|x l IH]; intros a; cbn [fold_left]; [cbn; lia|]. rewrite IH. cbn [total fold_right]. unfold total. lia. Qed.

Lemma total_upd (l : list Z) : forall i c, nth_error l i = Some c -> total (upd_nth l i (fun c => c + 1)) = total l + 1.
Proof.
  induction l as [|x l IH]; intros [|i] c H; cbn in H; try discriminate; cbn [upd_nth].
  - unfold total; cbn. lia.
  - unfold total in *; cbn [fold_right]. rewrite (IH i c H). lia.
Qed.

Lemma total_app a b : total (a ++ b) = total a + total b.
Proof. induction a; cbn [app total fold_right]; unfold total in *; cbn [fold_right app]; lia. Qed.

Lemma total_perm a b : Permutation a b -> total a = total b.
Proof. induction 1; unfold total in *; cbn [fold_right]; lia. Qed.

Lemma map_nth_seq (l : list Z) : map (fun k => nth k l 0) (seq 0 (length l)) = l.
Proof.
  apply (nth_ext _ _ 0 0).
  - now rewrite map_length, seq_length.
  - intros n Hn. rewrite map_length, seq_length in Hn.
    rewrite (nth_indep _ 0 (nth 0 l 0)) by (rewrite map_length, seq_length; lia).
    rewrite (map_nth (fun k => nth k l 0)). rewrite seq_nth by lia. reflexivity.
Qed.

(** * Whole grids *)
Section G0.
Context {X : Type} (ops : dimops X).
Variable good : X * X * X -> Prop.
Variable cell : X * X * X -> Z -> X -> Prop.
Hypothesis dim_spec : forall d p, good d -> d_inrange ops d p = true ->
  0 <= d_index ops d p < d_ncells ops d /\ cell d (d_index ops d p) p.

Lemma index_of_spec dims : forall p, Forall good dims -> length p = length dims ->
  all_in_range ops dims p = true ->
  inside (map (d_ncells ops) dims) (index_of ops dims p) /\
  Forall2 (fun dp i => cell (fst dp) i (snd dp)) (combine dims p) (index_of ops dims p).
Proof.
  induction dims as [|d dims IH]; intros [|x p] Hg Hl Hr; cbn in Hl; try discriminate.
  - split; constructor.
  - inversion Hg; subst. cbn [all_in_range] in Hr. apply andb_true_iff in Hr as [Hr1 Hr2].
    destruct (dim_spec d x H1 Hr1) as [Ha Hb]. destruct (IH p H2 ltac:(lia) Hr2) as [Hc Hd].
    cbn [map index_of combine]. split; [apply inside_cons; auto|constructor; auto].
Qed.
End G0.

Section G1.
Context {X C : Type} (ops : dimops X).
Variable good : X * X * X -> Prop.

Definition wf (g : grid X C) : Prop :=
  Forall good (g_dims g) /\ g_nums g = map (d_ncells ops) (g_dims g) /\
  Z.of_nat (length (g_cells g)) = prod (g_nums g).

Lemma get_cell_inside g idx : wf g -> inside (g_nums g) idx ->
  exists c, get_cell g idx = Ok c /\ nth_error (g_cells g) (Z.to_nat (linear_index (g_nums g) idx)) = Some c.
Proof.
  intros (Hg & Hn & Hc) Hi. unfold get_cell. rewrite inside_valid by auto.
  pose proof (linear_range _ _ Hi) as Hr. destruct (Z.ltb_spec (linear_index (g_nums g) idx) 0); [lia|].
  destruct (nth_error _ _) as [c|] eqn:E; [exists c; auto|]. apply nth_error_None in E. lia.
Qed.

Hypothesis ncells_pos : forall d, good d -> 0 < d_ncells ops d.

Lemma wf_pos g : wf g -> Forall (fun n => 0 < n) (g_nums g).
Proof. intros (Hg & -> & _). rewrite Forall_map. eapply Forall_impl; [|exact Hg]. auto. Qed.

Variable c0 : C.
Hypothesis ok_iff : forall d, d_ok ops d = true <-> good d.

Lemma make_grid_spec dims :
  (Forall good dims /\ exists g, make_grid ops c0 dims = Ok g /\ g_dims g = dims /\
     Forall (fun n => 0 < n) (g_nums g) /\ g_nums g = map (d_ncells ops) dims /\
     Z.of_nat (length (g_cells g)) = prod (g_nums g) /\ Forall (eq c0) (g_cells g)) \/
  (~ Forall good dims /\ make_grid ops c0 dims = Throw).
Proof.
  unfold make_grid. destruct (forallb (d_ok ops) dims) eqn:E.
  - left. rewrite forallb_forall in E.
    assert (Hg : Forall good dims) by (apply Forall_forall; intros d Hd; apply ok_iff; auto).
    split; [exact Hg|]. eexists. split; [reflexivity|]. cbn [g_dims g_nums g_cells].
    assert (Hp : Forall (fun n => 0 < n) (map (d_ncells ops) dims)).
    { rewrite Forall_map. eapply Forall_impl; [|exact Hg]. auto. }
    split; [reflexivity|]. split; [exact Hp|]. split; [reflexivity|]. split.
    + rewrite repeat_length. pose proof (prod_pos _ Hp). lia.
    + apply Forall_forall. intros x Hx. symmetry. eapply repeat_spec; eauto.
  - right. split; [|reflexivity]. intros Hg. assert (forallb (d_ok ops) dims = true); [|congruence].
    apply forallb_forall. rewrite Forall_forall in Hg. intros d Hd. apply ok_iff; auto.
Qed.
End G1.

(** * Histograms *)
Section H.
Context {X : Type} (ops : dimops X).
Variable good : X * X * X -> Prop.
Variable cell : X * X * X -> Z -> X -> Prop.
Hypothesis dim_spec : forall d p, good d -> d_inrange ops d p = true ->
  0 <= d_index ops d p < d_ncells ops d /\ cell d (d_index ops d p) p.
Hypothesis ncells_pos : forall d, good d -> 0 < d_ncells ops d.

Lemma add_sample_spec (g : grid X Z) p : wf ops good g -> length p = length (g_dims g) ->
  exists g', add_sample ops g p = Ok g' /\ g_dims g' = g_dims g /\ g_nums g' = g_nums g /\ wf ops good g' /\
    total (g_cells g') = total (g_cells g) + (if all_in_range ops (g_dims g) p then 1 else 0) /\
    forall idx, inside (g_nums g) idx ->
      nth (Z.to_nat (linear_index (g_nums g) idx)) (g_cells g') 0 =
      nth (Z.to_nat (linear_index (g_nums g) idx)) (g_cells g) 0 +
        (if all_in_range ops (g_dims g) p && list_eqb (index_of ops (g_dims g) p) idx then 1 else 0).
Proof.
  intros Hw Hl. unfold add_sample. destruct (all_in_range ops (g_dims g) p) eqn:E.
  2:{ exists g. split; [reflexivity|]. split; [reflexivity|]. split; [reflexivity|]. split; [exact Hw|].
      split; [lia|]. intros. cbn [andb]. lia. }
  unfold get_index. rewrite E. cbn [obind]. unfold modify_cell.
  destruct Hw as (Hg & Hn & Hc).
  destruct (index_of_spec ops good cell dim_spec (g_dims g) p Hg Hl E) as [Hi _].
  rewrite <- Hn in Hi.
  destruct (get_cell_inside ops good g _ (conj Hg (conj Hn Hc)) Hi) as (c & Ec & En).
  rewrite Ec. cbn [obind]. eexists. split; [reflexivity|]. cbn [g_dims g_nums g_cells].
  split; [reflexivity|]. split; [reflexivity|]. split; [|split].
  - unfold wf. cbn [g_dims g_nums g_cells]. rewrite upd_nth_length. auto.
  - eapply total_upd; eauto.
  - intros idx Hidx. cbn [andb].
    pose proof (linear_range _ _ Hi). pose proof (linear_range _ _ Hidx).
    set (k := Z.to_nat (linear_index (g_nums g) idx)).
    set (j := Z.to_nat (linear_index (g_nums g) (index_of ops (g_dims g) p))) in *.
    assert (Hk : nth k (upd_nth (g_cells g) j (fun c0 => c0 + 1)) 0 = if Nat.eqb k j then nth k (g_cells g) 0 + 1 else nth k (g_cells g) 0).
    { pose proof (nth_error_upd_nth (g_cells g) j (fun c0 => c0 + 1) k) as Hnth.
      destruct (nth_error (g_cells g) k) as [v|] eqn:Ev.
      - rewrite (nth_error_nth (g_cells g) k 0 Ev). cbn [option_map] in Hnth.
        destruct (Nat.eqb k j); exact (nth_error_nth _ k 0 Hnth).
      - apply nth_error_None in Ev. unfold k in Ev. lia. }
    rewrite Hk. destruct (Nat.eqb_spec k j) as [Ekj|Ekj].
    + assert (El : idx = index_of ops (g_dims g) p).
      { apply (linear_inj (g_nums g)); auto. unfold k, j in Ekj. lia. }
      rewrite <- El. assert (Et : list_eqb idx idx = true) by now apply list_eqb_eq. rewrite Et. lia.
    + destruct (list_eqb (index_of ops (g_dims g) p) idx) eqn:El; [|lia].
      apply list_eqb_eq in El. subst idx. contradiction.
Qed.

Lemma add_samples_spec ps : forall (g : grid X Z), wf ops good g ->
  Forall (fun p => length p = length (g_dims g)) ps ->
  exists g', add_samples ops g ps = Ok g' /\ g_dims g' = g_dims g /\ g_nums g' = g_nums g /\ wf ops good g' /\
    total (g_cells g') = total (g_cells g) + count (all_in_range ops (g_dims g)) ps /\
    forall idx, inside (g_nums g) idx ->
      nth (Z.to_nat (linear_index (g_nums g) idx)) (g_cells g') 0 =
      nth (Z.to_nat (linear_index (g_nums g) idx)) (g_cells g) 0 +
        count (fun p => all_in_range ops (g_dims g) p && list_eqb (index_of ops (g_dims g) p) idx) ps.
Proof.
  induction ps as [|p ps IH]; intros g Hw Hl; cbn [add_samples].
  - exists g. unfold count; cbn [filter length Z.of_nat]. split; [reflexivity|]. split; [reflexivity|].
    split; [reflexivity|]. split; [exact Hw|]. split; [lia|]. intros; lia.
  - inversion Hl as [|? ? Hp Hps]; subst.
    destruct (add_sample_spec g p Hw Hp) as (g1 & E1 & Hd1 & Hn1 & Hw1 & Ht1 & Hc1).
    rewrite E1. cbn [obind].
    destruct (IH g1 Hw1) as (g' & E & Hd & Hn & Hw' & Ht & Hc).
    { rewrite Hd1. exact Hps. }
    exists g'. split; [exact E|]. rewrite Hd1 in *. rewrite Hn1 in *.
    split; [exact Hd|]. split; [exact Hn|]. split; [exact Hw'|]. split.
    + rewrite Ht, Ht1. unfold count. cbn [filter].
      destruct (all_in_range ops (g_dims g) p); cbn [length]; lia.
    + intros idx Hidx. rewrite Hc, Hc1 by auto. unfold count. cbn [filter].
      destruct (all_in_range ops (g_dims g) p && list_eqb (index_of ops (g_dims g) p) idx); cbn [length]; lia.
Qed.

Lemma mode_loop_spec (g : grid X Z) : wf ops good g -> forall l best, Forall (inside (g_nums g)) l ->
  (match best with Some (i, m) => inside (g_nums g) i /\ get_cell g i = Ok m | None => True end) ->
  exists r, mode_loop g best l = Ok r /\
    match r with
    | Some (i, m) => inside (g_nums g) i /\ get_cell g i = Ok m /\
        (match best with Some (_, mb) => mb <= m | None => True end) /\
        forall j c, In j l -> get_cell g j = Ok c -> c <= m
    | None => best = None /\ l = []
    end.
Proof.
  intros Hw. induction l as [|i l IH]; intros best Hl Hb; cbn [mode_loop].
  - exists best. split; [reflexivity|]. destruct best as [[i m]|]; [|auto].
    destruct Hb as [H1 H2]. split; [exact H1|]. split; [exact H2|]. split; [lia|]. intros j c [].
  - inversion Hl as [|? ? Hi Hl']; subst.
    destruct (get_cell_inside ops good g i Hw Hi) as (c & Ec & _). rewrite Ec. cbn [obind].
    set (best' := match best with
                  | None => Some (i, c)
                  | Some (_, m) => if c >? m then Some (i, c) else best
                  end).
    assert (Hb' : exists i' m', best' = Some (i', m') /\ inside (g_nums g) i' /\ get_cell g i' = Ok m' /\ c <= m' /\
              (match best with Some (_, mb) => mb <= m' | None => True end)).
    { unfold best'. destruct best as [[ib mb]|].
      - destruct (Z.gtb_spec c mb).
        + exists i, c. repeat split; auto; lia.
        + exists ib, mb. destruct Hb. repeat split; auto; lia.
      - exists i, c. repeat split; auto; lia. }
    destruct Hb' as (i' & m' & -> & H1 & H2 & H3 & H4).
    destruct (IH (Some (i', m')) Hl' (conj H1 H2)) as (r & Er & Hr).
    exists r. split; [exact Er|]. destruct r as [[ir mr]|]; [|destruct Hr; discriminate].
    destruct Hr as (R1 & R2 & R3 & R4). repeat split; auto.
    + destruct best as [[ib mb]|]; [lia|exact I].
    + intros j cj [<-|Hj] Ej; [|eauto]. rewrite Ec in Ej. injection Ej as <-. lia.
Qed.

Lemma mode_index_spec (g : grid X Z) : wf ops good g -> g_nums g <> [] ->
  exists i m, mode_index g = Ok i /\ inside (g_nums g) i /\ get_cell g i = Ok m /\
    forall j c, inside (g_nums g) j -> get_cell g j = Ok c -> c <= m.
Proof.
  intros Hw Hne. unfold mode_index, all_visits, zero_index.
  destruct (visits_all (g_nums g) Hne (wf_pos ops good ncells_pos g Hw)) as (l & El & Hnd & Hin & Hlen).
  rewrite El.
  assert (Hl : Forall (inside (g_nums g)) l) by (apply Forall_forall; intros; now apply Hin).
  destruct (mode_loop_spec g Hw l None Hl I) as (r & Er & Hr). rewrite Er. cbn [obind].
  destruct r as [[i m]|].
  - exists i, m. destruct Hr as (R1 & R2 & _ & R4). split; [reflexivity|]. split; [exact R1|]. split; [exact R2|].
    intros j c Hj. apply R4. now apply Hin.
  - destruct Hr as [_ ->]. cbn in Hlen. pose proof (prod_pos _ (wf_pos ops good ncells_pos g Hw)). lia.
Qed.

Definition cellv (g : grid X Z) (i : list Z) : Z := nth (Z.to_nat (linear_index (g_nums g) i)) (g_cells g) 0.

Lemma get_cell_cellv (g : grid X Z) i : wf ops good g -> inside (g_nums g) i -> get_cell g i = Ok (cellv g i).
Proof.
  intros Hw Hi. destruct (get_cell_inside ops good g i Hw Hi) as (c & Ec & En). rewrite Ec. f_equal.
  symmetry. exact (nth_error_nth _ _ 0 En).
Qed.

Lemma median_loop_spec (g : grid X Z) sum : wf ops good g -> forall l cur, Forall (inside (g_nums g)) l ->
  exists r, median_loop g sum cur l = Ok r /\
    match r with
    | Some i => exists l1 l2, l = l1 ++ i :: l2 /\
        sum <= 2 * (cur + total (map (cellv g) l1) + cellv g i) /\
        (l1 <> [] -> 2 * (cur + total (map (cellv g) l1)) < sum)
    | None => l = [] \/ 2 * (cur + total (map (cellv g) l)) < sum
    end.
Proof.
  intros Hw. induction l as [|i l IH]; intros cur Hl; cbn [median_loop].
  - exists None. auto.
  - inversion Hl as [|? ? Hi Hl']; subst. rewrite (get_cell_cellv g i Hw Hi). cbn [obind].
    destruct (2 * (cur + cellv g i) >=? sum) eqn:E.
    + exists (Some i). split; [reflexivity|]. exists [], l. split; [reflexivity|]. cbn [map total fold_right].
      split; [lia|]. intros H; contradiction.
    + destruct (IH (cur + cellv g i) Hl') as (r & Er & Hr). exists r. split; [exact Er|].
      destruct r as [j|].
      * destruct Hr as (l1 & l2 & -> & H1 & H2). exists (i :: l1), l2. split; [reflexivity|].
        unfold total in *. cbn [map fold_right]. split; [lia|]. intros _.
        destruct l1 as [|a l1]; [cbn [map fold_right total]; lia|]. specialize (H2 ltac:(discriminate)). lia.
      * right. unfold total in *. cbn [map fold_right]. destruct Hr as [->|Hr]; [cbn [map fold_right]; lia|lia].
Qed.

Lemma map_NoDup_in {A B} (f : A -> B) l : NoDup l -> (forall a b, In a l -> In b l -> f a = f b -> a = b) -> NoDup (map f l).
Proof.
  induction 1 as [|x l Hx _ IH]; intros Hf; cbn [map]; constructor.
  - intros Hin. apply in_map_iff in Hin as (y & E & Hy). apply Hx.
    rewrite <- (Hf y x); auto; cbn; auto.
  - apply IH. intros a b Ha Hb. apply Hf; cbn; auto.
Qed.

(** Sum over the visited cells is the sum of all cells. *)
Lemma total_visited (g : grid X Z) l : wf ops good g -> NoDup l -> (forall i, In i l <-> inside (g_nums g) i) ->
  total (map (cellv g) l) = total (g_cells g).
Proof.
  intros Hw Hnd Hin. pose proof (wf_pos ops good ncells_pos g Hw) as Hp.
  destruct Hw as (Hg & Hn & Hc).
  transitivity (total (map (fun k => nth k (g_cells g) 0) (seq 0 (length (g_cells g)))));
    [|now rewrite map_nth_seq].
  replace (map (cellv g) l) with (map (fun k => nth k (g_cells g) 0) (map (fun i => Z.to_nat (linear_index (g_nums g) i)) l))
    by (rewrite map_map; reflexivity).
  apply total_perm. apply Permutation_map. apply NoDup_Permutation.
  - apply map_NoDup_in; auto.
    intros a b Ha Hb E. apply Hin in Ha, Hb.
    pose proof (linear_range _ _ Ha). pose proof (linear_range _ _ Hb).
    apply (linear_inj (g_nums g)); auto; lia.
  - apply seq_NoDup.
  - intros k. rewrite in_seq, in_map_iff. split.
    + intros (i & <- & Hi). apply Hin in Hi. pose proof (linear_range _ _ Hi). lia.
    + intros Hk. destruct (linear_surj (g_nums g) Hp (Z.of_nat k)) as (i & Hi & E); [lia|].
      exists i. split; [rewrite E; lia|now apply Hin].
Qed.

Lemma median_index_spec (g : grid X Z) : wf ops good g -> g_nums g <> [] ->
  Forall (fun c => 0 <= c) (g_cells g) ->
  exists l i l1 l2, all_visits g = Some l /\ median_index g = Ok (Some i) /\ l = l1 ++ i :: l2 /\
    total (g_cells g) <= 2 * (total (map (cellv g) l1) + cellv g i) /\
    2 * total (map (cellv g) l1) <= total (g_cells g).
Proof.
  intros Hw Hne Hpos. unfold median_index, all_visits, zero_index.
  destruct (visits_all (g_nums g) Hne (wf_pos ops good ncells_pos g Hw)) as (l & El & Hnd & Hin & Hlen).
  rewrite El.
  assert (Hl : Forall (inside (g_nums g)) l) by (apply Forall_forall; intros; now apply Hin).
  assert (Hs : get_sum g = total (g_cells g)) by (unfold get_sum; rewrite fold_left_add; lia).
  assert (Ht : 0 <= total (g_cells g)).
  { clear - Hpos. induction Hpos; unfold total in *; cbn [fold_right]; lia. }
  destruct (median_loop_spec g (get_sum g) Hw l 0 Hl) as (r & Er & Hr).
  destruct r as [i|].
  - destruct Hr as (l1 & l2 & E & H1 & H2). exists l, i, l1, l2. split; [reflexivity|]. split; [exact Er|].
    split; [exact E|]. split; [lia|]. destruct l1 as [|a l1]; [unfold total at 1; cbn [map fold_right]; lia|]. specialize (H2 ltac:(discriminate)). lia.
  - exfalso. destruct Hr as [->|Hr].
    + cbn in Hlen. pose proof (prod_pos _ (wf_pos ops good ncells_pos g Hw)). lia.
    + rewrite (total_visited g l Hw Hnd Hin) in Hr. lia.
Qed.

Lemma normalized_sum (g : grid X Z) : total (g_cells g) <> 0 ->
  (fold_right Qplus 0 (normalized g) == 1)%Q.
Proof.
  intros Hne. unfold normalized.
  assert (Hs : get_sum g = total (g_cells g)) by (unfold get_sum; rewrite fold_left_add; lia).
  rewrite Hs. set (S := total (g_cells g)) in *.
  assert (HS : ~ (inject_Z S == 0)%Q).
  { intros E. apply Hne. unfold Qeq, inject_Z in E. cbn in E. lia. }
  assert (G : forall l, (fold_right Qplus 0 (map (fun c => inject_Z c / inject_Z S) l) == inject_Z (total l) / inject_Z S)%Q).
  { induction l as [|c l IH]; cbn [map fold_right].
    - unfold total; cbn [fold_right]. field. exact HS.
    - rewrite IH. unfold total; cbn [fold_right]. rewrite inject_Z_plus. field. exact HS. }
  rewrite G. fold S. field. exact HS.
Qed.
End H.

Lemma int_inrange_iff dims : forall p, length p = length dims ->
  all_in_range int_dim dims p = true <-> in_range_Z dims p.
Proof.
  unfold in_range_Z. induction dims as [|[[mn mx] r] dims IH]; intros [|x p] Hl; cbn in Hl; try discriminate.
  - split; intros; [constructor|reflexivity].
  - cbn [all_in_range]. rewrite andb_true_iff, IH by lia. cbn [d_inrange int_dim].
    split; [intros [H1 H2]; constructor; [lia|auto]|intros H; inversion H; subst; split; [lia|auto]].
Qed.

Lemma real_inrange_iff dims : forall p, length p = length dims ->
  all_in_range real_dim dims p = true <-> in_range_Q dims p.
Proof.
  unfold in_range_Q. induction dims as [|[[mn mx] r] dims IH]; intros [|x p] Hl; cbn in Hl; try discriminate.
  - split; intros; [constructor|reflexivity].
  - cbn [all_in_range]. rewrite andb_true_iff, IH by lia. cbn [d_inrange real_dim].
    rewrite andb_true_iff, !Qle_bool_iff.
    split; [intros [[H0 H1] H2]; constructor; [split; auto|auto]|intros H; inversion H; subst; tauto].
Qed.

Lemma center_of_roundtrip {X} (ops : dimops X) (P : X * X * X -> Prop) dims : forall idx,
  (forall d i, P d -> 0 <= i < d_ncells ops d -> d_inrange ops d (d_center ops d i) = true ->
     d_index ops d (d_center ops d i) = i) ->
  Forall P dims -> inside (map (d_ncells ops) dims) idx ->
  all_in_range ops dims (center_of ops dims idx) = true ->
  index_of ops dims (center_of ops dims idx) = idx.
Proof.
  intros idx Hs. revert idx. induction dims as [|d dims IH]; intros idx Hp Hi Hr; inversion Hi; subst; [reflexivity|].
  inversion Hp; subst. cbn [center_of all_in_range index_of] in *. apply andb_true_iff in Hr as [H5 H6].
  f_equal; [apply Hs; auto|apply IH; auto].
Qed.

Lemma center_of_length {X} (ops : dimops X) dims : forall idx, length idx = length dims ->
  length (center_of ops dims idx) = length dims.
Proof. induction dims; intros [|i idx] H; cbn in *; auto; lia. Qed.

Lemma inside_length nums idx : inside nums idx -> length idx = length nums.
Proof. induction 1; cbn; auto. Qed.

Lemma int_ncells_pos : forall d, good_dim_Z d -> 0 < d_ncells int_dim d.
Proof.
  intros [[mn mx] r]. cbn [d_ncells int_dim good_dim_Z]. intros (H1 & H2 & H3).
  rewrite Z.quot_div_nonneg by lia. pose proof (Z.div_pos (mx - mn) r). lia.
Qed.

(** Uniqueness of the cell *)
Lemma int_has d i x : good_dim_Z d -> 0 <= i < d_ncells int_dim d ->
  (d_inrange int_dim d x && (d_index int_dim d x =? i)) = has_Z d i x.
Proof.
  intros Hg Hi. destruct (d_inrange int_dim d x) eqn:Er; cbn [andb].
  - destruct (int_dim_spec d x Hg Er) as [Hj Hc]. revert Hj Hc.
    generalize (d_index int_dim d x) as j. intros j Hj Hc.
    destruct d as [[mn mx] r]. cbn [in_cell_Z has_Z good_dim_Z] in *.
    destruct (Z.eqb_spec j i) as [->|Hne].
    + symmetry. rewrite !andb_true_iff. lia.
    + symmetry. apply not_true_iff_false. rewrite !andb_true_iff. intros H. apply Hne.
      assert (i < j + 1) by nia. assert (j < i + 1) by nia. lia.
  - destruct d as [[mn mx] r]. cbn [d_inrange int_dim has_Z] in *. symmetry. apply not_true_iff_false.
    rewrite !andb_true_iff. lia.
Qed.

Lemma real_has d i x : good_dim_Q d -> 0 <= i < d_ncells real_dim d ->
  (d_inrange real_dim d x && (d_index real_dim d x =? i)) = has_Q d i x.
Proof.
  intros Hg Hi. destruct (d_inrange real_dim d x) eqn:Er; cbn [andb].
  - destruct (real_dim_spec d x Hg Er) as [Hj Hc]. revert Hi Hj Hc.
    generalize (d_index real_dim d x) as j. intros j Hi Hj Hc.
    destruct d as [[mn mx] r]. cbn [in_cell_Q has_Q good_dim_Q d_ncells real_dim] in *.
    destruct Hg as (H1 & H2 & H3).
    destruct Hc as (C1 & C2 & C3 & C4).
    pose proof (Qle_ceiling ((mx - mn) / r)) as Hce.
    pose proof (Qdiv_mult_cancel (mx - mn) r H1) as EM.
    set (Ce := Qceiling ((mx - mn) / r)) in *.
    assert (HC2 : ((mx - mn) / r * r <= inject_Z Ce * r)%Q) by (apply Qmult_le_r; auto). rewrite EM in HC2.
    assert (Hin : forall a b, (inject_Z a * r < inject_Z (b + 1) * r)%Q -> a <= b).
    { intros a b H. apply (Qmult_lt_inv _ _ r H1) in H. rewrite <- Zlt_Qlt in H. lia. }
    assert (Hp1 : forall a, (inject_Z (a + 1) == inject_Z a + 1)%Q) by (intros; rewrite inject_Z_plus; reflexivity).
    destruct (Z.eqb_spec j i) as [->|Hne].
    + symmetry. rewrite !andb_true_iff, orb_true_iff, andb_true_iff, negb_true_iff, Qle_bool_false, !Qle_bool_iff, !Qeq_bool_iff.
      split; [split; [split; [exact C1|exact C2]|exact C3]|]. exact C4.
    + symmetry. apply not_true_iff_false.
      rewrite !andb_true_iff, orb_true_iff, andb_true_iff, negb_true_iff, Qle_bool_false, !Qle_bool_iff, !Qeq_bool_iff.
      intros ((_ & D3) & D4). apply Hne.
      destruct C4 as [C4|[C4 C4']]; destruct D4 as [D4|[D4 D4']].
      * assert (i <= j) by (apply Hin; rewrite Hp1; lra). assert (j <= i) by (apply Hin; rewrite Hp1; lra). lia.
      * (* x = mx is the upper end of i, and lies below the end of j *)
        assert (i <= j) by (apply Hin; rewrite Hp1; lra).
        destruct (Z.eq_dec i j) as [|Hij]; [lia|exfalso].
        assert (Hij' : i + 1 <= j) by lia. 
        assert (Hge : (inject_Z (i + 1) <= inject_Z j)%Q) by (now rewrite <- Zle_Qle).
        rewrite Hp1 in Hge.
        assert (Hji : j <= i + 1).
        { assert (HH : (inject_Z j * r < inject_Z (i + 1 + 1) * r)%Q) by (rewrite !Hp1; lra).
          apply (Qmult_lt_inv _ _ r H1) in HH. rewrite <- Zlt_Qlt in HH. lia. }
        assert (j = i + 1) by lia. subst j.
        assert (HCe : Ce <= i + 1).
        { pose proof (Qceiling_lt ((mx - mn) / r)) as Hcl. fold Ce in Hcl.
          assert (HH : (inject_Z (Ce - 1) * r < (mx - mn) / r * r)%Q) by (apply Qmult_lt_r; auto).
          rewrite EM in HH.
          assert (H' : (inject_Z (Ce - 1) * r < inject_Z (i + 1) * r)%Q) by (rewrite Hp1; lra).
          apply (Qmult_lt_inv _ _ r H1) in H'. rewrite <- Zlt_Qlt in H'. lia. }
        lia.
      * assert (j <= i) by (apply Hin; rewrite Hp1; lra).
        destruct (Z.eq_dec i j) as [|Hij]; [lia|exfalso].
        assert (HCe : Ce <= j + 1).
        { pose proof (Qceiling_lt ((mx - mn) / r)) as Hcl. fold Ce in Hcl.
          assert (HH : (inject_Z (Ce - 1) * r < (mx - mn) / r * r)%Q) by (apply Qmult_lt_r; auto).
          rewrite EM in HH.
          assert (H' : (inject_Z (Ce - 1) * r < inject_Z (j + 1) * r)%Q) by (rewrite Hp1; lra).
          apply (Qmult_lt_inv _ _ r H1) in H'. rewrite <- Zlt_Qlt in H'. lia. }
        lia.
      * assert (E : (inject_Z i * r == inject_Z j * r)%Q) by lra.
        assert (i <= j) by (apply Hin; rewrite Hp1; lra). assert (j <= i) by (apply Hin; rewrite Hp1; lra). lia.
  - destruct d as [[mn mx] r]. cbn [d_inrange real_dim has_Q] in *. symmetry. apply not_true_iff_false.
    rewrite !andb_true_iff. intros (((H1 & H2) & _) & _).
    rewrite H1, H2 in Er. discriminate.
Qed.

Lemma holds_index {X} (ops : dimops X) (good : X * X * X -> Prop) has dims : forall idx p,
  (forall d i x, good d -> 0 <= i < d_ncells ops d -> (d_inrange ops d x && (d_index ops d x =? i)) = has d i x) ->
  Forall good dims -> inside (map (d_ncells ops) dims) idx -> length p = length dims ->
  all_in_range ops dims p && list_eqb (index_of ops dims p) idx = holds has dims idx p.
Proof.
  intros idx p Hs. revert idx p. induction dims as [|d dims IH]; intros idx p Hg Hi Hl; inversion Hi; subst.
  - destruct p; [reflexivity|discriminate].
  - destruct p as [|x p]; [discriminate|]. inversion Hg; subst. cbn [all_in_range index_of list_eqb holds].
    rewrite <- (Hs d y x) by auto. rewrite <- (IH l' p) by (auto; cbn in Hl; lia).
    destruct (d_inrange ops d x), (all_in_range ops dims p), (d_index ops d x =? y); reflexivity.
Qed.

Lemma count_ext {A} (f g : A -> bool) l : (forall x, In x l -> f x = g x) -> count f l = count g l.
Proof.
  intros H. unfold count. do 2 f_equal. induction l as [|x l IH]; [reflexivity|].
  cbn [filter]. rewrite H by (cbn; auto). rewrite IH by (intros; apply H; cbn; auto). reflexivity.
Qed.

Lemma within_Z_eq dims : forall p, all_in_range int_dim dims p = within_Z dims p.
Proof.
  unfold within_Z. induction dims as [|[[mn mx] r] dims IH]; intros [|x p]; try reflexivity.
  cbn [all_in_range combine forallb]. rewrite IH. cbn [d_inrange int_dim]. f_equal. lia.
Qed.
Lemma within_Q_eq dims : forall p, all_in_range real_dim dims p = within_Q dims p.
Proof.
  unfold within_Q. induction dims as [|[[mn mx] r] dims IH]; intros [|x p]; try reflexivity.
  cbn [all_in_range combine forallb]. rewrite IH. cbn [d_inrange real_dim]. f_equal. apply andb_comm.
Qed.

(** reset *)
Lemma map_const_eq {A B} (c : B) (l : list A) : map (fun _ => c) l = repeat c (length l).
Proof. induction l; cbn; congruence. Qed.
Lemma length_upd_nth' {C} (l : list C) : forall i f, length (upd_nth l i f) = length l.
Proof. induction l; intros [|i] f; cbn; auto. Qed.

Lemma add_samples_shape {X} (ops : dimops X) ps : forall g g', add_samples ops g ps = Ok g' ->
  g_dims g' = g_dims g /\ g_nums g' = g_nums g /\ length (g_cells g') = length (g_cells g).
Proof.
  induction ps as [|p ps IH]; intros g g' H; cbn [add_samples] in H.
  - inversion H; auto.
  - destruct (add_sample ops g p) as [g1| | |] eqn:E; cbn [obind] in H; try discriminate.
    apply IH in H. revert E. unfold add_sample.
    destruct (all_in_range ops (g_dims g) p); [|intros [= <-]; exact H].
    destruct (get_index ops g p) as [idx| | |]; cbn [obind]; try discriminate.
    unfold modify_cell. destruct (get_cell g idx); cbn [obind]; try discriminate.
    intros [= <-]. cbn [g_dims g_nums g_cells] in H. rewrite length_upd_nth' in H. exact H.
Qed.

Lemma reset_add {X} (ops : dimops X) dims g ps g' : make_grid ops 0 dims = Ok g ->
  add_samples ops g ps = Ok g' -> reset 0 g' = g.
Proof.
  unfold make_grid. destruct (forallb _ dims); [|discriminate]. intros [= <-] H.
  apply add_samples_shape in H as (H1 & H2 & H3). unfold reset. cbn [g_dims g_nums g_cells] in *.
  rewrite H1, H2, map_const_eq, H3, repeat_length. reflexivity.
Qed.
