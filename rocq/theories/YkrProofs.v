From Coq Require Import QArith List Bool ZArith Lia Lqa.
From Verif Require Import YkrModel YkrSpec.
Import ListNotations.

Lemma lt_b_false : forall a b, lt_b a b = false <-> b <= a.
Proof. intros a b. unfold lt_b. rewrite negb_false_iff. apply Qle_bool_iff. Qed.
Lemma le_b_false : forall a b, Qle_bool a b = false <-> b < a.
Proof.
  intros a b. split.
  - intros H. apply Qnot_le_lt. intros X. apply Qle_bool_iff in X. congruence.
  - intros H. destruct (Qle_bool a b) eqn:E; [| reflexivity]. apply Qle_bool_iff in E. lra.
Qed.

Lemma refuse_accepted : forall c n, refuse_if c n = Accepted <-> c = Some false /\ n = Accepted.
Proof.
  intros [[|] |] n; simpl; split; try discriminate.
  - intros [H _]; discriminate H.
  - intros H; split; [reflexivity | exact H].
  - intros [_ H]; exact H.
  - intros [H _]; discriminate H.
Qed.
Lemma crash_accepted : forall c n, crash_if c n = Accepted <-> c = Some false /\ n = Accepted.
Proof.
  intros [[|] |] n; simpl; split; try discriminate.
  - intros [H _]; discriminate H.
  - intros H; split; [reflexivity | exact H].
  - intros [_ H]; exact H.
  - intros [H _]; discriminate H.
Qed.
Lemma orelse_false : forall a b, orelse a b = Some false <-> a = Some false /\ b = Some false.
Proof.
  intros [[|] |] b; simpl; split; try discriminate.
  - intros [H _]; discriminate H.
  - intros H; split; [reflexivity | exact H].
  - intros [_ H]; exact H.
  - intros [H _]; discriminate H.
Qed.
Lemma below_false : forall v q, below v q = Some false <-> number (fun x => q <= x) v.
Proof.
  intros v q. unfold below, number. destruct (num v) as [x |]; split; try discriminate.
  - intros H. exists x. split; [reflexivity |]. apply lt_b_false. congruence.
  - intros [y [E H]]. injection E as ->. f_equal. apply lt_b_false. exact H.
  - intros [y [E _]]. discriminate E.
Qed.
Lemma at_least_false : forall v q, at_least v q = Some false <-> number (fun x => x < q) v.
Proof.
  intros v q. unfold at_least, number. destruct (num v) as [x |]; split; try discriminate.
  - intros H. exists x. split; [reflexivity |]. apply le_b_false. congruence.
  - intros [y [E H]]. injection E as ->. f_equal. apply le_b_false. exact H.
  - intros [y [E _]]. discriminate E.
Qed.
Lemma at_most_false : forall v q, at_most v q = Some false <-> number (fun x => q < x) v.
Proof.
  intros v q. unfold at_most, number. destruct (num v) as [x |]; split; try discriminate.
  - intros H. exists x. split; [reflexivity |]. apply le_b_false. congruence.
  - intros [y [E H]]. injection E as ->. f_equal. apply le_b_false. exact H.
  - intros [y [E _]]. discriminate E.
Qed.
Lemma range_false : forall v, orelse (below v 0) (at_least v 1) = Some false <-> number (fun q => 0 <= q /\ q < 1) v.
Proof.
  intros v. rewrite orelse_false, below_false, at_least_false. unfold number. split.
  - intros [[x [A B]] [y [C D]]]. rewrite A in C. injection C as <-. exists x. split; [exact A | split; assumption].
  - intros [x [A [B C]]]. split; exists x; split; assumption.
Qed.
Lemma float_nonneg : forall v, (Some (negb (is_float v)) = Some false /\ number (fun x => 0 <= x) v) <-> nonneg_float v.
Proof.
  intros v. unfold number, nonneg_float. split.
  - intros [A [x [B C]]]. destruct v; try discriminate A. injection B as ->. exists x. split; [reflexivity | exact C].
  - intros [q [-> H]]. split; [reflexivity |]. exists q. split; [reflexivity | exact H].
Qed.

Lemma check_common_spec : forall fu fv pu pv, check_common fu fv pu pv = Accepted <-> lens fu fv pu pv.
Proof.
  intros fu fv pu pv. unfold check_common, lens. rewrite !refuse_accepted, !orelse_false, !below_false, <- !float_nonneg. tauto.
Qed.

Lemma check_intrinsics_spec : forall m l, check_intrinsics m l = Accepted <-> valid_intrinsics m l.
Proof.
  intros m l. split.
  - intros H. destruct m; simpl in H |- *.
    + destruct l as [|a [|b [|c [|d [|e r]]]]]; try discriminate H. exists a, b, c, d. split; [reflexivity |].
      apply check_common_spec; exact H.
    + destruct l as [|a [|b [|c [|d [|e [|f r]]]]]]; try discriminate H. exists a, b, c, d, e. split; [reflexivity |].
      rewrite refuse_accepted, below_false, check_common_spec in H. exact H.
    + destruct l as [|a [|b [|c [|d [|e [|f [|g r]]]]]]]; try discriminate H. exists a, b, c, d, e, f. split; [reflexivity |].
      rewrite !refuse_accepted, range_false, below_false, check_common_spec in H. exact H.
    + destruct l as [|a [|b [|c [|d [|e [|f [|g r]]]]]]]; try discriminate H. exists a, b, c, d, e, f. split; [reflexivity |].
      rewrite !refuse_accepted, range_false, check_common_spec in H. exact H.
    + discriminate H.
  - destruct m; simpl.
    + intros [a [b [c [d [-> H]]]]]. apply check_common_spec; exact H.
    + intros [x [a [b [c [d [-> H]]]]]]. rewrite refuse_accepted, below_false, check_common_spec. exact H.
    + intros [x [y [a [b [c [d [-> H]]]]]]]. rewrite !refuse_accepted, range_false, below_false, check_common_spec. exact H.
    + intros [x [y [a [b [c [d [-> H]]]]]]]. rewrite !refuse_accepted, range_false, check_common_spec. exact H.
    + intros [].
Qed.

(** What is stored passes the check again. *)
Lemma to_floats_num : forall l f, to_floats l = Some f -> map num f = map num l.
Proof.
  induction l as [|v l IH]; intros f H; simpl in H; [injection H as <-; reflexivity |].
  unfold to_float in H. destruct (num v) as [q |] eqn:E; [| discriminate H].
  destruct (to_floats l) as [g |]; [| discriminate H]. injection H as <-. simpl. rewrite E, (IH g eq_refl). reflexivity.
Qed.

Lemma to_floats_valid : forall m l f, valid_intrinsics m l -> to_floats l = Some f -> valid_intrinsics m f.
Proof.
  assert (NN : forall v, nonneg_float v -> to_float v = Some v).
  { intros v [q [-> _]]. reflexivity. }
  assert (NU : forall P v w, number P v -> to_float v = Some w -> number P w).
  { intros P v w [q [E H]] W. unfold to_float in W. rewrite E in W. injection W as <-. exists q. split; [reflexivity | exact H]. }
  assert (LE : forall fu fv pu pv, lens fu fv pu pv -> to_floats [fu; fv; pu; pv] = Some [fu; fv; pu; pv]).
  { intros fu fv pu pv [A [B [C D]]]. cbn [to_floats]. rewrite !NN by assumption. reflexivity. }
  assert (CO : forall v l f, to_floats (v :: l) = Some f -> exists w g, to_float v = Some w /\ to_floats l = Some g /\ f = w :: g).
  { intros v l f H. cbn [to_floats] in H. destruct (to_float v) as [w |]; [| discriminate H].
    destruct (to_floats l) as [g |]; [| discriminate H]. injection H as <-. exists w, g. split; [reflexivity | split; reflexivity]. }
  intros m l f V F. destruct m; simpl in V |- *.
  - destruct V as [a [b [c [d [-> L]]]]]. rewrite (LE _ _ _ _ L) in F. injection F as <-. exists a, b, c, d. split; [reflexivity | exact L].
  - destruct V as [x [a [b [c [d [-> [X L]]]]]]]. apply CO in F. destruct F as [w [g [W [E ->]]]].
    rewrite (LE _ _ _ _ L) in E. injection E as <-. exists w, a, b, c, d. split; [reflexivity |]. split; [exact (NU _ _ _ X W) | exact L].
  - destruct V as [x [y [a [b [c [d [-> [X [Y L]]]]]]]]]. apply CO in F. destruct F as [w [g [W [E ->]]]].
    apply CO in E. destruct E as [z [h [Z [E ->]]]].
    rewrite (LE _ _ _ _ L) in E. injection E as <-. exists w, z, a, b, c, d. split; [reflexivity |].
    split; [exact (NU _ _ _ X W) |]. split; [exact (NU _ _ _ Y Z) | exact L].
  - destruct V as [x [y [a [b [c [d [-> [Y L]]]]]]]]. apply CO in F. destruct F as [w [g [W [E ->]]]].
    apply CO in E. destruct E as [z [h [Z [E ->]]]].
    rewrite (LE _ _ _ _ L) in E. injection E as <-. exists w, z, a, b, c, d. split; [reflexivity |].
    split; [exact (NU _ _ _ Y Z) | exact L].
  - destruct V.
Qed.

Lemma count_spec : forall v, bad_count v = Some false <-> count3 v.
Proof.
  intros v. unfold bad_count, count3. rewrite orelse_false, below_false. unfold number. split.
  - intros [A [x [B C]]]. destruct v as [z | q | b |]; try discriminate A.
    + exists z. split; [reflexivity |]. injection B as <-. unfold Qle, inject_Z in C. simpl in C. lia.
    + injection B as <-. destruct b; unfold Qle in C; simpl in C; lia.
  - intros [z [-> H]]. split; [reflexivity |]. exists (inject_Z z). split; [reflexivity |]. unfold Qle, inject_Z; simpl. lia.
Qed.
Lemma size_spec : forall v, bad_size v = Some false <-> positive_float v.
Proof.
  intros v. unfold bad_size, positive_float. rewrite orelse_false, at_most_false. unfold number. split.
  - intros [A [x [B C]]]. destruct v; try discriminate A. injection B as ->. exists x. split; [reflexivity | exact C].
  - intros [q [-> H]]. split; [reflexivity |]. exists q. split; [reflexivity | exact H].
Qed.

Lemma target_spec : forall t, target_params t = Accepted <-> valid_target t.
Proof.
  intros [r c a b | r c a y | r c a b |]; cbn [target_params valid_target].
  - rewrite !crash_accepted, !count_spec, !size_spec. tauto.
  - rewrite !crash_accepted, !count_spec, !size_spec.
    assert (Y : Some (negb (is_bool y)) = Some false <-> exists b, y = VBool b).
    { split; [destruct y; try discriminate; intros _; eexists; reflexivity | intros [b ->]; reflexivity]. }
    rewrite Y. tauto.
  - rewrite !crash_accepted, !count_spec, !size_spec. tauto.
  - split; [discriminate | intros []].
Qed.
