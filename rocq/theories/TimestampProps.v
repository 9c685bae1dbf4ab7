(** Properties of the timestamp corrector (C12, C13). *)
From Coq Require Import ZArith QArith Qfield Lqa List Lia.
From Verif Require Import Base TimestampModel TimestampSpec TimestampProofs.
Import ListNotations.
Open Scope Q_scope.

(** * C12 *)

(** For every sequence of samples the stored points are a subsequence of the accepted
    samples that spans them, with increasing remote time and increasing slopes, and no
    accepted sample lies below (the prolongation of) any segment. *)
Theorem C12_lower_convex_hull : forall samples, exists c, feed fresh samples = Ok c /\
  sub (rev (hull c)) (accepted samples) /\
  (forall f l, hd_error (rev (hull c)) = Some f -> hd_error (hull c) = Some l ->
     forall q, In q (accepted samples) -> fst f <= fst q <= fst l) /\
  (forall a b, segment_of (rev (hull c)) a b ->
     fst a < fst b /\ forall q, In q (accepted samples) -> line a b (fst q) <= snd q) /\
  (forall a b d, corner_of (rev (hull c)) a b d ->
     (snd b - snd a) / (fst b - fst a) <= (snd d - snd b) / (fst d - fst b)).
Proof.
  intros samples. destruct (fed samples) as (c & E & I). exists c. split; [exact E|]. split; [|split; [|split]].
  - rewrite <- (rev_involutive (accepted samples)). apply sub_rev. exact (Isub _ _ I).
  - intros f l Hf Hl. exact (Inv_span _ _ f l I Hf Hl).
  - intros a b. exact (Inv_segment _ _ a b I).
  - intros a b d. exact (Inv_corner _ _ a b d I).
Qed.
Print Assumptions C12_lower_convex_hull.

Example C12_ex : exists c, feed fresh [(0, 5); (1, 7); (2, 6); (2, 9); (3, 9); (4, 8)] = Ok c /\
  rev (hull c) = [(0, 5); (2, 6); (4, 8)].
Proof. eexists. split; reflexivity. Qed.

(** A sample is refused exactly when an accepted one is as late. *)
Theorem C12_backwards_refused : forall samples c x y, feed fresh samples = Ok c ->
  ((exists q, In q (accepted samples) /\ x <= fst q) <-> correct c x y = Throw) /\
  ((forall q, In q (accepted samples) -> fst q < x) <-> exists c' v, correct c x y = Ok (c', v)).
Proof.
  intros samples c x y E. destruct (fed samples) as (c0 & E0 & I). assert (c0 = c) by congruence. subst c0.
  destruct (correct_spec c _ x y I) as [Hok Hbad].
  destruct (last_x c) as [t|] eqn:El.
  - destruct (Inv_last_x _ _ _ I El) as [(qt & Hqt & Ht) Hmax].
    destruct (Qlt_le_dec t x) as [H|H].
    + destruct (Hok H) as (c' & v & Ec & _). split; split.
      * intros (q & Hq & Hx). specialize (Hmax q Hq). lra.
      * congruence.
      * eauto.
      * intros _ q Hq. specialize (Hmax q Hq). lra.
    + specialize (Hbad H). split; split; auto.
      * intros _. exists qt. split; [exact Hqt|]. rewrite Ht. exact H.
      * intros Hall. specialize (Hall qt Hqt). rewrite Ht in Hall. lra.
      * intros (c' & v & Ec). congruence.
  - destruct (Hok Logic.I) as (c' & v & Ec & _). rewrite (Inv_last_none _ _ I El). split; split.
    + intros (q & [] & _).
    + congruence.
    + eauto.
    + intros _ q [].
Qed.
Print Assumptions C12_backwards_refused.

(** * C13 *)

(** The corrected time is never later than the receive time; once three points are
    stored it is the value at the remote time of the segment around the middle of the
    history, a line no accepted sample lies below. *)
Theorem C13_corrected_time : forall samples c x y c' v,
  feed fresh samples = Ok c -> correct c x y = Ok (c', v) ->
  v <= y /\
  ((length (hull c') < 3)%nat -> v = y) /\
  ((3 <= length (hull c'))%nat -> exists a b f, segment_of (rev (hull c')) a b /\ v == line a b x /\
     hd_error (rev (hull c')) = Some f /\ fst a < (fst f + x) / 2 <= fst b /\
     line a b x <= y /\ forall q, In q (accepted samples) -> line a b (fst q) <= snd q).
Proof.
  intros samples c x y c' v E Ec. destruct (fed samples) as (c0 & E0 & I). assert (c0 = c) by congruence. subst c0.
  destruct (correct_spec c _ x y I) as [Hok Hbad].
  assert (Hc : match last_x c with None => True | Some t => t < x end).
  { destruct (last_x c) as [t|]; [|exact Logic.I]. destruct (Qlt_le_dec t x) as [H|H]; [exact H|].
    specialize (Hbad H). congruence. }
  destruct (Hok Hc) as (c1 & v1 & Ec1 & I1 & _ & Hle & Hseg). rewrite Ec in Ec1. injection Ec1 as <- <-.
  split; [exact Hle|]. split; [exact (correct_short _ _ _ _ _ Ec)|].
  intros H3. destruct (Hseg H3) as (a & b & _ & Hs & Hv & Hm).
  destruct (rev (hull c')) as [|f w] eqn:Er.
  { apply (f_equal (@length _)) in Er. rewrite rev_length in Er. cbn [length] in Er. lia. }
  exists a, b, f. split; [exact Hs|]. split; [exact Hv|]. split; [reflexivity|].
  split; [exact (Hm f eq_refl)|]. split; [rewrite <- Hv; exact Hle|].
  change ((x, y) :: rev (accepted samples)) with ([(x, y)] ++ rev (accepted samples)) in I1.
  assert (I2 : Inv c' (rev (accepted samples ++ [(x, y)]))) by (rewrite rev_app_distr; exact I1).
  rewrite <- Er in Hs. destruct (Inv_segment _ _ a b I2 Hs) as [_ Hq]. intros q Hin. apply Hq. apply in_or_app. auto.
Qed.
Print Assumptions C13_corrected_time.

Example C13_ex : exists c c' v, feed fresh [(0, 5); (1, 7); (4, 6)] = Ok c /\
  correct c 6 30 = Ok (c', v) /\ v == 13 # 2 /\ length (hull c') = 3%nat.
Proof. do 3 eexists. split; [reflexivity|]. conj; try reflexivity. Qed.

(** With three or more stored points, queries use stored points only and agree. *)
Theorem C13_queries_defined : forall samples c t, feed fresh samples = Ok c ->
  (3 <= length (hull c))%nat -> exists a b v m o, segment_of (rev (hull c)) a b /\
    get_local_time c t = Ok v /\ get_slope c = Ok m /\ get_offset c = Ok o /\
    v == line a b t /\ v == m * t + o.
Proof.
  intros samples c t E H. destruct (fed samples) as (c0 & E0 & I). assert (c0 = c) by congruence. subst c0.
  destruct (Inv_segment_ok _ _ I H) as (a & b & Hs & Hseg & Hen).
  destruct (Inv_segment _ _ a b I Hseg) as [Hab _].
  unfold get_local_time, get_slope, get_offset. rewrite Hen, Hs. cbn [obind].
  exists a, b. do 3 eexists. split; [exact Hseg|]. conj; try reflexivity; unfold line, px, py; field; lra.
Qed.
Print Assumptions C13_queries_defined.

(** After the hull has shrunk to two points the remembered segment may not exist. *)
Theorem C13_stale_segment_refuted : exists samples c, feed fresh samples = Ok c /\
  length (hull c) = 2%nat /\ get_local_time c 5 = UB /\ get_slope c = UB /\ get_offset c = UB.
Proof.
  exists [(0, 0); (1, 0); (2, 1); (3, 3); (4, -10)]. eexists. split; [reflexivity|]. conj; reflexivity.
Qed.
Print Assumptions C13_stale_segment_refuted.
