(** * C126: the knots of a rolling-shutter calibration are refined *)
From Coq Require Import ZArith List Arith Bool Lia.
From Verif Require Import KnsModel KnsSpec KnsProofs.
Import ListNotations.
Local Open Scope Z_scope.

Definition knots20 : list Z := map (fun i => 10 * Z.of_nat i) (seq 0 20).

(** For errors in time order and increasing knots each gap is given the errors
    that fall strictly inside it, and their number. *)
Theorem C126_errors : forall knots data k, gaps 0 knots -> in_order data -> (S k < length knots)%nat ->
  nth k (per_segment data knots) (0, 0) = (gap_error knots k data, gap_count knots k data).
Proof. intros knots data k G O L. exact (per_segment_spec knots k data G L O). Qed.
Print Assumptions C126_errors.

(** If no knot is left out for want of observations, the new knots are the old
    ones and the middles of gaps that may be split. *)
Theorem C126_refines : forall maxk data knots dis, kept (map fst (per_segment data knots)) knots = knots ->
  refines (may_split maxk dis) knots (knot_list maxk data knots dis) /\
  hd 0 (knot_list maxk data knots dis) = hd 0 knots /\ last (knot_list maxk data knots dis) 0 = last knots 0 /\
  (gaps maxk knots -> gaps maxk (knot_list maxk data knots dis)).
Proof.
  intros maxk data knots dis K. rewrite knot_list_kept by exact K.
  pose proof (gen_refines maxk dis knots (per_segment data knots) (per_segment_length data knots)) as R.
  split; [exact R |]. destruct (refines_ends _ _ _ 0 R) as [A B]. split; [exact A |]. split; [exact B |].
  exact (refines_gaps maxk _ _ _ R).
Qed.
Print Assumptions C126_refines.

(** A gap that may be split is then split if its errors exceed their number. *)
Theorem C126_splits : forall maxk dis data knots k a b, gaps 0 knots -> in_order data ->
  kept (map fst (per_segment data knots)) knots = knots ->
  nth_error knots k = Some a -> nth_error knots (S k) = Some b ->
  gap_count knots k data < gap_error knots k data -> may_split maxk dis a b ->
  In ((a + b) / 2) (knot_list maxk data knots dis).
Proof.
  intros maxk dis data knots k a b G O K A B E M. rewrite knot_list_kept by exact K.
  assert (L : (S k < length knots)%nat) by (apply nth_error_Some; rewrite B; discriminate).
  apply (gen_splits maxk dis _ knots k a b); [rewrite per_segment_length; lia | exact A | exact B | | exact M].
  rewrite (per_segment_spec knots k data G L O). exact E.
Qed.
Print Assumptions C126_splits.

(** And no other gap is: a new knot is the middle of a gap whose errors exceed
    their number. *)
Theorem C126_only : forall maxk dis data knots x, gaps 0 knots -> in_order data ->
  kept (map fst (per_segment data knots)) knots = knots -> In x (knot_list maxk data knots dis) ->
  In x knots \/ exists k a b, nth_error knots k = Some a /\ nth_error knots (S k) = Some b /\
    gap_count knots k data < gap_error knots k data /\ x = (a + b) / 2.
Proof.
  intros maxk dis data knots x G O K H. rewrite knot_list_kept in H by exact K.
  destruct (gen_only maxk dis _ knots x H) as [I | [k [a [b [A [B [E X]]]]]]]; [left; exact I |].
  assert (L : (S k < length knots)%nat) by (apply nth_error_Some; rewrite B; discriminate).
  rewrite (per_segment_spec knots k data G L O) in E. right. exists k, a, b.
  split; [exact A |]. split; [exact B |]. split; [exact E | exact X].
Qed.
Print Assumptions C126_only.

(** The knots of the new spline are those generated, with the old ones before and
    behind them; one more old knot comes in between. *)
Theorem C126_extended : forall old knots r, extended old knots = Some r ->
  exists p q s t y, r = p ++ knots ++ y :: q /\ old = p ++ s /\ old = t ++ y :: q /\
    (forall z, In z p -> z < hd 0 knots) /\ (forall z, In z q -> last knots 0 < z) /\ y <= last knots 0.
Proof. exact extended_spec. Qed.
Print Assumptions C126_extended.

(** Known violation: when knots without observations are left out, it is the last
    knots that disappear, here with all the observations there. *)
Theorem C126_tail_refuted : exists maxk data, gaps maxk knots20 /\ in_order data /\
  (exists t e, In (t, e) data /\ forall k, In k (knot_list maxk data knots20 []) -> k < t) /\
  forall k, In k [80; 90; 100; 110] -> In k (knot_list maxk data knots20 []).
Proof.
  exists 1, (map (fun t => (t, 1)) [5; 15; 25; 35; 45; 55; 65; 75; 125; 135; 145; 155; 165; 175; 185]).
  split.
  - intros i a b A B. do 20 (destruct i as [|i]; [vm_compute in A, B; try discriminate B; injection A as <-; injection B as <-; lia |]).
    destruct i; discriminate A.
  - split.
    + simpl. repeat (split; [intros u e I; repeat (destruct I as [I | I]; [injection I as <- <-; lia |]); destruct I |]). exact I.
    + assert (K : knot_list 1 (map (fun t => (t, 1)) [5; 15; 25; 35; 45; 55; 65; 75; 125; 135; 145; 155; 165; 175; 185]) knots20 [] =
                  map (fun i => 10 * Z.of_nat i) (seq 0 17)) by (vm_compute; reflexivity).
      rewrite K. split.
      * exists 185, 1. split; [simpl; tauto |]. intros k I. apply in_map_iff in I. destruct I as [i [<- I]].
        apply in_seq in I. lia.
      * intros k I. apply in_map_iff.
        destruct I as [<- | [<- | [<- | [<- | []]]]]; [exists 8%nat | exists 9%nat | exists 10%nat | exists 11%nat];
          (split; [reflexivity | apply in_seq; lia]).
Qed.
Print Assumptions C126_tail_refuted.

(** Known violation: an error at the very time of a knot counts for the last. *)
Theorem C126_knot_refuted : per_segment [(10, 7)] [0; 10; 20; 30; 40] = [(0, 0); (0, 0); (0, 0); (0, 0); (7, 1)].
Proof. reflexivity. Qed.
Print Assumptions C126_knot_refuted.

(** Known violation: if the last knot is kept, the new spline has it twice. *)
Theorem C126_twice_refuted : forall old knots r, knots <> [] -> old <> [] -> last old 0 = last knots 0 ->
  extended old knots = Some r -> exists p, r = p ++ knots ++ [last knots 0].
Proof.
  intros old knots r N O E H. unfold extended in H. destruct knots as [|k ks]; [contradiction N; reflexivity |].
  destruct (before k old) as [p |]; [| discriminate H].
  destruct (exists_last O) as [o [x X]]. rewrite X in E, H. rewrite last_last in E. rewrite rev_app_distr in H.
  cbn [rev app after] in H. rewrite E, Z.ltb_irrefl in H. injection H as <-. exists p. reflexivity.
Qed.
Print Assumptions C126_twice_refuted.

Example C126_ex : gaps 1 [0; 10; 20; 30] /\ in_order [(5, 3); (15, 1); (25, 4)] /\
  kept (map fst (per_segment [(5, 3); (15, 1); (25, 4)] [0; 10; 20; 30])) [0; 10; 20; 30] = [0; 10; 20; 30] /\
  knot_list 1 [(5, 3); (15, 1); (25, 4)] [0; 10; 20; 30] [(24, 30)] = [0; 5; 10; 20; 30] /\
  extended [-5; 0; 10; 20; 30; 40] [0; 5; 10; 20; 30] = Some [-5; 0; 5; 10; 20; 30; 30; 40].
Proof.
  split.
  - intros [|[|[|[|i]]]] a b A B; try discriminate B; injection A as <-; injection B as <-; lia.
  - split.
    + simpl. split; [intros u e [I | [I | []]]; injection I as <- <-; lia |].
      split; [intros u e [I | []]; injection I as <- <-; lia |]. split; [intros u e [] | exact I].
    + split; [vm_compute; reflexivity |]. split; vm_compute; reflexivity.
Qed.
