(** * C124: observations of several cameras are grouped by time *)
From Coq Require Import ZArith List Arith Bool Lia Permutation.
From Verif Require Import OdbModel OdbSpec OdbProofs.
Import ListNotations.
Local Open Scope Z_scope.

Definition sample : list (nat * obs) :=
  [(0%nat, mkObs 0 1); (1%nat, mkObs 3 2); (0%nat, mkObs 50 3); (1%nat, mkObs 46 4); (0%nat, mkObs 51 5)].

(** Views are further apart than the tolerance. *)
Theorem C124_apart : forall delta l i j T U es fs, 0 <= delta ->
  nth_error (views (add_all delta l)) i = Some (T, es) ->
  nth_error (views (add_all delta l)) j = Some (U, fs) -> i <> j -> delta < Z.abs (T - U).
Proof. intros delta l i j T U es fs D. exact (i_apart delta _ (all_inv delta l D) i j T U es fs). Qed.
Print Assumptions C124_apart.

(** Every entry is an observation that was added, within the tolerance of its
    view, alone of its camera there and in no other view. *)
Theorem C124_entries : forall delta l i T cam id, 0 <= delta -> entered (add_all delta l) i T cam id ->
  (exists o, nth_error (of_cam cam l) id = Some o /\ Z.abs (otime o - T) <= delta) /\
  (forall id', entered (add_all delta l) i T cam id' -> id' = id) /\
  (forall j U, entered (add_all delta l) j U cam id -> j = i).
Proof.
  intros delta l i T cam id D E. pose proof (all_inv delta l D) as I. split; [| split].
  - destruct E as [es [E1 E2]]. rewrite <- (all_archive delta l cam).
    exact (i_close delta _ I T es cam id (nth_error_In _ _ E1) E2).
  - intros id' [fs [F1 F2]]. destruct E as [es [E1 E2]]. rewrite E1 in F1. injection F1 as <-.
    pose proof (i_once delta _ I T es (nth_error_In _ _ E1)) as N.
    pose proof (find_cam es cam id N E2) as A. rewrite (find_cam es cam id' N F2) in A.
    injection A as ->. reflexivity.
  - intros j U F. exact (i_one delta _ I j i U T cam id F E).
Qed.
Print Assumptions C124_entries.

(** What one more observation does. *)
Theorem C124_add : forall delta l cam o, 0 <= delta ->
  outcome delta (add_all delta l) cam o (add_all delta (l ++ [(cam, o)])).
Proof. intros delta l cam o D. rewrite add_all_snoc. exact (add_outcome delta _ cam o D (all_inv delta l D)). Qed.
Print Assumptions C124_add.

(** Every observation is archived, in order, and is either entered or
    reported. *)
Theorem C124_counted : forall delta l, 0 <= delta ->
  (forall cam, archive (add_all delta l) cam = of_cam cam l) /\
  (filled (views (add_all delta l)) + errors (add_all delta l) = length l)%nat.
Proof. intros delta l D. split; [exact (all_archive delta l) | exact (all_counted delta l D)]. Qed.
Print Assumptions C124_counted.

(** The observations listed for a camera are those entered for it. *)
Theorem C124_one_cam : forall delta l cam o, 0 <= delta ->
  (In o (one_cam (add_all delta l) cam) <->
   exists i T id, entered (add_all delta l) i T cam id /\ nth_error (of_cam cam l) id = Some o).
Proof.
  intros delta l cam o D. rewrite <- (all_archive delta l cam).
  exact (one_cam_spec delta _ cam o (all_inv delta l D)).
Qed.
Print Assumptions C124_one_cam.

(** Two observations that are paired come from the same view, and so are no
    more than twice the tolerance apart. *)
Theorem C124_pairs : forall delta l a b x y, 0 <= delta ->
  In (Some x, Some y) (two_cams (add_all delta l) a b) ->
  In x (of_cam a l) /\ In y (of_cam b l) /\ Z.abs (otime x - otime y) <= 2 * delta.
Proof.
  intros delta l a b x y D H.
  destruct (two_cams_spec delta _ a b x y (all_inv delta l D) H) as [i [T [j [k [_ [_ [J [K [A B]]]]]]]]].
  rewrite all_archive in J, K. split; [exact (nth_error_In _ _ J) |].
  split; [exact (nth_error_In _ _ K) | lia].
Qed.
Print Assumptions C124_pairs.

(** The pairs listed are those of the views in which either camera has an
    entry. *)
Theorem C124_listed : forall delta l a b x y, 0 <= delta ->
  (In (x, y) (two_cams (add_all delta l) a b) <->
   (x <> None \/ y <> None) /\ exists i T es, nth_error (views (add_all delta l)) i = Some (T, es) /\
     saw l es a x /\ saw l es b y).
Proof. exact two_cams_all. Qed.
Print Assumptions C124_listed.

(** Known violation: which observations share a view depends on the order of
    adding, and observations within the tolerance of each other can be put in
    different views although their cameras differ. *)
Theorem C124_order_refuted : exists delta l l', 0 <= delta /\ Permutation l l' /\
  NoDup (map fst l) /\ (forall a b, In a l -> In b l -> fst b = S (fst a) -> Z.abs (otime (snd a) - otime (snd b)) <= delta) /\
  length (views (add_all delta l)) = 2%nat /\ length (views (add_all delta l')) = 1%nat.
Proof.
  exists 10, [(0%nat, mkObs 0 0); (1%nat, mkObs 6 1); (2%nat, mkObs 12 2)],
             [(1%nat, mkObs 6 1); (0%nat, mkObs 0 0); (2%nat, mkObs 12 2)].
  split; [lia |]. split; [apply perm_swap |]. split.
  - simpl. constructor; [simpl; lia |]. constructor; [simpl; lia |]. constructor; [intros [] | constructor].
  - split; [| split; vm_compute; reflexivity].
    intros a b [<- | [<- | [<- | []]]] [<- | [<- | [<- | []]]]; simpl; intros E; try discriminate E; lia.
Qed.
Print Assumptions C124_order_refuted.

Example C124_ex : views (add_all 5 sample) =
    [(0, [(0, 0); (1, 0)]%nat); (50, [(0, 1); (1, 1)]%nat)] /\ errors (add_all 5 sample) = 1%nat /\
  entered (add_all 5 sample) 1 50 1 1 /\
  two_cams (add_all 5 sample) 0 1 = [(Some (mkObs 0 1), Some (mkObs 3 2)); (Some (mkObs 50 3), Some (mkObs 46 4))] /\
  one_cam (add_all 5 sample) 0 = [mkObs 0 1; mkObs 50 3].
Proof.
  split; [vm_compute; reflexivity |]. split; [vm_compute; reflexivity |]. split.
  - exists [(0, 1); (1, 1)]%nat. split; [vm_compute; reflexivity | right; left; reflexivity].
  - split; vm_compute; reflexivity.
Qed.
