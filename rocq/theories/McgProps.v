(** * C127: the graph of cameras and the chaining of baselines *)
From Coq Require Import ZArith List Arith Bool Lia.
From Verif Require Import McgModel McgSpec McgProofs.
Import ListNotations.

(** Two cameras are joined exactly if they saw a common corner in some view; the
    weight is the number of common corners in all views, and the observations are
    those of these views in order, that of the lower camera first. *)
Theorem C127_edges : forall a b vs, a < b -> once vs ->
  lookup (a, b) (build vs) =
  match shared a b vs with [] => None | l => Some (total l, map snd l) end.
Proof. intros a b vs L O. rewrite build_lookup by assumption. destruct (shared a b vs); reflexivity. Qed.
Print Assumptions C127_edges.

(** The mutual observations of two cameras. *)
Theorem C127_mutual : forall a b vs, a < b -> once vs ->
  mutual (build vs) a b = (map (fun x => fst (snd x)) (shared a b vs), map (fun x => snd (snd x)) (shared a b vs)).
Proof.
  intros a b vs L O. unfold mutual. rewrite build_lookup by assumption.
  destruct (shared a b vs) as [|x l]; [reflexivity |]. cbn [join]. rewrite !map_map. reflexivity.
Qed.
Print Assumptions C127_mutual.

(** If the stored baselines agree with some poses of the cameras, then so does the
    baseline chained along any path, whatever the directions of its edges. *)
Theorem C127_chain : forall (T : Type) (mul : T -> T -> T) inv one (P : nat -> T) base path s,
  group mul inv one -> (forall a b, a < b -> base a b = mul (P b) (inv (P a))) ->
  (forall i a b, nth_error (s :: path) i = Some a -> nth_error (s :: path) (S i) = Some b -> a <> b) ->
  chain mul inv base one (s :: path) = mul (P (last path s)) (inv (P s)).
Proof.
  intros T mul inv one P base path s G B N. apply (chain_pose mul inv one G P base path s one (inv (P s)) B N).
  destruct G as [_ [_ [_ [_ IR]]]]. symmetry. apply IR.
Qed.
Print Assumptions C127_chain.

(** The pose of the target found by any camera, brought back along the baselines,
    is its pose in the first camera. *)
Theorem C127_target : forall (T : Type) (mul : T -> T -> T) inv one (P : nat -> T) base n W,
  group mul inv one -> (forall i, i < n -> nth_error base i = Some (mul (P (S i)) (inv (P i)))) ->
  target_pose mul one (mul W (inv (P n))) n base = mul W (inv (P 0)).
Proof. intros T mul inv one P base n W G. exact (target_pose_spec mul inv one G P base n W). Qed.
Print Assumptions C127_target.

(** Moves of the line, turned or not: a group that does not commute. *)
Definition move : Type := (bool * Z)%type.
Definition sgn (b : bool) (z : Z) : Z := if b then (- z)%Z else z.
Definition mmul (x y : move) : move := (xorb (fst x) (fst y), (snd x + sgn (fst x) (snd y))%Z).
Definition minv (x : move) : move := (fst x, (- sgn (fst x) (snd x))%Z).
Definition mone : move := (false, 0%Z).
Definition poses (n : nat) : move := (Nat.even n, Z.of_nat (n * n)).
Definition views2 : list (list entry) :=
  [[(2, (0, [true; true; false])); (0, (0, [true; true; true]))];
   [(0, (1, [true; false])); (1, (0, [false; true]))];
   [(0, (2, [true])); (2, (1, [true])); (1, (1, [true]))]].

Example C127_ex : group mmul minv mone /\
  chain mmul minv (fun a b => mmul (poses b) (minv (poses a))) mone [0; 3; 1; 2] = mmul (poses 2) (minv (poses 0)) /\
  mmul (poses 1) (poses 2) <> mmul (poses 2) (poses 1) /\
  once views2 /\ lookup (0, 2) (build views2) = Some (3, [(0, 0); (2, 1)]) /\ lookup (0, 1) (build views2) = Some (1, [(2, 1)]).
Proof.
  split.
  - split; [| split; [| split; [| split]]].
    + intros [[|] a] [[|] b] [[|] c]; unfold mmul; simpl; f_equal; lia.
    + intros [[|] a]; reflexivity.
    + intros [[|] a]; unfold mmul, mone; simpl; f_equal; lia.
    + intros [[|] a]; unfold mmul, minv, mone; simpl; f_equal; lia.
    + intros [[|] a]; unfold mmul, minv, mone; simpl; f_equal; lia.
  - split; [reflexivity |]. split; [discriminate |]. split; [| split; reflexivity].
    intros v [<- | [<- | [<- | []]]]; simpl; repeat (constructor; [simpl; lia |]); constructor.
Qed.
