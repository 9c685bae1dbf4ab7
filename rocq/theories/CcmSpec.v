(** What the compressed-column matrix should hold. *)
From Coq Require Import ZArith List Bool Permutation.
From Verif Require Import Base Arith OMap JacModel JacSpec CcmModel.
Import ListNotations.
Open Scope nat_scope.

Section Spec.
Variable A : Arith.
Notation num := (num A).
Notation zero := (of_Z A 0).
Variable base : dvref -> nat.

(** Sum of dimensions. *)
Definition dims (dvs : list dvref) : nat := list_sum (map mindim dvs).

(** The numbering the optimiser gives its active design variables: block index
    = position, column base = number of scalars before. *)
Definition numbered (dvs : list dvref) : Prop :=
  forall i d, nth_error dvs i = Some d ->
    block d = Z.of_nat i /\ is_active d = true /\ base d = dims (firstn i dvs).

(** Each term uses design variables of the problem, none twice. *)
Definition term_ok (dvs : list dvref) (t : term) : Prop :=
  NoDup (filter is_active (tdvs t)) /\
  (forall d, In d (tdvs t) -> is_active d = true -> In d dvs).

(** The container an error term fills: a Jacobian for each of its active design
    variables and for nothing else. *)
Definition fills (t : term) (c : container A) : Prop :=
  container_ok c /\ crows c = tdim t /\
  Permutation (map (fun e => fst (snd e)) (cmap c)) (filter is_active (tdvs t)).

(** Entry (c, r) of the Jacobian held by a container, where [r] counts the
    scalars of all design variables of the problem. *)
Definition jac_entry (k : container A) (c r : nat) : num :=
  match find (fun e => Nat.leb (base (fst (snd e))) r &&
                       Nat.ltb r (base (fst (snd e)) + mindim (fst (snd e)))) (cmap k) with
  | Some (_, (d, J)) => nth (r - base d) (nth c J []) zero
  | None => zero
  end.

(** Entry (c, r) of the stacked Jacobian: the error terms one below the
    other. *)
Fixpoint stacked (ks : list (container A)) (c r : nat) : num :=
  match ks with
  | [] => zero
  | k :: rest => if Nat.ltb c (crows k) then jac_entry k c r
                 else stacked rest (c - crows k) r
  end.

(** Height of the stack. *)
Definition height (ks : list (container A)) : nat := list_sum (map crows ks).

(** The conditions a packed, sorted compressed-column matrix must meet
    (those CHOLMOD documents). *)
Record well_formed (m : ccm A) : Prop := {
  wf_ptrs : length (cptr m) = ncols m + 1;
  wf_first : nth_error (cptr m) 0 = Some 0;
  wf_mono : forall c a b, nth_error (cptr m) c = Some a ->
              nth_error (cptr m) (c + 1) = Some b -> a <= b;
  wf_last : nth_error (cptr m) (ncols m) = Some (length (vals m));
  wf_sizes : length (rind m) = length (vals m);
  wf_rows : forall i r, nth_error (rind m) i = Some r -> r < nrows m;
  wf_sorted : forall c a b i j ri rj, nth_error (cptr m) c = Some a ->
              nth_error (cptr m) (c + 1) = Some b -> a <= i -> i < j -> j < b ->
              nth_error (rind m) i = Some ri -> nth_error (rind m) j = Some rj -> ri < rj
}.

(** The dense form of [m], and every element access, is given by [f row col]. *)
Definition dense_is (m : ccm A) (f : nat -> nat -> num) : Prop :=
  (exists d, to_dense A m = Ok d /\ length d = nrows m * ncols m /\
     forall r c, r < nrows m -> c < ncols m -> nth_error d (c * nrows m + r) = Some (f r c)) /\
  (forall r c, r < nrows m -> c < ncols m -> value A m r c = Ok (f r c)).
End Spec.
Arguments dims : clear implicits.
