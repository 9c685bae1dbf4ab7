(** Properties of the in-place permutation (C14). *)
From Coq Require Import List Arith Lia Permutation.
From Verif Require Import Base PermuteModel PermuteSpec PermuteProofs.
Import ListNotations.

Theorem C14_permutation_gathers : forall (A : Type) (c : list A) perm,
  is_permutation_of_indices (length c) perm ->
  exists c', permute c perm = Done c' /\ gathers c perm c'.
Proof. exact @permute_gathers. Qed.
Print Assumptions C14_permutation_gathers.

Example C14_ex : is_permutation_of_indices 6 [1; 3; 0; 2; 5; 4] /\
  permute [10; 11; 12; 13; 14; 15] [1; 3; 0; 2; 5; 4] = Done [11; 13; 10; 12; 15; 14].
Proof.
  split; [|reflexivity]. split; [reflexivity|split].
  - repeat constructor; cbn; intuition discriminate.
  - repeat constructor.
Qed.

(** An index vector of the wrong length is refused with the container untouched. *)
Theorem C14_wrong_length_throws : forall (A : Type) (c : list A) perm,
  length c <> length perm -> permute c perm = Thrown c.
Proof. exact @permute_wrong_length. Qed.
Print Assumptions C14_wrong_length_throws.

(** An index vector with an out-of-range entry is never accepted. *)
Theorem C14_out_of_range_never_accepted : forall (A : Type) (c : list A) perm j,
  nth_error perm j <> None -> length c <= nth j perm 0 ->
  match permute c perm with Done _ => False | _ => True end.
Proof. exact @permute_bad_entry. Qed.
Print Assumptions C14_out_of_range_never_accepted.

Example C14_ex2 : permute [10; 11; 12] [1; 3; 0] = Thrown [11; 10; 12].
Proof. reflexivity. Qed.

(** Whatever the index vector, no element is lost or duplicated, even when the
    call throws half-way. *)
Theorem C14_no_element_lost : forall (A : Type) (c : list A) perm,
  match permute c perm with
  | Done c' | Thrown c' => Permutation c c'
  | Loops => True
  end.
Proof. exact @permute_perm. Qed.
Print Assumptions C14_no_element_lost.

(** In-range index vectors with repeated entries are not rejected: the call can
    run forever, or return something that is not the requested selection. *)
Theorem C14_repeated_entry_loops_refuted : exists (c : list nat) perm,
  length c = length perm /\ Forall (fun k => k < length c) perm /\ permute c perm = Loops.
Proof. exists [5; 6], [0; 0]. split; [reflexivity|]. split; [|reflexivity]. repeat constructor. Qed.
Print Assumptions C14_repeated_entry_loops_refuted.

Theorem C14_repeated_entry_wrong_refuted : exists (c : list nat) perm c',
  length c = length perm /\ Forall (fun k => k < length c) perm /\
  permute c perm = Done c' /\ ~ gathers c perm c'.
Proof.
  exists [5; 6], [1; 1], [6; 5]. split; [reflexivity|]. split; [repeat constructor|].
  split; [reflexivity|]. intros [_ H]. specialize (H 1 1 eq_refl). discriminate H.
Qed.
Print Assumptions C14_repeated_entry_wrong_refuted.

(** "Loops" really is non-termination of the inner loop: once the model's budget is
    exhausted, no larger budget ends it. *)
Theorem C14_loops_means_forever : forall perm i k,
  i <= length perm -> chase (length perm) perm i k = None -> forall fuel, chase fuel perm i k = None.
Proof. intros perm i k Hi. exact (chase_forever perm i k (length perm) Hi). Qed.
Print Assumptions C14_loops_means_forever.

Example C14_ex3 : chase 2 [0; 0] 1 0 = None.
Proof. reflexivity. Qed.
