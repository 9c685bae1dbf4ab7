(** * Specification: an omnidirectional camera in a consistent state *)

From Coq Require Import Reals.
From Verif Require Import KinModel DistModel PinModel CamSpec OmniModel.
Local Open Scope R_scope.

(** The cached values belong to the parameters. *)
Definition omni_sync (M : omni) : Prop :=
  in_sync (oi M) /\ one_over M = 1 / (xi M * xi M - 1) /\ fov_par M = (if Rle_dec (xi M) 1 then xi M else 1 / xi M).
