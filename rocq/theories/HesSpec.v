(** What the assembled system has to be: the normal equations of the weighted,
    scaled Jacobians of all error terms, over the reals. *)
From Coq Require Import ZArith List Bool Reals.
From Verif Require Import Base Arith OMap RArith JacModel JacSpec MEstModel SbmModel SbmSpec SbmReal HesModel.
Import ListNotations.
Open Scope nat_scope.

Section Spec.
Variable scaling : dvref -> R.
Variable useM : bool.
Notation term := (hterm RA).

(** Square root of the robust weight of a term. *)
Definition sw (t : term) : R :=
  if useM then sqrt (eweight (tterm t) (estored (tterm t))) else 1%R.
(** Number of rows of the weighted Jacobian. *)
Definition height (t : term) : nat := @length (list R) (esqrt_t (tterm t)).

(** Row [k] of the weighted, scaled Jacobian of [t] with respect to component
    [i] of the design variable at block [b], and component [k] of the weighted
    error. *)
Definition jent (t : term) (k b i : nat) : R :=
  match mget Z.compare (Z.of_nat b) (cmap (tjac t)) with
  | Some (d, J) =>
      (scaling d * (sw t * sumn (crows (tjac t)) (fun m => ent (esqrt_t (tterm t)) k m * ent J m i)))%R
  | None => 0%R
  end.
Definition werr (t : term) (k : nat) : R :=
  (sw t * sumn (crows (tjac t)) (fun m => ent (esqrt_t (tterm t)) k m * nth m (eerror (tterm t)) 0))%R.

(** Sum over all rows of all terms. *)
Definition over (ts : list term) (f : term -> nat -> R) : R :=
  rsum (map (fun t => sumn (height t) (f t)) ts).

(** A term fits a layout: its Jacobians belong to blocks of the layout and have
    their sizes, and its error and weight have the size of the Jacobians. *)
Definition term_ok (lay : list nat) (t : term) : Prop :=
  container_ok (tjac t) /\
  Forall (fun e : Z * (dvref * mat RA) => (0 <= fst e < Z.of_nat (length lay))%Z /\
            mindim (fst (snd e)) = size_of lay (Z.to_nat (fst e))) (cmap (tjac t)) /\
  @length R (eerror (tterm t)) = crows (tjac t) /\
  shaped RA (height t) (crows (tjac t)) (esqrt_t (tterm t)) = true.

(** A term has a Jacobian for a block. *)
Definition involves (t : term) (b : nat) : Prop := In (Z.of_nat b) (map fst (cmap (tjac t))).

(** Row [k] of the Jacobian times a step [x]. *)
Definition jx (lay : list nat) (t : term) (k : nat) (x : nat -> R) : R :=
  sumn (length lay) (fun b => sumn (size_of lay b) (fun i => jent t k b i * x (base_of lay b + i)%nat)%R).

(** The linearised weighted cost after a step [x]. *)
Definition cost (lay : list nat) (ts : list term) (x : nat -> R) : R :=
  over ts (fun t k => ((werr t k + jx lay t k x) * (werr t k + jx lay t k x))%R).
End Spec.
