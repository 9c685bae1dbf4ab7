(** What the linear solvers' libraries should be given. *)
From Coq Require Import List Bool.
From Verif Require Import Base Arith OMap JacModel CcmModel CcmSpec SbmModel SbmSpec SbmCcs LsModel.
Import ListNotations.
Open Scope nat_scope.

Section Ls.
Variable A : Arith.
Notation num := (num A).
Notation sbm := (sbm A).

(** A matrix the solvers are meant for: well-formed, equal layouts, no empty
    block, not empty. *)
Record fine (q : kind) (m : sbm) : Prop := {
  fi_wf : wf m; fi_sq : square m; fi_pos : positive (rbi m); fi_some : rbi m <> [];
  fi_up : q = Spqr -> upper_only m }.

(** The entries the library is to see. *)
Definition wanted (q : kind) (m : sbm) (f : nat -> nat -> num) : Prop :=
  match q with
  | Spqr => forall r c, r < total (rbi m) -> c < total (rbi m) -> f r c = sym m r c
  | _ => forall r c, r < total (rbi m) -> c < total (rbi m) -> r <= c -> f r c = el m r c
  end.

(** Histories in which a factorisation is only reused for matrices with the
    block pattern it was made for. *)
Definition next (q : kind) (held : option sbm) (o : op A) : option sbm :=
  match o with
  | OInit => None
  | OSolve m ok => match q with
                   | Cholmod => if ok then Some (match held with Some m0 => m0 | None => m end) else None
                   | _ => Some (match held with Some m0 => m0 | None => m end)
                   end
  | OBlocks m ok => Some (match held with Some m0 => m0 | None => m end)
  end.
Fixpoint allowed (q : kind) (held : option sbm) (os : list (op A)) : Prop :=
  match os with
  | [] => True
  | o :: r =>
      (match o with
       | OInit => True
       | OSolve m _ | OBlocks m _ => fine q m /\ (forall m0, held = Some m0 -> same_pattern A m0 m)
       end) /\ allowed q (next q held o) r
  end.

(** The matrices a history passes to the solver. *)
Definition asked (os : list (op A)) : list sbm :=
  flat_map (fun o => match o with OInit => [] | OSolve m _ | OBlocks m _ => [m] end) os.

Definition good (q : kind) (e : sbm * ccm A * (nat * nat * list nat * list nat)) : Prop :=
  let '(m, h, f) := e in
  nrows h = total (rbi m) /\ ncols h = total (cbi m) /\ well_formed A h /\
  (exists g, dense_is A h g /\ wanted q m g) /\ f = pattern_of A h.

End Ls.
