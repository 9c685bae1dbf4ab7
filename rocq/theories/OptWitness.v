(** Concrete optimisation problems, in binary64, on which the theorems of
    [OptProps] are exercised and the refutations computed. *)
From Coq Require Import ZArith List Bool Floats.SpecFloat.
From Verif Require Import Base Arith OptModel OptSpec.
Import ListNotations.

Definition f (z : Z) : spec_float := of_Z F64 z.

(** One scalar unknown, additive update. *)
Definition plus1 (v : spec_float) (dx : list spec_float) : spec_float :=
  match dx with [d] => add F64 v d | _ => v end.
Definition scalar (g : spec_float -> spec_float) (x : list spec_float) : spec_float :=
  match x with [v] => g v | _ => f 0 end.

(** The error term [x - 5]: cost (x-5)^2, Jacobian 1. *)
Definition resid (x : list spec_float) : spec_float :=
  scalar (fun v => sub F64 v (f 5)) x.
Definition quad (stray : bool) : World F64 spec_float :=
  MkWorld (A := F64) plus1
    (fun x => mul F64 (resid x) (resid x))
    (fun _ y => [sub F64 (f 0) (resid y)])
    (fun _ g => sqnorm F64 g)
    (fun q => (true, [div F64 (sub F64 (f 0) (resid (q_res q)))
                              (add F64 (f 1) (q_diag q))]))
    (fun x n => if Z.eqb n 3 then mul F64 x (mul F64 x x) else f 1)
    stray.

(** Costs from a table, steps from a list of answers. *)
Definition scripted (cost : spec_float -> spec_float)
    (answers : list (bool * spec_float)) : World F64 spec_float :=
  MkWorld (A := F64) plus1 (scalar cost) (fun _ _ => [f 1]) (fun _ g => sqnorm F64 g)
    (fun q => let a := nth (q_no q) answers (true, f 0) in (fst a, [snd a]))
    (fun x _ => x) false.

Definition x_at (z : Z) : list (dvar F64 spec_float) :=
  [DV F64 (f z) (f z) 1 (f 1) true].

Definition LM : policy F64 := PLM (lm_default F64) (Lm F64 (f 0) (f 0) []).
Definition DOG : policy F64 :=
  PDL (Dl F64 [] [] [] (f 0) (f 0) (f 0) (f 0) (f 0) (f 0) NoStep).
Definition opts (n : Z) : options F64 :=
  Options F64 (div F64 (f 1) (f 1000)) (div F64 (f 1) (f 1000)) n.

(** What a run returned, without the state. *)
Definition outcome_of {A V} (r : outcome (ost A V * result A))
  : option (list V * list (event A V) * result A) :=
  match r with
  | Ok (s, r) => Some (values (dvs s), log s, r)
  | _ => None
  end.
Definition log_of {A V} (r : outcome (ost A V * result A)) : list (event A V) :=
  match r with Ok (s, _) => log s | _ => [] end.

(** Decidable comparisons, so that the computed runs below are checked by
    evaluating a boolean. *)
Definition sf_dec (x y : spec_float) : {x = y} + {x <> y}.
Proof. decide equality; first [apply Bool.bool_dec | apply Pos.eq_dec | apply Z.eq_dec]. Defined.
Definition same (x y : spec_float) : bool := if sf_dec x y then true else false.
Definition lsame (x y : list spec_float) : bool :=
  if list_eq_dec sf_dec x y then true else false.
Definition osame (x y : option (list spec_float)) : bool :=
  match x, y with
  | Some a, Some b => lsame a b
  | None, None => true
  | _, _ => false
  end.
Lemma same_eq x y : same x y = true -> x = y.
Proof. unfold same. now destruct (sf_dec x y). Qed.
Lemma lsame_eq x y : lsame x y = true -> x = y.
Proof. unfold lsame. now destruct (list_eq_dec sf_dec x y). Qed.
Lemma osame_eq x y : osame x y = true -> x = y.
Proof.
  destruct x, y; cbn [osame]; intro H; try discriminate H; [ | reflexivity].
  f_equal. now apply lsame_eq.
Qed.

Lemma ran {A V} (r : outcome (ost A V * result A)) (chk : ost A V -> result A -> bool) :
  match r with Ok (s, res) => chk s res | _ => false end = true ->
  exists s res, r = Ok (s, res) /\ chk s res = true.
Proof.
  destruct r as [[s res] | | | ]; intro H; try discriminate H.
  exists s, res. auto.
Qed.
