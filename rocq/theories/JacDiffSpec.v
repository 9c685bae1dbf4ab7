(** The linear map a Jacobian container stands for, over exact reals. *)
From Coq Require Import ZArith List Bool Reals.
From Verif Require Import Base Arith RArith MatReal OMap JacModel JacSpec.
Import ListNotations.

(** Change of the error when the design variable at block [b] moves by
    [delta b]: the sum of the Jacobians applied to the moves. *)
Definition differential (delta : Z -> list R) (c : container RA) : list R :=
  fold_right (fun e acc => vadd RA (mv (snd (snd e)) (delta (fst e))) acc)
             (repeat 0%R (crows c)) (cmap c).

(** What the operations mean for that change: adding a Jacobian or a container
    adds its contribution, inactive design variables contribute nothing, the
    chain rule multiplies. *)
Fixpoint meaning (delta : Z -> list R) (ops : list (cop RA)) (acc : list R) : list R :=
  match ops with
  | [] => acc
  | OpOne d J :: r =>
      meaning delta r
        (if is_active d then vadd RA acc (mv J (delta (block d))) else acc)
  | OpAll c :: r => meaning delta r (vadd RA acc (differential delta c))
  | OpChain _ M :: r => meaning delta r (mv M acc)
  end.
