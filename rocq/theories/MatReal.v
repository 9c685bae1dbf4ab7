(** Exact matrix algebra on row lists over the reals. *)
From Coq Require Import ZArith List Bool Lia Reals Lra.
From Verif Require Import Base Arith RArith JacModel.
Import ListNotations.
Open Scope nat_scope.

Notation rmat := (mat RA).

(** matrix times vector *)
Definition mv (M : rmat) (v : list R) : list R := map (fun r => rdot r v) M.

Lemma map_nth_seq (b : list R) n : length b = n ->
  map (fun j => nth j b 0%R) (seq 0 n) = b.
Proof.
  revert n. induction b as [ | x b IH]; intros n <-; [reflexivity | ].
  cbn [length seq map nth]. f_equal.
  rewrite <- seq_shift, map_map. now apply IH.
Qed.

Lemma rdot_nil_l v : rdot [] v = 0%R. Proof. reflexivity. Qed.
Lemma rdot_nil_r v : rdot v [] = 0%R. Proof. now destruct v. Qed.
Lemma rdot_cons x r y s : rdot (x :: r) (y :: s) = (x * y + rdot r s)%R.
Proof. reflexivity. Qed.

Lemma rdot_zeros n v : rdot (map (fun _ => 0%R) (seq 0 n)) v = 0%R.
Proof.
  generalize 0 at 1. revert v. induction n as [ | n IH]; intros v a; [reflexivity | ].
  destruct v as [ | y v]; [reflexivity | ].
  cbn [seq map]. rewrite rdot_cons, IH. ring.
Qed.

Lemma rdot_map_lin (f g : nat -> R) a v l :
  rdot (map (fun j => (a * f j + g j)%R) l) v =
  (a * rdot (map f l) v + rdot (map g l) v)%R.
Proof.
  revert v. induction l as [ | j l IH]; intro v; [cbn; ring | ].
  destruct v as [ | y v]; [cbn; ring | ].
  cbn [map]. rewrite !rdot_cons, IH. ring.
Qed.

(** one row of a product *)
Lemma row_product n : forall (r : list R) (B : rmat) v,
  Forall (fun b => length b = n) B ->
  rdot (map (fun j => rdot r (column RA j B)) (seq 0 n)) v = rdot r (mv B v).
Proof.
  induction r as [ | x r IH]; intros B v HB.
  - exact (rdot_zeros n v).
  - destruct B as [ | b B].
    + cbn [mv map column]. rewrite rdot_nil_r.
      etransitivity; [ | apply (rdot_zeros n v)]. reflexivity.
    + inversion_clear HB. change (mv (b :: B) v) with (rdot b v :: mv B v). rewrite rdot_cons, <- (IH B v) by assumption.
      replace (rdot b v) with (rdot (map (fun j => nth j b 0%R) (seq 0 n)) v)
        by now rewrite map_nth_seq.
      rewrite <- rdot_map_lin. reflexivity.
Qed.

Lemma mv_mmul n M B v : Forall (fun b => length b = n) B ->
  mv (mmul RA n M B) v = mv M (mv B v).
Proof.
  intro H. unfold mmul. unfold mv at 1. rewrite map_map. unfold mv at 1.
  apply map_ext. intro r.
  rewrite <- (row_product n r B v H). f_equal. apply map_ext. intro j.
  apply dot_rdot.
Qed.

Lemma mv_madd : forall r c a b v, shaped RA r c a = true -> shaped RA r c b = true ->
  mv (madd RA a b) v = vadd RA (mv a v) (mv b v).
Proof.
  unfold shaped. intros r c a. revert r. induction a as [ | x a IH]; intros r b v Ha Hb.
  - reflexivity.
  - apply andb_true_iff in Ha, Hb. destruct Ha as (A1 & A2), Hb as (B1 & B2).
    apply Nat.eqb_eq in A1, B1. destruct b as [ | y b]; [cbn in *; lia | ].
    cbn [forallb] in A2, B2. apply andb_true_iff in A2, B2.
    destruct A2 as (A2 & A3), B2 as (B2 & B3). apply Nat.eqb_eq in A2, B2.
    unfold madd. cbn [combine map mv fst snd vadd].
    change (rdot (vadd RA x y) v :: mv (madd RA a b) v =
            (rdot x v + rdot y v)%R :: vadd RA (mv a v) (mv b v)).
    f_equal.
    + apply rdot_vadd_l. congruence.
    + cbn [length] in A1, B1. apply IH with (length a).
      * rewrite Nat.eqb_refl. exact A3.
      * rewrite B3, andb_true_r. apply Nat.eqb_eq. lia.
Qed.

Lemma mv_length M v : length (mv M v) = length M.
Proof. apply map_length. Qed.

Lemma nth_mv i M v : nth i (mv M v) 0%R = rdot (nth i M []) v.
Proof. unfold mv. rewrite <- (map_nth (fun r => rdot r v)). reflexivity. Qed.

Lemma nth_vadd i : forall x y : list R, length x = length y ->
  nth i (vadd RA x y) 0%R = (nth i x 0 + nth i y 0)%R.
Proof.
  revert i. induction i as [ | i IH]; intros [ | a x] [ | b y] H; cbn in H; try lia.
  - cbn. ring.
  - reflexivity.
  - cbn. ring.
  - exact (IH x y ltac:(lia)).
Qed.
