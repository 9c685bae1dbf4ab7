(** * Lemmas on patterned matrices *)
From Coq Require Import Reals ZArith List Bool Arith Lia Lra.
From Verif Require Import Base MtxModel MtxSpec.
Import ListNotations.
Local Open Scope R_scope.

Lemma count_cons p pat : count_ones (p :: pat) = ((if Z.eqb p 1 then 1 else 0) + count_ones pat)%nat.
Proof. unfold count_ones. cbn [filter]. destruct (Z.eqb p 1); reflexivity. Qed.
Lemma last_counts pat : last pat 0%Z = 1%Z -> (1 <= count_ones pat)%nat.
Proof.
  induction pat as [|p [|q pat] IH]; [discriminate| |].
  - cbn [last]. intros ->. cbn. lia.
  - intros H. change (last (q :: pat) 0%Z = 1%Z) in H. rewrite count_cons. specialize (IH H). lia.
Qed.
Lemma last_tail (p : Z) pat (H : last (p :: pat) 0%Z = 1%Z) : (pat = [] /\ p = 1%Z) \/ last pat 0%Z = 1%Z.
Proof. destruct pat as [|q pat]; [left; split; [reflexivity | exact H] | right; exact H]. Qed.
Lemma rank_S p pat i : rank (p :: pat) (S i) = ((if Z.eqb p 1 then 1 else 0) + rank pat i)%nat.
Proof.
  unfold rank. cbn [firstn]. destruct (Z.eqb_spec p 1) as [->|N].
  - rewrite count_occ_cons_eq; reflexivity.
  - rewrite count_occ_cons_neq; [reflexivity | exact N].
Qed.
Lemma nth_error_nth0 (dp : list R) j d : nth_error dp j = Some d -> nth j dp 0 = d.
Proof. intros H. now apply nth_error_nth. Qed.

Lemma add_ok pat : forall A dp j, length pat = length A -> Forall (fun p => p = 0%Z \/ p = 1%Z) pat -> pat = [] \/ last pat 0%Z = 1%Z ->
  (j + count_ones pat = length dp)%nat ->
  exists A', add_entries pat A dp j = Ok A' /\ length A' = length A /\
    forall i, (i < length A)%nat -> nth i A' 0 = nth i A 0 + (if Z.eqb (nth i pat 0%Z) 1 then nth (j + rank pat i) dp 0 else 0).
Proof.
  induction pat as [|p pat IH]; intros [|a A] dp j E F L C; try discriminate E.
  - exists []. cbn. split; [reflexivity|]. split; [reflexivity|]. intros i Hi. lia.
  - destruct L as [L|L]; [discriminate|]. inversion F as [|x l Fp Ft]; subst. injection E as E. rewrite count_cons in C.
    assert (J : (j < length dp)%nat).
    { apply last_tail in L. destruct L as [[-> ->]|L]; [cbn in C; lia|]. apply last_counts in L. lia. }
    destruct (nth_error dp j) as [d|] eqn:D; [|apply nth_error_None in D; lia].
    destruct (IH A dp (if Z.eqb p 1 then S j else j)) as [A' [E1 [E2 E3]]]; [exact E | exact Ft | | |].
    + apply last_tail in L. destruct L as [[-> _]|L]; [left; reflexivity | right; exact L].
    + destruct (Z.eqb p 1); lia.
    + cbn [add_entries]. rewrite D, E1. cbn [obind]. eexists. split; [reflexivity|]. split; [cbn [length]; lia|].
      intros [|i] Hi; cbn [nth].
      * unfold rank. cbn [firstn count_occ]. rewrite Nat.add_0_r, (nth_error_nth0 _ _ _ D).
        destruct Fp as [-> | ->]; [change (0 =? 1)%Z with false | change (1 =? 1)%Z with true]; cbv iota; lra.
      * cbn [length] in Hi. rewrite (E3 i ltac:(lia)), rank_S. f_equal.
        destruct (Z.eqb (nth i pat 0%Z) 1); [|reflexivity]. f_equal. destruct (Z.eqb p 1); lia.
Qed.
Lemma add_ub pat : forall A dp j, pat <> [] -> length pat = length A -> last pat 0%Z <> 1%Z -> (j + count_ones pat = length dp)%nat ->
  add_entries pat A dp j = UB.
Proof.
  induction pat as [|p pat IH]; intros [|a A] dp j N E L C; try discriminate E; [now destruct N|]. injection E as E.
  cbn [add_entries]. destruct (nth_error dp j) as [d|] eqn:D; [|reflexivity].
  assert (J : (j < length dp)%nat) by (apply nth_error_Some; congruence). rewrite count_cons in C.
  destruct pat as [|q pat].
  - cbn [last] in L. destruct (Z.eqb_spec p 1) as [X|X]; [contradiction|]. cbn in C. lia.
  - rewrite IH; [reflexivity | discriminate | exact E | exact L |]. destruct (Z.eqb p 1); lia.
Qed.
Lemma skip_nth (dp : list R) : forall j d, nth_error dp j = Some d -> skipn j dp = d :: skipn (S j) dp.
Proof. induction dp as [|x dp IH]; intros [|j] d H; try discriminate H; cbn in H; [now injection H as ->|]. cbn [skipn]. now apply IH. Qed.
Lemma add_dot pat : forall A dp j A' row, length pat = length A -> length row = length A -> Forall (fun p => p = 0%Z \/ p = 1%Z) pat ->
  add_entries pat A dp j = Ok A' -> dot row A' = dot row A + dot (pick pat row) (skipn j dp).
Proof.
  induction pat as [|p pat IH]; intros [|a A] dp j A' [|x row] E1 E2 F; try discriminate E1; try discriminate E2.
  - cbn. intros [= <-]. cbn. lra.
  - cbn [add_entries]. destruct (nth_error dp j) as [d|] eqn:D; [|discriminate]. inversion F as [|y l Fp Ft]; subst.
    destruct (add_entries pat A dp (if Z.eqb p 1 then S j else j)) as [B| | |] eqn:B1; cbn [obind]; try discriminate.
    intros [= <-]. apply IH with (row := row) in B1; [|now injection E1 | now injection E2 | exact Ft].
    cbn [dot pick]. rewrite B1. destruct Fp as [-> | ->]; [change (0 =? 1)%Z with false | change (1 =? 1)%Z with true]; cbv iota.
    + lra.
    + rewrite (skip_nth _ _ _ D). cbn [dot]. lra.
Qed.
Lemma full_dot p c A : length A = 9%nat -> dot (full_row p c) A = dot3 c (matvec A p).
Proof.
  destruct p as [[x y] z], c as [[c0 c1] c2]. destruct A as [|a0 [|a1 [|a2 [|a3 [|a4 [|a5 [|a6 [|a7 [|a8 [|a9 A]]]]]]]]]]; try discriminate.
  intros _. cbn [full_row dot dot3 matvec nth]. ring.
Qed.
Lemma row_dot c A p d : dot3 c (matvec A (add3 p d)) = dot3 c (matvec A p) + dot (row_times c A) (list3 d).
Proof. destruct p as [[x y] z], c as [[c0 c1] c2], d as [[d0 d1] d2]. cbn [dot3 matvec add3 row_times dot list3]. ring. Qed.
Lemma full_length p c : length (full_row p c) = 9%nat.
Proof. destruct p as [[x y] z], c as [[c0 c1] c2]. reflexivity. Qed.
Lemma add_length pat : forall A dp j B, length pat = length A -> add_entries pat A dp j = Ok B -> length B = length A.
Proof.
  induction pat as [|q pat IH]; intros [|a A] dp j B L; try discriminate L; cbn [add_entries].
  - intros [= <-]. reflexivity.
  - destruct (nth_error dp j); [|intros H; discriminate H].
    destruct (add_entries pat A dp (if Z.eqb q 1 then S j else j)) as [B'| | |] eqn:E; cbn [obind]; try (intros H; discriminate H).
    intros [= <-]. injection L as L. cbn [length]. f_equal. exact (IH A dp _ B' L E).
Qed.
