(** Proofs about calibration targets. *)
From Coq Require Import ZArith Reals List Bool Lia Lra.
From Verif Require Import Base Arith RArith CcmModel CcmProofs TgtModel.
Import ListNotations.
Open Scope nat_scope.

(** ** The index of a grid point. *)
Lemma idx_lt rows cols r c : r < rows -> c < cols -> cols * r + c < rows * cols.
Proof. intros. nia. Qed.
Lemma idx_div cols r c : c < cols -> (cols * r + c) / cols = r.
Proof. intros H. symmetry. apply Nat.div_unique with c; lia. Qed.
Lemma idx_mod cols r c : c < cols -> (cols * r + c) mod cols = c.
Proof. intros H. symmetry. apply Nat.mod_unique with r; lia. Qed.
Lemma idx_inj cols r c r' c' : c < cols -> c' < cols -> cols * r + c = cols * r' + c' -> r = r' /\ c = c'.
Proof.
  intros H H' E. split.
  - rewrite <- (idx_div cols r c H), E. now apply idx_div.
  - rewrite <- (idx_mod cols r c H), E. now apply idx_mod.
Qed.
Lemma idx_split rows cols i : i < rows * cols ->
  i / cols < rows /\ i mod cols < cols /\ i = cols * (i / cols) + i mod cols.
Proof.
  intro H. assert (cols <> 0) by (intros ->; lia).
  split; [apply Nat.div_lt_upper_bound; lia | ]. split; [now apply Nat.mod_upper_bound | ].
  now apply Nat.div_mod.
Qed.

(** ** Filling the grid. *)
Section Fill.
Variable A : Arith.
Notation pt3 := (num A * num A * num A)%type.

Lemma grid_writes_in rows cols (f : nat -> nat -> pt3) i v :
  In (i, v) (grid_writes A rows cols f) <->
  exists r c, r < rows /\ c < cols /\ i = cols * r + c /\ v = f r c.
Proof.
  unfold grid_writes. rewrite in_flat_map. split.
  - intros (r & Hr & H). apply in_map_iff in H. destruct H as (c & E & Hc).
    apply in_seq in Hr, Hc. injection E as <- <-. exists r, c. repeat split; lia.
  - intros (r & c & Hr & Hc & -> & ->). exists r. split; [apply in_seq; lia | ].
    apply in_map_iff. exists c. split; [reflexivity | apply in_seq; lia].
Qed.

Definition full (rows cols : nat) (f : nat -> nat -> pt3) : list pt3 :=
  map (fun i => f (i / cols) (i mod cols)) (seq 0 (rows * cols)).

Lemma full_nth rows cols f i : i < rows * cols ->
  nth_error (full rows cols f) i = Some (f (i / cols) (i mod cols)).
Proof.
  intro H. unfold full. rewrite nth_error_map.
  rewrite (nth_error_nth' (seq 0 (rows * cols)) 0) by (rewrite seq_length; exact H).
  now rewrite seq_nth.
Qed.
Lemma full_length rows cols f : length (full rows cols f) = rows * cols.
Proof. unfold full. now rewrite map_length, seq_length. Qed.

Lemma fill_ok rows cols (f : nat -> nat -> pt3) raw : length raw = rows * cols ->
  stores (grid_writes A rows cols f) raw = Ok (full rows cols f).
Proof.
  intro L. apply stores_target.
  - now rewrite full_length.
  - intros i v H. apply grid_writes_in in H. destruct H as (r & c & Hr & Hc & -> & ->).
    rewrite full_nth by now apply idx_lt. now rewrite idx_div, idx_mod.
  - intros i Hi N. exfalso. apply N. rewrite L in Hi.
    destruct (idx_split rows cols i Hi) as (H1 & H2 & H3).
    apply in_map_iff. exists (i, f (i / cols) (i mod cols)). split; [reflexivity | ].
    apply grid_writes_in. exists (i / cols), (i mod cols). now repeat split.
Qed.

Lemma full_grid rows cols f r c : r < rows -> c < cols ->
  grid_point (Target rows cols (full rows cols f)) r c = Ok (f r c).
Proof.
  intros Hr Hc. unfold grid_point, point, from_grid. cbn [tpoints tcols].
  apply load_ok. rewrite full_nth by now apply idx_lt. now rewrite idx_div, idx_mod.
Qed.

Lemma checkerboard_ok rows cols rs cs raw : lt A (of_Z A 0) rs = true -> lt A (of_Z A 0) cs = true ->
  length raw = rows * cols ->
  checkerboard A rows cols rs cs raw = Ok (Target rows cols (full rows cols (checkerboard_point A rs cs))).
Proof. intros H1 H2 L. unfold checkerboard. now rewrite H1, H2, fill_ok. Qed.
Lemma circlegrid_ok rows cols s asym raw : lt A (of_Z A 0) s = true -> length raw = rows * cols ->
  circlegrid A rows cols s asym raw =
  Ok (Target rows cols (full rows cols (if asym then asymmetric_point A s else checkerboard_point A s s))).
Proof.
  intros H L. unfold circlegrid. rewrite H, (fill_ok _ _ _ raw L). cbn [obind].
  now rewrite fill_ok by apply full_length.
Qed.
Lemma aprilgrid_ok tr tc s sp raw : lt A (of_Z A 0) s = true -> lt A (of_Z A 0) sp = true ->
  length raw = 4 * (tr * tc) ->
  aprilgrid A tr tc s sp raw =
  Ok (Target (2 * tr) (2 * tc) (full (2 * tr) (2 * tc) (april_point A s sp))).
Proof. intros H1 H2 L. unfold aprilgrid. rewrite H1, H2, fill_ok; [reflexivity | lia]. Qed.

(** ** Tags. *)
Lemma tag_row_col tc id j (pts : list pt3) tr : id < tr * tc -> j < 4 ->
  corner_index A (Target (2 * tr) (2 * tc) pts) id j =
  2 * tc * (2 * (id / tc) + j / 2) + (2 * (id mod tc) + (if (j =? 1) || (j =? 2) then 1 else 0)).
Proof.
  intros Hi Hj. unfold corner_index. cbn [tcols].
  replace (2 * tc / 2) with tc by (rewrite Nat.mul_comm, Nat.div_mul; lia).
  destruct j as [ | [ | [ | [ | ]]]]; [ | | | | lia];
    cbn [nth Nat.eqb orb]; change (0 / 2) with 0; change (1 / 2) with 0; change (2 / 2) with 1; change (3 / 2) with 1; nia.
Qed.
Lemma tag_row_lt tr tc id : id < tr * tc -> id / tc < tr /\ id mod tc < tc.
Proof. intro H. destruct (idx_split tr tc id H) as (? & ? & _). auto. Qed.

Lemma corner_lt tr tc pts id j : id < tr * tc -> j < 4 ->
  corner_index A (Target (2 * tr) (2 * tc) pts) id j < 2 * tr * (2 * tc).
Proof.
  intros Hi Hj. rewrite tag_row_col by assumption. destruct (tag_row_lt tr tc id Hi) as (H1 & H2).
  apply idx_lt.
  - assert (j / 2 < 2) by (apply Nat.div_lt_upper_bound; lia). lia.
  - destruct ((j =? 1) || (j =? 2)); lia.
Qed.
Lemma corner_inj tr tc pts id j id' j' : id < tr * tc -> j < 4 -> id' < tr * tc -> j' < 4 ->
  corner_index A (Target (2 * tr) (2 * tc) pts) id j = corner_index A (Target (2 * tr) (2 * tc) pts) id' j' ->
  id = id' /\ j = j'.
Proof.
  intros Hi Hj Hi' Hj' E. rewrite !tag_row_col in E by assumption.
  destruct (idx_split tr tc id Hi) as (H1 & H2 & H3). destruct (idx_split tr tc id' Hi') as (H1' & H2' & H3').
  apply idx_inj in E; [ | destruct ((j =? 1) || (j =? 2)); lia | destruct ((j' =? 1) || (j' =? 2)); lia].
  destruct E as (E1 & E2).
  assert (D : j / 2 < 2) by (apply Nat.div_lt_upper_bound; lia).
  assert (D' : j' / 2 < 2) by (apply Nat.div_lt_upper_bound; lia).
  assert (id / tc = id' / tc) by lia.
  assert (id mod tc = id' mod tc) by (destruct ((j =? 1) || (j =? 2)), ((j' =? 1) || (j' =? 2)); lia).
  split; [congruence | ].
  assert (Q1 : j / 2 = j' / 2) by lia.
  assert (Q2 : (if (j =? 1) || (j =? 2) then 1 else 0) = (if (j' =? 1) || (j' =? 2) then 1 else 0)) by lia.
  clear - Hj Hj' Q1 Q2.
  destruct j as [ | [ | [ | [ | ]]]]; try lia; destruct j' as [ | [ | [ | [ | ]]]]; try lia;
    vm_compute in Q1, Q2; first [reflexivity | discriminate].
Qed.
Lemma corner_onto tr tc pts i : i < 2 * tr * (2 * tc) ->
  exists id j, id < tr * tc /\ j < 4 /\ corner_index A (Target (2 * tr) (2 * tc) pts) id j = i.
Proof.
  intro H. destruct (idx_split _ _ _ H) as (H1 & H2 & H3).
  set (r := i / (2 * tc)) in *. set (c := i mod (2 * tc)) in *.
  assert (Er := Nat.div_mod r 2 ltac:(lia)). assert (Ec := Nat.div_mod c 2 ltac:(lia)).
  assert (Mr := Nat.mod_upper_bound r 2 ltac:(lia)). assert (Mc := Nat.mod_upper_bound c 2 ltac:(lia)).
  assert (Lr : r / 2 < tr) by (apply Nat.div_lt_upper_bound; lia).
  assert (Lc : c / 2 < tc) by (apply Nat.div_lt_upper_bound; lia).
  exists (tc * (r / 2) + c / 2).
  exists (match r mod 2, c mod 2 with 0, 0 => 0 | 0, _ => 1 | _, 0 => 3 | _, _ => 2 end).
  split; [now apply idx_lt | ].
  destruct (r mod 2) as [ | [ | ]] eqn:Qr; [ | | lia]; (destruct (c mod 2) as [ | [ | ]] eqn:Qc; [ | | lia]);
    (split; [lia | ]); rewrite tag_row_col by (try apply idx_lt; lia);
    rewrite idx_div, idx_mod by assumption; cbn [Nat.eqb orb]; change (0 / 2) with 0; change (1 / 2) with 0; change (2 / 2) with 1; change (3 / 2) with 1;
    (etransitivity; [ | symmetry; exact H3]); (apply (f_equal2 Nat.add); [apply (f_equal (Nat.mul (2 * tc))); lia | lia]).
Qed.
End Fill.

(** ** Coordinates over the reals. *)
Section Coordinates.
Open Scope R_scope.
Lemma of_nat_R n : of_nat RA n = INR n.
Proof. unfold of_nat. cbn [of_Z RA]. symmetry. apply INR_IZR_INZ. Qed.

Lemma april_coord_R s sp k :
  april_coord RA s sp k = INR (k / 2) * (1 + sp) * s + INR (k mod 2) * s.
Proof. unfold april_coord. rewrite !of_nat_R. reflexivity. Qed.

Lemma april_increasing s sp k k' : 0 < s -> 0 < sp -> (k < k')%nat ->
  april_coord RA s sp k < april_coord RA s sp k'.
Proof.
  intros Hs Hp H. rewrite !april_coord_R.
  assert (E := Nat.div_mod k 2 ltac:(lia)). assert (E' := Nat.div_mod k' 2 ltac:(lia)).
  assert (M := Nat.mod_upper_bound k 2 ltac:(lia)). assert (M' := Nat.mod_upper_bound k' 2 ltac:(lia)).
  set (a := (k / 2)%nat) in *. set (b := (k mod 2)%nat) in *.
  set (a' := (k' / 2)%nat) in *. set (b' := (k' mod 2)%nat) in *.
  destruct (Nat.eq_dec a a') as [Q | Q].
  - assert (b = 0)%nat by lia. assert (b' = 1)%nat by lia. rewrite Q, H0, H1. cbn [INR]. lra.
  - assert (L : (a + 1 <= a')%nat) by lia. apply le_INR in L. rewrite plus_INR in L. cbn [INR] in L.
    assert (B : INR b <= 1) by (replace 1 with (INR 1) by reflexivity; apply le_INR; lia).
    assert (B' := pos_INR b').
    assert (0 < sp * s) by now apply Rmult_lt_0_compat.
    assert (0 <= (INR a' - INR a - 1) * ((1 + sp) * s)) by (apply Rmult_le_pos; nra).
    nra.
Qed.
Lemma april_inj s sp k k' : 0 < s -> 0 < sp ->
  april_coord RA s sp k = april_coord RA s sp k' -> k = k'.
Proof.
  intros Hs Hp E. destruct (Nat.lt_trichotomy k k') as [H | [H | H]]; [ | exact H | ].
  - apply (april_increasing s sp) in H; try assumption. change (num RA) with R in *. lra.
  - apply (april_increasing s sp) in H; try assumption. change (num RA) with R in *. lra.
Qed.
Lemma scaled_inj s n n' : 0 < s -> s * INR n = s * INR n' -> n = n'.
Proof. intros Hs E. apply INR_eq. apply Rmult_eq_reg_l in E; lra. Qed.
Lemma scaled_inj_r s n n' : 0 < s -> INR n * s = INR n' * s -> n = n'.
Proof. intros Hs E. apply INR_eq. apply Rmult_eq_reg_r in E; lra. Qed.
End Coordinates.
