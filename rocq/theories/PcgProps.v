(** * The conjugate gradient solver *)
From Coq Require Import Reals ZArith List Arith Bool Sorted Lra Lia.
From Verif Require Import PcgModel PcgCg PcgProofs PcgSpec.
Import ListNotations.
Local Open Scope R_scope.

Lemma init_residual s : residual (init s) <= 0.
Proof. cbn [init residual]. lra. Qed.

(** After [init], with the default number of iterations, the residual of the returned
    vector is within the tolerance. *)
Theorem C104_converges : forall sizes mem A M inv s b,
  well_formed sizes mem A -> stored sizes mem A M -> positive_definite (list_sum sizes) M -> inverts sizes mem A inv ->
  0 <= tolerance s -> (max_iter s < 0)%Z ->
  let res := snd (solve inv mem (init s) A b) in
  let r := fun i => b i - apply (list_sum sizes) M (snd res) i in
  fst res = true /\ (exists q, residual_size sizes M r q) /\
  forall q0 q, residual_size sizes M b q0 -> residual_size sizes M r q -> 0 <= q <= tolerance s * q0.
Proof.
  intros sizes mem A M inv s b W SM PD IV T K. cbv zeta.
  destruct (solve_converges sizes mem A M inv W SM PD IV b (init s) (uses_init A (init s) eq_refl eq_refl) T K (or_intror (init_residual s))) as (m & E & _ & L). cbv zeta in L.
  set (r := fun i => b i - apply (list_sum sizes) M (snd (snd (solve inv mem (init s) A b))) i) in *.
  destruct (size_of sizes mem A M inv W SM PD IV r) as [Q P]. destruct (size_of sizes mem A M inv W SM PD IV b) as [Q0 P0].
  split; [ exact E | ]. split; [ exists (vdot (list_sum sizes) r (Jop mem A inv r)); exact Q | ]. intros q0 q H0 H.
  rewrite (size_unique sizes mem A M SM b q0 _ H0 Q0), (size_unique sizes mem A M SM r q _ H Q). split; [ exact P | exact L ].
Qed.
Print Assumptions C104_converges.

(** With tolerance zero the system is solved. *)
Theorem C104_exact : forall sizes mem A M inv s b,
  well_formed sizes mem A -> stored sizes mem A M -> positive_definite (list_sum sizes) M -> inverts sizes mem A inv ->
  tolerance s = 0 -> (max_iter s < 0)%Z ->
  forall i, (i < list_sum sizes)%nat -> apply (list_sum sizes) M (snd (snd (solve inv mem (init s) A b))) i = b i.
Proof.
  intros sizes mem A M inv s b W SM PD IV T K i I.
  destruct (solve_converges sizes mem A M inv W SM PD IV b (init s) (uses_init A (init s) eq_refl eq_refl) (Req_le_sym _ _ T) K (or_intror (init_residual s))) as (m & _ & _ & L). cbv zeta in L.
  cbn [init tolerance] in L. rewrite T, Rmult_0_l in L. pose proof (size_zero sizes mem A M inv W SM PD IV _ L i I) as Z. cbn beta in Z. lra.
Qed.
Print Assumptions C104_exact.

(** Without [init] in between, the solver may be used again for the same matrix with new
    values in its blocks if the absolute tolerance is off. *)
Theorem C104_again : forall sizes mem A M inv s b inv' mem' b',
  well_formed sizes mem A -> stored sizes mem A M -> positive_definite (list_sum sizes) M -> inverts sizes mem A inv ->
  0 <= tolerance s -> (max_iter s < 0)%Z -> absolute s = false ->
  let s1 := fst (solve inv' mem' (init s) A b') in
  let res := snd (solve inv mem s1 A b) in
  let r := fun i => b i - apply (list_sum sizes) M (snd res) i in
  fst res = true /\ (exists q, residual_size sizes M r q) /\
  forall q0 q, residual_size sizes M b q0 -> residual_size sizes M r q -> 0 <= q <= tolerance s * q0.
Proof.
  intros sizes mem A M inv s b inv' mem' b' W SM PD IV T K AB. cbv zeta. set (s1 := fst (solve inv' mem' (init s) A b')).
  assert (U : uses A s1) by (apply uses_again; reflexivity).
  destruct (solve_converges sizes mem A M inv W SM PD IV b s1 U T K (or_introl AB)) as (m & E & _ & L). cbv zeta in L.
  set (r := fun i => b i - apply (list_sum sizes) M (snd (snd (solve inv mem s1 A b))) i) in *.
  destruct (size_of sizes mem A M inv W SM PD IV r) as [Q P]. destruct (size_of sizes mem A M inv W SM PD IV b) as [Q0 P0].
  split; [ exact E | ]. split; [ exists (vdot (list_sum sizes) r (Jop mem A inv r)); exact Q | ]. intros q0 q H0 H.
  rewrite (size_unique sizes mem A M SM b q0 _ H0 Q0), (size_unique sizes mem A M SM r q _ H Q). split; [ exact P | exact L ].
Qed.
Print Assumptions C104_again.

(** More iterations never make the result worse: the energy, least at the solution, does
    not grow, and it is at most that of the zero vector. *)
Theorem C104_descent : forall sizes mem A M inv s k k' b,
  well_formed sizes mem A -> stored sizes mem A M -> positive_definite (list_sum sizes) M -> inverts sizes mem A inv ->
  0 <= tolerance s -> (0 <= k <= k')%Z ->
  let result := fun k => snd (snd (solve inv mem (init (set_max_iterations k s)) A b)) in
  energy (list_sum sizes) M b (result k') <= energy (list_sum sizes) M b (result k) <= 0.
Proof.
  intros sizes mem A M inv s k k' b W SM PD IV T K. cbv zeta.
  apply (solve_descends sizes mem A M inv W SM PD IV b); try assumption.
  - apply uses_init; reflexivity.
  - apply uses_init; reflexivity.
  - reflexivity.
  - right. cbn [init residual]. lra.
  - right. cbn [init residual]. lra.
Qed.
Print Assumptions C104_descent.

(** The absolute tolerance, on by default, takes half the last residual of the previous
    system as the threshold: a right-hand side below it is answered with the zero vector. *)
Theorem C104_tolerance_refuted : forall sizes mem A M inv s s1 b q0 inv' mem' b',
  well_formed sizes mem A -> stored sizes mem A M -> positive_definite (list_sum sizes) M -> inverts sizes mem A inv ->
  0 <= tolerance s -> absolute s = true -> s1 = fst (solve inv' mem' (init s) A b') ->
  residual_size sizes M b q0 -> q0 <= residual s1 -> 0 < residual s1 ->
  fst (snd (solve inv mem s1 A b)) = true /\ forall i, snd (snd (solve inv mem s1 A b)) i = 0.
Proof.
  intros sizes mem A M inv s s1 b q0 inv' mem' b' W SM PD IV T AB E1 Q L P.
  assert (U : uses A s1) by (rewrite E1; apply uses_again; reflexivity).
  destruct (size_of sizes mem A M inv W SM PD IV b) as [Q0 _]. rewrite (size_unique sizes mem A M SM b q0 _ Q Q0) in L.
  assert (T1 : 0 <= tolerance s1) by (rewrite E1; exact T). assert (A1 : absolute s1 = true) by (rewrite E1; exact AB).
  destruct (solve_small sizes mem A M inv W SM PD IV b s1 U A1 P T1 L) as [Z F]. split; [ exact F | exact Z ].
Qed.
Print Assumptions C104_tolerance_refuted.

(** ** Examples: blocks of one and two rows *)
Definition inverse (B : block) : block :=
  Block (b_rows B) (b_cols B)
    (fun a c => let e := fun i j => b_at B i j in
                if Nat.eqb (b_rows B) 1 then / e 0%nat 0%nat
                else (if Nat.eqb a c then e (1 - a)%nat (1 - c)%nat else - e a c) / (e 0%nat 0%nat * e 1%nat 1%nat - e 0%nat 1%nat * e 1%nat 0%nat)).
Definition one (v : R) : block := Block 1 1 (fun _ _ => v).
(** Blocks 0: (2); 1: (1); 2: (0); 3: the 1 x 2 block (1 0); 4: the 2 x 2 block with 2 and 1 on the diagonal *)
Definition blocks (p : nat) : block :=
  match p with
  | 0%nat => one 2 | 1%nat => one 1 | 2%nat => one 0
  | 3%nat => Block 1 2 (fun _ c => match c with 0%nat => 1 | _ => 0 end)
  | _ => Block 2 2 (fun a c => if Nat.eqb a c then match a with 0%nat => 2 | _ => 1 end else 0)
  end.
Definition mixed : matrix := Matrix [1; 3]%nat [1; 3]%nat [[(0, 0)]; [(0, 3); (1, 4)]]%nat.
Definition mixed_entries (i j : nat) : R :=
  match i, j with 0%nat, 0%nat => 2 | 0%nat, 1%nat => 1 | 1%nat, 0%nat => 1 | 1%nat, 1%nat => 2 | 2%nat, 2%nat => 1 | _, _ => 0 end.
Definition coupled : matrix := Matrix [1; 2]%nat [1; 2]%nat [[(0, 0)]; [(0, 1); (1, 0)]]%nat.
Definition coupled_entries (i j : nat) : R := if Nat.eqb i j then 2 else 1.
Definition uncoupled : matrix := Matrix [1; 2]%nat [1; 2]%nat [[(0, 0)]; [(0, 2); (1, 0)]]%nat.
Definition uncoupled_entries (i j : nat) : R := if Nat.eqb i j then 2 else 0.

Ltac below := repeat match goal with H : (?x < S _)%nat |- _ => destruct x as [ | x]; [ clear H | apply Nat.succ_lt_mono in H ] | H : (_ < 0)%nat |- _ => exfalso; exact (Nat.nlt_0_r _ H) end.

Lemma two_wf p q : b_rows (blocks p) = 1%nat -> b_cols (blocks p) = 1%nat -> well_formed [1; 1]%nat blocks (Matrix [1; 2]%nat [1; 2]%nat [[(0, 0)]; [(0, p); (1, q)]]%nat) \/ (b_rows (blocks q), b_cols (blocks q)) <> (1, 1)%nat.
Proof.
  intros R C. destruct (Nat.eq_dec (b_rows (blocks q)) 1) as [RQ | N]; [ | right; congruence ]. destruct (Nat.eq_dec (b_cols (blocks q)) 1) as [CQ | N]; [ | right; congruence ]. left.
  split; [ reflexivity | ]. split; [ reflexivity | ]. split; [ reflexivity | ]. cbn [length]. intros c L. below; unfold column; cbn [columns nth map fst lookup Nat.eqb].
  - split; [ constructor; constructor | ]. split; [ discriminate | ]. intros r pp Hr E. assert (r = 0%nat) by lia. subst r. cbn [Nat.eqb] in E. assert (pp = 0%nat) by congruence. subst pp. split; reflexivity.
  - split; [ constructor; [ constructor; constructor | constructor; [ lia | constructor ] ] | ]. split; [ discriminate | ]. intros r pp Hr E. destruct r as [ | [ | r]]; cbn [Nat.eqb] in E; [ | | lia ].
    + assert (pp = p) by congruence. subst pp. split; assumption.
    + assert (pp = q) by congruence. subst pp. split; assumption.
Qed.
Lemma coupled_wf : well_formed [1; 1]%nat blocks coupled.
Proof. destruct (two_wf 1 0 eq_refl eq_refl) as [H | N]; [ exact H | contradiction N; reflexivity ]. Qed.
Lemma uncoupled_wf : well_formed [1; 1]%nat blocks uncoupled.
Proof. destruct (two_wf 2 0 eq_refl eq_refl) as [H | N]; [ exact H | contradiction N; reflexivity ]. Qed.
Lemma coupled_stored : stored [1; 1]%nat blocks coupled coupled_entries.
Proof.
  split.
  - intros i j _ _. unfold coupled_entries. rewrite (Nat.eqb_sym i j). reflexivity.
  - intros r c a b L C. cbn [length] in C. destruct c as [ | [ | c]]; [ | | lia ]; (destruct r as [ | [ | r]]; [ | | lia ]); try lia; unfold size; cbn [nth]; intros Ha Hb; assert (a = 0%nat) by lia; assert (b = 0%nat) by lia; subst a b; reflexivity.
Qed.
Lemma uncoupled_stored : stored [1; 1]%nat blocks uncoupled uncoupled_entries.
Proof.
  split.
  - intros i j _ _. unfold uncoupled_entries. rewrite (Nat.eqb_sym i j). reflexivity.
  - intros r c a b L C. cbn [length] in C. destruct c as [ | [ | c]]; [ | | lia ]; (destruct r as [ | [ | r]]; [ | | lia ]); try lia; unfold size; cbn [nth]; intros Ha Hb; assert (a = 0%nat) by lia; assert (b = 0%nat) by lia; subst a b; reflexivity.
Qed.
Lemma square_pos x : x <> 0 -> 0 < x * x.
Proof. intros N. destruct (Rtotal_order x 0) as [L | [E | G]]; [ nra | contradiction | nra ]. Qed.
Lemma coupled_pd : positive_definite 2 coupled_entries.
Proof.
  intros x (i & I & X). unfold inner, apply, coupled_entries. cbn [total Nat.eqb].
  replace (0 + x 0%nat * (0 + 2 * x 0%nat + 1 * x 1%nat) + x 1%nat * (0 + 1 * x 0%nat + 2 * x 1%nat)) with (x 0%nat * x 0%nat + x 1%nat * x 1%nat + (x 0%nat + x 1%nat) * (x 0%nat + x 1%nat)) by ring.
  pose proof (Rle_0_sqr (x 0%nat)). pose proof (Rle_0_sqr (x 1%nat)). pose proof (Rle_0_sqr (x 0%nat + x 1%nat)). unfold Rsqr in *.
  destruct i as [ | [ | i]]; [ | | lia ]; pose proof (square_pos _ X); lra.
Qed.
Lemma uncoupled_pd : positive_definite 2 uncoupled_entries.
Proof.
  intros x (i & I & X). unfold inner, apply, uncoupled_entries. cbn [total Nat.eqb].
  replace (0 + x 0%nat * (0 + 2 * x 0%nat + 0 * x 1%nat) + x 1%nat * (0 + 0 * x 0%nat + 2 * x 1%nat)) with (2 * (x 0%nat * x 0%nat) + 2 * (x 1%nat * x 1%nat)) by ring.
  pose proof (Rle_0_sqr (x 0%nat)). pose proof (Rle_0_sqr (x 1%nat)). unfold Rsqr in *.
  destruct i as [ | [ | i]]; [ | | lia ]; pose proof (square_pos _ X); lra.
Qed.
Lemma ones_inverts p : inverts [1; 1]%nat blocks (Matrix [1; 2]%nat [1; 2]%nat [[(0, 0)]; [(0, p); (1, 0)]]%nat) inverse.
Proof.
  intros c q L E. cbn [length] in L. assert (q = 0%nat).
  { destruct c as [ | [ | c]]; [ | | lia ]; unfold column in E; cbn [columns nth lookup Nat.eqb] in E; congruence. }
  subst q. assert (S : size [1; 1]%nat c = 1%nat) by (destruct c as [ | [ | c]]; [ reflexivity | reflexivity | lia ]). rewrite S.
  split; [ reflexivity | ]. split; [ reflexivity | ]. intros a b Ha Hb. assert (a = 0%nat) by lia. assert (b = 0%nat) by lia. subst a b.
  cbn [total blocks one inverse b_rows b_at Nat.eqb]. field.
Qed.

(** Used for another matrix without [init], the solver keeps the blocks above the
    diagonal of the first one: it reports success for a vector that does not solve the
    system, though the tolerance is zero and the iterations are not limited. *)
Theorem C104_stale_refuted : exists inv mem s A1 A2 M1 M2 b,
  well_formed [1; 1]%nat mem A1 /\ stored [1; 1]%nat mem A1 M1 /\ positive_definite 2 M1 /\ inverts [1; 1]%nat mem A1 inv /\
  well_formed [1; 1]%nat mem A2 /\ stored [1; 1]%nat mem A2 M2 /\ positive_definite 2 M2 /\ inverts [1; 1]%nat mem A2 inv /\
  tolerance s = 0 /\ (max_iter s < 0)%Z /\
  let s1 := fst (solve inv mem (init s) A1 b) in
  fst (snd (solve inv mem s1 A2 b)) = true /\ apply 2 M2 (snd (snd (solve inv mem s1 A2 b))) 0 <> b 0%nat.
Proof.
  exists inverse, blocks, (Solver 0 (-1) false (-1) [] []), coupled, uncoupled, coupled_entries, uncoupled_entries, (fun _ => 3).
  split; [ apply coupled_wf | ]. split; [ apply coupled_stored | ]. split; [ apply coupled_pd | ]. split; [ apply ones_inverts | ].
  split; [ apply uncoupled_wf | ]. split; [ apply uncoupled_stored | ]. split; [ apply uncoupled_pd | ]. split; [ apply ones_inverts | ].
  split; [ reflexivity | ]. split; [ reflexivity | ]. cbv zeta. set (s := Solver 0 (-1) false (-1) [] []).
  set (s1 := fst (solve inverse blocks (init s) coupled (fun _ => 3))).
  assert (E : snd (solve inverse blocks s1 uncoupled (fun _ => 3)) = snd (solve inverse blocks s1 coupled (fun _ => 3))) by reflexivity.
  rewrite E. assert (U : uses coupled s1) by (apply uses_again; reflexivity).
  destruct (solve_converges [1; 1]%nat blocks coupled coupled_entries inverse coupled_wf coupled_stored coupled_pd (ones_inverts 1) (fun _ => 3) s1 U (Rle_refl 0) ltac:(reflexivity) (or_introl eq_refl)) as (m & F & _ & L).
  cbv zeta in L. split; [ exact F | ]. set (x := snd (snd (solve inverse blocks s1 coupled (fun _ => 3)))) in *.
  assert (T0 : tolerance s1 = 0) by reflexivity. rewrite T0, Rmult_0_l in L.
  pose proof (size_zero [1; 1]%nat blocks coupled coupled_entries inverse coupled_wf coupled_stored coupled_pd (ones_inverts 1) _ L) as Z.
  pose proof (Z 0%nat ltac:(cbn; lia)) as Z0. pose proof (Z 1%nat ltac:(cbn; lia)) as Z1. cbn beta in Z0, Z1. clear Z L.
  unfold apply, coupled_entries in Z0, Z1. unfold apply, uncoupled_entries. change (list_sum [1; 1]%nat) with 2%nat in Z0, Z1. cbn [total Nat.eqb] in *. lra.
Qed.
Print Assumptions C104_stale_refuted.

(** Success is reported however few iterations there were. *)
Theorem C104_flag_refuted : exists inv mem s A M b,
  well_formed [1; 1]%nat mem A /\ stored [1; 1]%nat mem A M /\ positive_definite 2 M /\ inverts [1; 1]%nat mem A inv /\ tolerance s = 0 /\
  let res := snd (solve inv mem (init s) A b) in fst res = true /\ apply 2 M (snd res) 0 <> b 0%nat.
Proof.
  exists inverse, blocks, (Solver 0 (-1) false 0 [] []), coupled, coupled_entries, (fun _ => 3).
  split; [ apply coupled_wf | ]. split; [ apply coupled_stored | ]. split; [ apply coupled_pd | ]. split; [ apply ones_inverts | ]. split; [ reflexivity | ].
  cbv zeta. split; [ reflexivity | ]. cbn [snd solve init max_iter Z.ltb Z.compare Z.to_nat iterate sx]. unfold apply. cbn [total]. lra.
Qed.
Print Assumptions C104_flag_refuted.

(** The hypotheses are met, also by blocks of different sizes, and by a solver whose last
    residual is above the next right-hand side. *)
Example C104_ex : well_formed [1; 2]%nat blocks mixed /\ stored [1; 2]%nat blocks mixed mixed_entries /\ positive_definite 3 mixed_entries /\ inverts [1; 2]%nat blocks mixed inverse.
Proof.
  split; [ | split; [ | split ] ].
  - split; [ reflexivity | ]. split; [ reflexivity | ]. split; [ reflexivity | ]. cbn [length]. intros c L. below; unfold column; cbn [mixed columns nth map fst lookup Nat.eqb].
    + split; [ constructor; constructor | ]. split; [ discriminate | ]. intros r p Hr E. assert (r = 0%nat) by lia. subst r. cbn [Nat.eqb] in E. assert (p = 0%nat) by congruence. subst p. split; reflexivity.
    + split; [ constructor; [ constructor; constructor | constructor; [ lia | constructor ] ] | ]. split; [ discriminate | ]. intros r p Hr E. destruct r as [ | [ | r]]; cbn [Nat.eqb] in E; [ | | lia ].
      * assert (p = 3%nat) by congruence. subst p. split; reflexivity.
      * assert (p = 4%nat) by congruence. subst p. split; reflexivity.
  - split.
    + cbn [list_sum fold_right Nat.add]. intros i j I J. destruct i as [ | [ | [ | i]]], j as [ | [ | [ | j]]]; reflexivity.
    + intros r c a b L C. cbn [length] in C. destruct c as [ | [ | c]]; [ | | lia ]; (destruct r as [ | [ | r]]; [ | | lia ]); try lia; unfold size; cbn [nth]; intros Ha Hb.
      * assert (a = 0%nat) by lia. assert (b = 0%nat) by lia. subst a b. reflexivity.
      * assert (a = 0%nat) by lia. subst a. destruct b as [ | [ | b]]; [ reflexivity | reflexivity | lia ].
      * destruct a as [ | [ | a]]; [ | | lia ]; (destruct b as [ | [ | b]]; [ | | lia ]); reflexivity.
  - intros x (i & I & X). unfold inner, apply, mixed_entries. cbn [total].
    match goal with |- 0 < ?e => replace e with (x 0%nat * x 0%nat + x 1%nat * x 1%nat + (x 0%nat + x 1%nat) * (x 0%nat + x 1%nat) + x 2%nat * x 2%nat) by ring end.
    pose proof (Rle_0_sqr (x 0%nat)). pose proof (Rle_0_sqr (x 1%nat)). pose proof (Rle_0_sqr (x 2%nat)). pose proof (Rle_0_sqr (x 0%nat + x 1%nat)). unfold Rsqr in *.
    destruct i as [ | [ | [ | i]]]; [ | | | lia ]; pose proof (square_pos _ X); lra.
  - intros c q L E. cbn [length] in L. destruct c as [ | [ | c]]; [ | | lia ]; unfold column in E; cbn [mixed columns nth lookup Nat.eqb] in E.
    + assert (q = 0%nat) by congruence. subst q. split; [ reflexivity | ]. split; [ reflexivity | ]. unfold size. cbn [nth]. intros a b Ha Hb. assert (a = 0%nat) by lia. assert (b = 0%nat) by lia. subst a b.
      cbn [total blocks one inverse b_rows b_at Nat.eqb]. field.
    + assert (q = 4%nat) by congruence. subst q. split; [ reflexivity | ]. split; [ reflexivity | ]. unfold size. cbn [nth]. intros a b Ha Hb.
      destruct a as [ | [ | a]]; [ | | lia ]; (destruct b as [ | [ | b]]; [ | | lia ]); cbn [total blocks inverse b_rows b_at Nat.eqb Nat.sub]; cbv zeta; cbn [Nat.eqb]; lra.
Qed.
Example C104_ex_residual : let s := Solver (1 / 10) (-1) true (-1) [] [] in
  residual (fst (solve inverse blocks (init s) coupled (fun i => match i with 0%nat => 2 | _ => 1 end))) = 45 / 784 /\
  residual_size [1; 1]%nat coupled_entries (fun _ => 1 / 5) (1 / 25).
Proof.
  cbv zeta. split.
  - unfold solve, coupled. cbn [fst residual init indices sparse_mat columns row_ends col_ends max_iter tolerance absolute scan_columns scan_column Nat.eqb map app combine last nth Nat.ltb Nat.leb Z.ltb Z.compare snd].
    assert (Q0 : forall x y : nat -> R, vdot 2 x y = x 0%nat * y 0%nat + x 1%nat * y 1%nat) by (intros; unfold vdot; cbn [BsplModel.bsum]; ring).
    assert (P : forall x y i, (i < 2)%nat -> mult_diag [1; 2]%nat (map inverse [blocks 0; blocks 0]) 0 x y i = / 2 * x i).
    { intros x y i I. destruct i as [ | [ | i]]; [ | | lia ]; cbn; ring. }
    assert (K : forall x y i, (i < 2)%nat -> mult blocks [1; 2]%nat [blocks 0; blocks 0] [((0, 1), 1)]%nat x y i = 2 * x i + x (1 - i)%nat).
    { intros x y i I. destruct i as [ | [ | i]]; [ | | lia ]; cbn; ring. }
    destruct (Rlt_dec 0 (-1)) as [N | _]; [ lra | ].
    cbn [map iterate] in *. cbv zeta. cbn [sdn]. rewrite !Q0, !P by lia. destruct (Rle_dec _ _) as [L | _]; [ lra | ].
    cbn [step sdn]. unfold step. cbv zeta. cbn [sdn sd sr sq ss]. rewrite !Q0, !P, !K by lia. cbn [Nat.sub]. rewrite !P by lia.
    destruct (Rle_dec _ _) as [_ | G]; [ cbn [sdn]; lra | exfalso; apply G; lra ].
  - exists (fun _ => 1 / 10). split.
    + change (list_sum [1; 1]%nat) with 2%nat. intros i I. destruct i as [ | [ | i]]; [ | | lia ]; unfold apply, diagonal_part; cbn [total block_of Nat.ltb Nat.leb Nat.sub Nat.eqb]; unfold coupled_entries; cbn [Nat.eqb]; lra.
    + change (list_sum [1; 1]%nat) with 2%nat. unfold inner. cbn [total]. lra.
Qed.
