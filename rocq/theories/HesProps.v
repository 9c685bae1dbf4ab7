(** C49: the assembled block system is the normal equations of the problem. *)
From Coq Require Import ZArith List Bool Lia Reals Lra Sorted.
From Verif Require Import Base Arith OMap RArith JacModel JacSpec JacProps MEstModel SbmModel SbmSpec SbmProofs SbmMore SbmReal HesModel HesSpec HesProofs HesLs.
Import ListNotations.
Open Scope nat_scope.

(** The matrix made for a list of design variables has one block row and column
    for each, of their dimensions, and nothing in it. *)
Theorem C49_structure (A : Arith) dims : let H := init_structure A dims in
  wf H /\ owns H = true /\ rbi H = cbi H /\ length (rbi H) = length dims /\ total (rbi H) = list_sum dims /\
  (forall b, b < length dims -> size_of (rbi H) b = nth b dims 0 /\ base_of (rbi H) b = list_sum (firstn b dims)) /\
  (forall r c, blk H r c = None).
Proof.
  cbv zeta. unfold init_structure. cbn [rbi cbi owns fresh]. conj.
  - apply fresh_wf; apply partial_sums_layout.
  - reflexivity.
  - reflexivity.
  - apply partial_sums_length.
  - rewrite total_base, partial_sums_length, partial_sums_base0 by lia. now rewrite firstn_all.
  - intros b Hb. split; [now apply partial_sums_size | apply partial_sums_base0; lia].
  - intros r c. apply fresh_blk.
Qed.
Print Assumptions C49_structure.
Example C49_ex_structure : rbi (init_structure ZA [2; 3; 1]) = [2; 5; 6]. Proof. reflexivity. Qed.

(** Building the system: whatever the matrix and right-hand side held before,
    the upper blocks become the sum of J^T J over all terms, the blocks below
    the diagonal are zero, and the right-hand side is minus the sum of J^T e,
    with J and e weighted by the square root information and the robust weight
    and J scaled for each design variable. *)
Theorem C49_system (scaling : dvref -> R) (useM : bool) (lay : list nat) (ts : list (hterm RA))
  (H : sbm RA) (rhs : list R) :
  wf H -> owns H = true -> rbi H = lay -> cbi H = lay -> length rhs = total lay ->
  Forall (term_ok lay) ts ->
  exists (H' : sbm RA) (rhs' : list R), build_system RA scaling useM ts H rhs = Ok (H', rhs') /\
    wf H' /\ owns H' = true /\ rbi H' = lay /\ cbi H' = lay /\ length rhs' = total lay /\
    (forall r i c j, r < length lay -> c < length lay -> i < size_of lay r -> j < size_of lay c ->
       el H' (base_of lay r + i) (base_of lay c + j) =
         if r <=? c then over ts (fun t k => jent scaling useM t k r i * jent scaling useM t k c j)%R else 0%R) /\
    (forall r i, r < length lay -> i < size_of lay r ->
       nth (base_of lay r + i) rhs' 0%R =
       (- over ts (fun t k => jent scaling useM t k r i * werr useM t k))%R) /\
    (forall r c, blk H' r c <> None <-> blk H r c <> None \/
       (r <= c /\ exists t, In t ts /\ involves t r /\ involves t c)).
Proof.
  intros W O ER EC LR FT.
  destruct (build_system_ok scaling useM lay ts H rhs FT W O ER EC LR) as (H' & rhs' & E & W' & AL & L' & HV & HR & HB).
  destruct AL as (A1 & A2 & A3 & A4). exists H', rhs'.
  conj; [exact E | exact W' | congruence | congruence | congruence | exact L' | | exact HR | exact HB].
  intros r i c j Hr Hc Hi Hj. etransitivity; [ | exact (HV r i c j Hr Hc Hi Hj)].
  pose proof (elr_at H' r i c j W') as K.
  assert (Q1 : rbi H' = lay) by congruence. assert (Q2 : cbi H' = lay) by congruence.
  rewrite Q1, Q2 in K. exact (K Hr Hi Hc Hj).
Qed.
Print Assumptions C49_system.

(** The result does not depend on what was built before. *)
Theorem C49_rebuild (scaling : dvref -> R) (useM : bool) (lay : list nat) (ts : list (hterm RA))
  (H1 H2 H1' H2' : sbm RA) (rhs1 rhs2 rhs1' rhs2' : list R) :
  wf H1 -> wf H2 -> owns H1 = true -> owns H2 = true -> rbi H1 = lay -> cbi H1 = lay -> rbi H2 = lay -> cbi H2 = lay ->
  length rhs1 = total lay -> length rhs2 = total lay -> Forall (term_ok lay) ts ->
  build_system RA scaling useM ts H1 rhs1 = Ok (H1', rhs1') ->
  build_system RA scaling useM ts H2 rhs2 = Ok (H2', rhs2') ->
  rhs1' = rhs2' /\ forall a b, a < total lay -> b < total lay -> el H1' a b = el H2' a b.
Proof.
  intros W1 W2 O1 O2 R1 C1 R2 C2 L1 L2 FT E1 E2.
  destruct (C49_system scaling useM lay ts H1 rhs1 W1 O1 R1 C1 L1 FT)
    as (M1 & v1 & F1 & A1 & _ & _ & _ & B1 & V1 & U1 & _).
  destruct (C49_system scaling useM lay ts H2 rhs2 W2 O2 R2 C2 L2 FT)
    as (M2 & v2 & F2 & A2 & _ & _ & _ & B2 & V2 & U2 & _).
  assert (M1 = H1') by congruence. assert (v1 = rhs1') by congruence.
  assert (M2 = H2') by congruence. assert (v2 = rhs2') by congruence. subst M1 v1 M2 v2.
  assert (LAY : layout lay) by (rewrite <- R1; apply W1). split.
  - apply nth_ext with (d := 0%R) (d' := 0%R); [congruence | ]. intros k Hk. rewrite B1 in Hk.
    destruct (locate lay k LAY Hk) as (r & i & Hr & Hi & -> & _). rewrite (U1 r i Hr Hi), (U2 r i Hr Hi). reflexivity.
  - intros a b Ha Hb. destruct (locate lay a LAY Ha) as (r & i & Hr & Hi & -> & _).
    destruct (locate lay b LAY Hb) as (c & j & Hc & Hj & -> & _).
    rewrite (V1 r i c j Hr Hc Hi Hj), (V2 r i c j Hr Hc Hi Hj). reflexivity.
Qed.
Print Assumptions C49_rebuild.

(** The symmetric matrix whose upper half is stored has the quadratic form
    |J x|^2; in particular it is positive semidefinite. *)
Theorem C49_semidefinite (scaling : dvref -> R) (useM : bool) (lay : list nat) (ts : list (hterm RA))
  (H H' : sbm RA) (rhs rhs' : list R) (x : nat -> R) :
  wf H -> owns H = true -> rbi H = lay -> cbi H = lay -> length rhs = total lay ->
  Forall (term_ok lay) ts -> build_system RA scaling useM ts H rhs = Ok (H', rhs') ->
  sumn (total lay) (fun a => (x a * sumn (total lay) (fun b => sym H' a b * x b))%R) =
    over ts (fun t k => (jx scaling useM lay t k x * jx scaling useM lay t k x)%R) /\
  (0 <= sumn (total lay) (fun a => (x a * sumn (total lay) (fun b => sym H' a b * x b))%R))%R.
Proof.
  intros W O ER EC LR FT E0.
  destruct (build_system_ok scaling useM lay ts H rhs FT W O ER EC LR) as (M & v & E & W' & AL & L' & HV & HR & HB).
  assert (M = H') by congruence. subst M. destruct AL as (A1 & A2 & A3 & A4).
  assert (LAY : layout lay) by (rewrite <- ER; apply W).
  pose proof (quadratic scaling useM lay LAY ts H' W' ltac:(congruence) ltac:(congruence) HV x) as Q.
  split; [exact Q | ]. rewrite Q. apply over_nonneg. intros t k _. nra.
Qed.
Print Assumptions C49_semidefinite.

(** A step that solves the assembled system minimises the linearised weighted
    cost over all steps. *)
Theorem C49_minimises (scaling : dvref -> R) (useM : bool) (lay : list nat) (ts : list (hterm RA))
  (H H' : sbm RA) (rhs rhs' : list R) (x y : nat -> R) :
  wf H -> owns H = true -> rbi H = lay -> cbi H = lay -> length rhs = total lay ->
  Forall (term_ok lay) ts -> build_system RA scaling useM ts H rhs = Ok (H', rhs') ->
  (forall a, a < total lay -> sumn (total lay) (fun b => sym H' a b * x b)%R = nth a rhs' 0%R) ->
  (cost scaling useM lay ts x <= cost scaling useM lay ts y)%R.
Proof.
  intros W O ER EC LR FT E0 S0.
  destruct (build_system_ok scaling useM lay ts H rhs FT W O ER EC LR) as (M & v & E & W' & AL & L' & HV & HR & HB).
  assert (M = H') by congruence. assert (v = rhs') by congruence. subst M v. destruct AL as (A1 & A2 & A3 & A4).
  assert (LAY : layout lay) by (rewrite <- ER; apply W).
  exact (minimiser scaling useM lay LAY ts H' rhs' W' ltac:(congruence) ltac:(congruence) HV HR x y S0).
Qed.
Print Assumptions C49_minimises.

(** ** A problem with two design variables: e = x0 + x1 - 1, linearised at 0. *)
Definition ex_dv (b : nat) (n : nat) : dvref := DvRef b (Z.of_nat b) n true.
Definition ex_t : hterm RA :=
  HTerm (Container (A := RA) 1 [(0%Z, (ex_dv 0 1, [[1%R]])); (1%Z, (ex_dv 1 1, [[1%R]]))])
        (ETerm (A := RA) [(-1)%R] [[1%R]] (fun _ => 1%R) 0%R).
Definition ex_H : sbm RA := init_structure RA [1; 1].

Lemma ex_ok : Forall (term_ok (rbi ex_H)) [ex_t].
Proof.
  constructor; [ | constructor]. unfold term_ok, container_ok. conj.
  - cbn. constructor; [constructor; constructor | constructor; [reflexivity | constructor]].
  - cbn. constructor; [now split | constructor; [now split | constructor]].
  - cbn. constructor; [now split | constructor; [now split | constructor]].
  - reflexivity.
  - reflexivity.
Qed.

Example C49_ex : wf ex_H /\ owns ex_H = true /\ rbi ex_H = cbi ex_H /\ @length R [0%R; 0%R] = total (rbi ex_H) /\
  Forall (term_ok (rbi ex_H)) [ex_t] /\ jent (fun _ => 1%R) false ex_t 0 1 0 = 1%R /\ werr false ex_t 0 = (-1)%R.
Proof.
  conj; [apply (C49_structure RA [1; 1]) | reflexivity | reflexivity | reflexivity | exact ex_ok | | ].
  - unfold jent. cbn. unfold ent, sw. cbn. lra.
  - unfold werr, sw. cbn. unfold ent. cbn. lra.
Qed.

(** rhsJtJrhs multiplies by the stored half only: it is not the squared length
    of J * rhs. *)
Theorem C49_dogleg_length_refuted : exists (lay : list nat) (ts : list (hterm RA)) (H H' : sbm RA) (rhs rhs' : list R) (v : R),
  wf H /\ owns H = true /\ rbi H = lay /\ cbi H = lay /\ length rhs = total lay /\ Forall (term_ok lay) ts /\
  build_system RA (fun _ => 1%R) false ts H rhs = Ok (H', rhs') /\
  rhs_jtj_rhs RA H' rhs' = Ok v /\
  v <> over ts (fun t k => jx (fun _ => 1%R) false lay t k (fun a => nth a rhs' 0%R) *
                           jx (fun _ => 1%R) false lay t k (fun a => nth a rhs' 0%R))%R.
Proof.
  exists (rbi ex_H), [ex_t], ex_H. eexists. exists [0%R; 0%R]. eexists. eexists.
  conj; [apply (C49_structure RA [1; 1]) | reflexivity | reflexivity | reflexivity | reflexivity | exact ex_ok | | | ].
  - cbv -[Rplus Rmult Rminus Ropp IZR]. reflexivity.
  - cbv -[Rplus Rmult Rminus Ropp IZR]. reflexivity.
  - cbv -[Rplus Rmult Rminus Ropp IZR]. lra.
Qed.
Print Assumptions C49_dogleg_length_refuted.
