(** C26, C42: Jacobian containers. *)
From Coq Require Import ZArith List Bool Lia Sorted Reals Lra.
From Verif Require Import Base Arith RArith MatReal OMap JacModel JacSpec JacDiffSpec
  JacProofs JacReal.
Import ListNotations.
Open Scope Z_scope.

(** Integers as a number system, for examples. *)
Definition ZA : Arith :=
  MkArith Z (fun z => z) Z.add Z.sub Z.mul Z.div Z.sqrt Z.abs Z.ltb Z.leb Z.eqb.

Lemma both_jac A (a b : option (dvref * mat A)) :
  option_map snd (both A a b) = plus (option_map snd a) (option_map snd b).
Proof. destruct a as [[d J] | ], b as [[d' J'] | ]; reflexivity. Qed.

Lemma both_owner A (a b : option (dvref * mat A)) :
  option_map fst (both A a b) =
  match option_map fst a with Some d => Some d | None => option_map fst b end.
Proof. destruct a as [[d J] | ], b as [[d' J'] | ]; reflexivity. Qed.

(** Adding containers of equal height adds them block by block. *)
Theorem C26_add (A : Arith) (lay : Z -> nat) (c r : container A) :
  container_ok c -> laid_out lay c -> container_ok r -> laid_out lay r ->
  crows r = crows c ->
  exists c', add_all A r c = Ok c' /\ container_ok c' /\ crows c' = crows c /\
    (forall b, jac c' b = plus (jac c b) (jac r b)) /\
    (forall b, owner c' b =
       match owner c b with Some d => Some d | None => owner r b end).
Proof.
  intros H1 H2 H3 H4 H5.
  destruct (add_all_good A lay r c (conj H1 H2) (conj H3 H4) H5)
    as (c' & E & (G & _) & R & H).
  exists c'. split; [exact E | ]. split; [exact G | ]. split; [exact R | ].
  split; intro b; unfold jac, owner; rewrite H; [apply both_jac | apply both_owner].
Qed.

(** Containers of different height are refused and nothing changes. *)
Theorem C26_add_rejects (A : Arith) (c r : container A) :
  crows r <> crows c -> add_all A r c = Throw.
Proof.
  intro H. unfold add_all. destruct (Nat.eqb_spec (crows c) (crows r)); congruence.
Qed.

(** Adding one Jacobian. *)
Theorem C26_add_one (A : Arith) (lay : Z -> nat) (c : container A) d J :
  container_ok c -> laid_out lay c ->
  (is_active d = true -> mindim d = lay (block d)) ->
  (shaped A (crows c) (mindim d) J = false -> add_one A d J c = Throw) /\
  (shaped A (crows c) (mindim d) J = true ->
   exists c', add_one A d J c = Ok c' /\ container_ok c' /\ crows c' = crows c /\
     forall b, jac c' b =
       if is_active d && Z.eqb b (block d) then plus (jac c b) (Some J) else jac c b).
Proof.
  intros H1 H2 H3. split.
  - intro H. unfold add_one. now rewrite H.
  - intro H. destruct (add_one_spec A lay d J c (conj H1 H2) H3 H)
      as (c' & E & (G & _) & R & K).
    exists c'. split; [exact E | ]. split; [exact G | ]. split; [exact R | ].
    intro b. unfold jac. rewrite K, both_jac.
    destruct (is_active d && Z.eqb b (block d)); [reflexivity | ].
    cbn [option_map]. destruct (mget Z.compare b (cmap c)) as [[? ?] | ]; reflexivity.
Qed.

(** The chain rule multiplies every Jacobian and sets the height. *)
Theorem C26_chain (A : Arith) (lay : Z -> nat) (c : container A) n M :
  container_ok c -> laid_out lay c ->
  (n <> crows c -> chain_rule A n M c = Throw) /\
  (n = crows c ->
   exists c', chain_rule A n M c = Ok c' /\ container_ok c' /\ crows c' = length M /\
     (forall b, owner c' b = owner c b) /\
     forall b, jac c' b = option_map (mmul A (lay b) M) (jac c b)).
Proof.
  intros H1 H2. split.
  - intro H. unfold chain_rule. destruct (Nat.eqb_spec n (crows c)); congruence.
  - intro H. destruct (chain_good A lay n M c (conj H1 H2) H) as (c' & E & (G & _) & R & K).
    exists c'. split; [exact E | ]. split; [exact G | ]. split; [exact R | ].
    split; intro b; unfold owner, jac; rewrite K;
      destruct (mget Z.compare b (cmap c)) as [[? ?] | ]; reflexivity.
Qed.

(** Any history of operations on a fresh container either succeeds, exactly when
    all sizes match, with a sorted duplicate-free result, or throws. *)
Theorem C26_histories (A : Arith) (lay : Z -> nat) (ops : list (cop A)) rows :
  Forall (op_ok lay) ops ->
  (sizes_match ops rows ->
   exists c, run ops (creset A rows) = Ok c /\ container_ok c /\ laid_out lay c) /\
  (~ sizes_match ops rows -> run ops (creset A rows) = Throw).
Proof.
  intro H. destruct (run_cases A lay ops (creset A rows) (creset_good A lay rows) H)
    as [(S & c & E & G & L) | (S & E)]; cbn [crows creset] in S.
  - split; [ | contradiction]. intros _. exists c. auto.
  - split; [contradiction | ]. intros _. exact E.
Qed.

(** Looking a design variable up finds the Jacobian of its block. *)
Theorem C26_lookup (A : Arith) (c : container A) d :
  jacobian A d c = match jac c (block d) with Some J => Ok J | None => Throw end.
Proof.
  unfold jacobian, jac. destruct (mget Z.compare (block d) (cmap c)) as [[? ?] | ];
    reflexivity.
Qed.

(** In release builds two different design variables with one block index (for
    instance -1, the index of a variable that belongs to no problem) are mixed
    up: the lookup of the second returns the sum. *)
Theorem C26_shared_block_refuted :
  exists (d1 d2 : dvref) (J1 J2 : mat ZA) c,
    ptr d1 <> ptr d2 /\
    run [OpOne d1 J1; OpOne d2 J2] (creset ZA 1) = Ok c /\
    num_dvs ZA c = 1%nat /\
    jacobian ZA d2 c = Ok (madd ZA J1 J2) /\ madd ZA J1 J2 <> J2.
Proof.
  exists (DvRef 0 (-1) 2 true), (DvRef 1 (-1) 2 true), [[1; 2]], [[10; 20]].
  eexists. split; [discriminate | ]. split; [reflexivity | ]. split; [reflexivity | ].
  split; [reflexivity | discriminate].
Qed.

(** ... and with different dimensions memory outside a matrix is touched. *)
Theorem C26_shared_block_sizes_refuted :
  exists (d1 d2 : dvref) (J1 J2 : mat ZA),
    ptr d1 <> ptr d2 /\
    shaped ZA 1 (mindim d1) J1 = true /\ shaped ZA 1 (mindim d2) J2 = true /\
    run [OpOne d1 J1; OpOne d2 J2] (creset ZA 1) = UB.
Proof.
  exists (DvRef 0 (-1) 2 true), (DvRef 1 (-1) 3 true), [[1; 2]], [[10; 20; 30]].
  split; [discriminate | ]. split; [reflexivity | ]. split; reflexivity.
Qed.

(** A container stands for the differential that its history of operations
    builds up. *)
Theorem C42_differential (lay : Z -> nat) (delta : Z -> list R)
  (ops : list (cop RA)) rows c :
  Forall (op_ok lay) ops -> run ops (creset RA rows) = Ok c ->
  differential delta c = meaning delta ops (repeat 0%R rows).
Proof.
  intros H E.
  exact (run_meaning lay delta ops (creset RA rows) c (creset_good RA lay rows) H E).
Qed.

(** Examples. *)
Definition ex_dv (b : Z) (n : nat) : dvref := DvRef (Z.to_nat b) b n true.
Definition ex_lay (b : Z) : nat := if Z.eqb b 5 then 2%nat else 1%nat.
Definition ex_c : container ZA :=
  Container (A := ZA) 2 [(1, (ex_dv 1 1, [[1]; [2]])); (5, (ex_dv 5 2, [[1; 2]; [3; 4]]))].
Definition ex_r : container ZA :=
  Container (A := ZA) 2 [(0, (ex_dv 0 1, [[7]; [8]])); (3, (ex_dv 3 1, [[1]; [1]]));
               (5, (ex_dv 5 2, [[10; 20]; [30; 40]])); (9, (ex_dv 9 1, [[0]; [5]]))].

Example C26_ex_add :
  (container_ok ex_c /\ laid_out ex_lay ex_c) /\
  (container_ok ex_r /\ laid_out ex_lay ex_r) /\
  add_all ZA ex_r ex_c = Ok (Container (A := ZA) 2
    [(0, (ex_dv 0 1, [[7]; [8]])); (1, (ex_dv 1 1, [[1]; [2]]));
     (3, (ex_dv 3 1, [[1]; [1]])); (5, (ex_dv 5 2, [[11; 22]; [33; 44]]));
     (9, (ex_dv 9 1, [[0]; [5]]))]).
Proof.
  assert (G : forall c, (c = ex_c \/ c = ex_r) -> container_ok c /\ laid_out ex_lay c).
  { intros c [-> | ->]; (split; [split | ]);
      repeat (apply SSorted_nil || apply SSorted_cons || apply Forall_nil || apply Forall_cons);
      cbn [fst snd map]; try reflexivity; try lia; split; try reflexivity; split; reflexivity. }
  split; [apply G; now left | ]. split; [apply G; now right | ]. reflexivity.
Qed.

Example C26_ex_history :
  exists c, run [OpOne (A := ZA) (ex_dv 5 2) [[1; 2]];
                 OpOne (A := ZA) (DvRef 7 4 1 false) [[9]]; OpChain (A := ZA) 1 [[1]; [10]]; OpAll ex_r] (creset ZA 1) = Ok c /\
    jac c 5 = Some [[11; 22]; [40; 60]] /\ jac c 4 = None /\ jac c 9 = Some [[0]; [5]].
Proof. eexists. split; [reflexivity | ]. split; [reflexivity | ]. split; reflexivity. Qed.

Example C42_ex_meaning :
  let ops := [OpOne (A := RA) (ex_dv 5 2) [[1; 2]]; OpChain (A := RA) 1 [[1]; [10]]]%R : list (cop RA) in
  Forall (op_ok ex_lay) ops /\ sizes_match ops 1 /\
  meaning (fun _ => [1; 1])%R ops [0%R] = [3; 30]%R.
Proof.
  cbv zeta. split; [ | split].
  - apply Forall_cons; [intros _; reflexivity | ]. apply Forall_cons; [ | apply Forall_nil].
    apply Forall_cons; [reflexivity | ]. apply Forall_cons; [reflexivity | apply Forall_nil].
  - split; [reflexivity | ]. split; [reflexivity | exact I].
  - cbn [meaning is_active ex_dv]. unfold mv, vadd. cbn [map combine fst snd rdot add RA].
    f_equal; [ring | ]. f_equal. ring.
Qed.

Print Assumptions C26_add.
Print Assumptions C26_add_rejects.
Print Assumptions C26_add_one.
Print Assumptions C26_chain.
Print Assumptions C26_histories.
Print Assumptions C26_lookup.
Print Assumptions C26_shared_block_refuted.
Print Assumptions C26_shared_block_sizes_refuted.
Print Assumptions C42_differential.
