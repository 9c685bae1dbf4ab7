(** Multi-threaded evaluation of error terms. *)
From Coq Require Import ZArith List Bool Lia Permutation Reals Lra.
From Verif Require Import Base Arith RArith OMap JacModel JacSpec JacProps CcmModel CcmSpec CcmProofs
  CcmBuild CcmProps ThrModel ThrSpec ThrProofs.
Import ListNotations.
Open Scope Z_scope.

(** Whatever the number of threads, the ranges, put one after the other, run
    through every error term exactly once and in order; no range is empty, and
    there are as many as threads or terms, whichever is less. *)
Theorem C28_partition : forall nThreads n, 1 <= n <= INT_MAX -> exists rs,
  ranges nThreads n = Ok rs /\ length rs = Z.to_nat (Z.max 1 (Z.min nThreads n)) /\
  concat (map visits rs) = seq 0 (Z.to_nat n) /\
  Forall (fun r => 0 <= fst r < snd r /\ snd r <= n) rs.
Proof. exact ranges_ok. Qed.
Print Assumptions C28_partition.

Example C28_ex_partition : ranges 4 11 = Ok [(0, 2); (2, 4); (4, 6); (6, 11)] /\
  ranges 8 3 = Ok [(0, 1); (1, 2); (2, 3)].
Proof. vm_compute. split; reflexivity. Qed.

(** Without error terms and with two or more threads the code divides by
    zero. *)
Theorem C28_empty_refuted : exists nThreads, ranges nThreads 0 = UB /\ ranges 1 0 = Ok [(0, 0)].
Proof. exists 2. split; reflexivity. Qed.
Print Assumptions C28_empty_refuted.

(** With more error terms than an int can count, computing the ranges
    overflows. *)
Theorem C28_many_terms_refuted : exists nThreads n, INT_MAX < n /\ ranges nThreads n = UB.
Proof. exists 2, 2147483648. split; [reflexivity | vm_compute; reflexivity]. Qed.
Print Assumptions C28_many_terms_refuted.

Open Scope nat_scope.

(** However the threads are interleaved, the cost is the sum of the threads'
    sums and the error vector is the stack of the negated weighted errors: the
    result does not depend on the schedule, in any arithmetic. *)
Theorem C28_cost : forall A opp dim err werr ev wv nThreads n sched e rs,
  (1 <= n <= INT_MAX)%Z ->
  (forall i, i < Z.to_nat n -> err i = Some (ev i) /\ werr i = Some (wv i) /\ length (wv i) = dim i) ->
  length e = row dim (Z.to_nat n) ->
  ranges (Z.max 1 nThreads) n = Ok rs -> interleaves (map visits rs) sched ->
  evaluate_error A opp dim err werr nThreads n sched e =
  Ok (fold_left (add A)
        (map (fun r => fold_left (add A) (map ev (visits r)) (of_Z A 0)) rs
         ++ repeat (of_Z A 0) (Z.to_nat (Z.max 1 nThreads) - length rs)) (of_Z A 0),
      concat (map (fun i => map opp (wv i)) (seq 0 (Z.to_nat n)))).
Proof.
  intros A opp dim err werr ev wv nThreads n sched e rs Hn H He Hr HI.
  destruct (ranges_ok (Z.max 1 nThreads) n Hn) as (rs' & E & L & C & _).
  assert (rs' = rs) by congruence. subst rs'.
  unfold evaluate_error. cbv zeta. rewrite Hr. cbn [obind].
  assert (P := sched_perm _ _ HI). rewrite C in P.
  assert (T := sched_threads _ _ HI). rewrite map_length in T.
  set (N := Z.to_nat (Z.max 1 nThreads)) in *.
  assert (LN : length rs <= N) by (unfold N; rewrite L; lia).
  destruct (execute_clean A opp dim err werr ev wv sched (Shared (repeat (of_Z A 0) N) e []) eq_refl)
    as (s & Es & D & Ls & Ns & Ws).
  { cbn [locals evec]. rewrite repeat_length, He. apply Forall_forall. intros [t i] Hp.
    rewrite Forall_forall in T. specialize (T _ Hp). cbn [fst snd] in *.
    assert (Hi : In i (seq 0 (Z.to_nat n))) by (apply (Permutation_in _ P); apply (in_map snd _ _ Hp)).
    apply in_seq in Hi. destruct (H i ltac:(lia)) as (H1 & H2 & H3).
    split; [lia | ]. split; [exact H1 | ]. split; [exact H2 | ]. split; [exact H3 | ].
    assert (X := row_mono dim (S i) (Z.to_nat n) ltac:(lia)). rewrite row_S in X. exact X. }
  rewrite Es. cbn [obind]. rewrite D. cbn [locals evec] in *. rewrite repeat_length in Ls, Ns.
  f_equal. f_equal.
  - f_equal. apply nth_ext with (of_Z A 0) (of_Z A 0).
    + rewrite Ls, app_length, map_length, repeat_length. lia.
    + intros t Ht. rewrite Ls in Ht. rewrite (Ns t _ Ht), (HI t), nth_repeat.
      destruct (Nat.lt_ge_cases t (length rs)) as [Lt | Lt].
      * rewrite app_nth1 by (rewrite map_length; exact Lt).
        rewrite (nth_indep (map visits rs) [] (visits (0, 0)%Z)) by (rewrite map_length; exact Lt).
        rewrite (nth_indep _ (of_Z A 0) ((fun r => fold_left (add A) (map ev (visits r)) (of_Z A 0)) (0, 0)%Z))
          by (rewrite map_length; exact Lt).
        rewrite (map_nth visits), (map_nth (fun r => fold_left (add A) (map ev (visits r)) (of_Z A 0))).
        reflexivity.
      * rewrite (nth_overflow (map visits rs)) by (rewrite map_length; exact Lt).
        rewrite app_nth2 by (rewrite map_length; exact Lt). now rewrite nth_repeat.
  - assert (X := stack_writes A opp dim wv (Z.to_nat n) (map snd sched) e).
    assert (Y : Ok (evec s) = Ok (concat (map (fun i => map opp (wv i)) (seq 0 (Z.to_nat n))))).
    { rewrite <- Ws. apply X; [ | exact P | exact He]. intros i Hi. now apply H. }
    congruence.
Qed.
Print Assumptions C28_cost.

(** Three terms with costs 5, 7 and 9, two threads, run out of order. *)
Example C28_ex_cost :
  let err i := nth i [Some 5; Some 7; Some 9]%Z None in
  let werr i := nth i [Some [1]; Some [2; 3]; Some [4]]%Z None in
  let dim i := nth i [1; 2; 1] 0 in
  interleaves (map visits [(0, 1); (1, 3)]%Z) [(1, 1); (0, 0); (1, 2)] /\
  evaluate_error ZA Z.opp dim err werr 2 3 [(1, 1); (0, 0); (1, 2)] [0; 0; 0; 0]%Z
  = Ok (21, [-1; -2; -3; -4])%Z.
Proof.
  split; [ | reflexivity]. intros [ | [ | [ | t]]]; reflexivity.
Qed.

(** In exact arithmetic the cost is the sum over the error terms, for every
    number of threads. *)
Theorem C28_exact : forall opp dim err werr (ev : nat -> R) wv nThreads n sched (e : list R) rs,
  (1 <= n <= INT_MAX)%Z ->
  (forall i, i < Z.to_nat n -> err i = Some (ev i) /\ werr i = Some (wv i) /\ length (wv i) = dim i) ->
  length e = row dim (Z.to_nat n) ->
  ranges (Z.max 1 nThreads) n = Ok rs -> interleaves (map visits rs) sched ->
  exists e', evaluate_error RA opp dim err werr nThreads n sched e =
    Ok (fold_right Rplus 0%R (map ev (seq 0 (Z.to_nat n))), e').
Proof.
  intros opp dim err werr ev wv nThreads n sched e rs Hn H He Hr HI.
  destruct (ranges_ok (Z.max 1 nThreads) n Hn) as (rs' & E & _ & C & _).
  assert (rs' = rs) by congruence. subst rs'.
  eexists. rewrite (C28_cost RA opp dim err werr ev wv nThreads n sched e rs Hn H He Hr HI).
  f_equal. f_equal. rewrite <- C.
  assert (F : forall (l : list R) s, fold_left (add RA) l s = (s + fold_right Rplus 0 l)%R).
  { induction l as [ | x l IH]; intro s; cbn [fold_left fold_right]; [lra | ].
    rewrite IH. cbn [add RA]. lra. }
  assert (App : forall l1 l2 : list R, fold_right Rplus 0%R (l1 ++ l2) =
                 (fold_right Rplus 0 l1 + fold_right Rplus 0 l2)%R).
  { induction l1 as [ | x l1 IH]; intro l2; cbn [app fold_right]; [lra | rewrite IH; lra]. }
  etransitivity; [exact (F _ _) | ]. change (of_Z RA 0) with 0%R.
  etransitivity; [apply f_equal; exact (App _ _) | ].
  assert (Z0 : forall k, fold_right Rplus 0%R (repeat 0%R k) = 0%R).
  { induction k as [ | k IH]; [reflexivity | ]. cbn [repeat fold_right]. rewrite IH. lra. }
  rewrite Z0. clear - F App.
  induction rs as [ | r rs IH]; [cbn; lra | ]. cbn [map concat fold_right].
  rewrite map_app, App, <- IH. change (of_Z RA 0) with 0%R.
  assert (X := F (map ev (visits r)) 0%R).
  etransitivity; [apply f_equal; apply (f_equal2 Rplus); [apply (f_equal2 Rplus); [exact X | reflexivity] | reflexivity] | ].
  rewrite !Rplus_0_l, !Rplus_0_r. reflexivity.
Qed.
Print Assumptions C28_exact.

(** If any error term throws, the call throws, whatever the schedule and the
    number of threads; the other threads still finish their share. *)
Theorem C28_throws : forall A opp dim err werr nThreads n sched e rs i,
  (1 <= n <= INT_MAX)%Z ->
  (forall i w, werr i = Some w -> length w = dim i) ->
  length e = row dim (Z.to_nat n) ->
  ranges (Z.max 1 nThreads) n = Ok rs -> interleaves (map visits rs) sched ->
  i < Z.to_nat n -> err i = None \/ werr i = None ->
  evaluate_error A opp dim err werr nThreads n sched e = Throw.
Proof.
  intros A opp dim err werr nThreads n sched e rs i Hn Hw He Hr HI Hi Hb.
  destruct (ranges_ok (Z.max 1 nThreads) n Hn) as (rs' & E & L & C & _).
  assert (rs' = rs) by congruence. subst rs'.
  unfold evaluate_error. cbv zeta. rewrite Hr. cbn [obind].
  assert (P := sched_perm _ _ HI). rewrite C in P.
  assert (T := sched_threads _ _ HI). rewrite map_length in T.
  set (N := Z.to_nat (Z.max 1 nThreads)) in *.
  assert (LN : length rs <= N) by (unfold N; rewrite L; lia).
  destruct (execute_total A opp dim err werr sched (Shared (repeat (of_Z A 0) N) e []))
    as (s & Es & _ & _ & D).
  { cbn [locals evec]. rewrite repeat_length, He. apply Forall_forall. intros [t j] Hp.
    rewrite Forall_forall in T. specialize (T _ Hp). cbn [fst snd] in *.
    assert (Hj : In j (seq 0 (Z.to_nat n))) by (apply (Permutation_in _ P); apply (in_map snd _ _ Hp)).
    apply in_seq in Hj. split; [lia | ]. split; [intros w; apply Hw | ].
    assert (X := row_mono dim (S j) (Z.to_nat n) ltac:(lia)). rewrite row_S in X. exact X. }
  rewrite Es. cbn [obind].
  assert (Hin : In i (map snd sched)).
  { apply (Permutation_in _ (Permutation_sym P)). apply in_seq. lia. }
  apply in_map_iff in Hin. destruct Hin as ([t j] & Ej & Hp). cbn [snd] in Ej. subst j.
  assert (Dt : In t (dead s)) by (apply D; right; exists i; split; [exact Hp | exact Hb]).
  destruct (dead s); [contradiction | reflexivity].
Qed.
Print Assumptions C28_throws.

Example C28_ex_throws :
  evaluate_error ZA Z.opp (fun _ => 1) (fun i => if Nat.eqb i 1 then None else Some 1%Z)
    (fun _ => Some [1%Z]) 2 3 [(0, 0); (1, 1); (1, 2)] [0; 0; 0]%Z = Throw.
Proof. reflexivity. Qed.

(** Two threads never touch the same memory: they visit different terms, hence
    different segments of the error vector. *)
Theorem C28_race_free : forall dim nThreads n rs t t' i i' q q',
  (1 <= n <= INT_MAX)%Z -> ranges nThreads n = Ok rs -> t <> t' ->
  In i (nth t (map visits rs) []) -> In i' (nth t' (map visits rs) []) ->
  q < dim i -> q' < dim i' -> row dim i + q <> row dim i' + q'.
Proof.
  intros dim nThreads n rs t t' i i' q q' Hn Hr Nt Hi Hi' Hq Hq'.
  destruct (ranges_ok nThreads n Hn) as (rs' & E & _ & C & _).
  assert (rs' = rs) by congruence. subst rs'.
  assert (ND : NoDup (concat (map visits rs))) by (rewrite C; apply seq_NoDup).
  assert (Ne : i <> i').
  { intros ->. clear - ND Nt Hi Hi'. revert t t' Nt Hi Hi'.
    generalize dependent (map visits rs). intro l. induction l as [ | a l IH]; intros ND t t' Nt Hi Hi'.
    - destruct t; contradiction.
    - cbn [concat] in ND.
      assert (ND2 : NoDup (concat l)).
      { clear - ND. induction a as [ | y a IHa]; [exact ND | ]. apply IHa. now inversion ND. }
      assert (Dis : forall x, In x a -> ~ In x (concat l)).
      { intros x Hx Hc. clear - ND Hx Hc. induction a as [ | y a IHa]; [contradiction | ].
        cbn [app] in ND. apply NoDup_cons_iff in ND. destruct ND as (N1 & N2).
        destruct Hx as [-> | Hx]; [apply N1, in_app_iff; now right | now apply IHa]. }
      assert (In_c : forall k, In i' (nth k l []) -> In i' (concat l)).
      { intros k Hk. apply in_concat. exists (nth k l []). split; [ | exact Hk].
        destruct (Nat.lt_ge_cases k (length l)) as [Lk | Lk]; [now apply nth_In | ].
        rewrite nth_overflow in Hk by exact Lk. contradiction. }
      destruct t as [ | t], t' as [ | t']; cbn [nth] in Hi, Hi'.
      + congruence.
      + apply (Dis i' Hi). now apply In_c with t'.
      + apply (Dis i' Hi'). now apply In_c with t.
      + apply (IH ND2 t t'); auto. }
  destruct (Nat.lt_ge_cases i i') as [L | L].
  - assert (X := row_mono dim (S i) i' L). rewrite row_S in X. lia.
  - assert (X := row_mono dim (S i') i ltac:(lia)). rewrite row_S in X. lia.
Qed.
Print Assumptions C28_race_free.

(** In binary64 the cost can depend on the number of threads. *)
Theorem C28_thread_count_refuted : exists err c1 c2,
  (exists e1, evaluate_error F64 (fun x => x) (fun _ => 0) err (fun _ => Some []) 1 3
                [(0, 0); (0, 1); (0, 2)] [] = Ok (c1, e1)) /\
  (exists e2, evaluate_error F64 (fun x => x) (fun _ => 0) err (fun _ => Some []) 2 3
                [(0, 0); (1, 1); (1, 2)] [] = Ok (c2, e2)) /\
  lt F64 c1 c2 = true.
Proof.
  exists (fun i => Some (if Nat.eqb i 0 then of_Z F64 9007199254740992 else of_Z F64 1)).
  exists (of_Z F64 9007199254740992), (of_Z F64 9007199254740994).
  split; [eexists; vm_compute; reflexivity | ].
  split; [eexists; vm_compute; reflexivity | vm_compute; reflexivity].
Qed.
Print Assumptions C28_thread_count_refuted.

(** Building the Jacobian with any number of threads and any interleaving gives
    the transposed stacked Jacobian. *)
Theorem C28_jacobian : forall A raw ts ks m0 nThreads rs sched,
  let dvs := number raw in
  let base := column_base raw in
  dvs <> [] -> Forall (term_ok dvs) ts -> Forall2 (fills A) ts ks ->
  1 <= length ts -> (Z.of_nat (length ts) <= INT_MAX)%Z ->
  ranges nThreads (Z.of_nat (length ts)) = Ok rs -> interleaves (map visits rs) sched ->
  exists ps m1 m2, init_structure A base dvs ts m0 = Ok (ps, m1) /\
    write_all A (map (fun ti => nth (snd ti) (combine ks ps)
                                  (Container 0 [], Pointer 0 0)) sched) m1 = Ok m2 /\
    well_formed A m2 /\ nrows m2 = dims dvs /\ ncols m2 = height A ks /\
    dense_is A m2 (fun r c => stacked A base ks c r).
Proof.
  intros A raw ts ks m0 nThreads rs sched dvs base Hd T F H1 H2 Hr HI.
  assert (N : numbered base dvs) by apply number_numbered.
  destruct (C27_builds A base dvs ts m0 N Hd T) as (ps & m1 & E & L & B).
  destruct (ranges_ok nThreads (Z.of_nat (length ts)) ltac:(lia)) as (rs' & E' & _ & C & _).
  assert (rs' = rs) by congruence. subst rs'.
  assert (P := sched_perm _ _ HI). rewrite C, Nat2Z.id in P.
  assert (Lk : length ks = length ts) by (clear - F; induction F; cbn [length]; congruence).
  set (d := (Container 0 [], Pointer 0 0)).
  destruct (B [] ks (map (fun ti => nth (snd ti) (combine ks ps) d) sched)) as (m2 & E2 & W & R & Cc & D).
  - constructor.
  - exact F.
  - rewrite <- (map_map snd (fun i => nth i (combine ks ps) d)).
    etransitivity; [apply Permutation_map; exact P | ].
    assert (Lc : length (combine ks ps) = length ts) by (rewrite combine_length; lia).
    rewrite <- Lc. generalize (combine ks ps) as l. intro l. apply Permutation_refl'.
    induction l as [ | x l IH]; [reflexivity | ]. cbn [length seq map nth]. f_equal.
    rewrite <- seq_shift. etransitivity; [apply map_map | ]. exact IH.
  - exists ps, m1, m2. split; [exact E | ]. split; [exact E2 | ]. auto.
Qed.
Print Assumptions C28_jacobian.

Example C28_ex_jacobian :
  number [RawDv 10 2 true; RawDv 12 4 false; RawDv 11 1 true] = two /\
  (do '(ps, m1) <- init_structure ZA base2 two terms2 (empty ZA);
   do m2 <- write_all ZA (map (fun ti => nth (snd ti) (combine [k1; k2] ps) (k1, Pointer 0 0))
                             [(1, 1); (0, 0)]) m1; to_dense ZA m2)
  = Ok [1; 2; 3; 4; 5; 0; 6; 7; 0]%Z.
Proof. vm_compute. split; reflexivity. Qed.
