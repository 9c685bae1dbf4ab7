(** * C114: the memory of a linear solve *)
From Coq Require Import ZArith List Bool Arith Lia ZifyBool.
From Verif Require Import Base RkModel RkSpec RkProofs.
Import ListNotations.
Local Open Scope Z_scope.

(** Whichever library calls fail, a call returns (no exception escapes), releases nothing
    twice, keeps what was allocated before, and leaves nothing behind if it succeeded; if it
    failed it leaves at most one of two matrices. *)
Theorem C114_call :
  forall p o m, exists calls' f status l,
    run p o m = (Ret status, Mem f (l ++ live m) calls') /\ (status = true -> l = []) /\
    (l = [] \/ exists rows j, sizes p = Some (rows, j) /\ left_behind rows j status l).
Proof.
  intros p o m. destruct p as [rows cols j scale fits | rows cols j fits |].
  - destruct (guarded_runs rows j (solve rows cols j scale fits) o m) as (k & f & s & l & E & L & T); [intros; apply solve_runs|].
    exists k, f, s, l. split; [exact E|]. split; [exact T|]. right. exists rows, j. split; [reflexivity | exact L].
  - destruct (guarded_runs rows j (analyze rows cols j fits) o m) as (k & f & s & l & E & L & T); [intros; apply analyze_runs|].
    exists k, f, s, l. split; [exact E|]. split; [exact T|]. right. exists rows, j. split; [reflexivity | exact L].
  - exists (calls m), false, true, []. split; [reflexivity|]. split; [reflexivity | left; reflexivity].
Qed.

(** So over the life of a solver the memory in use, besides the factorization, is at most
    one matrix for each call that failed. *)
Theorem C114_history :
  forall ps o, exists bs f l c, history ps o start = (Ret bs, Mem f l c) /\ length bs = length ps /\
    (length l <= length (filter negb bs))%nat /\ (forall x, In x l -> x = A_rtQFull \/ x = A_rtQ) /\
    (forallb (fun b => b) bs = true -> l = []).
Proof.
  intros ps o.
  assert (G : forall m, exists bs f l c, history ps o m = (Ret bs, Mem f (l ++ live m) c) /\ length bs = length ps /\
    (length l <= length (filter negb bs))%nat /\ (forall x, In x l -> x = A_rtQFull \/ x = A_rtQ) /\
    (forallb (fun b => b) bs = true -> l = [])).
  { induction ps as [|p ps IH]; intros m.
    - exists [], (factor m), [], (calls m). split; [destruct m; reflexivity|]. split; [reflexivity|]. split; [cbn; lia|]. split; [intros x []|]. reflexivity.
    - cbn [history]. unfold bind. destruct (C114_call p o m) as (c1 & f1 & s & l1 & E & T & L). rewrite E.
      destruct (IH (Mem f1 (l1 ++ live m) c1)) as (bs & f2 & l2 & c2 & E2 & N & B & X & Z). rewrite E2. cbn [live].
      exists (s :: bs), f2, (l2 ++ l1), c2. split; [unfold ret; rewrite app_assoc; reflexivity|]. split; [cbn [length]; lia|].
      assert (L1 : (length l1 <= (if s then 0 else 1))%nat /\ forall x, In x l1 -> x = A_rtQFull \/ x = A_rtQ).
      { destruct s.
        - rewrite (T eq_refl). split; [cbn; lia | intros x []].
        - destruct L as [->|(rows & j & _ & [->|(_ & [(-> & _)|(-> & _)])])]; (split; [cbn; lia|]); intros x K; try destruct K as [K|[]]; try destruct K; [left | right]; reflexivity. }
      destruct L1 as [L1 L2]. split; [|split].
      + rewrite app_length. cbn [filter]. destruct s; cbn [negb length]; lia.
      + intros x K. apply in_app_or in K. destruct K as [K|K]; [apply X, K | apply L2, K].
      + cbn [forallb]. intros K. apply andb_prop in K. destruct K as [K1 K2]. rewrite (Z K2), (T K1). reflexivity. }
  destruct (G start) as (bs & f & l & c & E & R). cbn [live start] in E. rewrite app_nil_r in E. exists bs, f, l, c. split; assumption.
Qed.

Ltac crunch := unfold catch, bind, take, works, has_factor, take_factor, clear, ret, throw, free;
  repeat (cbn [factor live calls negb andb frees without obj_eqb]; unfold bind, ret, free;
    try (rewrite submatrix_works by lia)); cbn [factor live calls negb andb frees without obj_eqb].

(** With more rows than columns to the left of the split and working libraries every call
    succeeds. *)
Theorem C114_works :
  forall rows cols j scale fits m, split cols j -> j < rows ->
    (exists f c, run (SolveSystem rows cols j scale fits) (fun _ => true) m = (Ret true, Mem f (live m) c)) /\
    (exists f c, run (AnalyzeMarginal rows cols j fits) (fun _ => true) m = (Ret true, Mem f (live m) c)).
Proof.
  intros rows cols j scale fits [f0 L c0] [A B] C. split.
  - cbn [run]. unfold guarded, solve, factorize, reduce_left, reduce_right, solve_qr, scaling_matrix, rethrow.
    destruct scale, f0, fits; cbn [when]; crunch; eexists _, _; reflexivity.
  - cbn [run]. unfold guarded, analyze, factorize, reduce_left, rethrow.
    destruct f0, fits; crunch; eexists _, _; reflexivity.
Qed.

(** A square system, or one with fewer rows, fails although all library calls work, and each
    call leaves a matrix behind: the memory grows without bound. *)
Theorem C114_square_analysis_refuted :
  forall rows cols j fits m, split cols j -> rows <= j -> exists f c, run (AnalyzeMarginal rows cols j fits) (fun _ => true) m = (Ret false, Mem f (A_rtQFull :: live m) c).
Proof.
  intros rows cols j fits m [A B] C. destruct m as [f0 L c0]. cbn [run]. unfold guarded, analyze, factorize, reduce_left, rethrow.
  assert (X : forall m', submatrix A_rtQ 0 j rows (fun _ => true) m' = (Exc Bound, m')).
  { intros m'. destruct (submatrix_runs A_rtQ 0 j rows (fun _ => true) m') as [[E _]|[H _]]; [exact E | lia]. }
  destruct f0, fits; unfold catch, bind, take, works, has_factor, take_factor, clear, ret, throw, free;
    repeat (cbn [factor live calls negb andb frees without obj_eqb]; unfold bind, ret, free;
      first [rewrite X | rewrite submatrix_works by lia]); cbn [factor live calls negb andb frees without obj_eqb];
    unfold bind, ret, free; cbn [factor live calls negb andb frees without obj_eqb]; eexists _, _; reflexivity.
Qed.
Lemma square_leaks_solve rows cols j scale fits m : split cols j -> rows <= j ->
  exists f c, run (SolveSystem rows cols j scale fits) (fun _ => true) m = (Ret false, Mem f (A_rtQFull :: live m) c).
Proof.
  intros [A B] C. destruct m as [f0 L c0]. cbn [run]. unfold guarded, solve, factorize, reduce_left, scaling_matrix, rethrow.
  assert (X : forall m', submatrix A_rtQ 0 j rows (fun _ => true) m' = (Exc Bound, m')).
  { intros m'. destruct (submatrix_runs A_rtQ 0 j rows (fun _ => true) m') as [[E _]|[H _]]; [exact E | lia]. }
  destruct scale, f0, fits; cbn [when]; unfold catch, bind, take, works, has_factor, take_factor, clear, ret, throw, free;
    repeat (cbn [factor live calls negb andb frees without obj_eqb]; unfold bind, ret, free;
      first [rewrite X | rewrite submatrix_works by lia]); cbn [factor live calls negb andb frees without obj_eqb];
    unfold bind, ret, free; cbn [factor live calls negb andb frees without obj_eqb]; eexists _, _; reflexivity.
Qed.
Theorem C114_square_refuted :
  forall rows cols j scale fits n, split cols j -> rows <= j ->
    exists f c, history (repeat (SolveSystem rows cols j scale fits) n) (fun _ => true) start =
      (Ret (repeat false n), Mem f (repeat A_rtQFull n) c).
Proof.
  intros rows cols j scale fits n A B.
  assert (G : forall m, exists f c, history (repeat (SolveSystem rows cols j scale fits) n) (fun _ => true) m =
    (Ret (repeat false n), Mem f (repeat A_rtQFull n ++ live m) c)).
  { induction n as [|n IH]; intros m; cbn [repeat history].
    - exists (factor m), (calls m). destruct m; reflexivity.
    - unfold bind. destruct (square_leaks_solve rows cols j scale fits m A B) as (f & c & E). rewrite E.
      destruct (IH (Mem f (A_rtQFull :: live m) c)) as (f' & c' & E'). rewrite E'. exists f', c'. cbn [live]. unfold ret.
      replace (repeat A_rtQFull n ++ A_rtQFull :: live m) with ((A_rtQFull :: repeat A_rtQFull n) ++ live m); [reflexivity|].
      change (A_rtQFull :: repeat A_rtQFull n) with (repeat A_rtQFull (S n)).
      replace (S n) with (n + 1)%nat by lia. rewrite repeat_app, <- app_assoc. reflexivity. }
  destruct (G start) as (f & c & E). exists f, c. cbn [live start] in E. rewrite app_nil_r in E. exact E.
Qed.

(** In a system that could be solved, the failure of one library call after A_rtQ has been
    made leaves it behind. *)
Theorem C114_failure_refuted :
  forall rows cols j, split cols j -> j < rows ->
    exists f c, run (SolveSystem rows cols j false false) (fun i => negb (i =? 8)%nat) start = (Ret false, Mem f [A_rtQ] c).
Proof.
  intros rows cols j [A B] C.
  assert (X : forall x first last n f L k, 0 <= first <= last -> last < n -> k <> 8%nat ->
    submatrix x first last n (fun i => negb (i =? 8)%nat) (Mem f L k) = (Ret tt, Mem f (x :: L) (S k))).
  { intros x first last n f L k P Q K. destruct (submatrix_runs x first last n (fun i => negb (i =? 8)%nat) (Mem f L k)) as [[_ H]|[_ [[E _]|[_ E]]]]; [lia | exact E|].
    cbn [calls] in E. lia. }
  cbn [run]. unfold guarded, solve, factorize, reduce_left, rethrow, start. cbn [when].
  unfold catch, bind, take, works, has_factor, take_factor, clear, ret, throw, free.
  repeat (cbn [factor live calls negb andb frees without obj_eqb Nat.eqb]; unfold bind, ret, free;
    first [rewrite X by lia]).
  cbn [factor live calls negb andb frees without obj_eqb Nat.eqb].
  unfold bind, ret, free; cbn [factor live calls negb andb frees without obj_eqb Nat.eqb]. eexists _, _. reflexivity.
Qed.

Example C114_ex :
  (exists c, history [SolveSystem 5 4 2 true false; AnalyzeMarginal 5 4 2 true; SolveSystem 2 4 2 false true; Clear]
     (fun _ => true) start = (Ret [true; true; false; true], Mem false [A_rtQFull] c)) /\
  (exists f c, history [SolveSystem 5 4 2 true false; SolveSystem 5 4 (-1) true true] (fun i => negb (i =? 4)%nat) start =
     (Ret [false; false], Mem f [] c)) /\
  split 4 2.
Proof.
  split; [eexists; vm_compute; reflexivity|]. split; [eexists _, _; vm_compute; reflexivity|]. unfold split. lia.
Qed.

Print Assumptions C114_call. Print Assumptions C114_history. Print Assumptions C114_works.
Print Assumptions C114_square_refuted. Print Assumptions C114_failure_refuted.
Print Assumptions C114_square_analysis_refuted.
