(** * Lemmas on the allocation of a linear solve *)
From Coq Require Import ZArith List Bool Arith Lia ZifyBool.
From Verif Require Import Base RkModel RkSpec.
Import ListNotations.
Local Open Scope Z_scope.

Ltac run := cbn [bind ret throw catch works take free frees without obj_eqb factor live calls negb has_factor clear take_factor when andb app].
Ltac go := unfold bind, ret, throw, catch, works, take, free, frees, has_factor, clear, take_factor, when, rethrow; run;
  repeat match goal with
  | |- context [?o (?c : nat)] => match type of o with nat -> bool => destruct (o c) end; run
  end.

Lemma submatrix_runs x first last n o m :
  (submatrix x first last n o m = (Exc Bound, m) /\ ~ (0 <= first <= last /\ last < n)) \/
  ((0 <= first <= last /\ last < n) /\
   (submatrix x first last n o m = (Ret tt, Mem (factor m) (x :: live m) (S (calls m))) /\ o (calls m) = true \/
    submatrix x first last n o m = (Exc Invalid, Mem (factor m) (live m) (S (calls m))) /\ o (calls m) = false)).
Proof.
  unfold submatrix. destruct (last <? first) eqn:A; [left; split; [reflexivity | lia]|].
  destruct (n <=? last) eqn:B; [left; split; [reflexivity | lia]|].
  destruct (first <? 0) eqn:C; [left; split; [reflexivity | lia]|].
  right. split; [lia|]. unfold bind, take. destruct (o (calls m)) eqn:D; [left | right]; split; reflexivity.
Qed.

(** reduceLeftHandSide: success with two matrices, failure with nothing left, or one of the leaks. *)
Lemma left_runs rows n o m : 0 <= n ->
  exists c r l, reduce_left rows n o m = (r, Mem (factor m) (l ++ live m) c) /\
    (r = Ret tt /\ l = [Omega; A_rtQ] /\ n < rows \/
     r = Exc Invalid /\ l = [] \/
     r = Exc Bound /\ l = [A_rtQFull] /\ rows <= n \/
     r = Exc Invalid /\ l = [A_rtQ] /\ n < rows).
Proof.
  intros N. unfold reduce_left, bind, take at 1. destruct (o (calls m)) eqn:O1; cbn [negb]; unfold throw, catch.
  2:{ eexists _, _, []. split; [reflexivity | right; left; split; reflexivity]. }
  destruct (submatrix_runs A_rtQ 0 n rows o (Mem (factor m) (A_rtQFull :: live m) (S (calls m)))) as [[E H]|[H [[E O2]|[E O2]]]]; rewrite E; run.
  - eexists _, _, [A_rtQFull]. split; [reflexivity|]. right. right. left. split; [reflexivity | split; [reflexivity | lia]].
  - unfold take, bind, free, ret. run. destruct (o (S (S (calls m)))); run.
    2:{ eexists _, _, [A_rtQ]. split; [reflexivity|]. right. right. right. split; [reflexivity | split; [reflexivity | lia]]. }
    destruct (o (S (S (S (calls m))))); run.
    2:{ eexists _, _, [A_rtQ]. split; [reflexivity|]. right. right. right. split; [reflexivity | split; [reflexivity | lia]]. }
    destruct (o (S (S (S (S (calls m)))))); run.
    + eexists _, _, [Omega; A_rtQ]. split; [reflexivity|]. left. split; [reflexivity | split; [reflexivity | lia]].
    + eexists _, _, [A_rtQ]. split; [reflexivity|]. right. right. right. split; [reflexivity | split; [reflexivity | lia]].
  - eexists _, _, []. split; [reflexivity | right; left; split; reflexivity].
Qed.
Ltac done_with l := eexists _, _, l; split; [reflexivity|].
Lemma right_runs rows n o m : 0 <= n < rows ->
  exists c r l, reduce_right rows n o m = (r, Mem (factor m) (l ++ live m) c) /\
    (r = Ret tt /\ l = [b_r] \/ r = Exc Invalid /\ l = []).
Proof.
  intros N.
  assert (F : forall c r, (r = @Exc unit Invalid) -> exists c' r' l, (r, Mem (factor m) (live m) c) = (r', Mem (factor m) (l ++ live m) c') /\ (r' = Ret tt /\ l = [b_r] \/ r' = Exc Invalid /\ l = [])).
  { intros c r E. exists c, r, []. split; [reflexivity | right; split; [exact E | reflexivity]]. }
  unfold reduce_right, bind, take at 1, throw, catch. destruct (o (calls m)); run; [|apply F; reflexivity].
  unfold take at 1. run. destruct (o (S (calls m))); run; [|apply F; reflexivity].
  unfold take at 1. run. destruct (o (S (S (calls m)))); unfold free at 1; run; [|unfold free; run; apply F; reflexivity].
  match goal with |- context [submatrix Qtb 0 n rows o ?mm] => destruct (submatrix_runs Qtb 0 n rows o mm) as [[E H]|[H [[E O2]|[E O2]]]] end;
    [lia | |]; rewrite E; run.
  2:{ unfold frees, bind, free, ret. run. apply F. reflexivity. }
  unfold free at 1. run. unfold take at 1. run.
  match goal with |- context [o ?c] => destruct (o c) end; unfold free at 1; run; [|unfold free; run; apply F; reflexivity].
  unfold take at 1. run.
  match goal with |- context [o ?c] => destruct (o c) end; unfold frees, bind, free at 1, free at 1, ret; run; [|apply F; reflexivity].
  unfold take at 1. run.
  match goal with |- context [o ?c] => destruct (o c) end; unfold free at 1; run; [|apply F; reflexivity].
  done_with [b_r]. left. split; reflexivity.
Qed.
Lemma qr_runs o m :
  exists c r l, solve_qr o m = (r, Mem (factor m) (l ++ live m) c) /\
    (r = Ret tt /\ l = [x_l] \/ r = Exc Invalid /\ l = []).
Proof.
  assert (F : forall c r, (r = @Exc unit Invalid) -> exists c' r' l, (r, Mem (factor m) (live m) c) = (r', Mem (factor m) (l ++ live m) c') /\ (r' = Ret tt /\ l = [x_l] \/ r' = Exc Invalid /\ l = [])).
  { intros c r E. exists c, r, []. split; [reflexivity | right; split; [exact E | reflexivity]]. }
  unfold solve_qr, bind, take at 1, throw, works, ret. destruct (o (calls m)); run; [|apply F; reflexivity].
  match goal with |- context [o ?c] => destruct (o c) end; unfold free at 1; run; [|apply F; reflexivity].
  unfold take at 1. run.
  match goal with |- context [o ?c] => destruct (o c) end; run; [|apply F; reflexivity].
  unfold take at 1. run.
  match goal with |- context [o ?c] => destruct (o c) end; unfold free at 1; run; [|apply F; reflexivity].
  done_with [x_l]. left. split; reflexivity.
Qed.
Lemma frees_prefix l : forall L f c o, frees l o (Mem f (l ++ L) c) = (Ret tt, Mem f L c).
Proof.
  induction l as [|x l IH]; intros L f c o; [reflexivity|]. cbn [frees app]. unfold bind, free. cbn [live without].
  assert (obj_eqb x x = true) as -> by (destruct x; reflexivity). cbn [factor calls]. apply IH.
Qed.
(** A_l is released whatever happens; the other objects only on failure. *)
Lemma factorize_runs fits l o m L :
  (l = [] /\ live m = A_l :: L \/ l = [G_l] /\ live m = G_l :: A_l :: L) ->
  exists c f, factorize fits l o m = (Exc Invalid, Mem f L c) \/ factorize fits l o m = (Ret tt, Mem f (l ++ L) c).
Proof.
  intros H.
  assert (P : forall f c, l = [] /\ live m = A_l :: L \/ l = [G_l] /\ live m = G_l :: A_l :: L ->
    (frees (A_l :: l) o (Mem f (live m) c) = (Ret tt, Mem f L c)) /\
    (free A_l o (Mem f (live m) c) = (Ret tt, Mem f (l ++ L) c))).
  { intros f c [[-> ->]|[-> ->]]; unfold frees, bind, free, ret; run; split; reflexivity. }
  destruct m as [f lv c0]. cbn [factor live calls] in *.
  assert (P1 := fun f c => proj1 (P f c H)). assert (P2 := fun f c => proj2 (P f c H)). clear P.
  cbn [frees] in P1. unfold bind in P1.
  unfold factorize, bind, has_factor, clear, take_factor, works, ret, throw. cbn [factor live calls].
  destruct f; [destruct fits|]; cbn [negb andb factor live calls frees]; unfold bind;
    repeat (match goal with |- context [o ?c] => destruct (o c) eqn:? end; cbn [negb factor live calls]; rewrite ?P1, ?P2, ?frees_prefix; cbn [negb factor live calls]);
    eexists _, _; first [left; reflexivity | right; reflexivity].
Qed.
Definition ended rows j (r : res unit) (l : list obj) : Prop :=
  r = Ret tt /\ l = [] \/
  (exists e, r = Exc e) /\ (l = [] \/ l = [A_rtQFull] /\ rows <= j \/ l = [A_rtQ] /\ j < rows).
Ltac failed := eexists _, _, _, []; split; [reflexivity | right; split; [eexists; reflexivity | left; reflexivity]].
Ltac runs := cbn [without obj_eqb factor live calls negb app frees]; unfold bind, ret, free; cbn [without obj_eqb factor live calls negb app].
Lemma solve_runs rows cols j scale fits o m :
  exists c f r l, solve rows cols j scale fits o m = (r, Mem f (l ++ live m) c) /\ ended rows j r l.
Proof.
  destruct m as [f0 L c0]. unfold solve, rethrow, scaling_matrix, catch, bind, throw, ret.
  destruct (submatrix_runs A_l 0 (j - 1) cols o (Mem f0 L c0)) as [[E H]|[H [[E _]|[E _]]]]; rewrite E; clear E; [failed | | failed].
  unfold take, works. cbn [factor live calls].
  destruct scale; cbn [when factor live calls].
  - destruct (o (S c0)); cbn [factor live calls negb]; [|runs; failed].
    destruct (o (S (S c0))); cbn [factor live calls negb]; [|runs; failed].
    destruct (factorize_runs fits [G_l] o (Mem f0 (G_l :: A_l :: L) (S (S (S c0)))) L ltac:(right; split; reflexivity)) as (c1 & f1 & [E|E]);
      rewrite E; clear E; [failed|]. cbn [app].
    destruct (submatrix_runs A_r j (cols - 1) cols o (Mem f1 (G_l :: L) c1)) as [[E K]|[K [[E _]|[E _]]]]; rewrite E; clear E; [runs; failed | | runs; failed].
    cbn [factor live calls].
    destruct (o (S c1)); cbn [factor live calls negb]; [|runs; failed].
    destruct (o (S (S c1))); cbn [factor live calls negb]; [|runs; failed].
    destruct (o (S (S (S c1)))); cbn [factor live calls negb]; [|runs; failed].
    match goal with |- context [reduce_left rows j o ?mm] => destruct (left_runs rows j o mm) as (c2 & r & l & E & R); [lia|] end.
    rewrite E. clear E. cbn [factor live calls app].
    destruct R as [(-> & -> & N)|[(-> & ->)|[(-> & -> & N)|(-> & -> & N)]]].
    2:{ runs. failed. }
    2:{ runs. eexists _, _, _, [A_rtQFull]. split; [reflexivity|]. right. split; [eexists; reflexivity | right; left; split; [reflexivity | exact N]]. }
    2:{ runs. eexists _, _, _, [A_rtQ]. split; [reflexivity|]. right. split; [eexists; reflexivity | right; right; split; [reflexivity | exact N]]. }
    unfold free at 1. cbn [without obj_eqb factor live calls app].
    match goal with |- context [reduce_right rows j o ?mm] => destruct (right_runs rows j o mm) as (c3 & r & l & E & R); [lia|] end.
    rewrite E. clear E. cbn [factor live calls app].
    destruct R as [(-> & ->)|(-> & ->)]; [|runs; failed]. runs.
    match goal with |- context [solve_qr o ?mm] => destruct (qr_runs o mm) as (c4 & r & l & E & R) end.
    rewrite E. clear E. cbn [factor live calls app].
    destruct R as [(-> & ->)|(-> & ->)]; [|runs; failed]. runs.
    eexists _, _, _, []. split; [reflexivity | left; split; reflexivity].
  - destruct (factorize_runs fits [] o (Mem f0 (A_l :: L) (S c0)) L ltac:(left; split; reflexivity)) as (c1 & f1 & [E|E]);
      rewrite E; clear E; [failed|]. cbn [app].
    destruct (submatrix_runs A_r j (cols - 1) cols o (Mem f1 L c1)) as [[E K]|[K [[E _]|[E _]]]]; rewrite E; clear E; [runs; failed | | runs; failed].
    cbn [factor live calls].
    destruct (o (S c1)); cbn [factor live calls negb]; [|runs; failed].
    match goal with |- context [reduce_left rows j o ?mm] => destruct (left_runs rows j o mm) as (c2 & r & l & E & R); [lia|] end.
    rewrite E. clear E. cbn [factor live calls app].
    destruct R as [(-> & -> & N)|[(-> & ->)|[(-> & -> & N)|(-> & -> & N)]]].
    2:{ runs. failed. }
    2:{ runs. eexists _, _, _, [A_rtQFull]. split; [reflexivity|]. right. split; [eexists; reflexivity | right; left; split; [reflexivity | exact N]]. }
    2:{ runs. eexists _, _, _, [A_rtQ]. split; [reflexivity|]. right. split; [eexists; reflexivity | right; right; split; [reflexivity | exact N]]. }
    unfold free at 1. cbn [without obj_eqb factor live calls app].
    match goal with |- context [reduce_right rows j o ?mm] => destruct (right_runs rows j o mm) as (c3 & r & l & E & R); [lia|] end.
    rewrite E. clear E. cbn [factor live calls app].
    destruct R as [(-> & ->)|(-> & ->)]; [|runs; failed]. runs.
    match goal with |- context [solve_qr o ?mm] => destruct (qr_runs o mm) as (c4 & r & l & E & R) end.
    rewrite E. clear E. cbn [factor live calls app].
    destruct R as [(-> & ->)|(-> & ->)]; [|runs; failed]. runs.
    eexists _, _, _, []. split; [reflexivity | left; split; reflexivity].
Qed.
Lemma analyze_runs rows cols j fits o m :
  exists c f r l, analyze rows cols j fits o m = (r, Mem f (l ++ live m) c) /\ ended rows j r l.
Proof.
  destruct m as [f0 L c0]. unfold analyze, rethrow, catch, bind, throw, ret.
  destruct (submatrix_runs A_l 0 (j - 1) cols o (Mem f0 L c0)) as [[E H]|[H [[E _]|[E _]]]]; rewrite E; clear E; [failed | | failed].
  unfold take. cbn [factor live calls].
  destruct (factorize_runs fits [] o (Mem f0 (A_l :: L) (S c0)) L ltac:(left; split; reflexivity)) as (c1 & f1 & [E|E]);
    rewrite E; clear E; [failed|]. cbn [app].
  destruct (submatrix_runs A_r j (cols - 1) cols o (Mem f1 L c1)) as [[E K]|[K [[E _]|[E _]]]]; rewrite E; clear E; [runs; failed | | runs; failed].
  cbn [factor live calls].
  destruct (o (S c1)); cbn [factor live calls negb]; [|runs; failed].
  match goal with |- context [reduce_left rows j o ?mm] => destruct (left_runs rows j o mm) as (c2 & r & l & E & R); [lia|] end.
  rewrite E. clear E. cbn [factor live calls app].
  destruct R as [(-> & -> & N)|[(-> & ->)|[(-> & -> & N)|(-> & -> & N)]]].
  2:{ runs. failed. }
  2:{ runs. eexists _, _, _, [A_rtQFull]. split; [reflexivity|]. right. split; [eexists; reflexivity | right; left; split; [reflexivity | exact N]]. }
  2:{ runs. eexists _, _, _, [A_rtQ]. split; [reflexivity|]. right. split; [eexists; reflexivity | right; right; split; [reflexivity | exact N]]. }
  runs. eexists _, _, _, []. split; [reflexivity | left; split; reflexivity].
Qed.
Lemma guarded_runs rows j c o m :
  (forall o m, exists k f r l, c o m = (r, Mem f (l ++ live m) k) /\ ended rows j r l) ->
  exists k f status l, guarded c o m = (Ret status, Mem f (l ++ live m) k) /\ left_behind rows j status l /\
    (status = true -> l = []).
Proof.
  intros H. unfold guarded, bind, take. destruct (o (calls m)); cbn [negb].
  2:{ eexists _, _, false, []. split; [reflexivity|]. split; [left; reflexivity | discriminate]. }
  unfold catch. destruct (H o (Mem (factor m) (J_CS :: live m) (S (calls m)))) as (k & f & r & l & E & R). rewrite E. cbn [live].
  destruct R as [(-> & ->)|((e & ->) & [->|[(-> & N)|(-> & N)]])]; unfold ret, free; cbn [app live without obj_eqb factor calls].
  - eexists _, _, true, []. split; [reflexivity|]. split; [left; reflexivity | reflexivity].
  - eexists _, _, false, []. split; [reflexivity|]. split; [left; reflexivity | discriminate].
  - eexists _, _, false, [A_rtQFull]. split; [reflexivity|]. split; [right; split; [reflexivity | left; split; [reflexivity | exact N]] | discriminate].
  - eexists _, _, false, [A_rtQ]. split; [reflexivity|]. split; [right; split; [reflexivity | right; split; [reflexivity | exact N]] | discriminate].
Qed.
Lemma submatrix_works x first last n m : 0 <= first <= last -> last < n ->
  submatrix x first last n (fun _ => true) m = (Ret tt, Mem (factor m) (x :: live m) (S (calls m))).
Proof.
  intros A B. destruct (submatrix_runs x first last n (fun _ => true) m) as [[_ H]|[_ [[E _]|[_ E]]]]; [lia | exact E | discriminate E].
Qed.
