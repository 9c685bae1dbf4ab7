From Coq Require Import ZArith List Bool Lia Permutation Sorted.
From Verif Require Import Base Arith OMap JacModel JacSpec JacProofs CcmModel CcmSpec CcmProofs CcmBuild.
Import ListNotations.
Open Scope nat_scope.

(** Cutting a list at given positions. *)
Fixpoint cut {V} (ps : list nat) (l : list V) : list (list V) :=
  match ps with
  | a :: r =>
      match r with
      | b :: _ => firstn (b - a) l :: cut r (skipn (b - a) l)
      | [] => []
      end
  | [] => []
  end.

Lemma cut_ok {V} : forall ps a (l : list V),
  (forall c x y, nth_error (a :: ps) c = Some x -> nth_error (a :: ps) (c + 1) = Some y -> x <= y) ->
  nth_error (a :: ps) (length ps) = Some (a + length l) ->
  concat (cut (a :: ps) l) = l /\ psums a (map (@length V) (cut (a :: ps) l)) = a :: ps /\
  length (cut (a :: ps) l) = length ps.
Proof.
  induction ps as [ | b ps IH]; intros a l M L.
  - cbn [length nth_error] in L. injection L as L. destruct l; [ | cbn in L; lia].
    cbn. auto.
  - assert (Hab : a <= b) by (apply (M 0); reflexivity).
    assert (Hbl : b <= a + length l).
    { cbn [length nth_error] in L.
      assert (G : forall c x, nth_error (b :: ps) c = Some x -> b <= x).
      { induction c as [ | c IHc]; intros x Hx; [injection Hx as <-; lia | ].
        assert (Hc : exists y, nth_error (b :: ps) c = Some y).
        { destruct (nth_error (b :: ps) c) as [y | ] eqn:E; [now exists y | ].
          apply nth_error_None in E. assert (S c < length (b :: ps)) by (apply nth_error_Some; congruence). lia. }
        destruct Hc as (y & Hy). specialize (IHc y Hy).
        assert (X := M (S c) y x). cbn [nth_error] in X.
        replace (S c + 1) with (S (S c)) in X by lia. cbn [nth_error] in X, Hx, Hy.
        specialize (X Hy Hx). lia. }
      exact (G _ _ L). }
    destruct (IH b (skipn (b - a) l)) as (C & P & N).
    + intros c x y Hx Hy. apply (M (S c) x y); assumption.
    + rewrite skipn_length. cbn [length nth_error] in L. rewrite L. f_equal. lia.
    + change (cut (a :: b :: ps) l) with (firstn (b - a) l :: cut (b :: ps) (skipn (b - a) l)).
      cbn [concat map psums length]. rewrite C, firstn_skipn, N. split; [reflexivity | ].
      split; [ | reflexivity]. rewrite firstn_length, Nat.min_l by lia.
      replace (a + (b - a)) with b by lia. now rewrite P.
Qed.

Lemma sorted_from_nth (l : list nat) :
  (forall i j a b, i < j -> nth_error l i = Some a -> nth_error l j = Some b -> a < b) ->
  StronglySorted Peano.lt l.
Proof.
  induction l as [ | x l IH]; intro H; constructor.
  - apply IH. intros i j a b Hij Hi Hj. apply (H (S i) (S j)); [lia | exact Hi | exact Hj].
  - apply Forall_forall. intros y Hy. apply In_nth_error in Hy. destruct Hy as (j & Hj).
    apply (H 0 (S j)); [lia | reflexivity | exact Hj].
Qed.

Section Ops.
Variable A : Arith.
Notation num := (num A).
Notation zero := (of_Z A 0).
Notation col := (list (nat * num)).

Lemma wf_repr m : well_formed A m ->
  exists cols, repr A m cols /\ Forall (col_ok A (nrows m)) cols.
Proof.
  intros [W1 W2 W3 W4 W5 W6 W7].
  destruct (cptr m) as [ | a ps] eqn:Ep; [discriminate | ].
  injection W2 as ->. cbn [length] in W1.
  assert (Hn : ncols m = length ps) by lia. rewrite Hn in W4.
  set (l := combine (rind m) (vals m)).
  assert (Ll : length l = length (vals m)) by (unfold l; rewrite combine_length; lia).
  destruct (cut_ok ps 0 l W3) as (C & P & N); [now rewrite Ll, W4 | ].
  assert (HR : repr A m (cut (0 :: ps) l)).
  { constructor.
    - rewrite C. unfold l. now rewrite combine_snd.
    - rewrite C. unfold l. now rewrite combine_fst.
    - now rewrite P, Ep.
    - now rewrite N. }
  exists (cut (0 :: ps) l). split; [exact HR | ].
  apply Forall_forall. intros k Hk. apply In_nth_error in Hk. destruct Hk as (c & Hc).
  assert (Lc : c < length (cut (0 :: ps) l)) by (apply nth_error_Some; congruence).
  destruct (concat_split A _ c k Hc) as (post & E).
  assert (S1 := col_start A m _ c HR ltac:(lia)).
  assert (S2 := col_start A m _ (c + 1) HR ltac:(lia)).
  rewrite (firstn_S_concat A _ c k Hc), app_length in S2.
  assert (Rn : forall i, i < length k ->
    nth_error (rind m) (length (concat (firstn c (cut (0 :: ps) l))) + i) = nth_error (map fst k) i).
  { intros i Hi. rewrite (r_rind _ _ _ HR), E, !map_app.
    rewrite nth_error_app2 by (rewrite map_length; lia). rewrite map_length.
    rewrite nth_error_app1 by (rewrite map_length; lia). f_equal. lia. }
  rewrite Ep in S1, S2. split.
  - apply sorted_from_nth. intros i j x y Hij Hi Hj.
    assert (Hjl : j < length k) by (rewrite <- (map_length fst); apply nth_error_Some; congruence).
    rewrite <- Rn in Hi, Hj by lia.
    eapply (W7 c); [exact S1 | exact S2 | | | | exact Hi | exact Hj]; lia.
  - apply Forall_forall. intros e He. apply In_nth_error in He. destruct He as (i & Hi).
    assert (Hil : i < length k) by (apply nth_error_Some; congruence).
    apply (W6 (length (concat (firstn c (cut (0 :: ps) l))) + i)).
    rewrite Rn by exact Hil. now rewrite nth_error_map, Hi.
Qed.

Lemma dense_is_ext m f g : dense_is A m f ->
  (forall r c, r < nrows m -> c < ncols m -> f r c = g r c) -> dense_is A m g.
Proof.
  intros ((d & E & L & P) & V) H. split.
  - exists d. split; [exact E | ]. split; [exact L | ]. intros r c Hr Hc.
    rewrite <- H by assumption. now apply P.
  - intros r c Hr Hc. rewrite <- H by assumption. now apply V.
Qed.

Lemma dense_is_unique m f g r c : dense_is A m f -> dense_is A m g ->
  r < nrows m -> c < ncols m -> f r c = g r c.
Proof. intros (_ & V) (_ & W) Hr Hc. specialize (V r c Hr Hc). specialize (W r c Hr Hc). congruence. Qed.

(** ** From a dense matrix. *)
Variables (M : mat A) (tol : num).
Notation entry r c := (nth c (nth r M []) zero).
Definition kept (r c : nat) : bool := lt A (absv A tol) (absv A (entry r c)).
Definition dcol (rows c : nat) : col :=
  flat_map (fun r => if kept r c then [(r, entry r c)] else []) (seq 0 rows).

Lemma dcol_S rows c : dcol (S rows) c =
  dcol rows c ++ (if kept rows c then [(rows, entry rows c)] else []).
Proof. unfold dcol. rewrite seq_S, flat_map_app. cbn [flat_map Nat.add]. now rewrite app_nil_r. Qed.

Lemma inner_ok c rows va ri :
  fold_left (fun '(va, ri) r =>
      let x := entry r c in
      if lt A (absv A tol) (absv A x) then (va ++ [x], ri ++ [r]) else (va, ri))
    (seq 0 rows) (va, ri) =
  (va ++ map snd (dcol rows c), ri ++ map fst (dcol rows c)).
Proof.
  induction rows as [ | n IH].
  - cbn. now rewrite !app_nil_r.
  - rewrite seq_S, fold_left_app, IH, dcol_S. cbn [Nat.add fold_left]. cbv zeta. unfold kept.
    destruct (lt A (absv A tol) (absv A (entry n c))).
    + rewrite !map_app, !app_assoc. reflexivity.
    + now rewrite !app_nil_r.
Qed.

Lemma outer_ok rows n :
  fold_left (fun '(va, ri, cp) c =>
      let '(va, ri) :=
        fold_left (fun '(va, ri) r =>
            let x := entry r c in
            if lt A (absv A tol) (absv A x) then (va ++ [x], ri ++ [r]) else (va, ri))
          (seq 0 rows) (va, ri) in
      (va, ri, cp ++ [length va]))
    (seq 0 n) ([], [], [0]) =
  (map snd (concat (map (dcol rows) (seq 0 n))),
   map fst (concat (map (dcol rows) (seq 0 n))),
   psums 0 (map (@length _) (map (dcol rows) (seq 0 n)))).
Proof.
  induction n as [ | n IH]; [reflexivity | ].
  rewrite seq_S, fold_left_app, IH. cbn [Nat.add fold_left]. rewrite inner_ok.
  rewrite !map_app, !concat_app, !map_app. cbn [map concat]. rewrite !app_nil_r.
  f_equal. rewrite psums_app. f_equal. cbn [psums].
  rewrite app_length, !map_length, concat_length. cbn [Nat.add]. reflexivity.
Qed.

Lemma from_dense_ok rows cols m :
  exists m', from_dense_tol A rows cols M tol m = Ok m' /\
    repr A m' (map (dcol rows) (seq 0 cols)) /\ nrows m' = rows /\ ncols m' = cols /\ diag m' = diag m.
Proof.
  unfold from_dense_tol. cbv zeta.
  set (F := fold_left _ (seq 0 cols) _).
  assert (E : F = (map snd (concat (map (dcol rows) (seq 0 cols))),
                   map fst (concat (map (dcol rows) (seq 0 cols))),
                   psums 0 (map (@length _) (map (dcol rows) (seq 0 cols))))).
  { unfold F. apply outer_ok. }
  rewrite E. clear E F. set (m' := Ccm rows cols _ _ _ (diag m)).
  assert (HR : repr A m' (map (dcol rows) (seq 0 cols))).
  { constructor; try reflexivity. now rewrite map_length, seq_length. }
  exists m'. rewrite (repr_check A _ _ HR). auto.
Qed.

Lemma dcol_bounds rows c : Forall (fun e => fst e < rows) (dcol rows c).
Proof.
  apply Forall_forall. intros e He. unfold dcol in He. apply in_flat_map in He.
  destruct He as (r & Hr & He). apply in_seq in Hr.
  destruct (kept r c); [ | contradiction]. destruct He as [<- | []]. cbn [fst]. lia.
Qed.

Lemma sorted_snoc l (x : nat) : StronglySorted Peano.lt l -> Forall (fun y => y < x) l ->
  StronglySorted Peano.lt (l ++ [x]).
Proof.
  induction 1 as [ | y l Srt IH F]; intro B; cbn [app]; [repeat constructor | ].
  inversion_clear B. constructor; [now apply IH | ].
  apply Forall_app. split; [exact F | ]. constructor; [assumption | constructor].
Qed.

Lemma dcol_ok rows c : col_ok A rows (dcol rows c).
Proof.
  split; [ | apply dcol_bounds]. induction rows as [ | n IH]; [constructor | ].
  rewrite dcol_S. destruct (kept n c).
  - rewrite map_app. apply sorted_snoc; [exact IH | ].
    assert (B := dcol_bounds n c). rewrite Forall_forall in *. intros y Hy.
    apply in_map_iff in Hy. destruct Hy as (e & <- & He). now apply B.
  - now rewrite app_nil_r.
Qed.

Lemma dcol_lookup rows c r : r < rows ->
  lookup A (dcol rows c) r = if kept r c then entry r c else zero.
Proof.
  unfold lookup. induction rows as [ | n IH]; intro H; [lia | ].
  rewrite dcol_S, find_app. destruct (Nat.eq_dec r n) as [-> | Nr].
  - rewrite find_never.
    + destruct (kept n c); [ | reflexivity]. cbn [find fst]. now rewrite Nat.eqb_refl.
    + intros j x Hx. apply Nat.eqb_neq. assert (B := dcol_bounds n c).
      rewrite Forall_forall in B. specialize (B x (nth_error_In _ _ Hx)). lia.
  - specialize (IH ltac:(lia)).
    destruct (find (fun e => Nat.eqb (fst e) r) (dcol n c)) as [e | ] eqn:E; [exact IH | ].
    rewrite <- IH. destruct (kept n c); [ | reflexivity]. cbn [find fst].
    destruct (Nat.eqb_spec n r); [lia | reflexivity].
Qed.

End Ops.
