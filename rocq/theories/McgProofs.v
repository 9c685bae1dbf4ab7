From Coq Require Import List Arith Bool Lia.
From Verif Require Import McgModel McgSpec.
Import ListNotations.

Lemma same_eq : forall k l, same k l = true <-> k = l.
Proof.
  intros [a b] [c d]. unfold same; simpl. rewrite andb_true_iff, !Nat.eqb_eq. split.
  - intros [-> ->]. reflexivity.
  - intros E. injection E as -> ->. split; reflexivity.
Qed.
Lemma same_refl : forall k, same k k = true.
Proof. intros k; apply same_eq; reflexivity. Qed.

Lemma common_sym : forall a b, common a b = common b a.
Proof. induction a as [|x a IH]; intros [|y b]; simpl; try reflexivity. rewrite IH, andb_comm. reflexivity. Qed.

Definition contrib (p : entry * entry) : list ((nat * nat) * (nat * (nat * nat))) :=
  let c := common (corners (fst p)) (corners (snd p)) in
  if c =? 0 then [] else [(key p, (c, ids p))].
Definition of_key (k : nat * nat) (l : list ((nat * nat) * (nat * (nat * nat)))) := map snd (filter (fun x => same k (fst x)) l).

Lemma of_key_app : forall k a b, of_key k (a ++ b) = of_key k a ++ of_key k b.
Proof. intros k a b; unfold of_key. rewrite filter_app, map_app. reflexivity. Qed.

Definition join (o : option (nat * list (nat * nat))) (l : list (nat * (nat * nat))) : option (nat * list (nat * nat)) :=
  match l with
  | [] => o
  | _ => match o with
         | None => Some (total l, map snd l)
         | Some (w, is) => Some (w + total l, is ++ map snd l)
         end
  end.

Lemma join_app : forall o a b, join (join o a) b = join o (a ++ b).
Proof.
  assert (TA : forall a b, total (a ++ b) = total a + total b).
  { induction a as [|[w i] a IH]; intros b; simpl; [reflexivity | rewrite IH; lia]. }
  intros o [|x a] b; [reflexivity |]. destruct b as [|y b]; [rewrite app_nil_r; reflexivity |].
  cbn [join app]. destruct o as [[w is] |]; cbn [join].
  - change (x :: a ++ y :: b) with ((x :: a) ++ (y :: b)). rewrite TA, map_app, <- app_assoc, Nat.add_assoc. reflexivity.
  - change (x :: a ++ y :: b) with ((x :: a) ++ (y :: b)). rewrite TA, map_app. reflexivity.
Qed.

Lemma lookup_upsert : forall k l w i g, lookup k (upsert l w i g) = if same k l then join (lookup k g) [(w, i)] else lookup k g.
Proof.
  intros k l w i g; induction g as [|[m [w0 is]] g IH]; simpl.
  - destruct (same k l); [rewrite Nat.add_0_r; reflexivity | reflexivity].
  - destruct (same l m) eqn:E.
    + apply same_eq in E; subst m. simpl. destruct (same k l) eqn:F; [| reflexivity]. simpl. rewrite Nat.add_0_r. reflexivity.
    + simpl. destruct (same k m) eqn:F; [| exact IH]. apply same_eq in F; subst m.
      destruct (same k l) eqn:H; [| reflexivity]. apply same_eq in H; subst l. rewrite same_refl in E. discriminate E.
Qed.

Lemma lookup_pairs : forall k ps g, lookup k (fold_left add_pair ps g) = join (lookup k g) (of_key k (flat_map contrib ps)).
Proof.
  intros k ps; induction ps as [|p ps IH]; intros g; [reflexivity |]. simpl fold_left. rewrite IH. simpl flat_map.
  unfold of_key. rewrite filter_app, map_app, <- join_app. f_equal. unfold add_pair, contrib.
  destruct (_ =? 0); [reflexivity |]. rewrite lookup_upsert. simpl. destruct (same k (key p)); reflexivity.
Qed.

Lemma of_key_map : forall a b x r, cam x <> a -> cam x <> b -> of_key (a, b) (flat_map contrib (map (fun y => (x, y)) r)) = [].
Proof.
  intros a b x r A B; induction r as [|y r IH]; [reflexivity |]. simpl. unfold of_key in *. rewrite filter_app, map_app, IH, app_nil_r.
  unfold contrib; cbn [fst snd]. destruct (_ =? 0); [reflexivity |]. simpl. destruct (same (a, b) (key (x, y))) eqn:E; [| reflexivity].
  apply same_eq in E. unfold key in E. cbn [fst snd] in E. destruct (cam x <? cam y); injection E as E1 E2; congruence.
Qed.

Lemma of_key_absent : forall a b r, (~ In a (map fst r) \/ ~ In b (map fst r)) -> of_key (a, b) (flat_map contrib (pairs r)) = [].
Proof.
  intros a b r H.
  assert (P : forall p, In p (pairs r) -> In (cam (fst p)) (map fst r) /\ In (cam (snd p)) (map fst r)).
  { clear. induction r as [|x r IH]; intros p I; [destruct I |]. simpl in I. apply in_app_or in I. destruct I as [I | I].
    - apply in_map_iff in I. destruct I as [y [<- Y]]. split; [left; reflexivity | right; apply (in_map fst); exact Y].
    - destruct (IH p I) as [A B]. split; right; assumption. }
  revert P. generalize (pairs r) as ps. intros ps P. induction ps as [|p ps IH]; [reflexivity |]. simpl. unfold of_key in *.
  rewrite filter_app, map_app, IH, app_nil_r by (intros q Q; apply P; right; exact Q).
  unfold contrib. destruct (_ =? 0); [reflexivity |]. simpl. destruct (same (a, b) (key p)) eqn:E; [| reflexivity].
  apply same_eq in E. destruct (P p (or_introl eq_refl)) as [A B]. unfold key in E.
  destruct (cam (fst p) <? cam (snd p)); injection E as -> ->; destruct H; contradiction.
Qed.

Lemma seen_absent : forall a v, ~ In a (map fst v) -> seen a v = None.
Proof.
  intros a v; induction v as [|[c x] v IH]; intros N; [reflexivity |]. simpl in *.
  destruct (Nat.eqb_spec c a) as [-> | _]; [contradiction N; left; reflexivity | apply IH; tauto].
Qed.

Lemma of_key_low : forall a b i ca r, a < b -> NoDup (map fst r) ->
  of_key (a, b) (flat_map contrib (map (fun y => ((a, (i, ca)), y)) r)) =
  match seen b r with Some (j, cb) => if common ca cb =? 0 then [] else [(common ca cb, (i, j))] | None => [] end.
Proof.
  intros a b i ca r L; induction r as [|[c [j cb]] r IH]; intros N; [reflexivity |]. simpl in N. inversion N as [|x y N1 N2]; subst.
  specialize (IH N2). simpl. unfold of_key in *. rewrite filter_app, map_app, IH.
  unfold contrib, corners, key, ids, cam, oid; cbn [fst snd].
  destruct (Nat.eqb_spec c b) as [-> | C].
  - rewrite (seen_absent b r N1), app_nil_r. destruct (common ca cb =? 0); [reflexivity |]. simpl.
    destruct (Nat.ltb_spec a b) as [_ | X]; [| lia]. rewrite same_refl. reflexivity.
  - destruct (common ca cb =? 0); [reflexivity |]. simpl.
    assert (E : same (a, b) (if a <? c then (a, c) else (c, a)) = false).
    { destruct (same _ _) eqn:E; [| reflexivity]. apply same_eq in E. destruct (a <? c); injection E; intros; lia. }
    rewrite E. reflexivity.
Qed.

Lemma of_key_high : forall a b j cb r, a < b -> NoDup (map fst r) ->
  of_key (a, b) (flat_map contrib (map (fun y => ((b, (j, cb)), y)) r)) =
  match seen a r with Some (i, ca) => if common ca cb =? 0 then [] else [(common ca cb, (i, j))] | None => [] end.
Proof.
  intros a b j cb r L; induction r as [|[c [i ca]] r IH]; intros N; [reflexivity |]. simpl in N. inversion N as [|x y N1 N2]; subst.
  specialize (IH N2). simpl. unfold of_key in *. rewrite filter_app, map_app, IH.
  unfold contrib, corners, key, ids, cam, oid; cbn [fst snd]. rewrite (common_sym cb ca).
  destruct (Nat.eqb_spec c a) as [-> | C].
  - rewrite (seen_absent a r N1), app_nil_r. destruct (common ca cb =? 0); [reflexivity |]. simpl.
    destruct (Nat.ltb_spec b a) as [X | _]; [lia |]. rewrite same_refl. reflexivity.
  - destruct (common ca cb =? 0); [reflexivity |]. simpl.
    assert (E : same (a, b) (if b <? c then (b, c) else (c, b)) = false).
    { destruct (same _ _) eqn:E; [| reflexivity]. apply same_eq in E. destruct (b <? c); injection E; intros; lia. }
    rewrite E. reflexivity.
Qed.

Lemma of_key_view : forall a b v, a < b -> NoDup (map fst v) -> of_key (a, b) (flat_map contrib (pairs v)) = shared1 a b v.
Proof.
  intros a b v L; induction v as [|[c [i cc]] v IH]; intros N; [reflexivity |]. simpl in N. inversion N as [|x y N1 N2]; subst.
  specialize (IH N2). simpl pairs. rewrite flat_map_app, of_key_app.
  unfold shared1 in *; simpl. destruct (Nat.eqb_spec c a) as [-> | A].
  - destruct (Nat.eqb_spec a b) as [X | _]; [lia |].
    etransitivity; [exact (f_equal2 (@app _) (of_key_low a b i cc v L N2) (of_key_absent a b v (or_introl N1))) |].
    rewrite app_nil_r. reflexivity.
  - destruct (Nat.eqb_spec c b) as [-> | B].
    + etransitivity; [exact (f_equal2 (@app _) (of_key_high a b i cc v L N2) (of_key_absent a b v (or_intror N1))) |].
      rewrite app_nil_r. reflexivity.
    + exact (f_equal2 (@app _) (of_key_map a b (c, (i, cc)) v A B) IH).
Qed.

Lemma build_lookup : forall a b vs, a < b -> once vs -> lookup (a, b) (build vs) = join None (shared a b vs).
Proof.
  intros a b vs L O. unfold build, shared. assert (G : forall g, lookup (a, b) (fold_left (fun g v => fold_left add_pair (pairs v) g) vs g) =
    join (lookup (a, b) g) (flat_map (shared1 a b) vs)).
  { revert O. induction vs as [|v vs IH]; intros O g; [reflexivity |]. simpl fold_left. rewrite IH by (intros u U; apply O; right; exact U).
    rewrite lookup_pairs, of_key_view, join_app by (try exact L; apply O; left; reflexivity). reflexivity. }
  apply (G []).
Qed.

Lemma last_next : forall (path : list nat) t s, last (t :: path) s = last path t.
Proof. induction path as [|u path IH]; intros t s; [reflexivity |]. exact (eq_trans (IH u s) (eq_sym (IH u t))). Qed.

Section Chains.
  Context {T : Type} (mul : T -> T -> T) (inv : T -> T) (one : T).
  Hypothesis G : group mul inv one.

  Lemma inv_unique : forall a b, mul a b = one -> b = inv a.
  Proof.
    destruct G as [A [L [R [IL IR]]]]. intros a b H.
    rewrite <- (L b), <- (IL a), <- A, H, R. reflexivity.
  Qed.

  Lemma inv_quot : forall p q, inv (mul p (inv q)) = mul q (inv p).
  Proof.
    pose proof inv_unique as U. destruct G as [A [L [R [IL IR]]]]. intros p q. symmetry. apply U.
    rewrite <- A, (A (inv q) q), IL, L. apply IR.
  Qed.

  Lemma chain_pose : forall (P : nat -> T) base path s acc x,
    (forall a b, a < b -> base a b = mul (P b) (inv (P a))) ->
    (forall i a b, nth_error (s :: path) i = Some a -> nth_error (s :: path) (S i) = Some b -> a <> b) ->
    acc = mul (P s) x -> chain mul inv base acc (s :: path) = mul (P (last path s)) x.
  Proof.
    pose proof inv_quot as Q. destruct G as [A [L [R [IL IR]]]].
    intros P base path; induction path as [|t path IH]; intros s acc x B N E; [exact E |].
    change (chain mul inv base acc (s :: t :: path)) with (chain mul inv base (mul (directed inv base s t) acc) (t :: path)).
    rewrite (IH t _ x B); [rewrite last_next; reflexivity | |].
    - intros i a b X Y. exact (N (S i) a b X Y).
    - assert (D : directed inv base s t = mul (P t) (inv (P s))).
      { unfold directed. specialize (N 0 s t eq_refl eq_refl). destruct (Nat.ltb_spec s t) as [H | H]; [apply B; exact H |].
        rewrite B by lia. apply Q. }
      rewrite D, E, A, <- (A (P t) (inv (P s)) (P s)), IL, R. reflexivity.
  Qed.

  Lemma target_pose_spec : forall (P : nat -> T) base n W,
    (forall i, i < n -> nth_error base i = Some (mul (P (S i)) (inv (P i)))) ->
    target_pose mul one (mul W (inv (P n))) n base = mul W (inv (P 0)).
  Proof.
    destruct G as [A [L [R [IL IR]]]]. intros P base n W B. unfold target_pose.
    assert (F : forall m, m <= n -> fold_left (fun acc b => mul b acc) (firstn m base) one = mul (P m) (inv (P 0))).
    { induction m as [|m IH]; intros M; [simpl; symmetry; apply IR |].
      specialize (IH ltac:(lia)). pose proof (B m ltac:(lia)) as Bm.
      assert (S1 : firstn (S m) base = firstn m base ++ [mul (P (S m)) (inv (P m))]).
      { clear -Bm. revert Bm. generalize (mul (P (S m)) (inv (P m))) as x. intros x.
        revert m; induction base as [|y base IH]; intros m E; [destruct m; discriminate E |].
        destruct m as [|m]; [injection E as ->; reflexivity |]. simpl. f_equal. apply IH. exact E. }
      rewrite S1, fold_left_app, IH. simpl. rewrite A, <- (A (P (S m)) (inv (P m)) (P m)), IL, R. reflexivity. }
    rewrite (F n (le_n n)), A, <- (A W (inv (P n)) (P n)), IL, R. reflexivity.
  Qed.
End Chains.
