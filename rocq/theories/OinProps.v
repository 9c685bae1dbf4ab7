(** * C122: the first optimizer sets up and moves every active variable *)
From Coq Require Import Reals List Arith Bool Lia Lra.
From Verif Require Import OinModel OinSpec OinProofs.
Import ListNotations.

(** Setting up is refused exactly when no variable is kept; otherwise the
    variables are the kept ones and then the eliminated ones, each once, the
    block index of each is its place, and inactive ones keep theirs. *)
Theorem C122_order : forall schur errors p old,
  match initialize schur errors p old with
  | None => forall v, In v p -> is_kept schur v = false
  | Some s =>
      order s = positions (is_kept schur) p ++ positions (is_gone schur) p /\
      start s = length (positions (is_kept schur) p) /\ start s <> 0 /\ NoDup (order s) /\
      (forall i, In i (order s) <-> exists v, nth_error p i = Some v /\ active v = true) /\
      (forall k i, nth_error (order s) k = Some i -> index s i = k) /\
      (forall i, ~ In i (order s) -> index s i = old i)
  end.
Proof.
  intros schur errors p old. unfold initialize. rewrite sort_out_spec, !map_add0. cbn [app].
  assert (K : forall v, In v p -> is_kept schur v = true -> positions (is_kept schur) p <> []).
  { intros v I F E. apply In_nth_error in I. destruct I as [i I].
    assert (X : In i (positions (is_kept schur) p)) by (apply positions_in; exists v; split; assumption).
    rewrite E in X; destruct X. }
  destruct (positions (is_kept schur) p) as [|k0 ks] eqn:E.
  - intros v I. destruct (is_kept schur v) eqn:F; [| reflexivity]. exfalso; exact (K v I F eq_refl).
  - rewrite <- E. cbn [order start index]. clear K.
    assert (N : NoDup (positions (is_kept schur) p ++ positions (is_gone schur) p)) by apply order_nodup.
    split; [reflexivity |]. split; [reflexivity |]. split; [rewrite E; discriminate |]. split; [exact N |]. split; [| split].
    + intros i. rewrite in_app_iff, !positions_in. unfold is_kept, is_gone. split.
      * intros [[v [A B]] | [v [A B]]]; exists v; (split; [exact A |]); apply andb_prop in B; apply B.
      * intros [v [A B]]. destruct (marginalized v && schur) eqn:M; [right | left]; exists v;
          (split; [exact A |]); rewrite B, M; reflexivity.
    + intros k i I. exact (index_order _ _ old k i N I).
    + intros i I. rewrite !number_out; [reflexivity | |]; intros J; apply I; apply in_or_app; [left | right]; exact J.
Qed.
Print Assumptions C122_order.

(** The terms that make up the cost: those of active variables, each once. *)
Theorem C122_terms : forall schur errors p old s, initialize schur errors p old = Some s ->
  NoDup (terms s) /\
  forall t, In t (terms s) <->
    exists i v, nth_error p i = Some v /\ active v = true /\ In t (errors i).
Proof.
  intros schur errors p old s E. pose proof (C122_order schur errors p old) as O. rewrite E in O.
  destruct O as [_ [_ [_ [_ [O _]]]]].
  assert (T : terms s = collect errors (order s) []).
  { unfold initialize in E. destruct (sort_out schur 0 p [] []) as [kept gone].
    destruct kept; [discriminate E |]. injection E as <-. reflexivity. }
  destruct (collect_ok errors (order s) [] (NoDup_nil _)) as [A B]. rewrite T. split; [exact A |].
  intros t. rewrite B. split.
  - intros [[] | [i [I J]]]. apply O in I. destruct I as [v [V W]].
    exists i, v. split; [exact V | split; [exact W | exact J]].
  - intros [i [v [V [W J]]]]. right. exists i. split; [| exact J]. apply O. exists v; split; assumption.
Qed.
Print Assumptions C122_terms.

(** The rows of a block start where the blocks before it end. *)
Theorem C122_rows : forall schur errors p old s k, initialize schur errors p old = Some s ->
  (k <= length (order s))%nat ->
  row_base s k = list_sum (map (dim_of p) (firstn k (order s))).
Proof.
  intros schur errors p old s k E K.
  assert (T : ends s = partial_sum 0 (map (dim_of p) (order s))).
  { unfold initialize in E. destruct (sort_out schur 0 p [] []) as [kept gone].
    destruct kept; [discriminate E |]. injection E as <-. reflexivity. }
  destruct k as [|k]; [reflexivity |]. unfold row_base. rewrite T, partial_sum_nth by (rewrite map_length; lia).
  rewrite firstn_map. reflexivity.
Qed.
Print Assumptions C122_rows.

(** A step moves each kept variable by its own piece of the step, the pieces
    following each other in the order of the blocks, and each eliminated one by
    its back-substituted step, all times the scaling of the variable. *)
Theorem C122_moves : forall schur errors p old s dx ds, initialize schur errors p old = Some s ->
  length dx = row_base s (start s) -> length ds = length (positions (is_gone schur) p) ->
  exists ps, pieces p (positions (is_kept schur) p) dx ps /\
    (forall qs, pieces p (positions (is_kept schur) p) dx qs -> qs = ps) /\
    fst (apply_update p s dx ds) =
      map (scaled p) (filter has_entries (combine (positions (is_kept schur) p) ps)) ++
      map (scaled p) (combine (positions (is_gone schur) p) ds).
Proof.
  intros schur errors p old s dx ds E L D. pose proof (C122_order schur errors p old) as O. rewrite E in O.
  destruct O as [O [S _]].
  rewrite (C122_rows schur errors p old s (start s) E) in L by (rewrite S, O, app_length; lia).
  assert (F : firstn (start s) (order s) = positions (is_kept schur) p).
  { rewrite S, O, firstn_app, Nat.sub_diag, firstn_all. apply app_nil_r. }
  assert (G : skipn (start s) (order s) = positions (is_gone schur) p).
  { rewrite S, O, skipn_app, Nat.sub_diag, skipn_all. reflexivity. }
  rewrite F in L. destruct (pieces_exist p _ dx L) as [ps [P U]].
  exists ps. split; [exact P |]. split; [exact U |].
  unfold apply_update. rewrite F, G. cbn [fst]. f_equal.
  exact (move_kept_spec p _ [] dx ps P).
Qed.
Print Assumptions C122_moves.

(** The size of the step that is reported is the largest change of a variable
    when the kept variables have scaling one. *)
Theorem C122_size : forall schur errors p old s dx ds, initialize schur errors p old = Some s ->
  length dx = row_base s (start s) -> length ds = length (positions (is_gone schur) p) ->
  dx <> [] -> Forall (fun v => v <> []) ds ->
  (forall i, In i (positions (is_kept schur) p) -> scaling_of p i = 1%R) ->
  largest (snd (apply_update p s dx ds)) (fst (apply_update p s dx ds)).
Proof.
  intros schur errors p old s dx ds E L D NX ND SC.
  destruct (C122_moves schur errors p old s dx ds E L D) as [ps [P [_ M]]].
  assert (M1 : map (scaled p) (filter has_entries (combine (positions (is_kept schur) p) ps)) =
               filter has_entries (combine (positions (is_kept schur) p) ps)).
  { rewrite <- map_id. apply map_ext_in. intros [i t] I. apply scaled_one. apply SC.
    apply filter_In in I. destruct I as [I _]. exact (in_combine_l _ _ _ _ I). }
  rewrite M1 in M.
  pose proof (C122_order schur errors p old) as O. rewrite E in O. destruct O as [O [S _]].
  assert (G : skipn (start s) (order s) = positions (is_gone schur) p).
  { rewrite S, O, skipn_app, Nat.sub_diag, skipn_all. reflexivity. }
  assert (V : snd (apply_update p s dx ds) =
    fold_left (fun m e => Rmax m (max_abs (snd e))) (map (scaled p) (combine (positions (is_gone schur) p) ds)) (max_abs dx)).
  { unfold apply_update. rewrite G. reflexivity. }
  rewrite M, V.
  destruct (fold_max (map (scaled p) (combine (positions (is_gone schur) p) ds)) (max_abs dx)) as [A [B C]].
  split.
  - intros i t x I J. apply in_app_or in I. destruct I as [I | I].
    + apply Rle_trans with (2 := A). apply max_abs_le.
      apply (pieces_entry p _ dx ps x P). exists i, t; split; assumption.
    + apply Rle_trans with (2 := B _ I). apply max_abs_le. exact J.
  - destruct C as [C | [[i t] [I C]]].
    + destruct (max_abs_at dx NX) as [x [X Q]]. apply (pieces_entry p _ dx ps x P) in X.
      destruct X as [i [t [I J]]]. exists i, t, x. split; [apply in_or_app; left; exact I |].
      split; [exact J | rewrite C; exact Q].
    + assert (NT : t <> []).
      { apply in_map_iff in I. destruct I as [[j u] [Q I]]. unfold scaled in Q; simpl in Q. injection Q as Q1 Q2.
        apply in_combine_r in I. rewrite Forall_forall in ND. specialize (ND u I).
        destruct u; [contradiction |]. subst t. discriminate. }
      destruct (max_abs_at t NT) as [x [X Q]]. exists i, t, x.
      split; [apply in_or_app; right; exact I |]. split; [exact X | rewrite C; exact Q].
Qed.
Print Assumptions C122_size.

(** With another scaling it is not: kept variables enter unscaled. *)
Theorem C122_size_refuted : exists p s dx,
  initialize true (fun _ => []) p (fun _ => 0%nat) = Some s /\
  length dx = row_base s (start s) /\ dx <> [] /\
  ~ largest (snd (apply_update p s dx [])) (fst (apply_update p s dx [])).
Proof.
  exists [mkDv true false 1 10%R]. eexists. exists [1%R].
  split; [reflexivity |]. split; [reflexivity |]. split; [discriminate |].
  intros [A _]. specialize (A 0%nat [(10 * 1)%R] (10 * 1)%R (or_introl eq_refl) (or_introl eq_refl)).
  revert A. unfold apply_update. cbn. unfold Rmax.
  rewrite !Rabs_pos_eq by lra. destruct (Rle_dec 1 0); lra.
Qed.
Print Assumptions C122_size_refuted.

(** Five variables: inactive, marginalized, kept, without entries, marginalized. *)
Example C122_ex :
  let p := [mkDv false false 3 1%R; mkDv true true 1 2%R; mkDv true false 2 1%R;
            mkDv true false 0 1%R; mkDv true true 2 1%R] in
  let errors := fun i => [i; 7]%nat in
  exists s, initialize true errors p (fun _ => 9%nat) = Some s /\
    order s = [2; 3; 1; 4]%nat /\ start s = 2%nat /\ map (index s) [0; 1; 2; 3; 4]%nat = [9; 2; 0; 1; 3]%nat /\
    ends s = [2; 2; 3; 5]%nat /\ terms s = [2; 7; 3; 1; 4]%nat /\
    length [5%R; 6%R] = row_base s (start s) /\
    length [[1%R]; [2%R; 3%R]] = length (positions (is_gone true) p) /\
    map fst (fst (apply_update p s [5%R; 6%R] [[1%R]; [2%R; 3%R]])) = [2; 1; 4]%nat /\
    forall i, In i (positions (is_kept true) p) -> scaling_of p i = 1%R.
Proof.
  eexists. split; [reflexivity |]. split; [reflexivity |]. split; [reflexivity |]. split; [reflexivity |].
  split; [reflexivity |]. split; [reflexivity |]. split; [reflexivity |]. split; [reflexivity |].
  split; [reflexivity |]. intros i [<- | [<- | []]]; reflexivity.
Qed.
