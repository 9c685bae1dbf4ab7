(** * Proofs about setting up and moving *)
From Coq Require Import Reals List Arith Bool Lia Lra.
From Verif Require Import OinModel OinSpec.
Import ListNotations.

Lemma wanted_shift : forall f v p i, wanted f (v :: p) (S i) = wanted f p i.
Proof. reflexivity. Qed.

Lemma positions_cons : forall f v p,
  positions f (v :: p) = (if f v then [0] else []) ++ map S (positions f p).
Proof.
  intros f v p. unfold positions. simpl length. rewrite <- cons_seq, <- seq_shift. simpl.
  unfold wanted at 1; simpl.
  assert (E : forall l, filter (wanted f (v :: p)) (map S l) = map S (filter (wanted f p) l)).
  { induction l as [|x l IH]; [reflexivity |]. simpl. rewrite wanted_shift.
    destruct (wanted f p x); simpl; rewrite IH; reflexivity. }
  rewrite E. destruct (f v); reflexivity.
Qed.

Lemma sort_out_spec : forall schur p i kept gone,
  sort_out schur i p kept gone =
  (kept ++ map (Nat.add i) (positions (is_kept schur) p),
   gone ++ map (Nat.add i) (positions (is_gone schur) p)).
Proof.
  intros schur p; induction p as [|v p IH]; intros i kept gone.
  - simpl. rewrite !app_nil_r. reflexivity.
  - simpl. rewrite !positions_cons, !map_app, !map_map.
    assert (E : forall l, map (fun x => i + S x) l = map (Nat.add (S i)) l)
      by (intros l; apply map_ext; intros x; lia).
    rewrite !E. unfold is_kept at 1, is_gone at 1.
    destruct (active v); simpl.
    + destruct (marginalized v && schur); simpl; rewrite IH, <- ?app_assoc; simpl;
        rewrite Nat.add_0_r; reflexivity.
    + apply IH.
Qed.

Lemma map_add0 : forall l, map (Nat.add 0) l = l.
Proof. intros l; rewrite <- (map_id l) at 2; apply map_ext; reflexivity. Qed.

Lemma positions_nodup : forall f p, NoDup (positions f p).
Proof. intros f p; unfold positions; apply NoDup_filter; apply seq_NoDup. Qed.

Lemma positions_in : forall f p i, In i (positions f p) <-> exists v, nth_error p i = Some v /\ f v = true.
Proof.
  intros f p i; unfold positions; rewrite filter_In, in_seq; unfold wanted; split.
  - intros [_ W]. destruct (nth_error p i) as [v |]; [exists v; split; [reflexivity | exact W] | discriminate W].
  - intros [v [E F]]. rewrite E. split; [| exact F].
    assert (nth_error p i <> None) as N by (rewrite E; discriminate). apply nth_error_Some in N. lia.
Qed.

Lemma number_out : forall l k index j, ~ In j l -> number k l index j = index j.
Proof.
  induction l as [|i l IH]; intros k index j N; simpl; [reflexivity |].
  rewrite IH by (intros I; apply N; right; exact I).
  destruct (Nat.eqb_spec j i) as [-> | _]; [exfalso; apply N; left; reflexivity | reflexivity].
Qed.

Lemma number_in : forall l k index m i, NoDup l -> nth_error l m = Some i -> number k l index i = k + m.
Proof.
  induction l as [|x l IH]; intros k index m i N E; [destruct m; discriminate E |].
  inversion N as [|? ? N1 N2]; subst. destruct m as [|m]; simpl in E |- *.
  - injection E as E; subst x. rewrite number_out by exact N1. rewrite Nat.eqb_refl. lia.
  - rewrite (IH (S k) _ m i N2 E). lia.
Qed.

Lemma kept_gone_disjoint : forall schur p i,
  In i (positions (is_kept schur) p) -> ~ In i (positions (is_gone schur) p).
Proof.
  intros schur p i K G. apply positions_in in K, G. destruct K as [v [E F]], G as [w [E' F']].
  rewrite E in E'; injection E' as E'; subst w. unfold is_kept, is_gone in *.
  destruct (active v), (marginalized v && schur); discriminate.
Qed.

Lemma order_nodup : forall schur p, NoDup (positions (is_kept schur) p ++ positions (is_gone schur) p).
Proof.
  intros schur p.
  assert (G : forall a b : list nat, NoDup a -> NoDup b -> (forall x, In x a -> ~ In x b) -> NoDup (a ++ b)).
  { induction a as [|x a IH]; intros b A B D; simpl; [exact B |].
    inversion A as [|? ? A1 A2]; subst. constructor.
    - intros I. apply in_app_or in I. destruct I as [I | I]; [contradiction | exact (D x (or_introl eq_refl) I)].
    - apply IH; [exact A2 | exact B | intros y Y; apply D; right; exact Y]. }
  apply G; [apply positions_nodup | apply positions_nodup | apply kept_gone_disjoint].
Qed.

Lemma index_order : forall a b old m i, NoDup (a ++ b) -> nth_error (a ++ b) m = Some i ->
  number (length a) b (number 0 a old) i = m.
Proof.
  intros a b old m i N E. destruct (Nat.lt_ge_cases m (length a)) as [L | L].
  - rewrite nth_error_app1 in E by exact L.
    assert (NB : ~ In i b).
    { intros I. apply in_split in I. destruct I as [b1 [b2 ->]]. rewrite app_assoc in N.
      apply NoDup_remove_2 in N. apply N. apply in_or_app; left. apply in_or_app; left.
      eapply nth_error_In; exact E. }
    rewrite number_out by exact NB.
    assert (NA : NoDup a).
    { clear - N. induction a as [|x a IH]; [constructor |]. inversion N as [|? ? N1 N2]; subst.
      constructor; [intros I; apply N1; apply in_or_app; left; exact I | exact (IH N2)]. }
    rewrite (number_in a 0 old m i NA E). reflexivity.
  - rewrite nth_error_app2 in E by exact L.
    assert (NB : NoDup b) by (clear - N; induction a as [|x a IH]; [exact N | inversion N; subst; auto]).
    rewrite (number_in b (length a) _ (m - length a) i NB E). lia.
Qed.

Lemma insert_in : forall t l x, In x (insert t l) <-> x = t \/ In x l.
Proof.
  intros t l x; unfold insert. destruct (existsb (Nat.eqb t) l) eqn:E.
  - apply existsb_exists in E. destruct E as [y [I Q]]. apply Nat.eqb_eq in Q; subst y.
    split; [right; assumption | intros [-> | J]; assumption].
  - rewrite in_app_iff; simpl. split; [intros [I | [I | []]]; [right | left; symmetry]; exact I
      | intros [-> | I]; [right; left; reflexivity | left; exact I]].
Qed.

Lemma insert_nodup : forall t l, NoDup l -> NoDup (insert t l).
Proof.
  intros t l N; unfold insert. destruct (existsb (Nat.eqb t) l) eqn:E; [exact N |].
  apply NoDup_rev in N. rewrite <- (rev_involutive (l ++ [t])). apply NoDup_rev. rewrite rev_app_distr; simpl.
  constructor; [| exact N]. intros I. apply in_rev in I.
  assert (X : existsb (Nat.eqb t) l = true) by (apply existsb_exists; exists t; split; [exact I | apply Nat.eqb_refl]).
  rewrite X in E; discriminate E.
Qed.

Lemma insert_all : forall ts l, NoDup l ->
  NoDup (fold_left (fun s t => insert t s) ts l) /\
  forall x, In x (fold_left (fun s t => insert t s) ts l) <-> In x ts \/ In x l.
Proof.
  induction ts as [|t ts IH]; intros l N; simpl.
  - split; [exact N | intros x; tauto].
  - destruct (IH (insert t l) (insert_nodup t l N)) as [A B]. split; [exact A |].
    intros x. rewrite B, insert_in. split; [intros [I | [-> | I]] | intros [[-> | I] | I]]; tauto.
Qed.

Lemma collect_ok : forall errors vs l, NoDup l ->
  NoDup (collect errors vs l) /\
  forall t, In t (collect errors vs l) <-> In t l \/ exists i, In i vs /\ In t (errors i).
Proof.
  intros errors vs; induction vs as [|i vs IH]; intros l N; simpl.
  - split; [exact N |]. intros t; split; [left; assumption | intros [I | [j [[] _]]]; exact I].
  - destruct (insert_all (errors i) l N) as [A B]. destruct (IH _ A) as [C D]. split; [exact C |].
    intros t. rewrite D, B. split.
    + intros [[I | I] | [j [J K]]]; [right; exists i; split; [left; reflexivity | exact I] | left; exact I
        | right; exists j; split; [right; exact J | exact K]].
    + intros [I | [j [[<- | J] K]]]; [left; right; exact I | left; left; exact K | right; exists j; split; assumption].
Qed.

Lemma partial_sum_nth : forall l a k, k < length l -> nth k (partial_sum a l) 0 = a + list_sum (firstn (S k) l).
Proof.
  induction l as [|x l IH]; intros a k K; [simpl in K; lia |]. destruct k as [|k].
  - simpl. lia.
  - change (nth k (partial_sum (a + x) l) 0 = a + (x + list_sum (firstn (S k) l))).
    rewrite IH by (simpl in K; lia). lia.
Qed.

(** ** Moving *)
Lemma has_len : forall (i n : nat) (s : list R), length s = n -> has_entries (i, s) = Nat.ltb 0 n.
Proof. intros i n [|x s] <-; reflexivity. Qed.

Lemma move_kept_spec : forall p l pre dx ps, pieces p l dx ps ->
  move_kept p l (length pre) (pre ++ dx) = map (scaled p) (filter has_entries (combine l ps)).
Proof.
  intros p l; induction l as [|i l IH]; intros pre dx ps [C F].
  - reflexivity.
  - inversion F as [|? s ? ps' F1 F2]; subst. cbn [concat]. cbn [move_kept combine filter].
    rewrite (has_len i (dim_of p i) s F1).
    assert (E : firstn (dim_of p i) (skipn (length pre) (pre ++ s ++ concat ps')) = s).
    { rewrite skipn_app, Nat.sub_diag, skipn_all. simpl. rewrite <- F1, firstn_app, Nat.sub_diag, firstn_all.
      simpl. apply app_nil_r. }
    rewrite E.
    assert (G : move_kept p l (length pre + dim_of p i) (pre ++ s ++ concat ps') =
                map (scaled p) (filter has_entries (combine l ps'))).
    { rewrite <- F1, <- app_length, app_assoc. apply IH. split; [reflexivity | exact F2]. }
    rewrite G. destruct (Nat.ltb 0 (dim_of p i)); reflexivity.
Qed.

Lemma pieces_exist : forall p l dx, length dx = list_sum (map (dim_of p) l) ->
  exists ps, pieces p l dx ps /\ forall qs, pieces p l dx qs -> qs = ps.
Proof.
  intros p l; induction l as [|i l IH]; intros dx L; simpl in L.
  - destruct dx as [|x dx]; [| discriminate L]. exists []. split; [split; [reflexivity | constructor] |].
    intros qs [_ F]. inversion F; reflexivity.
  - destruct (IH (skipn (dim_of p i) dx)) as [ps [[C F] U]].
    { rewrite skipn_length. lia. }
    exists (firstn (dim_of p i) dx :: ps). split.
    + split; [cbn [concat]; rewrite C; apply firstn_skipn |]. constructor; [rewrite firstn_length; lia | exact F].
    + intros qs [C' F']. inversion F' as [|? s ? qs' F1 F2]; subst. cbn [concat].
      assert (E1 : firstn (dim_of p i) (s ++ concat qs') = s).
      { rewrite <- F1, firstn_app, Nat.sub_diag, firstn_all. apply app_nil_r. }
      assert (E2 : skipn (dim_of p i) (s ++ concat qs') = concat qs').
      { rewrite <- F1, skipn_app, Nat.sub_diag, skipn_all. reflexivity. }
      cbn [concat] in U. rewrite E2 in U. rewrite E1. f_equal. apply U. split; [reflexivity | exact F2].
Qed.

Local Open Scope R_scope.
Lemma max_abs_le : forall l x, In x l -> Rabs x <= max_abs l.
Proof.
  induction l as [|y l IH]; [intros x [] |]. intros x [-> | I]; simpl.
  - apply Rmax_l.
  - apply Rle_trans with (max_abs l); [apply IH; exact I | apply Rmax_r].
Qed.

Lemma max_abs_pos : forall l, 0 <= max_abs l.
Proof.
  induction l as [|y l IH]; simpl; [lra |]. apply Rle_trans with (max_abs l); [exact IH | apply Rmax_r].
Qed.

Lemma max_abs_at : forall l, l <> [] -> exists x, In x l /\ Rabs x = max_abs l.
Proof.
  induction l as [|y l IH]; intros N; [contradiction |]. simpl. unfold Rmax.
  destruct (Rle_dec (Rabs y) (max_abs l)) as [L | L].
  - destruct l as [|z l].
    + exists y. split; [left; reflexivity |]. simpl in *. pose proof (Rabs_pos y). lra.
    + destruct IH as [x [I E]]; [discriminate |]. exists x; split; [right; exact I | exact E].
  - exists y; split; [left; reflexivity | reflexivity].
Qed.

Lemma fold_max : forall (l : list (nat * list R)) m,
  let v := fold_left (fun m e => Rmax m (max_abs (snd e))) l m in
  m <= v /\ (forall e, In e l -> max_abs (snd e) <= v) /\ (v = m \/ exists e, In e l /\ v = max_abs (snd e)).
Proof.
  induction l as [|e l IH]; intros m; simpl.
  - split; [lra |]. split; [intros e [] | left; reflexivity].
  - destruct (IH (Rmax m (max_abs (snd e)))) as [A [B C]]. split; [| split].
    + apply Rle_trans with (2 := A). apply Rmax_l.
    + intros x [<- | I]; [apply Rle_trans with (2 := A); apply Rmax_r | apply B; exact I].
    + destruct C as [C | [x [I C]]]; [| right; exists x; split; [right; exact I | exact C]].
      rewrite C. unfold Rmax. destruct (Rle_dec m (max_abs (snd e))).
      * right; exists e; split; [left; reflexivity | reflexivity].
      * left; reflexivity.
Qed.

Lemma scaled_one : forall p e, scaling_of p (fst e) = 1 -> scaled p e = e.
Proof.
  intros p [i s] E; unfold scaled; simpl in *. rewrite E. f_equal.
  rewrite <- (map_id s) at 2. apply map_ext. intros x; ring.
Qed.

Lemma pieces_entry : forall p l dx ps x, pieces p l dx ps ->
  (In x dx <-> exists i s, In (i, s) (filter has_entries (combine l ps)) /\ In x s).
Proof.
  intros p l dx ps x [C F]. subst dx. revert ps F. induction l as [|i l IH]; intros ps F.
  - inversion F; subst. simpl. split; [intros [] | intros [i [s [[] _]]]].
  - inversion F as [|? s ? ps' F1 F2]; subst. cbn [concat combine filter]. rewrite in_app_iff, (IH ps' F2).
    assert (Q : has_entries (i, s) = true \/ s = []) by (destruct s; [right | left]; reflexivity).
    split.
    + intros [I | [j [t [J K]]]].
      * destruct Q as [Q | Q]; [| subst s; destruct I]. rewrite Q.
        exists i, s; split; [left; reflexivity | exact I].
      * exists j, t; split; [| exact K]. destruct (has_entries (i, s)); [right |]; exact J.
    + intros [j [t [J K]]]. destruct Q as [Q | Q].
      * rewrite Q in J. destruct J as [J | J]; [injection J as J1 J2; subst; left; exact K | right; exists j, t; split; assumption].
      * subst s. simpl in J. right; exists j, t; split; assumption.
Qed.
