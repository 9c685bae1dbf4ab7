From Coq Require Import ZArith List Arith Bool Lia.
From Verif Require Import OdbModel OdbSpec.
Import ListNotations.
Local Open Scope Z_scope.

Lemma nearest_fold : forall t l x, let m := fold_left (nearer t) l x in
  (m = x \/ In m l) /\ Z.abs (m - t) <= Z.abs (x - t) /\ forall y, In y l -> Z.abs (m - t) <= Z.abs (y - t).
Proof.
  intros t l; induction l as [|y l IH]; intros x; simpl.
  - split; [left; reflexivity |]. split; [lia | intros y []].
  - destruct (IH (nearer t x y)) as [A [B C]].
    assert (N : (nearer t x y = x \/ nearer t x y = y) /\ Z.abs (nearer t x y - t) <= Z.abs (x - t)
                /\ Z.abs (nearer t x y - t) <= Z.abs (y - t)).
    { unfold nearer. destruct (Z.ltb_spec (Z.abs (y - t)) (Z.abs (x - t))); lia. }
    destruct N as [N1 [N2 N3]]. split; [| split].
    + destruct A as [A | A]; [| right; right; exact A]. rewrite A.
      destruct N1 as [N1 | N1]; rewrite N1; [left | right; left]; reflexivity.
    + lia.
    + intros z [<- | I]; [lia | apply C; exact I].
Qed.

Lemma nearest_spec : forall t l T, nearest t l = Some T ->
  In T l /\ forall y, In y l -> Z.abs (T - t) <= Z.abs (y - t).
Proof.
  intros t [|x l] T E; [discriminate E |]. injection E as <-.
  destruct (nearest_fold t l x) as [A [B C]]. split.
  - destruct A as [A | A]; [left; symmetry; exact A | right; exact A].
  - intros y [<- | I]; [exact B | apply C; exact I].
Qed.

Record inv (delta : Z) (d : db) : Prop := mkInv {
  i_apart : forall i j T U es fs, nth_error (views d) i = Some (T, es) -> nth_error (views d) j = Some (U, fs) ->
    i <> j -> delta < Z.abs (T - U);
  i_close : forall T es cam id, In (T, es) (views d) -> In (cam, id) es ->
    exists o, nth_error (archive d cam) id = Some o /\ Z.abs (otime o - T) <= delta;
  i_once : forall T es, In (T, es) (views d) -> NoDup (map fst es);
  i_one : forall i j T U cam id, entered d i T cam id -> entered d j U cam id -> i = j }.

Lemma add_archive : forall delta d cam o c,
  archive (add delta d cam o) c = if Nat.eqb c cam then archive d c ++ [o] else archive d c.
Proof.
  intros delta d cam o c. unfold add. destruct (nearest _ _) as [T |]; [| reflexivity].
  destruct (_ <=? _); [| reflexivity]. destruct (lookup _ _); [| reflexivity].
  destruct (has_cam _ _); reflexivity.
Qed.

Lemma has_cam_in : forall cam v, has_cam cam v = true <-> In cam (map fst (snd v)).
Proof.
  intros cam v; unfold has_cam. rewrite existsb_exists, in_map_iff. split.
  - intros [e [I E]]. apply Nat.eqb_eq in E. exists e; split; assumption.
  - intros [e [E I]]. exists e; split; [exact I | apply Nat.eqb_eq; exact E].
Qed.

Lemma nth_add_entry : forall T e l i, nth_error (add_entry T e l) i =
  match nth_error l i with
  | Some v => Some (if fst v =? T then (fst v, snd v ++ [e]) else v)
  | None => None
  end.
Proof.
  intros T e l; induction l as [|v l IH]; intros [|i]; simpl; [reflexivity | reflexivity | reflexivity |].
  apply IH.
Qed.

Lemma add_outcome : forall delta d cam o, 0 <= delta -> inv delta d -> outcome delta d cam o (add delta d cam o).
Proof.
  intros delta d cam o D I. unfold add.
  destruct (nearest (otime o) (map fst (views d))) as [T |] eqn:E.
  - apply nearest_spec in E. destruct E as [E1 E2].
    assert (NB : forall j T' es, nth_error (views d) j = Some (T', es) -> Z.abs (T - otime o) <= Z.abs (T' - otime o)).
    { intros j T' es H. apply E2. apply nth_error_In in H. apply (in_map fst) in H. exact H. }
    destruct (Z.leb_spec (Z.abs (T - otime o)) delta) as [L | L].
    + destruct (lookup T (views d)) as [[T' es] |] eqn:K.
      * unfold lookup in K. apply find_some in K. destruct K as [K1 K2]. simpl in K2. apply Z.eqb_eq in K2; subst T'.
        apply In_nth_error in K1. destruct K1 as [i K1].
        assert (NE : is_nearest d (otime o) i T) by (split; [exists es; exact K1 | exact NB]).
        destruct (has_cam cam (T, es)) eqn:H.
        -- apply has_cam_in in H. eapply Dropped; [exact NE | exact K1 | exact L | exact H | reflexivity | reflexivity].
        -- assert (H' : ~ In cam (map fst es)).
           { intros X. assert (Y : has_cam cam (T, es) = true) by (apply has_cam_in; exact X). congruence. }
           eapply Joined; [exact NE | exact K1 | exact L | exact H' | | | reflexivity]; cbn [views].
           ++ rewrite nth_add_entry, K1. simpl. rewrite Z.eqb_refl. reflexivity.
           ++ intros j J. rewrite nth_add_entry. destruct (nth_error (views d) j) as [[U fs] |] eqn:Q; [| reflexivity].
              simpl. destruct (Z.eqb_spec U T) as [-> | _]; [| reflexivity].
              pose proof (i_apart delta d I j i T T fs es Q K1 J). lia.
      * exfalso. apply in_map_iff in E1. destruct E1 as [v [V1 V2]].
        pose proof (find_none _ _ K v V2) as X. simpl in X. apply Z.eqb_neq in X. contradiction.
    + apply New; [| reflexivity | reflexivity]. intros i U es H. specialize (NB i U es H). lia.
  - apply New; [| reflexivity | reflexivity]. intros i U es H.
    destruct (views d); [destruct i; discriminate H | discriminate E].
Qed.

Lemma nth_snoc : forall (A : Type) (l : list A) x i y, nth_error (l ++ [x]) i = Some y ->
  nth_error l i = Some y \/ (i = length l /\ y = x).
Proof.
  intros A l x i y H. destruct (Nat.lt_ge_cases i (length l)) as [L | L].
  - left. rewrite nth_error_app1 in H by exact L. exact H.
  - right. rewrite nth_error_app2 in H by exact L. destruct (i - length l)%nat as [|k] eqn:Q.
    + simpl in H. injection H as <-. split; [lia | reflexivity].
    + destruct k; discriminate H.
Qed.

Lemma add_inv : forall delta d cam o, 0 <= delta -> inv delta d -> inv delta (add delta d cam o).
Proof.
  intros delta d cam o D I. pose proof (add_outcome delta d cam o D I) as O.
  pose proof (add_archive delta d cam o) as AR.
  set (d' := add delta d cam o) in *. set (idx := length (archive d cam)) in *.
  assert (OLD : forall c id x, nth_error (archive d c) id = Some x -> nth_error (archive d' c) id = Some x).
  { intros c id x H. rewrite AR. destruct (Nat.eqb c cam); [| exact H].
    rewrite nth_error_app1; [exact H |]. apply nth_error_Some. rewrite H; discriminate. }
  assert (NEW : nth_error (archive d' cam) idx = Some o).
  { rewrite AR, Nat.eqb_refl, nth_error_app2 by (unfold idx; lia). unfold idx. rewrite Nat.sub_diag. reflexivity. }
  assert (FR : forall i T c id, entered d i T c id -> ~ (c = cam /\ id = idx)).
  { intros i T c id [es [H1 H2]] [-> ->]. apply nth_error_In in H1.
    destruct (i_close delta d I T es cam idx H1 H2) as [x [X _]].
    assert (Y : nth_error (archive d cam) idx <> None) by (rewrite X; discriminate).
    apply nth_error_Some in Y. unfold idx in Y. lia. }
  destruct O as [FAR V _ | i T es NR H CL NC V W _ | i T es NR H CL NC V _].
  - constructor.
    + intros a b T U es fs A B N. rewrite V in A, B. apply nth_snoc in A, B.
      destruct A as [A | [A1 A2]], B as [B | [B1 B2]].
      * exact (i_apart delta d I a b T U es fs A B N).
      * injection B2 as -> _. exact (FAR a T es A).
      * injection A2 as -> _. specialize (FAR b U fs B). lia.
      * lia.
    + intros T es c id A B. rewrite V in A. apply in_app_or in A. destruct A as [A | [A | []]].
      * destruct (i_close delta d I T es c id A B) as [x [X Y]]. exists x; split; [apply OLD; exact X | exact Y].
      * injection A as <- <-. destruct B as [B | []]. injection B as <- <-.
        exists o; split; [exact NEW | rewrite Z.sub_diag; simpl; exact D].
    + intros T es A. rewrite V in A. apply in_app_or in A. destruct A as [A | [A | []]].
      * exact (i_once delta d I T es A).
      * injection A as <- <-. simpl. constructor; [intros [] | constructor].
    + intros a b T U c id [es [A1 A2]] [fs [B1 B2]]. rewrite V in A1, B1. apply nth_snoc in A1, B1.
      destruct A1 as [A1 | [A1 A1']], B1 as [B1 | [B1 B1']].
      * apply (i_one delta d I a b T U c id); [exists es | exists fs]; split; assumption.
      * exfalso. injection B1' as -> ->. destruct B2 as [B2 | []]. injection B2 as <- <-.
        apply (FR a T cam idx); [exists es; split; assumption | split; reflexivity].
      * exfalso. injection A1' as -> ->. destruct A2 as [A2 | []]. injection A2 as <- <-.
        apply (FR b U cam idx); [exists fs; split; assumption | split; reflexivity].
      * lia.
  - assert (AT : forall j U fs, nth_error (views d') j = Some (U, fs) ->
        (j <> i /\ nth_error (views d) j = Some (U, fs)) \/ (j = i /\ U = T /\ fs = es ++ [(cam, idx)])).
    { intros j U fs Q. destruct (Nat.eq_dec j i) as [-> | N].
      - right. rewrite V in Q. injection Q as <- <-. split; [reflexivity | split; reflexivity].
      - left. rewrite W in Q by exact N. split; assumption. }
    assert (IN : forall c id, In (c, id) (es ++ [(cam, idx)]) -> In (c, id) es \/ (c = cam /\ id = idx)).
    { intros c id X. apply in_app_or in X. destruct X as [X | [X | []]]; [left; exact X | right].
      injection X as <- <-. split; reflexivity. }
    constructor.
    + intros a b P Q fs gs A B N. apply AT in A, B.
      destruct A as [[_ A] | [-> [-> ->]]], B as [[_ B] | [-> [-> ->]]].
      * exact (i_apart delta d I a b P Q fs gs A B N).
      * exact (i_apart delta d I a i P T fs es A H N).
      * exact (i_apart delta d I i b T Q es gs H B N).
      * contradiction.
    + intros P fs c id A B. apply In_nth_error in A. destruct A as [j A]. apply AT in A.
      destruct A as [[_ A] | [-> [-> ->]]].
      * apply nth_error_In in A. destruct (i_close delta d I P fs c id A B) as [x [X Y]].
        exists x; split; [apply OLD; exact X | exact Y].
      * apply IN in B. destruct B as [B | [-> ->]].
        -- apply nth_error_In in H. destruct (i_close delta d I T es c id H B) as [x [X Y]].
           exists x; split; [apply OLD; exact X | exact Y].
        -- exists o; split; [exact NEW | lia].
    + intros P fs A. apply In_nth_error in A. destruct A as [j A]. apply AT in A.
      destruct A as [[_ A] | [-> [-> ->]]].
      * apply nth_error_In in A. exact (i_once delta d I P fs A).
      * rewrite map_app. simpl. apply nth_error_In in H. pose proof (i_once delta d I T es H) as N.
        apply NoDup_rev in N. rewrite <- (rev_involutive (map fst es ++ [cam])). apply NoDup_rev.
        rewrite rev_app_distr; simpl. constructor; [intros X; apply in_rev in X; contradiction | exact N].
    + intros a b P Q c id [fs [A1 A2]] [gs [B1 B2]]. apply AT in A1, B1.
      assert (GO : forall j U hs, nth_error (views d) j = Some (U, hs) -> In (c, id) hs -> In (c, id) (es ++ [(cam, idx)]) -> j = i).
      { intros j U hs X Y Z. apply IN in Z. destruct Z as [Z | Z].
        - apply (i_one delta d I j i U T c id); [exists hs | exists es]; split; assumption.
        - exfalso. apply (FR j U c id); [exists hs; split; assumption | exact Z]. }
      destruct A1 as [[_ A1] | [-> [-> ->]]], B1 as [[_ B1] | [-> [-> ->]]].
      * apply (i_one delta d I a b P Q c id); [exists fs | exists gs]; split; assumption.
      * exact (GO a P fs A1 A2 B2).
      * symmetry. exact (GO b Q gs B1 B2 A2).
      * reflexivity.
  - constructor.
    + rewrite V. exact (i_apart delta d I).
    + intros P fs c id A B. rewrite V in A. destruct (i_close delta d I P fs c id A B) as [x [X Y]].
      exists x; split; [apply OLD; exact X | exact Y].
    + rewrite V. exact (i_once delta d I).
    + intros a b P Q c id A B. unfold entered in A, B. rewrite V in A, B.
      exact (i_one delta d I a b P Q c id A B).
Qed.

Lemma empty_inv : forall delta, inv delta empty.
Proof.
  intros delta; constructor; simpl.
  - intros i j T U es fs A. destruct i; discriminate A.
  - intros T es cam id [].
  - intros T es [].
  - intros i j T U cam id [es [A _]]. destruct i; discriminate A.
Qed.

Lemma add_all_snoc : forall delta l e, add_all delta (l ++ [e]) = add delta (add_all delta l) (fst e) (snd e).
Proof. intros delta l e; unfold add_all; rewrite fold_left_app; reflexivity. Qed.

Lemma all_inv : forall delta l, 0 <= delta -> inv delta (add_all delta l).
Proof.
  intros delta l D; induction l as [|e l IH] using rev_ind; [apply empty_inv |].
  rewrite add_all_snoc. apply add_inv; assumption.
Qed.

Lemma all_archive : forall delta l cam, archive (add_all delta l) cam = of_cam cam l.
Proof.
  intros delta l cam; induction l as [|[c o] l IH] using rev_ind; [reflexivity |].
  rewrite add_all_snoc, add_archive, IH. unfold of_cam. rewrite filter_app, map_app. simpl.
  rewrite (Nat.eqb_sym c cam). destruct (Nat.eqb_spec cam c) as [-> | _]; [reflexivity |].
  simpl. rewrite app_nil_r. reflexivity.
Qed.

Lemma find_cam : forall es cam id, NoDup (map fst es) -> In (cam, id) es ->
  find (fun e : nat * nat => Nat.eqb (fst e) cam) es = Some (cam, id).
Proof.
  induction es as [|[c k] es IH]; intros cam id N I; [destruct I |]. simpl in N |- *. inversion N as [|x y N1 N2]; subst.
  destruct I as [I | I].
  - injection I as -> ->. rewrite Nat.eqb_refl. reflexivity.
  - destruct (Nat.eqb_spec c cam) as [-> | _]; [| apply IH; assumption].
    exfalso. apply N1. apply (in_map fst) in I. exact I.
Qed.

Lemma obs_of_spec : forall delta d T es cam o, inv delta d -> In (T, es) (views d) ->
  (obs_of d (T, es) cam = Some o <-> exists id, In (cam, id) es /\ nth_error (archive d cam) id = Some o).
Proof.
  intros delta d T es cam o I V. unfold obs_of; simpl. split.
  - destruct (find _ es) as [[c k] |] eqn:F; [| discriminate].
    apply find_some in F. destruct F as [F1 F2]. apply Nat.eqb_eq in F2. simpl in F2; subst c.
    intros H. exists k. split; assumption.
  - intros [id [H1 H2]]. rewrite (find_cam es cam id (i_once delta d I T es V) H1). exact H2.
Qed.

Lemma one_cam_spec : forall delta d cam o, inv delta d ->
  (In o (one_cam d cam) <-> exists i T id, entered d i T cam id /\ nth_error (archive d cam) id = Some o).
Proof.
  intros delta d cam o I. unfold one_cam. rewrite in_flat_map. split.
  - intros [[T es] [V H]]. destruct (obs_of d (T, es) cam) as [x |] eqn:E; [| destruct H].
    destruct H as [-> | []]. apply (obs_of_spec delta) in E; [| exact I | exact V]. destruct E as [id [E1 E2]].
    apply In_nth_error in V. destruct V as [i V]. exists i, T, id. split; [exists es; split; assumption | exact E2].
  - intros [i [T [id [[es [E1 E2]] H]]]]. apply nth_error_In in E1. exists (T, es). split; [exact E1 |].
    assert (E : obs_of d (T, es) cam = Some o) by (apply (obs_of_spec delta); [exact I | exact E1 | exists id; split; assumption]).
    rewrite E. left; reflexivity.
Qed.

Lemma two_cams_spec : forall delta d a b x y, inv delta d -> In (Some x, Some y) (two_cams d a b) ->
  exists i T j k, entered d i T a j /\ entered d i T b k /\ nth_error (archive d a) j = Some x /\
    nth_error (archive d b) k = Some y /\ Z.abs (otime x - T) <= delta /\ Z.abs (otime y - T) <= delta.
Proof.
  intros delta d a b x y I H. unfold two_cams in H. apply filter_In in H. destruct H as [H _].
  apply in_map_iff in H. destruct H as [[T es] [E V]]. injection E as E1 E2.
  apply (obs_of_spec delta) in E1, E2; try assumption. destruct E1 as [j [J1 J2]], E2 as [k [K1 K2]].
  destruct (i_close delta d I T es a j V J1) as [x' [X1 X2]], (i_close delta d I T es b k V K1) as [y' [Y1 Y2]].
  rewrite J2 in X1; injection X1 as <-. rewrite K2 in Y1; injection Y1 as <-.
  apply In_nth_error in V. destruct V as [i V]. exists i, T, j, k.
  split; [exists es; split; assumption |]. split; [exists es; split; assumption |].
  split; [exact J2 |]. split; [exact K2 |]. split; assumption.
Qed.

Lemma filled_app : forall a b, (filled (a ++ b) = filled a + filled b)%nat.
Proof. induction a as [|v a IH]; intros b; simpl; [reflexivity | rewrite IH; lia]. Qed.

Lemma filled_change : forall (l m : list view) i T es e, nth_error l i = Some (T, es) ->
  nth_error m i = Some (T, es ++ [e]) -> (forall j, j <> i -> nth_error m j = nth_error l j) ->
  filled m = S (filled l).
Proof.
  induction l as [|v l IH]; intros m i T es e A B C; [destruct i; discriminate A |].
  destruct m as [|w m]; [destruct i; discriminate B |]. destruct i as [|i].
  - injection A as ->. injection B as ->.
    assert (E : m = l).
    { clear -C. assert (Q : forall j, nth_error m j = nth_error l j) by (intros j; exact (C (S j) (Nat.neq_succ_0 j))).
      clear C. revert l Q. induction m as [|x m IH]; intros [|y l] Q; [reflexivity | discriminate (Q 0%nat) | discriminate (Q 0%nat) |].
      pose proof (Q 0%nat) as Q0. injection Q0 as ->. f_equal. apply IH. intros j; exact (Q (S j)). }
    subst m. simpl. rewrite app_length; simpl. lia.
  - simpl in A, B. assert (E : w = v).
    { assert (Q : nth_error (w :: m) 0 = nth_error (v :: l) 0) by (apply C; discriminate). injection Q as ->. reflexivity. }
    subst w. simpl. rewrite (IH m i T es e A B); [lia |].
    intros j J. exact (C (S j) (fun q => J (eq_add_S _ _ q))).
Qed.

Lemma all_counted : forall delta l, 0 <= delta ->
  (filled (views (add_all delta l)) + errors (add_all delta l) = length l)%nat.
Proof.
  intros delta l D; induction l as [|e l IH] using rev_ind; [reflexivity |].
  rewrite add_all_snoc, app_length. simpl length.
  destruct (add_outcome delta (add_all delta l) (fst e) (snd e) D (all_inv delta l D))
    as [_ V E | i T es _ H _ _ V W E | i T es _ _ _ _ V E]; rewrite E.
  - rewrite V, filled_app. simpl. lia.
  - rewrite (filled_change _ _ i T es _ H V W). lia.
  - rewrite V. lia.
Qed.

Lemma two_cams_all : forall delta l a b x y, 0 <= delta ->
  (In (x, y) (two_cams (add_all delta l) a b) <->
   (x <> None \/ y <> None) /\ exists i T es, nth_error (views (add_all delta l)) i = Some (T, es) /\
     saw l es a x /\ saw l es b y).
Proof.
  intros delta l a b x y D. pose proof (all_inv delta l D) as I. unfold two_cams. rewrite filter_In, in_map_iff.
  assert (S : forall T es cam, In (T, es) (views (add_all delta l)) -> saw l es cam (obs_of (add_all delta l) (T, es) cam)).
  { intros T es cam V o. rewrite <- (all_archive delta l cam). exact (obs_of_spec delta _ T es cam o I V). }
  assert (U : forall es cam r r', saw l es cam r -> saw l es cam r' -> r = r').
  { intros es cam r r' A B. destruct r as [o |].
    - symmetry. apply B, A. reflexivity.
    - destruct r' as [o |]; [| reflexivity]. apply A, B. reflexivity. }
  split.
  - intros [[[T es] [E V]] F]. injection E as <- <-. split.
    + destruct (obs_of _ _ a), (obs_of _ _ b); [left | left | right | discriminate F]; discriminate.
    + pose proof V as W. apply In_nth_error in W. destruct W as [i W]. exists i, T, es.
      split; [exact W |]. split; apply S; exact V.
  - intros [N [i [T [es [V [A B]]]]]]. apply nth_error_In in V. split.
    + exists (T, es). split; [| exact V].
      rewrite (U es a _ _ A (S T es a V)), (U es b _ _ B (S T es b V)). reflexivity.
    + destruct x, y; try reflexivity. destruct N as [N | N]; contradiction N; reflexivity.
Qed.
