From Coq Require Import List Arith Bool Lia Permutation.
From Verif Require Import TexModel TexSpec.
Import ListNotations.

Section Proofs.
  Context {img obs : Type}.
  Variable det : img -> option obs.
  Notation wst := (wst img).
  Notation st := (st img obs).

  Lemma set_nth_split : forall (l : list wst) w x y, nth_error l w = Some x ->
    exists a b, l = a ++ x :: b /\ set_nth w y l = a ++ y :: b.
  Proof.
    induction l as [|z l IH]; intros [|w] x y H; try discriminate H.
    - injection H as ->. exists [], l. split; reflexivity.
    - destruct (IH w x y H) as [a [b [A B]]]. exists (z :: a), b. simpl. rewrite B, <- A. split; reflexivity.
  Qed.

  Definition found (t : nat * img) : list (nat * obs) :=
    match det (snd t) with Some o => [(fst t, o)] | None => [] end.
  Definition busy1 (w : wst) : list (nat * img) := match w with Busy t => [t] | _ => [] end.
  Definition busy (l : list wst) := flat_map busy1 l.
  Definition died1 (w : wst) : nat := match w with Died => 1 | _ => 0 end.
  Fixpoint died (l : list wst) : nat := match l with [] => 0 | w :: r => died1 w + died r end.

  Lemma died_app : forall a b, died (a ++ b) = died a + died b.
  Proof. induction a as [|w a IH]; intros b; simpl; [reflexivity | rewrite IH; lia]. Qed.
  Lemma busy_app : forall a b, busy (a ++ b) = busy a ++ busy b.
  Proof. intros a b; unfold busy; apply flat_map_app. Qed.
  Lemma busy_mid : forall a w b, busy (a ++ w :: b) = busy a ++ busy1 w ++ busy b.
  Proof. intros a w b. rewrite busy_app. reflexivity. Qed.

  Record inv (all : list (nat * img)) (n K : nat) (s : st) : Prop := mkInv {
    i_len : length (workers s) = n;
    i_died : died (workers s) <= K;
    i_empty : In Exited (workers s) -> taskq s = [];
    i_all : exists done lost, length lost <= K /\ resultq s = flat_map found done /\
      Permutation (done ++ busy (workers s) ++ taskq s ++ lost) all }.

  Definition kill1 (e : event) : nat := match e with Kill _ => 1 | Run _ => 0 end.

  Lemma exited_mid : forall (a b : list wst) x y, y <> Exited -> In Exited (a ++ y :: b) -> In Exited (a ++ x :: b).
  Proof.
    intros a b x y N H. apply in_app_or in H. apply in_or_app. destruct H as [H | [H | H]].
    - left; exact H.
    - contradiction N.
    - right; right; exact H.
  Qed.

  Lemma step_inv : forall all n K s e, inv all n K s -> inv all n (K + kill1 e) (step det s e).
  Proof.
    intros all n K s e [L D E [done [lost [A [B C]]]]].
    assert (KEEP : forall k, inv all n (K + k) s).
    { intros k; constructor; [exact L | lia | exact E |]. exists done, lost.
      split; [lia |]. split; assumption. }
    destruct e as [w | w]; simpl step; simpl kill1.
    - destruct (nth_error (workers s) w) as [[| t | |] |] eqn:H; try apply KEEP.
      + destruct (taskq s) as [|t r] eqn:Q.
        * destruct (set_nth_split _ _ _ Exited H) as [a [b [S1 S2]]]. rewrite S2. rewrite S1 in L, D, C.
          constructor; cbn [workers taskq resultq].
          -- rewrite app_length in *; exact L.
          -- rewrite died_app in *; simpl in *; lia.
          -- reflexivity.
          -- exists done, lost. split; [lia |]. split; [exact B |]. rewrite busy_mid in *. exact C.
        * destruct (set_nth_split _ _ _ (Busy t) H) as [a [b [S1 S2]]]. rewrite S2. rewrite S1 in L, D, C, E.
          constructor; cbn [workers taskq resultq].
          -- rewrite app_length in *; exact L.
          -- rewrite died_app in *; simpl in *; lia.
          -- intros I. apply (exited_mid a b Idle) in I; [| discriminate]. discriminate (E I).
          -- exists done, lost. split; [lia |]. split; [exact B |]. rewrite busy_mid in *.
             rewrite <- C. apply Permutation_app_head. simpl. rewrite <- !app_assoc. apply Permutation_app_head.
             simpl. apply (Permutation_middle (busy b) (r ++ lost) t).
      + destruct (set_nth_split _ _ _ Idle H) as [a [b [S1 S2]]]. rewrite S2. rewrite S1 in L, D, C, E.
        constructor; cbn [workers taskq resultq].
        * rewrite app_length in *; exact L.
        * rewrite died_app in *; simpl in *; lia.
        * intros I. apply E. apply (exited_mid a b (Busy t)) in I; [exact I | discriminate].
        * exists (done ++ [t]), lost. split; [lia |]. split.
          -- rewrite B, flat_map_app. simpl. rewrite app_nil_r.
             change (found t) with (match det (snd t) with Some o => [(fst t, o)] | None => [] end).
             destruct (det (snd t)); [reflexivity | rewrite app_nil_r; reflexivity].
          -- rewrite busy_mid in *. rewrite <- C. rewrite <- !app_assoc. apply Permutation_app_head. simpl.
             apply Permutation_middle.
    - destruct (nth_error (workers s) w) as [[| t | |] |] eqn:H; try apply KEEP.
      + destruct (set_nth_split _ _ _ Died H) as [a [b [S1 S2]]]. rewrite S2. rewrite S1 in L, D, C, E.
        constructor; cbn [workers taskq resultq].
        * rewrite app_length in *; exact L.
        * rewrite died_app in *; simpl in *; lia.
        * intros I. apply E. apply (exited_mid a b Idle) in I; [exact I | discriminate].
        * exists done, lost. split; [lia |]. split; [exact B |]. rewrite busy_mid in *. exact C.
      + destruct (set_nth_split _ _ _ Died H) as [a [b [S1 S2]]]. rewrite S2. rewrite S1 in L, D, C, E.
        constructor; cbn [workers taskq resultq].
        * rewrite app_length in *; exact L.
        * rewrite died_app in *; simpl in *; lia.
        * intros I. apply E. apply (exited_mid a b (Busy t)) in I; [exact I | discriminate].
        * exists done, (t :: lost). split; [simpl; lia |]. split; [exact B |]. rewrite busy_mid in *.
          rewrite <- C. apply Permutation_app_head. rewrite <- !app_assoc. apply Permutation_app_head. simpl.
          rewrite !app_assoc. symmetry. apply Permutation_middle.
  Qed.

  Lemma run_inv : forall sched all n K s, inv all n K s -> inv all n (K + kills sched) (run det sched s).
  Proof.
    induction sched as [|e sched IH]; intros all n K s I; simpl.
    - rewrite Nat.add_0_r. exact I.
    - apply (step_inv all n K s e) in I. apply IH in I.
      replace (K + _) with (K + kill1 e + kills sched); [exact I |]. destruct e; simpl; lia.
  Qed.

  Lemma start_inv : forall n images, inv (combine (seq 0 (length images)) images) n 0 (start n images).
  Proof.
    intros n images. assert (R : forall k, died (repeat (@Idle img) k) = 0 /\ busy (repeat Idle k) = [] /\ ~ In Exited (repeat (@Idle img) k)).
    { induction k as [|k [A [B C]]]; simpl; [split; [reflexivity | split; [reflexivity | intros []]] |].
      split; [exact A |]. split; [exact B |]. intros [X | X]; [discriminate X | contradiction]. }
    destruct (R n) as [A [B C]]. constructor; unfold start; cbn [workers taskq resultq].
    - apply repeat_length.
    - rewrite A; lia.
    - intros X; contradiction.
    - exists [], []. split; [simpl; lia |]. split; [reflexivity |]. rewrite B, app_nil_r. reflexivity.
  Qed.

  (** ** Sorting *)
  Lemma insert_swap : forall x y (l : list (nat * obs)), fst x <> fst y -> insert x (insert y l) = insert y (insert x l).
  Proof.
    intros x y l N; induction l as [|z l IH]; simpl.
    - destruct (Nat.leb_spec (fst x) (fst y)), (Nat.leb_spec (fst y) (fst x)); try reflexivity; lia.
    - destruct (Nat.leb_spec (fst y) (fst z)), (Nat.leb_spec (fst x) (fst z)); simpl;
        repeat (match goal with |- context [?a <=? ?b] => destruct (Nat.leb_spec a b) end; simpl); try lia; try reflexivity.
      rewrite IH. reflexivity.
  Qed.

  Lemma isort_perm : forall l m : list (nat * obs), Permutation l m -> NoDup (map fst l) -> isort l = isort m.
  Proof.
    intros l m P; induction P as [| x l m P IH | x y l | l m k P1 IH1 P2 IH2]; intros N.
    - reflexivity.
    - simpl in *. inversion N; subst. rewrite IH by assumption. reflexivity.
    - simpl in *. inversion N as [|a b N1 N2]; subst. apply insert_swap. intros E. apply N1. left. symmetry. exact E.
    - rewrite IH1 by exact N. apply IH2. apply (Permutation_NoDup (l := map fst l)); [apply Permutation_map; exact P1 | exact N].
  Qed.

  (** ** The tasks in order *)
  Definition keep (lost : list nat) (t : nat * img) : bool :=
    if in_dec Nat.eq_dec (fst t) lost then false else true.
  Definition tasks (k : nat) (images : list img) := combine (seq k (length images)) images.

  Lemma kept_ge : forall lost images k p,
    In p (flat_map found (filter (keep lost) (tasks k images))) -> k <= fst p.
  Proof.
    intros lost images; induction images as [|im images IH]; intros k p H; [destruct H |].
    unfold tasks in *. simpl in H. assert (G : forall q, In q (flat_map found (filter (keep lost) (combine (seq (S k) (length images)) images))) -> k <= fst q).
    { intros q Q. apply IH in Q. lia. }
    destruct (keep lost (k, im)); [| exact (G p H)]. simpl in H. apply in_app_or in H. destruct H as [H | H]; [| exact (G p H)].
    unfold found in H. simpl in H. destruct (det im); [| destruct H]. destruct H as [<- | []]. simpl; lia.
  Qed.

  Lemma isort_kept : forall lost images k,
    isort (flat_map found (filter (keep lost) (tasks k images))) = flat_map found (filter (keep lost) (tasks k images)).
  Proof.
    intros lost images; induction images as [|im images IH]; intros k; [reflexivity |].
    pose proof (kept_ge lost images (S k)) as G. unfold tasks in *. simpl.
    destruct (keep lost (k, im)); [| apply IH]. simpl. unfold found at 1 3. simpl. destruct (det im) as [o |]; simpl; [| apply IH].
    rewrite IH. set (r := flat_map _ _) in *. destruct r as [|y r]; [reflexivity |]. simpl.
    destruct (Nat.leb_spec k (fst y)) as [_ | X]; [reflexivity |].
    specialize (G y (or_introl eq_refl)). lia.
  Qed.

  Lemma found_but_kept : forall lost images k,
    map snd (flat_map found (filter (keep lost) (tasks k images))) = found_but det lost k images.
  Proof.
    intros lost images; induction images as [|im images IH]; intros k; [reflexivity |].
    specialize (IH (S k)). unfold tasks in *. simpl. unfold keep at 1; simpl.
    destruct (in_dec Nat.eq_dec k lost) as [_ | _]; [exact IH |]. simpl. unfold found at 1; simpl.
    destruct (det im); simpl; rewrite IH; reflexivity.
  Qed.

  Lemma tasks_nodup : forall images k, NoDup (map fst (tasks k images)).
  Proof.
    intros images k. replace (map fst (tasks k images)) with (seq k (length images)); [apply seq_NoDup |].
    revert k; induction images as [|im images IH]; intros k; [reflexivity |]. unfold tasks in *; simpl. rewrite <- IH. reflexivity.
  Qed.

  Lemma found_nodup : forall l, NoDup (map fst l) -> NoDup (map fst (flat_map found l)).
  Proof.
    assert (I : forall l x, In x (map fst (flat_map found l)) -> In x (map fst l)).
    { induction l as [|t l IH]; intros x H; [destruct H |]. simpl in H. rewrite map_app in H. apply in_app_or in H.
      destruct H as [H | H]; [| right; apply IH; exact H].
      unfold found in H. destruct (det (snd t)); [| destruct H]. destruct H as [<- | []]. left; reflexivity. }
    induction l as [|t l IH]; intros N; [constructor |]. simpl in *. inversion N as [|a b N1 N2]; subst.
    unfold found at 1. destruct (det (snd t)); simpl; [| apply IH; exact N2].
    constructor; [intros X; apply N1, I; exact X | apply IH; exact N2].
  Qed.

  Lemma perm_filter : forall (A : Type) (p : A -> bool) l m, Permutation l m -> Permutation (filter p l) (filter p m).
  Proof.
    intros A p l m P; induction P as [| x l m P IH | x y l | l m k P1 IH1 P2 IH2]; simpl.
    - constructor.
    - destruct (p x); [constructor |]; exact IH.
    - destruct (p x), (p y); try reflexivity. apply perm_swap.
    - transitivity (filter p m); assumption.
  Qed.

  Lemma perm_flat : forall l m, Permutation l m -> Permutation (flat_map found l) (flat_map found m).
  Proof.
    intros l m P; induction P as [| x l m P IH | x y l | l m k P1 IH1 P2 IH2]; simpl.
    - constructor.
    - apply Permutation_app_head; exact IH.
    - rewrite !app_assoc. apply Permutation_app_tail, Permutation_app_comm.
    - transitivity (flat_map found m); assumption.
  Qed.

  Lemma kept_done : forall done lost images k, Permutation (done ++ lost) (tasks k images) ->
    Permutation done (filter (keep (map fst lost)) (tasks k images)).
  Proof.
    intros done lost images k P. rewrite <- (perm_filter _ _ _ _ P). rewrite filter_app.
    assert (N : NoDup (map fst (done ++ lost))).
    { apply (Permutation_NoDup (l := map fst (tasks k images))); [apply Permutation_map; symmetry; exact P | apply tasks_nodup]. }
    assert (A : forall l : list (nat * img), (forall t, In t l -> In (fst t) (map fst lost)) -> filter (keep (map fst lost)) l = []).
    { induction l as [|t l IH]; intros H; [reflexivity |]. simpl. unfold keep at 1.
      destruct (in_dec Nat.eq_dec (fst t) (map fst lost)) as [_ | X]; [apply IH; intros u U; apply H; right; exact U |].
      contradiction X. apply H; left; reflexivity. }
    rewrite (A lost) by (intros t T; apply in_map; exact T). rewrite app_nil_r.
    assert (B : filter (keep (map fst lost)) done = done).
    { clear -N. induction done as [|t l IH]; [reflexivity |]. simpl in N. inversion N as [|a b N1 N2]; subst. simpl.
      rewrite IH by exact N2. unfold keep. destruct (in_dec Nat.eq_dec (fst t) (map fst lost)) as [X | _]; [| reflexivity].
      contradiction N1. rewrite map_app. apply in_or_app; right; exact X. }
    rewrite B. reflexivity.
  Qed.

  Lemma gone_busy : forall l : list wst, forallb gone l = true -> busy l = [] /\ (died l = length l \/ In Exited l).
  Proof.
    induction l as [|w l IH]; intros H; [split; [reflexivity | left; reflexivity] |].
    simpl in H. apply andb_true_iff in H. destruct H as [H1 H2]. destruct (IH H2) as [A B].
    destruct w; try discriminate H1; simpl; (split; [exact A |]).
    - right; left; reflexivity.
    - destruct B as [B | B]; [left; rewrite B; reflexivity | right; right; exact B].
  Qed.

  Lemma result_lost : forall n images sched r, kills sched < n -> result (run det sched (start n images)) = Some r ->
    exists lost, length lost <= kills sched /\ r = found_but det lost 0 images.
  Proof.
    intros n images sched r K H. pose proof (run_inv sched _ n 0 _ (start_inv n images)) as I.
    set (s := run det sched (start n images)) in *. simpl in I. destruct I as [L D E [done [lost [A [B C]]]]].
    unfold result in H. destruct (forallb gone (workers s)) eqn:G; [| discriminate H]. injection H as <-.
    destruct (gone_busy _ G) as [G1 G2]. assert (X : In Exited (workers s)) by (destruct G2 as [G2 | G2]; [lia | exact G2]).
    rewrite G1, (E X) in C. simpl in C. exists (map fst lost). split; [rewrite map_length; exact A |].
    apply (kept_done done lost images 0) in C. rewrite <- found_but_kept, <- isort_kept. f_equal. rewrite B.
    apply isort_perm; [apply perm_flat; exact C |]. apply found_nodup.
    assert (N : NoDup (map fst (filter (keep (map fst lost)) (tasks 0 images)))).
    { pose proof (tasks_nodup images 0) as N. revert N. generalize (tasks 0 images). clear.
      intros l; induction l as [|t l IH]; intros N; [constructor |]. simpl in *. inversion N as [|a b N1 N2]; subst.
      destruct (keep _ t); [| apply IH; exact N2]. simpl. constructor; [| apply IH; exact N2].
      intros X. apply N1. apply in_map_iff in X. destruct X as [u [U1 U2]]. apply filter_In in U2.
      rewrite <- U1. apply in_map. apply U2. }
    apply (Permutation_NoDup (l := map fst (filter (keep (map fst lost)) (tasks 0 images)))); [| exact N].
    apply Permutation_map. symmetry. exact C.
  Qed.

  Lemma found_none : forall images k, found_but det [] k images = sequential det images.
  Proof. induction images as [|im images IH]; intros k; simpl; [reflexivity |]. rewrite IH. reflexivity. Qed.

  (** ** The end *)
  Definition weight1 (w : wst) : nat := match w with Idle => 1 | Busy _ => 2 | _ => 0 end.
  Fixpoint weight (l : list wst) : nat := match l with [] => 0 | w :: r => weight1 w + weight r end.
  Definition measure (s : st) : nat := 2 * length (taskq s) + weight (workers s).

  Lemma weight_app : forall a b, weight (a ++ b) = weight a + weight b.
  Proof. induction a as [|w a IH]; intros b; simpl; [reflexivity | rewrite IH; lia]. Qed.

  Lemma measure_step : forall s e, alive s (who e) -> measure (step det s e) < measure s.
  Proof.
    intros s e [x [H G]]. unfold measure. destruct e as [w | w]; simpl in H |- *; rewrite H; destruct x as [| t | |]; try discriminate G.
    - destruct (taskq s) as [|t r] eqn:Q.
      + destruct (set_nth_split _ _ _ Exited H) as [a [b [S1 S2]]]. cbn [workers taskq]. rewrite S2, S1, !weight_app. simpl. lia.
      + destruct (set_nth_split _ _ _ (Busy t) H) as [a [b [S1 S2]]]. cbn [workers taskq]. rewrite S2, S1, !weight_app. simpl. lia.
    - destruct (set_nth_split _ _ _ Idle H) as [a [b [S1 S2]]]. cbn [workers taskq]. rewrite S2, S1, !weight_app. simpl. lia.
    - destruct (set_nth_split _ _ _ Died H) as [a [b [S1 S2]]]. cbn [workers taskq]. rewrite S2, S1, !weight_app. simpl. lia.
    - destruct (set_nth_split _ _ _ Died H) as [a [b [S1 S2]]]. cbn [workers taskq]. rewrite S2, S1, !weight_app. simpl. lia.
  Qed.

  Lemma measure_run : forall sched s, proper det s sched -> length sched <= measure s.
  Proof.
    induction sched as [|e sched IH]; intros s P; simpl; [lia |]. destruct P as [P1 P2].
    apply measure_step in P1. apply IH in P2. lia.
  Qed.

  Lemma measure_start : forall n images, measure (start n images) = 2 * length images + n.
  Proof.
    intros n images; unfold measure, start; cbn [taskq workers]. rewrite combine_length, seq_length, Nat.min_id.
    f_equal. induction n as [|n IH]; simpl; [reflexivity | rewrite IH; reflexivity].
  Qed.

  Lemma waiting : forall s : st, result s = None <-> exists w, alive s w.
  Proof.
    intros s; unfold result, alive. split.
    - destruct (forallb gone (workers s)) eqn:G; [discriminate |]. intros _. induction (workers s) as [|x l IH]; [discriminate G |].
      simpl in G. destruct (gone x) eqn:X.
      + destruct (IH G) as [w W]. exists (S w). exact W.
      + exists 0, x. split; [reflexivity | exact X].
    - intros [w [x [H X]]]. destruct (forallb gone (workers s)) eqn:G; [| reflexivity].
      rewrite forallb_forall in G. rewrite (G x (nth_error_In _ _ H)) in X. discriminate X.
  Qed.
End Proofs.
