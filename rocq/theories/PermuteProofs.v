From Coq Require Import List Arith Lia Permutation.
From Verif Require Import PermuteModel PermuteSpec.
Import ListNotations.

Section P.
Context {A : Type}.
Implicit Types c : list A.

Lemma upd_length c : forall i x, length (upd c i x) = length c.
Proof. induction c; intros [|i] x; cbn; auto. Qed.

Lemma nth_error_upd c : forall i x k, i < length c ->
  nth_error (upd c i x) k = if k =? i then Some x else nth_error c k.
Proof.
  induction c as [|y c IH]; intros [|i] x [|k] H; cbn in *; try lia; try reflexivity.
  apply IH. lia.
Qed.

Lemma swap_length c i k : length (swap c i k) = length c.
Proof.
  unfold swap. destruct (nth_error c i), (nth_error c k); auto. now rewrite !upd_length.
Qed.

Lemma nth_error_swap c i k j : i < length c -> k < length c ->
  nth_error (swap c i k) j =
    if j =? i then nth_error c k else if j =? k then nth_error c i else nth_error c j.
Proof.
  intros Hi Hk. unfold swap.
  destruct (nth_error c i) as [x|] eqn:Ex; [|apply nth_error_None in Ex; lia].
  destruct (nth_error c k) as [y|] eqn:Ey; [|apply nth_error_None in Ey; lia].
  rewrite nth_error_upd by (rewrite upd_length; lia). rewrite nth_error_upd by lia.
  destruct (Nat.eqb_spec j k), (Nat.eqb_spec j i); subst; auto. congruence.
Qed.

Lemma upd_split c : forall i x y, nth_error c i = Some x ->
  exists l1 l2, c = l1 ++ x :: l2 /\ length l1 = i /\ upd c i y = l1 ++ y :: l2.
Proof.
  induction c as [|z c IH]; intros [|i] x y H; cbn in *; try discriminate.
  - injection H as ->. exists [], c. auto.
  - destruct (IH i x y H) as (l1 & l2 & -> & <- & ->). exists (z :: l1), l2. auto.
Qed.

Lemma swap_perm c i k : i < k -> Permutation c (swap c i k).
Proof.
  intros Hik. unfold swap.
  destruct (nth_error c i) as [x|] eqn:Ex; [|reflexivity].
  destruct (nth_error c k) as [y|] eqn:Ey; [|reflexivity].
  destruct (upd_split c i x y Ex) as (l1 & l2 & Hc & Hl & Hu).
  rewrite Hu.
  assert (E2 : nth_error (l1 ++ y :: l2) k = Some y).
  { rewrite nth_error_app2 by lia. rewrite Hc in Ey. rewrite nth_error_app2 in Ey by lia.
    destruct (k - length l1) as [|m] eqn:Em; [lia|]. exact Ey. }
  destruct (upd_split _ k y x E2) as (m1 & m2 & Hm & Hml & Hmu).
  rewrite Hmu, Hc.
  assert (exists p, m1 = l1 ++ y :: p /\ l2 = p ++ y :: m2) as (p & -> & ->).
  { clear - Hm Hml Hl Hik. revert i m1 Hl Hm Hml Hik. revert k.
    induction l1 as [|a l1 IH]; intros k i m1 Hl Hm Hml Hik.
    - destruct m1 as [|b m1]; cbn in *; [lia|]. injection Hm as <- Hm. exists m1. auto.
    - destruct m1 as [|b m1]; cbn in *; [lia|]. injection Hm as <- Hm.
      destruct (IH (k - 1) (i - 1) m1) as (p & -> & ->); try lia; auto. exists p. auto. }
  rewrite <- app_assoc. cbn [app]. apply Permutation_app_head.
  transitivity (x :: y :: p ++ m2).
  { constructor. symmetry. apply Permutation_middle. }
  rewrite perm_swap. constructor. apply Permutation_middle.
Qed.

(** * Nothing is ever lost, whatever the index vector. *)
Lemma permute_from_perm todo : forall i c perm,
  match permute_from todo i c perm with
  | Done c' => Permutation c c'
  | Thrown c' => Permutation c c'
  | Loops => True
  end.
Proof.
  induction todo as [|todo IH]; intros i c perm; cbn [permute_from]; [reflexivity|].
  destruct (length c <=? nth i perm 0); [reflexivity|].
  destruct (chase (length perm) perm i (nth i perm 0)) as [k|]; [|exact I].
  set (c1 := if i <? k then swap c i k else c).
  assert (Hp : Permutation c c1).
  { unfold c1. destruct (Nat.ltb_spec i k); [now apply swap_perm|reflexivity]. }
  specialize (IH (S i) c1 perm). destruct (permute_from todo (S i) c1 perm); auto;
    etransitivity; eauto.
Qed.

Lemma permute_perm c perm :
  match permute c perm with
  | Done c' => Permutation c c'
  | Thrown c' => Permutation c c'
  | Loops => True
  end.
Proof.
  unfold permute. destruct (negb _); [reflexivity|]. apply permute_from_perm.
Qed.

(** * Following the permutation. *)
Section Perm.
Variable perm : list nat.
Variable n : nat.
Hypothesis Hlen : length perm = n.
Hypothesis Hnd : NoDup perm.
Hypothesis Hlt : Forall (fun k => k < n) perm.

Local Notation p k := (nth k perm 0).

Lemma p_lt k : k < n -> p k < n.
Proof. intros. rewrite Forall_forall in Hlt. apply Hlt. apply nth_In. lia. Qed.

Lemma p_inj a b : a < n -> b < n -> p a = p b -> a = b.
Proof. intros. eapply NoDup_nth; eauto; lia. Qed.

Inductive path (i j : nat) : nat -> Prop :=
| path_one : path i j (p j)
| path_step k : path i j k -> k < i -> path i j (p k).

Lemma path_lt i j k : i <= n -> j < n -> path i j k -> k < n.
Proof. intros Hi Hj H. induction H; apply p_lt; lia. Qed.

Lemma path_inj i j j' : i <= n -> i <= j < n -> i <= j' < n ->
  forall q, path i j q -> path i j' q -> j = j'.
Proof.
  intros Hi Hj Hj' q H. induction H as [|k Hk IH Hki]; intros H'.
  - inversion H' as [E|k Hk Hki E].
    + apply p_inj; lia.
    + apply p_inj in E; try lia.
  - inversion H' as [E|k' Hk' Hki' E].
    + apply p_inj in E; try lia.
    + apply p_inj in E; try lia. subst k'. auto.
Qed.

(** [iter t] = p^(t+1) j *)
Fixpoint iter (j t : nat) : nat := match t with O => p j | S t' => p (iter j t') end.

Lemma iter_path i j t : (forall u, u < t -> iter j u < i) -> path i j (iter j t).
Proof.
  induction t; intros H; cbn [iter]; constructor.
  - apply IHt. intros; apply H; lia.
  - apply H. lia.
Qed.

Lemma iter_lt j t : j < n -> iter j t < n.
Proof. intros. induction t; cbn; now apply p_lt. Qed.

Lemma iter_shift j a b : j < n -> iter j (S (a + b)) = iter j b -> exists u, u <= a /\ iter j u = j.
Proof.
  intros Hj. revert a. induction b as [|b IH]; intros a E.
  - rewrite Nat.add_0_r in E. cbn [iter] in E.
    apply p_inj in E; auto using iter_lt. exists a. auto.
  - rewrite Nat.add_succ_r in E. cbn [iter] in E.
    apply p_inj in E; [|apply (iter_lt j (S (a + b))); auto|apply (iter_lt j b); auto].
    apply IH. exact E.
Qed.

Lemma iter_escapes i j : i <= j < n -> exists t, t <= i /\ i <= iter j t.
Proof.
  intros Hj.
  assert (D : (forall t, t <= i -> iter j t < i) \/ exists t, t <= i /\ i <= iter j t).
  { clear Hj. assert (D : forall b, (forall t, t <= b -> iter j t < i) \/ exists t, t <= b /\ i <= iter j t).
    2:{ exact (D i). }
    induction b as [|b IHb].
    - destruct (le_lt_dec i (iter j 0)); [right; exists 0; auto|left].
      intros t Ht. now replace t with 0 by lia.
    - destruct IHb as [IHb|(t & Ht & Hi)]; [|right; exists t; lia].
      destruct (le_lt_dec i (iter j (S b))); [right; exists (S b); auto|left].
      intros t Ht. destruct (Nat.eq_dec t (S b)) as [->|]; auto. apply IHb. lia. }
  destruct D as [D|D]; [exfalso|exact D].
  assert (Hnd' : NoDup (map (iter j) (seq 0 (S i)))).
  { apply (NoDup_nth _ 0). rewrite map_length, seq_length. intros a b Ha Hb E.
    rewrite !(nth_indep _ 0 (iter j 0)) in E by (rewrite map_length, seq_length; lia).
    rewrite !map_nth, !seq_nth in E by lia. cbn [Nat.add] in E.
    assert (Hneq : forall x y, x < y -> y <= i -> iter j x = iter j y -> False).
    { intros x y Hxy Hy Exy.
      destruct (iter_shift j (y - x - 1) x) as (u & Hu & Eu); [lia| |].
      - rewrite Exy. f_equal. lia.
      - specialize (D u ltac:(lia)). lia. }
    destruct (Nat.lt_total a b) as [H|[H|H]]; auto; exfalso.
    - apply (Hneq a b); auto; lia.
    - apply (Hneq b a); auto; lia. }
  assert (Hincl : incl (map (iter j) (seq 0 (S i))) (seq 0 i)).
  { intros x Hx. apply in_map_iff in Hx as (t & <- & Ht). apply in_seq in Ht.
    apply in_seq. specialize (D t ltac:(lia)). lia. }
  pose proof (NoDup_incl_length Hnd' Hincl) as HL. rewrite map_length, !seq_length in HL. lia.
Qed.

Lemma chase_run i j t : forall m fuel, m + t <= i + 0 * m \/ True ->
  (forall u, u < t -> iter j (m + u) < i) -> i <= iter j (m + t) -> t <= fuel ->
  chase fuel perm i (iter j m) = Some (iter j (m + t)).
Proof.
  induction t as [|t IH]; intros m fuel _ Hb He Hf.
  - rewrite Nat.add_0_r in *. destruct fuel; cbn [chase];
      (destruct (Nat.ltb_spec (iter j m) i); [lia|reflexivity]).
  - destruct fuel as [|fuel]; [lia|]. cbn [chase].
    specialize (Hb 0 ltac:(lia)) as Hb0. rewrite Nat.add_0_r in Hb0.
    destruct (Nat.ltb_spec (iter j m) i); [|lia].
    change (p (iter j m)) with (iter j (S m)).
    replace (m + S t) with (S m + t) by lia. apply IH; auto; try lia.
    + intros u Hu. replace (S m + u) with (m + S u) by lia. apply Hb. lia.
    + replace (S m + t) with (m + S t) by lia. exact He.
Qed.

Lemma first_escape i j : i <= j < n -> exists t, t <= i /\ i <= iter j t /\ forall u, u < t -> iter j u < i.
Proof.
  intros Hj. destruct (iter_escapes i j Hj) as (t & Ht & He).
  revert Ht He. induction t as [t IH] using lt_wf_ind. intros Ht He.
  assert (D : (forall u, u < t -> iter j u < i) \/ exists u, u < t /\ i <= iter j u).
  { clear - t. induction t as [|t IHt].
    - left. intros; lia.
    - destruct IHt as [IHt|(u & Hu & H)]; [|right; exists u; lia].
      destruct (le_lt_dec i (iter j t)); [right; exists t; lia|left].
      intros u Hu. destruct (Nat.eq_dec u t) as [->|]; auto. apply IHt. lia. }
  destruct D as [D|(u & Hu & H)]; [exists t; auto|].
  apply (IH u); auto; lia.
Qed.

(** The chase from any pending position ends, at a pending position. *)
Lemma chase_total i j : i <= j < n ->
  exists q, chase n perm i (p j) = Some q /\ i <= q < n /\ path i j q.
Proof.
  intros Hj. destruct (first_escape i j Hj) as (t & Ht & He & Hu).
  exists (iter j t). split; [|split].
  - change (p j) with (iter j 0). rewrite (chase_run i j t 0 n); auto; cbn; auto; try lia.
  - pose proof (iter_lt j t ltac:(lia)). lia.
  - now apply iter_path.
Qed.

Lemma path_next i j q : path i j q -> path (S i) j q.
Proof. intros H. induction H; constructor; auto. Qed.

Lemma path_next_i i j q : path i j i -> path i i q -> path (S i) j q.
Proof.
  intros Hj Hq. apply path_next in Hj.
  induction Hq; constructor; auto.
Qed.

Variable c0 : list A.
Hypothesis Hc0 : length c0 = n.

Lemma permute_from_gathers todo : forall i c, todo + i = n -> length c = n ->
  (forall j, j < i -> nth_error c j = nth_error c0 (p j)) ->
  (forall j q, i <= j < n -> path i j q -> i <= q -> nth_error c q = nth_error c0 (p j)) ->
  exists c', permute_from todo i c perm = Done c' /\ length c' = n /\
    forall j, j < n -> nth_error c' j = nth_error c0 (p j).
Proof.
  induction todo as [|todo IH]; intros i c Hi Hl Hdone Hpend; cbn [permute_from].
  - exists c. split; [reflexivity|]. split; [exact Hl|]. intros j Hj. apply Hdone. lia.
  - assert (Hpi : p i < n) by (apply p_lt; lia).
    destruct (Nat.leb_spec (length c) (p i)); [lia|].
    rewrite Hlen. destruct (chase_total i i) as (q & -> & Hq & Hpath); [lia|].
    set (c1 := if i <? q then swap c i q else c).
    assert (Hc1 : length c1 = n) by (unfold c1; destruct (i <? q); rewrite ?swap_length; auto).
    assert (Hnth : forall j, nth_error c1 j =
              if j =? i then nth_error c q else if j =? q then nth_error c i else nth_error c j).
    { intros j. unfold c1. destruct (Nat.ltb_spec i q).
      - apply nth_error_swap; lia.
      - assert (q = i) by lia. subst q. destruct (Nat.eqb_spec j i); subst; auto. }
    apply IH; [lia|exact Hc1| |].
    + intros j Hj. rewrite Hnth. destruct (Nat.eqb_spec j i) as [->|].
      * apply Hpend; auto; lia.
      * destruct (Nat.eqb_spec j q); [lia|]. apply Hdone. lia.
    + intros j r Hj Hr Hri.
      destruct (chase_total i j) as (r0 & _ & Hr0 & Hp0); [lia|].
      assert (Hneq : r0 <> q).
      { intros ->. assert (j = i) by (eapply (path_inj i); eauto; lia). lia. }
      assert (Hdet : forall x y, path (S i) j x -> path (S i) j y -> S i <= x -> S i <= y -> x = y).
      { clear - Hlen Hnd Hlt. intros x y Hx Hy Hxi Hyi. 
        assert (Ht : forall z, path (S i) j z -> exists t, z = iter j t /\ forall u, u < t -> iter j u < S i).
        { intros z Hz. induction Hz as [|k Hk (t & -> & IHt) Hki].
          - exists 0. split; [reflexivity|]. intros; lia.
          - exists (S t). split; [reflexivity|]. intros u Hu.
            destruct (Nat.eq_dec u t) as [->|]; auto. apply IHt. lia. }
        destruct (Ht x Hx) as (t1 & -> & H1). destruct (Ht y Hy) as (t2 & -> & H2).
        destruct (Nat.lt_total t1 t2) as [H|[->|H]]; auto; exfalso.
        - specialize (H2 t1 H). lia.
        - specialize (H1 t2 H). lia. }
      destruct (Nat.eq_dec r0 i) as [->|Hr0i].
      * assert (Hq2 : path (S i) j q) by (apply path_next_i; auto).
        assert (r = q) by (apply Hdet; auto; lia). subst r.
        rewrite Hnth. destruct (Nat.eqb_spec q i); [lia|]. rewrite Nat.eqb_refl.
        apply Hpend; auto; lia.
      * assert (Hq2 : path (S i) j r0) by (apply path_next; auto).
        assert (r = r0) by (apply Hdet; auto; lia). subst r.
        rewrite Hnth. destruct (Nat.eqb_spec r0 i); [lia|]. destruct (Nat.eqb_spec r0 q); [lia|].
        apply Hpend; auto; lia.
Qed.

End Perm.

Lemma permute_gathers c perm : is_permutation_of_indices (length c) perm ->
  exists c', permute c perm = Done c' /\ gathers c perm c'.
Proof.
  intros (Hl & Hnd & Hlt). unfold permute. rewrite Hl, Nat.eqb_refl. cbn [negb].
  destruct (permute_from_gathers perm (length c) Hl Hnd Hlt c eq_refl (length c) 0 c)
    as (c' & E & Hl' & Hg); try lia.
  - intros j q Hj Hp _. assert (q = nth j perm 0) as ->; [|reflexivity].
    inversion Hp as [|k Hk Hk0]; auto; lia.
  - exists c'. split; [exact E|]. split; [exact Hl'|].
    intros i k Hk. assert (Hi : i < length perm) by (apply nth_error_Some; congruence).
    rewrite Hg by lia. f_equal. rewrite (nth_error_nth perm i 0 Hk). reflexivity.
Qed.

Lemma permute_from_bad perm todo : forall i c j, i <= j < i + todo -> length c <= nth j perm 0 ->
  match permute_from todo i c perm with Done _ => False | _ => True end.
Proof.
  induction todo as [|todo IH]; intros i c j Hj Hbad; cbn [permute_from]; [lia|].
  destruct (Nat.leb_spec (length c) (nth i perm 0)); [exact I|].
  destruct (chase _ _ _ _) as [k|]; [|exact I].
  assert (j <> i) by (intros ->; lia).
  apply (IH (S i) _ j); [lia|]. destruct (i <? k); rewrite ?swap_length; auto.
Qed.

Lemma permute_bad_entry c perm j : nth_error perm j <> None -> length c <= nth j perm 0 ->
  match permute c perm with Done _ => False | _ => True end.
Proof.
  intros Hj Hb. unfold permute. destruct (Nat.eqb_spec (length c) (length perm)) as [E|]; [|exact I].
  cbn [negb]. apply (permute_from_bad perm (length c) 0 c j); auto.
  apply nth_error_Some in Hj. lia.
Qed.

Lemma permute_wrong_length c perm : length c <> length perm -> permute c perm = Thrown c.
Proof. intros. unfold permute. destruct (Nat.eqb_spec (length c) (length perm)); [contradiction|reflexivity]. Qed.

End P.

(** Running out of the loop budget is real non-termination. *)
Section Forever.
Variable perm : list nat.
Fixpoint it (k t : nat) : nat := match t with O => k | S t' => it (nth k perm 0) t' end.

Lemma it_add k a b : it k (a + b) = it (it k a) b.
Proof. revert k. induction a; intros k; cbn; auto. Qed.

Lemma chase_none fuel : forall i k, chase fuel perm i k = None <-> (forall u, u <= fuel -> it k u < i).
Proof.
  induction fuel as [|f IH]; intros i k; cbn [chase].
  - destruct (Nat.ltb_spec k i); split; intros H'; try discriminate; auto.
    + intros u Hu. now replace u with 0 by lia.
    + specialize (H' 0 ltac:(lia)). cbn in H'. lia.
  - destruct (Nat.ltb_spec k i).
    + rewrite IH. split; intros H' u Hu.
      * destruct u as [|u]; [exact H|]. cbn [it]. apply H'. lia.
      * apply (H' (S u)). lia.
    + split; [discriminate|]. intros H'. specialize (H' 0 ltac:(lia)). cbn in H'. lia.
Qed.

Lemma chase_forever i k n : i <= n -> chase n perm i k = None -> forall fuel, chase fuel perm i k = None.
Proof.
  intros Hin H. rewrite chase_none in H.
  assert (Hrep : exists a b, a < b <= i /\ it k a = it k b).
  { assert (D : forall m, NoDup (map (it k) (seq 0 m)) \/ exists a b, a < b < m /\ it k a = it k b).
    { induction m as [|m IHm]; [left; constructor|].
      destruct IHm as [IHm|(a & b & Hab & E)]; [|right; exists a, b; split; [lia|exact E]].
      destruct (in_dec Nat.eq_dec (it k m) (map (it k) (seq 0 m))) as [Hi|Hi].
      - right. apply in_map_iff in Hi as (a & E & Ha). apply in_seq in Ha. exists a, m. split; [lia|exact E].
      - left. rewrite seq_S, map_app. cbn. apply NoDup_Add with (a := it k m) (l := map (it k) (seq 0 m)).
        + rewrite <- (app_nil_r (map (it k) (seq 0 m))) at 1. apply Add_app.
        + auto. }
    destruct (D (S i)) as [Hnd|(a & b & Hab & E)]; [|exists a, b; split; [lia|exact E]].
    exfalso. assert (Hincl : incl (map (it k) (seq 0 (S i))) (seq 0 i)).
    { intros x Hx. apply in_map_iff in Hx as (t & <- & Ht). apply in_seq in Ht. apply in_seq.
      specialize (H t ltac:(lia)). lia. }
    pose proof (NoDup_incl_length Hnd Hincl) as HL. rewrite map_length, !seq_length in HL. lia. }
  destruct Hrep as (a & b & Hab & E).
  assert (Hall : forall t, it k t < i).
  { induction t as [t IH] using lt_wf_ind.
    destruct (le_lt_dec t n) as [|Hgt]; [now apply H|].
    replace t with (b + (t - b)) by lia. rewrite it_add, <- E, <- it_add. apply IH. lia. }
  intros fuel. apply chase_none. intros; apply Hall.
Qed.
End Forever.

