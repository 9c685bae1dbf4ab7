From Coq Require Import ZArith List Bool Lia Permutation.
From Verif Require Import Base Arith OMap JacModel JacSpec CcmModel CcmSpec CcmProofs CcmBuild ThrModel ThrSpec.
Import ListNotations.
Open Scope Z_scope.

(** ** Ranges. *)
Lemma cumulate_ok k : forall from step, 0 <= from -> 0 <= step -> from + Z.of_nat k * step <= INT_MAX ->
  cumulate k from step = Ok (map (fun j => from + Z.of_nat j * step) (seq 0 (S k))).
Proof.
  induction k as [ | k IH]; intros from step Hf Hs H.
  - cbn. do 2 f_equal. lia.
  - cbn [cumulate]. unfold INT_MAX in *.
    rewrite ret_i32_ok by (unfold in_i32, INT_MIN, INT_MAX; nia). cbn [obind].
    rewrite IH by (unfold INT_MAX; nia). cbn [obind]. f_equal.
    change (seq 0 (S (S k))) with (0%nat :: seq 1 (S k)). cbn [map]. f_equal; [lia | ].
    rewrite <- (seq_shift (S k) 0), map_map. apply map_ext. intro j. lia.
Qed.

Lemma removelast_map_seq (f : nat -> Z) k :
  removelast (map f (seq 0 (S k))) = map f (seq 0 k).
Proof. rewrite seq_S, map_app. cbn [map]. apply removelast_last. Qed.

Lemma pairs_visits : forall l n, l <> [] ->
  (forall x, In x (l ++ [n]) -> 0 <= x) ->
  (forall i a b, nth_error (l ++ [n]) i = Some a -> nth_error (l ++ [n]) (S i) = Some b -> a <= b) ->
  concat (map visits (pairs (l ++ [n]))) = seq (Z.to_nat (hd 0 l)) (Z.to_nat (n - hd 0 l)) /\
  length (pairs (l ++ [n])) = length l.
Proof.
  induction l as [ | a l IH]; intros n Hl Hp Hm; [congruence | ].
  destruct l as [ | b l].
  - cbn. rewrite app_nil_r. split; reflexivity.
  - change (pairs ((a :: b :: l) ++ [n])) with ((a, b) :: pairs ((b :: l) ++ [n])).
    destruct (IH n) as (E & L); [discriminate | | | ].
    + intros x Hx. apply Hp. right. exact Hx.
    + intros i x y Hx Hy. apply (Hm (S i)); assumption.
    + cbn [map concat length hd]. rewrite E, L. cbn [hd]. split; [ | reflexivity].
      unfold visits. cbn [fst snd].
      assert (Ha : 0 <= a) by (apply Hp; now left).
      assert (Hab : a <= b) by (apply (Hm 0%nat); reflexivity).
      assert (Hbn : b <= n).
      { assert (G : forall j x, nth_error ((b :: l) ++ [n]) j = Some x -> b <= x).
        { induction j as [ | j IHj]; intros x Hx; [injection Hx as <-; lia | ].
          destruct (nth_error ((b :: l) ++ [n]) j) as [y | ] eqn:Ey.
          - specialize (IHj y eq_refl). specialize (Hm (S j) y x Ey Hx). lia.
          - apply nth_error_None in Ey.
            assert (S j < length ((b :: l) ++ [n]))%nat by (apply nth_error_Some; congruence). lia. }
        apply (G (length (b :: l))). rewrite nth_error_app2, Nat.sub_diag by lia. reflexivity. }
      replace (Z.to_nat b) with (Z.to_nat a + Z.to_nat (b - a))%nat by lia.
      rewrite <- seq_app. f_equal. lia.
Qed.

Lemma ranges_ok nThreads n : 1 <= n <= INT_MAX -> exists rs,
  ranges nThreads n = Ok rs /\ length rs = Z.to_nat (Z.max 1 (Z.min nThreads n)) /\
  concat (map visits rs) = seq 0 (Z.to_nat n) /\
  Forall (fun r => 0 <= fst r < snd r /\ snd r <= n) rs.
Proof.
  intros H. unfold ranges. destruct (Z.leb_spec nThreads 1) as [L | L].
  - exists [(0, n)]. split; [reflexivity | ]. split; [cbn; lia | ]. split.
    + cbn. unfold visits. cbn [fst snd]. rewrite app_nil_r. now rewrite Z.sub_0_r.
    + repeat constructor; cbn; lia.
  - set (k := Z.min nThreads n). assert (Hk : 2 <= k \/ k = 1) by (unfold k; lia).
    assert (Hkn : k <= n) by (unfold k; lia).
    destruct (Z.eqb_spec k 0); [lia | ].
    assert (Hq : 1 <= n / k <= n).
    { split; [apply Z.div_le_lower_bound; lia | apply Z.div_le_upper_bound; nia]. }
    assert (Hmul : k * (n / k) <= n) by (apply Z.mul_div_le; lia).
    rewrite cast_i32_id by (unfold in_i32, INT_MIN; unfold INT_MAX in *; lia).
    rewrite Z.max_r by lia. set (p := n / k) in *. clearbody p.
    rewrite cumulate_ok by (rewrite ?Z2Nat.id; lia). cbn [obind].
    rewrite removelast_map_seq.
    rewrite cast_i32_id by (unfold in_i32, INT_MIN; unfold INT_MAX in *; lia).
    set (l := map (fun j => 0 + Z.of_nat j * p) (seq 0 (Z.to_nat k))).
    assert (Hl : l <> []).
    { unfold l. destruct (Z.to_nat k) eqn:E; [lia | discriminate]. }
    assert (Ll : length l = Z.to_nat k) by (unfold l; now rewrite map_length, seq_length).
    assert (Hn : forall i, (i < Z.to_nat k)%nat -> nth_error (l ++ [n]) i = Some (Z.of_nat i * p)).
    { intros i Hi. rewrite nth_error_app1 by lia. apply (nth_map_seq Z). split; [exact Hi | lia]. }
    assert (Hlast : nth_error (l ++ [n]) (Z.to_nat k) = Some n).
    { rewrite nth_error_app2 by lia. rewrite Ll, Nat.sub_diag. reflexivity. }
    assert (Hlt : forall i a b, nth_error (l ++ [n]) i = Some a ->
        nth_error (l ++ [n]) (S i) = Some b -> 0 <= a < b /\ b <= n).
    { intros i a b Ha Hb.
      assert (S i < length (l ++ [n]))%nat by (apply nth_error_Some; congruence).
      rewrite app_length in H0. cbn [length] in H0.
      rewrite Hn in Ha by lia. injection Ha as <-.
      destruct (Nat.eq_dec (S i) (Z.to_nat k)) as [Es | Ns].
      - rewrite Es, Hlast in Hb. injection Hb as <-. nia.
      - rewrite Hn in Hb by lia. assert (Eb : b = Z.of_nat (S i) * p) by congruence. rewrite Eb.
        assert (X0 : Z.of_nat (S i) <= k) by lia.
        assert (X : Z.of_nat (S i) * p <= k * p) by (apply Z.mul_le_mono_nonneg_r; lia).
        assert (X1 : 0 <= Z.of_nat i * p) by (apply Z.mul_nonneg_nonneg; lia).
        replace (Z.of_nat (S i) * p) with (Z.of_nat i * p + p) in * by (rewrite Nat2Z.inj_succ; ring).
        lia. }
    destruct (pairs_visits l n Hl) as (E & L1).
    + intros x Hx. apply in_app_iff in Hx. destruct Hx as [Hx | [<- | []]]; [ | lia].
      unfold l in Hx. apply in_map_iff in Hx. destruct Hx as (j & <- & _). lia.
    + intros i a b Ha Hb. specialize (Hlt i a b Ha Hb). lia.
    + exists (pairs (l ++ [n])). split; [reflexivity | ]. split; [rewrite L1, Ll; f_equal; lia | ].
      assert (Hhd : hd 0 l = 0).
      { unfold l. destruct (Z.to_nat k) eqn:Ek; [lia | ]. cbn. lia. }
      split; [rewrite E, Hhd, Z.sub_0_r; reflexivity | ].
      clear - Hlt. revert Hlt. generalize (l ++ [n]). intro q.
      induction q as [ | a q IH]; intro Hlt; [constructor | ]. destruct q as [ | b q]; [constructor | ].
      change (pairs (a :: b :: q)) with ((a, b) :: pairs (b :: q)). constructor.
      * apply (Hlt 0%nat); reflexivity.
      * apply IH. intros i x y Hx Hy. apply (Hlt (S i)); assumption.
Qed.

(** ** Schedules. *)
Open Scope nat_scope.

Lemma fil_other {X} t t' (i : X) s : t <> t' ->
  map snd (filter (fun p => Nat.eqb (fst p) t') ((t, i) :: s)) =
  map snd (filter (fun p => Nat.eqb (fst p) t') s).
Proof. intro H. cbn [filter fst]. destruct (Nat.eqb_spec t t'); [congruence | reflexivity]. Qed.

Lemma by_thread {X} N (s : list (nat * X)) : Forall (fun p => fst p < N) s ->
  Permutation (map snd s)
    (flat_map (fun t => map snd (filter (fun p => Nat.eqb (fst p) t) s)) (seq 0 N)).
Proof.
  induction 1 as [ | [t i] s Ht F IH].
  - cbn [map filter]. induction (seq 0 N); [reflexivity | assumption].
  - cbn [fst] in Ht. cbn [map snd].
    assert (E : seq 0 N = seq 0 t ++ t :: seq (S t) (N - S t)).
    { replace N with (t + S (N - S t)) at 1 by lia. rewrite seq_app. reflexivity. }
    rewrite E in IH |- *. rewrite flat_map_app in IH |- *. cbn [flat_map] in IH |- *.
    assert (G : forall l, ~ In t l ->
      flat_map (fun t0 => map snd (filter (fun p => Nat.eqb (fst p) t0) ((t, i) :: s))) l =
      flat_map (fun t0 => map snd (filter (fun p => Nat.eqb (fst p) t0) s)) l).
    { induction l as [ | a l IHl]; intro Hl; [reflexivity | ].
      cbn [flat_map]. rewrite IHl by (intro Z; apply Hl; now right).
      f_equal. apply fil_other. intros ->. apply Hl. now left. }
    rewrite !G by (rewrite in_seq; lia).
    cbn [filter fst]. rewrite Nat.eqb_refl. cbn [map snd app].
    apply Permutation_cons_app. exact IH.
Qed.

Lemma sched_threads {X} (progs : list (list X)) sched : interleaves progs sched ->
  Forall (fun p => fst p < length progs) sched.
Proof.
  intro H. apply Forall_forall. intros [t i] Hp. cbn [fst].
  destruct (Nat.lt_ge_cases t (length progs)) as [L | L]; [exact L | ].
  specialize (H t). rewrite nth_overflow in H by exact L.
  assert (Hin : In (t, i) (filter (fun p => Nat.eqb (fst p) t) sched))
    by (apply filter_In; split; [exact Hp | cbn; apply Nat.eqb_refl]).
  destruct (filter _ sched); [contradiction | discriminate].
Qed.

Lemma sched_perm {X} (progs : list (list X)) sched : interleaves progs sched ->
  Permutation (map snd sched) (concat progs).
Proof.
  intro H. rewrite (by_thread (length progs) sched (sched_threads progs sched H)).
  assert (E : forall l, flat_map (fun t => map snd (filter (fun p => Nat.eqb (fst p) t) sched)) l =
                        concat (map (fun t => nth t progs []) l)).
  { induction l as [ | a l IH]; [reflexivity | ]. cbn [flat_map map concat]. now rewrite IH, H. }
  rewrite E. clear. apply Permutation_refl'. f_equal.
  induction progs as [ | p progs IH]; [reflexivity | ].
  cbn [length seq map nth]. f_equal. rewrite <- seq_shift, map_map. exact IH.
Qed.

Lemma sched_in {X} (progs : list (list X)) sched t i : interleaves progs sched ->
  (In (t, i) sched <-> In i (nth t progs [])).
Proof.
  intro H. rewrite <- (H t), in_map_iff. split.
  - intro Hp. exists (t, i). split; [reflexivity | ]. apply filter_In. split; [exact Hp | ].
    apply Nat.eqb_refl.
  - intros ([t' i'] & E & Hp). cbn [snd] in E. subst i'. apply filter_In in Hp.
    destruct Hp as (Hp & E). apply Nat.eqb_eq in E. cbn [fst] in E. now subst t'.
Qed.

(** ** Execution. *)
Section Eval.
Variable A : Arith.
Notation num := (num A).
Variable opp : num -> num.
Variable dim : nat -> nat.
Variable err : nat -> option num.
Variable werr : nat -> option (list num).

Definition bad (i : nat) : Prop := err i = None \/ werr i = None.
Definition sized (i : nat) : Prop := forall w, werr i = Some w -> length w = dim i.

Notation row := (row dim).
Notation visit := (visit A opp dim err werr).
Notation execute := (execute A opp dim err werr).

Lemma existsb_in t l : existsb (Nat.eqb t) l = true <-> In t l.
Proof.
  rewrite existsb_exists. split.
  - intros (x & Hx & E). apply Nat.eqb_eq in E. now subst.
  - intro H. exists t. split; [exact H | apply Nat.eqb_refl].
Qed.

Lemma store_in_range {V} (l : list V) : forall i v, i < length l ->
  exists l', store i v l = Ok l' /\ length l' = length l.
Proof.
  induction l as [ | x l IH]; intros [ | i] v H; cbn [length] in H; try lia.
  - eexists. split; [reflexivity | reflexivity].
  - destruct (IH i v ltac:(lia)) as (l' & E & L). exists (x :: l'). cbn [store]. rewrite E.
    split; [reflexivity | cbn; lia].
Qed.

Lemma stores_in_range {V} ws : forall l : list V, (forall i v, In (i, v) ws -> i < length l) ->
  exists l', stores ws l = Ok l' /\ length l' = length l.
Proof.
  induction ws as [ | [i v] ws IH]; intros l H; [eexists; split; reflexivity | ].
  cbn [stores]. destruct (store_in_range l i v) as (l1 & E1 & L1).
  { apply (H i v). now left. }
  rewrite E1. cbn [obind]. destruct (IH l1) as (l2 & E2 & L2).
  { intros j w Hj. rewrite L1. apply (H j w). now right. }
  exists l2. split; [exact E2 | congruence].
Qed.

Lemma visit_total s t i : t < length (locals s) -> sized i -> row i + dim i <= length (evec s) ->
  exists s', visit s (t, i) = Ok s' /\ length (locals s') = length (locals s) /\
    length (evec s') = length (evec s) /\
    (forall u, In u (dead s') <-> In u (dead s) \/ (u = t /\ bad i)).
Proof.
  intros Ht Hs Hr. unfold ThrModel.visit.
  destruct (existsb (Nat.eqb t) (dead s)) eqn:D.
  { apply existsb_in in D. exists s. split; [reflexivity | ]. split; [reflexivity | ].
    split; [reflexivity | ]. intro u. split; [auto | ]. intros [H | (-> & _)]; assumption. }
  unfold bad. destruct (err i) as [x | ] eqn:Ei.
  - destruct (nth_error (locals s) t) as [old | ] eqn:En; [ | apply nth_error_None in En; lia].
    rewrite (proj2 (load_ok _ _ _) En). cbn [obind].
    destruct (store_in_range (locals s) t (add A old x) Ht) as (ls & E & L). rewrite E. cbn [obind].
    destruct (werr i) as [w | ] eqn:Ew.
    + rewrite (Hs w Ew), Nat.eqb_refl.
      destruct (stores_in_range (combine (seq (row i) (dim i)) (map opp w)) (evec s)) as (ev & E2 & L2).
      { intros j v Hj. apply in_combine_l, in_seq in Hj. lia. }
      rewrite E2. cbn [obind]. eexists. split; [reflexivity | ]. cbn [locals evec dead].
      split; [exact L | ]. split; [exact L2 | ]. intro u. split; [auto | ].
      intros [H | (_ & [H | H])]; [exact H | discriminate..].
    + eexists. split; [reflexivity | ]. cbn [locals evec dead]. split; [exact L | ].
      split; [reflexivity | ]. intro u. cbn [In]. split.
      * intros [<- | H]; [right; split; [reflexivity | now right] | now left].
      * intros [H | (-> & _)]; [now right | now left].
  - eexists. split; [reflexivity | ]. cbn [locals evec dead]. split; [reflexivity | ].
    split; [reflexivity | ]. intro u. cbn [In]. split.
    + intros [<- | H]; [right; split; [reflexivity | now left] | now left].
    + intros [H | (-> & _)]; [now right | now left].
Qed.

Lemma execute_app a b s : execute (a ++ b) s = (do s' <- execute a s; execute b s').
Proof.
  unfold ThrModel.execute. rewrite fold_left_app.
  destruct (fold_left _ a (Ok s)) as [x | | | ]; cbn [obind]; try reflexivity.
  all: induction b as [ | y b IH]; [reflexivity | exact IH].
Qed.

Lemma execute_cons x b s : execute (x :: b) s = (do s' <- visit s x; execute b s').
Proof.
  change (x :: b) with ([x] ++ b). rewrite execute_app. reflexivity.
Qed.

Lemma execute_total : forall sched s,
  Forall (fun p => fst p < length (locals s) /\ sized (snd p) /\
                   row (snd p) + dim (snd p) <= length (evec s)) sched ->
  exists s', execute sched s = Ok s' /\ length (locals s') = length (locals s) /\
    length (evec s') = length (evec s) /\
    (forall u, In u (dead s') <-> In u (dead s) \/ exists i, In (u, i) sched /\ bad i).
Proof.
  induction sched as [ | [t i] sched IH]; intros s F.
  - exists s. split; [reflexivity | ]. split; [reflexivity | ]. split; [reflexivity | ].
    intro u. split; [auto | ]. intros [H | (i & [] & _)]. exact H.
  - destruct (Forall_inv F) as (H1 & H2 & H3). cbn [fst snd] in *.
    destruct (visit_total s t i H1 H2 H3) as (s1 & E1 & L1 & V1 & D1).
    destruct (IH s1) as (s2 & E2 & L2 & V2 & D2).
    { rewrite L1, V1. exact (Forall_inv_tail F). }
    exists s2. rewrite execute_cons, E1. split; [exact E2 | ]. split; [congruence | ].
    split; [congruence | ]. intro u. rewrite D2, D1. split.
    + intros [[H | (-> & H)] | (j & Hj & B)]; [now left | | ].
      * right. exists i. split; [now left | exact H].
      * right. exists j. split; [now right | exact B].
    + intros [H | (j & [Hj | Hj] & B)]; [auto | | ].
      * injection Hj as <- <-. left. right. auto.
      * right. exists j. auto.
Qed.

(** With no exceptions. *)
Variable ev : nat -> num.
Variable wv : nat -> list num.

Definition writes (i : nat) : list (nat * num) :=
  combine (seq (row i) (length (wv i))) (map opp (wv i)).

Lemma execute_clean : forall sched s,
  dead s = [] ->
  Forall (fun p => fst p < length (locals s) /\ err (snd p) = Some (ev (snd p)) /\
                   werr (snd p) = Some (wv (snd p)) /\ length (wv (snd p)) = dim (snd p) /\
                   row (snd p) + dim (snd p) <= length (evec s)) sched ->
  exists s', execute sched s = Ok s' /\ dead s' = [] /\
    length (locals s') = length (locals s) /\
    (forall t d, t < length (locals s) -> nth t (locals s') d =
       fold_left (add A) (map ev (map snd (filter (fun p => Nat.eqb (fst p) t) sched)))
                 (nth t (locals s) d)) /\
    stores (flat_map writes (map snd sched)) (evec s) = Ok (evec s').
Proof.
  induction sched as [ | [t i] sched IH]; intros s D F.
  - exists s. split; [reflexivity | ]. split; [exact D | ]. split; [reflexivity | ].
    split; [ | reflexivity]. intros t d _. reflexivity.
  - destruct (Forall_inv F) as (H1 & H2 & H3 & H4 & H5). cbn [fst snd] in *.
    assert (V : exists s1, visit s (t, i) = Ok s1 /\ dead s1 = [] /\
      length (locals s1) = length (locals s) /\ length (evec s1) = length (evec s) /\
      (forall u d, nth u (locals s1) d =
         if Nat.eqb u t then add A (nth t (locals s) d) (ev i) else nth u (locals s) d) /\
      stores (writes i) (evec s) = Ok (evec s1)).
    { unfold ThrModel.visit. rewrite D. cbn [existsb]. rewrite H2, H3.
      destruct (nth_error (locals s) t) as [old | ] eqn:En; [ | apply nth_error_None in En; lia].
      rewrite (proj2 (load_ok _ _ _) En). cbn [obind].
      destruct (store_in_range (locals s) t (add A old (ev i)) H1) as (ls & E & L).
      rewrite E. cbn [obind]. rewrite H4, Nat.eqb_refl.
      destruct (stores_in_range (combine (seq (row i) (dim i)) (map opp (wv i))) (evec s)) as (e' & E2 & L2).
      { intros j v Hj. apply in_combine_l, in_seq in Hj. lia. }
      rewrite E2. cbn [obind]. eexists. split; [reflexivity | ]. cbn [locals evec dead].
      split; [reflexivity | ]. split; [exact L | ]. split; [exact L2 | ]. split.
      - clear - E En. revert t ls E En. generalize (locals s). intro l.
        induction l as [ | x l IHl]; intros [ | t] ls E En u d; cbn [store] in E; try discriminate.
        + injection E as <-. injection En as <-. destruct u; reflexivity.
        + destruct (store t (add A old (ev i)) l) as [r | | | ] eqn:Er; cbn [obind] in E; try discriminate.
          injection E as <-. cbn [nth_error] in En. destruct u as [ | u]; [reflexivity | ].
          cbn [nth Nat.eqb]. exact (IHl t r Er En u d).
      - unfold writes. now rewrite H4. }
    destruct V as (s1 & E1 & D1 & L1 & V1 & N1 & W1).
    destruct (IH s1 D1) as (s2 & E2 & D2 & L2 & N2 & W2).
    { rewrite L1, V1. exact (Forall_inv_tail F). }
    exists s2. rewrite execute_cons, E1. split; [exact E2 | ]. split; [exact D2 | ].
    split; [congruence | ]. split.
    + intros u d Hu. rewrite N2 by congruence. rewrite N1. cbn [filter fst].
      rewrite (Nat.eqb_sym t u). destruct (Nat.eqb_spec u t) as [-> | Nu].
      * cbn [map snd fold_left]. reflexivity.
      * reflexivity.
    + cbn [map snd flat_map]. rewrite stores_app, W1. exact W2.
Qed.

End Eval.

(** ** The stacked error vector. *)
Lemma row_S dim i : row dim (S i) = row dim i + dim i.
Proof. unfold row. rewrite seq_S, map_app, list_sum_app. cbn. lia. Qed.

Lemma row_mono dim i j : i <= j -> row dim i <= row dim j.
Proof. induction 1; [lia | ]. rewrite row_S. lia. Qed.

Lemma stack_nth {X} (dim : nat -> nat) (f : nat -> list X) n :
  (forall i, i < n -> length (f i) = dim i) ->
  length (concat (map f (seq 0 n))) = row dim n /\
  forall j v, nth_error (concat (map f (seq 0 n))) j = Some v <->
    exists i q, i < n /\ j = row dim i + q /\ nth_error (f i) q = Some v.
Proof.
  induction n as [ | n IH]; intro H.
  - cbn. split; [reflexivity | ]. intros j v. split; [destruct j; discriminate | ].
    intros (i & q & Hi & _). lia.
  - destruct IH as (L & N); [intros i Hi; apply H; lia | ].
    rewrite seq_S, map_app, concat_app. cbn [Nat.add map concat]. rewrite app_nil_r. split.
    + rewrite app_length, L, row_S, (H n) by lia. reflexivity.
    + intros j v. destruct (Nat.lt_ge_cases j (row dim n)) as [Lj | Lj].
      * rewrite nth_error_app1 by lia. rewrite N. split.
        -- intros (i & q & Hi & Hj & Hq). exists i, q. split; [lia | auto].
        -- intros (i & q & Hi & Hj & Hq). exists i, q. split; [ | auto].
           destruct (Nat.eq_dec i n) as [-> | ]; [lia | lia].
      * rewrite nth_error_app2 by lia. rewrite L. split.
        -- intro E. exists n, (j - row dim n). split; [lia | ]. split; [lia | exact E].
        -- intros (i & q & Hi & Hj & Hq). destruct (Nat.eq_dec i n) as [-> | Ni].
           ++ replace (j - row dim n) with q by lia. exact Hq.
           ++ assert (q < dim i) by (rewrite <- (H i) by lia; apply nth_error_Some; congruence).
              assert (row dim (S i) <= row dim n) by (apply row_mono; lia).
              rewrite row_S in H1. lia.
Qed.

Lemma writes_in (A : Arith) opp dim wv i j (v : num A) :
  In (j, v) (writes A opp dim wv i) <-> exists q, j = row dim i + q /\ nth_error (map opp (wv i)) q = Some v.
Proof.
  unfold writes. rewrite <- (map_length opp (wv i)). generalize (map opp (wv i)) as l.
  generalize (row dim i) as a. intros a l. revert a.
  induction l as [ | x l IH]; intro a; cbn [length seq combine].
  - split; [intros [] | ]. intros (q & _ & E). destruct q; discriminate.
  - cbn [In]. rewrite IH. split.
    + intros [E | (q & -> & E)].
      * injection E as <- <-. exists 0. split; [lia | reflexivity].
      * exists (S q). split; [lia | exact E].
    + intros ([ | q] & -> & E).
      * left. injection E as <-. f_equal. lia.
      * right. exists q. split; [lia | exact E].
Qed.

Lemma stack_writes (A : Arith) opp dim wv n l (e : list (num A)) :
  (forall i, i < n -> length (wv i) = dim i) -> Permutation l (seq 0 n) ->
  length e = row dim n ->
  stores (flat_map (writes A opp dim wv) l) e = Ok (concat (map (fun i => map opp (wv i)) (seq 0 n))).
Proof.
  intros H P L.
  assert (H' : forall i, i < n -> length (map opp (wv i)) = dim i)
    by (intros i Hi; rewrite map_length; now apply H).
  destruct (stack_nth dim (fun i => map opp (wv i)) n H') as (Ls & Ns).
  apply (stores_suffix (num A) _ [] e (concat (map (fun i => map opp (wv i)) (seq 0 n)))).
  - congruence.
  - intros j v. rewrite (flat_map_in_perm _ _ _ _ P), in_flat_map. cbn [length Nat.add]. split.
    + intros (i & Hi & Hw). apply in_seq in Hi. apply writes_in in Hw.
      destruct Hw as (q & -> & E). exists (row dim i + q). split; [reflexivity | ].
      apply Ns. exists i, q. split; [lia | auto].
    + intros (j' & -> & E). apply Ns in E. destruct E as (i & q & Hi & -> & E).
      exists i. split; [apply in_seq; lia | ]. apply writes_in. exists q. auto.
Qed.

(** ** Numbering. *)
Lemma number_from_nth l : forall i k d, nth_error (number_from i l) k = Some d ->
  exists r, nth_error l k = Some r /\ d = DvRef (rptr r) (i + Z.of_nat k) (rdim r) true.
Proof.
  induction l as [ | x l IH]; intros i [ | k] d H; try discriminate.
  - injection H as <-. exists x. split; [reflexivity | ]. cbn [Z.of_nat]. now rewrite Z.add_0_r.
  - cbn [number_from nth_error] in H. destruct (IH _ _ _ H) as (r & E & ->). exists r.
    split; [exact E | ]. f_equal. lia.
Qed.

Lemma number_dims l : forall i k,
  dims (firstn k (number_from i l)) = fold_left (fun s x => s + rdim x) (firstn k l) 0.
Proof.
  assert (G : forall l s, fold_left (fun s x => s + rdim x) l s = s + list_sum (map rdim l)).
  { clear. induction l as [ | x l IH]; intro s; [cbn; lia | ]. cbn [fold_left map].
    rewrite IH, list_sum_cons. lia. }
  intros i k. rewrite G. cbn [Nat.add]. unfold dims. f_equal.
  revert i k. induction l as [ | x l IH]; intros i [ | k]; try reflexivity.
  cbn [number_from firstn map]. f_equal. apply IH.
Qed.

Lemma number_numbered l : numbered (column_base l) (number l).
Proof.
  intros k d H. unfold number in *. destruct (number_from_nth _ _ _ _ H) as (r & E & ->).
  cbn [block is_active]. split; [lia | ]. split; [reflexivity | ].
  unfold column_base. cbn [block]. rewrite number_dims, Z.add_0_l, Nat2Z.id. reflexivity.
Qed.
