(** The assembled system as a least squares problem. *)
From Coq Require Import ZArith List Bool Lia Reals Lra.
From Verif Require Import Base Arith OMap RArith JacModel JacSpec MEstModel SbmModel SbmSpec SbmProofs SbmMore SbmReal HesModel HesSpec HesProofs.
Import ListNotations.
Open Scope nat_scope.

(** ** Sums over the rows of all terms. *)
Notation term := (hterm RA).
Lemma over_ext ts f g : (forall t k, In t ts -> k < height t -> f t k = g t k) -> over ts f = over ts g.
Proof.
  intro H. unfold over. f_equal. apply map_ext_in. intros t Ht. apply sumn_ext. intros k Hk. now apply H.
Qed.
Lemma over_plus ts f g : over ts (fun t k => (f t k + g t k)%R) = (over ts f + over ts g)%R.
Proof.
  induction ts as [ | t ts IH]; [unfold over; cbn; lra | ]. rewrite !over_cons, IH, sumn_plus. lra.
Qed.
Lemma over_scale ts a f : over ts (fun t k => (a * f t k)%R) = (a * over ts f)%R.
Proof.
  induction ts as [ | t ts IH]; [unfold over; cbn; lra | ]. rewrite !over_cons, IH, sumn_scale. lra.
Qed.
Lemma over_zero ts : over ts (fun _ _ => 0%R) = 0%R.
Proof.
  induction ts as [ | t ts IH]; [reflexivity | ]. rewrite over_cons, IH, sumn_zero; auto. lra.
Qed.
Lemma over_sumn ts n f : over ts (fun t k => sumn n (fun a => f a t k)) = sumn n (fun a => over ts (f a)).
Proof.
  induction n as [ | n IH]; cbn [sumn]; [apply over_zero | ]. now rewrite over_plus, IH.
Qed.
Lemma sumn_nonneg n f : (forall k, k < n -> (0 <= f k)%R) -> (0 <= sumn n f)%R.
Proof.
  induction n as [ | n IH]; intro H; cbn [sumn]; [lra | ].
  pose proof (IH (fun k Hk => H k (Nat.lt_lt_succ_r _ _ Hk))). pose proof (H n (Nat.lt_succ_diag_r n)). lra.
Qed.
Lemma over_nonneg ts f : (forall t k, In t ts -> (0 <= f t k)%R) -> (0 <= over ts f)%R.
Proof.
  induction ts as [ | t ts IH]; intro H; [unfold over; cbn; lra | ]. rewrite over_cons.
  pose proof (sumn_nonneg (height t) (f t) (fun k _ => H t k (or_introl eq_refl))).
  pose proof (IH (fun t0 k Ht => H t0 k (or_intror Ht))). lra.
Qed.

Section Ls.
Variable scaling : dvref -> R.
Variable useM : bool.
Variable lay : list nat.
Hypothesis LAY : layout lay.
Notation J := (jent scaling useM).
Notation E := (werr useM).

(** The Jacobian by scalar column. *)
Definition js (t : term) (k a : nat) : R := J t k (upper_bound lay a) (a - base_of lay (upper_bound lay a)).

Lemma js_at t k b i : b < length lay -> i < size_of lay b -> js t k (base_of lay b + i) = J t k b i.
Proof.
  intros Hb Hi. unfold js. destruct (locate_back lay b i LAY Hb Hi) as [_ ->]. f_equal. lia.
Qed.

Lemma jx_js t k x : jx scaling useM lay t k x = sumn (total lay) (fun a => (js t k a * x a)%R).
Proof.
  rewrite (sum_blocks lay _ LAY). unfold jx. apply sumn_ext. intros b Hb. apply sumn_ext. intros i Hi.
  now rewrite js_at.
Qed.

Variable ts : list term.
Variable H : sbm RA.
Variable rhs : list R.
Hypothesis W : wf H.
Hypothesis ER : rbi H = lay.
Hypothesis EC : cbi H = lay.
Hypothesis HV : forall r i c j, r < length lay -> c < length lay -> i < size_of lay r -> j < size_of lay c ->
   val H r i c j = (if (r <=? c)%nat then over ts (fun t k => J t k r i * J t k c j)%R else 0%R).
Hypothesis HR : forall r i, r < length lay -> i < size_of lay r ->
   nth (base_of lay r + i) rhs 0%R = (- over ts (fun t k => J t k r i * E t k))%R.

Lemma sym_js a b : a < total lay -> b < total lay ->
  sym H a b = over ts (fun t k => (js t k a * js t k b)%R).
Proof.
  intros Ha Hb. destruct (locate lay a LAY Ha) as (r & i & Hr & Hi & -> & _).
  destruct (locate lay b LAY Hb) as (c & j & Hc & Hj & -> & _).
  pose proof (sym_at RA H r i c j W (eq_trans ER (eq_sym EC))) as K. rewrite ER in K.
  etransitivity; [exact (K Hr Hc Hi Hj) | ]. clear K.
  transitivity (over ts (fun t k => (J t k r i * J t k c j)%R)).
  - destruct ((r <? c) || (r =? c) && (i <=? j)) eqn:B.
    + etransitivity; [exact (HV r i c j Hr Hc Hi Hj) | ].
      apply orb_true_iff in B. rewrite andb_true_iff, Nat.ltb_lt, Nat.eqb_eq in B.
      rewrite (proj2 (Nat.leb_le r c)) by lia. reflexivity.
    + etransitivity; [exact (HV c j r i Hc Hr Hj Hi) | ].
      apply orb_false_iff in B. rewrite andb_false_iff, Nat.ltb_ge, Nat.eqb_neq in B.
      rewrite (proj2 (Nat.leb_le c r)) by lia. apply over_ext. intros. lra.
  - apply over_ext. intros t k _ _. now rewrite !js_at.
Qed.

Lemma rhs_js a : a < total lay -> nth a rhs 0%R = (- over ts (fun t k => js t k a * E t k))%R.
Proof.
  intro Ha. destruct (locate lay a LAY Ha) as (r & i & Hr & Hi & -> & _). rewrite (HR r i Hr Hi). f_equal.
  apply over_ext. intros t k _ _. now rewrite js_at.
Qed.

(** The quadratic form of the system is the squared length of J x. *)
Lemma quadratic x : sumn (total lay) (fun a => (x a * sumn (total lay) (fun b => sym H a b * x b))%R) =
  over ts (fun t k => (jx scaling useM lay t k x * jx scaling useM lay t k x)%R).
Proof.
  transitivity (sumn (total lay) (fun a => over ts (fun t k => (x a * js t k a * jx scaling useM lay t k x)%R))).
  - apply sumn_ext. intros a Ha.
    rewrite (sumn_ext (total lay) _ (fun b => over ts (fun t k => (js t k a * (js t k b * x b))%R))).
    + rewrite <- over_sumn, <- over_scale. apply over_ext. intros t k _ _.
      rewrite sumn_scale, <- jx_js. ring.
    + intros b Hb. rewrite (sym_js a b Ha Hb), Rmult_comm, <- over_scale. apply over_ext. intros. ring.
  - rewrite <- over_sumn. apply over_ext. intros t k _ _.
    rewrite (sumn_ext (total lay) _ (fun a => (jx scaling useM lay t k x * (js t k a * x a))%R)) by (intros; ring).
    now rewrite sumn_scale, <- jx_js.
Qed.

Lemma gradient x d : (forall a, a < total lay -> sumn (total lay) (fun b => sym H a b * x b)%R = nth a rhs 0%R) ->
  over ts (fun t k => ((E t k + jx scaling useM lay t k x) * jx scaling useM lay t k d)%R) = 0%R.
Proof.
  intro S0.
  transitivity (sumn (total lay) (fun a => (d a * over ts (fun t k => (E t k + jx scaling useM lay t k x) * js t k a))%R)).
  - rewrite (sumn_ext (total lay) _ (fun a => over ts (fun t k => (d a * ((E t k + jx scaling useM lay t k x) * js t k a))%R)))
      by (intros a _; now rewrite over_scale).
    rewrite <- over_sumn. apply over_ext. intros t k _ _.
    rewrite (jx_js t k d), <- sumn_scale. apply sumn_ext. intros a _. ring.
  - apply sumn_zero. intros a Ha.
    assert (K : over ts (fun t k => ((E t k + jx scaling useM lay t k x) * js t k a)%R) = 0%R); [ | rewrite K; ring].
    rewrite (over_ext ts _ (fun t k => (js t k a * E t k + js t k a * jx scaling useM lay t k x)%R))
      by (intros; ring).
    rewrite over_plus.
    assert (K2 : over ts (fun t k => (js t k a * jx scaling useM lay t k x)%R) = nth a rhs 0%R).
    { rewrite <- (S0 a Ha). rewrite (over_ext ts _ (fun t k => sumn (total lay) (fun b => (js t k a * (js t k b * x b))%R)))
        by (intros; now rewrite jx_js, sumn_scale).
      rewrite over_sumn. apply sumn_ext. intros b Hb.
      rewrite (sym_js a b Ha Hb), (Rmult_comm _ (x b)), <- over_scale. apply over_ext. intros. ring. }
    rewrite K2, (rhs_js a Ha). lra.
Qed.

Lemma jx_minus t k x y : jx scaling useM lay t k (fun a => (y a - x a)%R) =
  (jx scaling useM lay t k y - jx scaling useM lay t k x)%R.
Proof.
  rewrite !jx_js.
  rewrite (sumn_ext (total lay) (fun a => (js t k a * (y a - x a))%R)
             (fun a => (js t k a * y a + (-1) * (js t k a * x a))%R)) by (intros; ring).
  rewrite sumn_plus, sumn_scale. ring.
Qed.

Lemma minimiser x y : (forall a, a < total lay -> sumn (total lay) (fun b => sym H a b * x b)%R = nth a rhs 0%R) ->
  (cost scaling useM lay ts x <= cost scaling useM lay ts y)%R.
Proof.
  intro S0. pose proof (gradient x (fun a => (y a - x a)%R) S0) as G.
  assert (K : cost scaling useM lay ts y = (cost scaling useM lay ts x +
    (over ts (fun t k => (jx scaling useM lay t k (fun a => (y a - x a)) * jx scaling useM lay t k (fun a => (y a - x a)))%R) +
     2 * over ts (fun t k => ((E t k + jx scaling useM lay t k x) * jx scaling useM lay t k (fun a => (y a - x a)%R))%R)))%R).
  { unfold cost. rewrite <- over_scale, <- !over_plus. apply over_ext. intros t k _ _. rewrite jx_minus. ring. }
  rewrite K, G.
  assert (0 <= over ts (fun t k => (jx scaling useM lay t k (fun a => (y a - x a)) * jx scaling useM lay t k (fun a => (y a - x a)))%R))%R; [ | lra].
  apply over_nonneg. intros t k _. nra.
Qed.
End Ls.
