(** * Proofs about grouping pixels: finding the edges *)
From Coq Require Import Reals List Arith ZArith Bool Lia Lra Relations Permutation Sorted.
From Verif Require Import Base LutModel LutProofs QsModel QsProofs GfModel GfSpec GfProofs UfModel UfProofs LfModel EcModel EcSpec.
Import ListNotations.
Local Open Scope R_scope.

Lemma pi_small : 3 < PI < 10 / 3.
Proof.
  split; [ apply small_pi | ]. pose proof (PI_ineq 3) as [_ B]. unfold tg_alt, PI_tg in B.
  cbn [Nat.mul Nat.add sum_f_R0 pow INR] in B. lra.
Qed.

(** ** Similar directions *)
Lemma edge_cost_pos s t m : (0 <= edge_cost s t m)%Z <-> 4 / 1000 <= m /\ close s t.
Proof.
  unfold edge_cost, min_mag. destruct pi_small as [P1 P2]. destruct (Rlt_dec m (4 / 1000)) as [L | L]; [ split; [ lia | lra ] | ].
  cbv zeta. unfold max_edge_cost. destruct (mod2pi_spec (t - s)) as (k & E & B).
  assert (C : close s t <-> Rabs (mod2pi (t - s)) <= PI / 6).
  { split.
    - intros (j & J). assert (HJ : j = k).
      { assert (D : mod2pi (t - s) - (t - s + 2 * PI * IZR j) = 2 * PI * IZR (k - j)) by (rewrite E, minus_IZR; ring).
        assert (X : Rabs (t - s + 2 * PI * IZR j) <= 1) by lra. unfold Rabs in J. destruct (Rcase_abs _) in J.
        - assert (- (1 + 1/4) <= IZR (k - j) <= 1 + 1/4) by (split; nra). assert (-2 < k - j < 2)%Z by (split; apply lt_IZR; lra).
          assert (k - j = 1 \/ k - j = 0 \/ k - j = -1)%Z as [Q | [Q | Q]] by lia; [ | lia | ]; rewrite Q in D; nra.
        - assert (- (1 + 1/4) <= IZR (k - j) <= 1 + 1/4) by (split; nra). assert (-2 < k - j < 2)%Z by (split; apply lt_IZR; lra).
          assert (k - j = 1 \/ k - j = 0 \/ k - j = -1)%Z as [Q | [Q | Q]] by lia; [ | lia | ]; rewrite Q in D; nra. }
      subst j. rewrite E. exact J.
    - intros H. exists k. rewrite <- E. exact H. }
  destruct (Rlt_dec (30 * PI / 180) (Rabs (mod2pi (t - s)))) as [G | G].
  - split; [ lia | ]. intros [_ H]. apply C in H. lra.
  - split; [ intros _; split; [ lra | apply C; lra ] | ]. intros _. apply le_IZR.
    assert (Q : 0 <= Rabs (mod2pi (t - s)) / (30 * PI / 180) * weight_scale).
    { unfold weight_scale. pose proof (Rabs_pos (mod2pi (t - s))). apply Rmult_le_pos; [ | lra ]. apply Rmult_le_pos; [ assumption | left; apply Rinv_0_lt_compat; lra ]. }
    pose proof (trunc_pos _ Q) as T. assert (-1 < trunc (Rabs (mod2pi (t - s)) / (30 * PI / 180) * weight_scale))%Z by (apply lt_IZR; lra). apply IZR_le. lia.
Qed.
Lemma edge_cost_value s t m : (0 <= edge_cost s t m)%Z ->
  exists k : Z, let d := Rabs (t - s + 2 * PI * IZR k) in d <= PI / 6 /\ IZR (edge_cost s t m) <= 100 * (d / (PI / 6)) < IZR (edge_cost s t m) + 1.
Proof.
  unfold edge_cost, min_mag. destruct pi_small as [P1 P2]. destruct (Rlt_dec m (4 / 1000)) as [L | L]; [ lia | ].
  cbv zeta. unfold max_edge_cost. destruct (mod2pi_spec (t - s)) as (k & E & B).
  destruct (Rlt_dec (30 * PI / 180) (Rabs (mod2pi (t - s)))) as [G | G]; [ lia | ]. intros _. exists k. rewrite <- E.
  assert (Q : 0 <= Rabs (mod2pi (t - s)) / (30 * PI / 180) * weight_scale).
  { unfold weight_scale. pose proof (Rabs_pos (mod2pi (t - s))). apply Rmult_le_pos; [ | lra ]. apply Rmult_le_pos; [ assumption | left; apply Rinv_0_lt_compat; lra ]. }
  pose proof (trunc_pos _ Q) as T. split; [ lra | ].
  replace (100 * (Rabs (mod2pi (t - s)) / (PI / 6))) with (Rabs (mod2pi (t - s)) / (30 * PI / 180) * weight_scale) by (unfold weight_scale; field; lra). exact T.
Qed.
Lemma close_sym s t : close s t -> close t s.
Proof. intros (k & H). exists (- k)%Z. rewrite opp_IZR. replace (s - t + 2 * PI * - IZR k) with (- (t - s + 2 * PI * IZR k)) by ring. rewrite Rabs_Ropp. exact H. Qed.

(** ** Pixels in order *)
Definition idx (w : nat) (q : nat * nat) : nat := (snd q * w + fst q)%nat.
Lemma in_raster w h q : In q (raster w h) <-> (fst q < w)%nat /\ (snd q < h)%nat.
Proof.
  unfold raster. rewrite in_flat_map. split.
  - intros (y & Y & H). apply in_map_iff in H. destruct H as (x & <- & X). apply in_seq in X, Y. cbn [fst snd]. lia.
  - intros [X Y]. exists (snd q). split; [ apply in_seq; lia | ]. apply in_map_iff. exists (fst q). split; [ destruct q; reflexivity | apply in_seq; lia ].
Qed.
Lemma raster_S w h : raster w (S h) = raster w h ++ map (fun x => (x, h)) (seq 0 w).
Proof. unfold raster. rewrite seq_S, flat_map_app. cbn [flat_map]. rewrite app_nil_r. reflexivity. Qed.
Lemma shift_seq a : forall n s, map (fun x => (a + x)%nat) (seq s n) = seq (a + s) n.
Proof. induction n as [ | n IHn]; intros s0; [ reflexivity | ]. cbn [seq map]. rewrite IHn. f_equal. f_equal. lia. Qed.
Lemma raster_idx w h : map (idx w) (raster w h) = seq 0 (h * w).
Proof.
  induction h as [ | h IH ]; [ reflexivity | ]. rewrite raster_S, map_app, IH, map_map. unfold idx. cbn [fst snd].
  rewrite shift_seq. cbn [Nat.mul]. rewrite (Nat.add_comm w), seq_app. f_equal. f_equal. lia.
Qed.
Lemma idx_lt w h q : (fst q < w)%nat -> (snd q < h)%nat -> (idx w q < w * h)%nat.
Proof. unfold idx. intros. nia. Qed.
Lemma idx_inj w p q : (fst p < w)%nat -> (fst q < w)%nat -> idx w p = idx w q -> p = q.
Proof. unfold idx. intros A B E. destruct (index_unique w _ _ _ _ A B E). destruct p, q; cbn [fst snd] in *; congruence. Qed.

(** ** The edges of a pixel *)
Section Images.
Variables theta mag : image.
Hypothesis CT : complete theta.
Hypothesis CM : complete mag.
Hypothesis SW : width mag = width theta.
Hypothesis SH : height mag = height theta.
Notation w := (width theta).
Notation h := (height theta).

Lemma get_theta q : (fst q < w)%nat -> (snd q < h)%nat -> get theta (fst q) (snd q) = Ok (value theta q).
Proof. intros X Y. unfold get. rewrite read_ok; [ reflexivity | ]. rewrite CT. nia. Qed.
Lemma get_mag q : (fst q < w)%nat -> (snd q < h)%nat -> get mag (fst q) (snd q) = Ok (value mag q).
Proof. intros X Y. unfold get. rewrite read_ok; [ reflexivity | ]. rewrite CM. rewrite SW, SH. nia. Qed.

Lemma gt x y : (x < w)%nat -> (y < h)%nat -> get theta x y = Ok (value theta (x, y)).
Proof. intros X Y. exact (get_theta (x, y) X Y). Qed.
Lemma gm x y : (x < w)%nat -> (y < h)%nat -> get mag x y = Ok (value mag (x, y)).
Proof. intros X Y. exact (get_mag (x, y) X Y). Qed.

Definition candidate (p q : pixel) : list edge :=
  let c := edge_cost (value theta p) (value theta q) (value mag q) in if (0 <=? c)%Z then [Edge c (idx w p) (idx w q)] else [].
Definition later (p : pixel) : list pixel :=
  let '(x, y) := p in [(x + 1, y); (x, y + 1); (x + 1, y + 1)]%nat ++ (if (x =? 0)%nat then [] else [(x - 1, y + 1)%nat]).
Definition edges_of (p : pixel) : list edge :=
  if Rlt_dec (value mag p) min_mag then [] else flat_map (candidate p) (later p).
Lemma put_candidate cap p q edges : (length edges < cap)%nat ->
  put_edge cap (edge_cost (value theta p) (value theta q) (value mag q)) (idx w p) (idx w q) edges = Ok (edges ++ candidate p q) /\ (length (candidate p q) <= 1)%nat.
Proof.
  intros L. unfold put_edge, candidate. cbv zeta. destruct (0 <=? _)%Z; [ | rewrite app_nil_r; split; [ reflexivity | cbn; lia ] ].
  destruct (Nat.ltb_spec (length edges) cap); [ split; [ reflexivity | cbn; lia ] | lia ].
Qed.
Lemma calc_edges_ok cap x y edges : (x + 1 < w)%nat -> (y + 1 < h)%nat -> (length edges + 4 <= cap)%nat ->
  calc_edges cap (value theta (x, y)) x y theta mag edges = Ok (edges ++ flat_map (candidate (x, y)) (later (x, y))) /\ (length (flat_map (candidate (x, y)) (later (x, y))) <= 4)%nat.
Proof.
  intros X Y L. unfold calc_edges. cbv zeta.
  rewrite (gt (x + 1) (y)), (gm (x + 1) (y)) by lia. cbn [obind].
  replace (y * w + x + 1)%nat with (idx w (x + 1, y)%nat) by (unfold idx; cbn; lia). change (y * w + x)%nat with (idx w (x, y)).
  destruct (put_candidate cap (x, y) (x + 1, y)%nat edges ltac:(lia)) as [-> L1]. cbn [obind].
  rewrite (gt (x) (y + 1)), (gm (x) (y + 1)) by lia. cbn [obind].
  change ((y + 1) * w + x)%nat with (idx w (x, y + 1)%nat).
  destruct (put_candidate cap (x, y) (x, y + 1)%nat (edges ++ candidate (x, y) (x + 1, y)%nat)) as [-> L2]; [ rewrite app_length; lia | ]. cbn [obind].
  rewrite (gt (x + 1) (y + 1)), (gm (x + 1) (y + 1)) by lia. cbn [obind].
  replace (idx w (x, y + 1)%nat + 1)%nat with (idx w (x + 1, y + 1)%nat) by (unfold idx; cbn [fst snd]; lia).
  destruct (put_candidate cap (x, y) (x + 1, y + 1)%nat ((edges ++ candidate (x, y) (x + 1, y)%nat) ++ candidate (x, y) (x, y + 1)%nat)) as [-> L3]; [ rewrite !app_length; lia | ]. cbn [obind].
  unfold later. destruct (Nat.eqb_spec x 0) as [Z | NZ].
  - rewrite app_nil_r. cbn [flat_map]. rewrite app_nil_r, !app_length, !app_assoc. split; [ reflexivity | lia ].
  - rewrite (gt (x - 1) (y + 1)), (gm (x - 1) (y + 1)) by lia. cbn [obind].
    replace (idx w (x, y + 1)%nat - 1)%nat with (idx w (x - 1, y + 1)%nat) by (unfold idx; cbn [fst snd]; lia).
    destruct (put_candidate cap (x, y) (x - 1, y + 1)%nat (((edges ++ candidate (x, y) (x + 1, y)%nat) ++ candidate (x, y) (x, y + 1)%nat) ++ candidate (x, y) (x + 1, y + 1)%nat)) as [-> L4]; [ rewrite !app_length; lia | ].
    cbn [app flat_map]. rewrite app_nil_r, !app_length, !app_assoc. split; [ reflexivity | lia ].
Qed.

(** ** The scan *)
Definition sized (r : ranges) : Prop :=
  length (tmin r) = (w * h)%nat /\ length (tmax r) = (w * h)%nat /\ length (mmin r) = (w * h)%nat /\ length (mmax r) = (w * h)%nat.
Definition recorded (r : ranges) (q : pixel) : Prop :=
  nth (idx w q) (tmin r) 0 = value theta q /\ nth (idx w q) (tmax r) 0 = value theta q /\
  nth (idx w q) (mmin r) 0 = value mag q /\ nth (idx w q) (mmax r) 0 = value mag q.
Definition inner (q : pixel) : Prop := (fst q + 1 < w)%nat /\ (snd q + 1 < h)%nat.
Lemma scan_pixel_ok r edges q : inner q -> sized r -> (length edges + 4 <= w * h * 4)%nat ->
  exists r', scan_pixel theta mag (r, edges) q = Ok (r', edges ++ edges_of q) /\ sized r' /\ (length (edges_of q) <= 4)%nat /\
    (~ value mag q < min_mag -> recorded r' q) /\ forall p, inner p -> recorded r p -> recorded r' p.
Proof.
  intros [X Y] (Z1 & Z2 & Z3 & Z4) L. unfold scan_pixel, edges_of. destruct q as [x y]. cbn [fst snd] in X, Y.
  pose proof (get_mag (x, y) ltac:(cbn; lia) ltac:(cbn; lia)) as GM. cbn [fst snd] in GM. rewrite GM. cbn [obind].
  destruct (Rlt_dec (value mag (x, y)) min_mag) as [M | M].
  - exists r. rewrite app_nil_r. split; [ reflexivity | ]. split; [ unfold sized; tauto | ]. split; [ cbn; lia | ]. split; [ tauto | tauto ].
  - assert (I : (idx w (x, y) < w * h)%nat) by (apply idx_lt; cbn; lia).
    change (y * w + x)%nat with (idx w (x, y)). rewrite !write_ok by (rewrite ?Z1, ?Z2, ?Z3, ?Z4; exact I). cbn [obind].
    pose proof (get_theta (x, y) ltac:(cbn; lia) ltac:(cbn; lia)) as GT. cbn [fst snd] in GT. rewrite GT. cbn [obind]. rewrite !write_ok by (rewrite ?Z1, ?Z2, ?Z3, ?Z4; exact I). cbn [obind].
    destruct (calc_edges_ok (w * h * 4) x y edges X Y L) as [-> L4]. cbn [obind].
    eexists. split; [ reflexivity | ]. split; [ unfold sized; cbn [tmin tmax mmin mmax]; rewrite !set_at_length; tauto | ]. split; [ exact L4 | ].
    assert (W : forall p, inner p -> (p = (x, y) \/ recorded r p) -> recorded (Ranges (set_at (tmin r) (idx w (x, y)) (value theta (x, y))) (set_at (tmax r) (idx w (x, y)) (value theta (x, y)))
       (set_at (mmin r) (idx w (x, y)) (value mag (x, y))) (set_at (mmax r) (idx w (x, y)) (value mag (x, y)))) p).
    { intros p [PX PY] D. unfold recorded in *. cbn [tmin tmax mmin mmax]. rewrite !set_at_nth by (rewrite ?Z1, ?Z2, ?Z3, ?Z4; exact I).
      destruct (Nat.eqb_spec (idx w p) (idx w (x, y))) as [E | E].
      - assert (p = (x, y)) as -> by (apply (idx_inj w); [ cbn; lia | cbn; lia | exact E ]). tauto.
      - destruct D as [-> | D]; [ contradiction | exact D ]. }
    split; [ intros _; apply W; [ split; assumption | left; reflexivity ] | ]. intros p IP H. apply W; [ exact IP | right; exact H ].
Qed.
Lemma scan_ok : forall qs r edges, (forall q, In q qs -> inner q) -> sized r -> (length edges + 4 * length qs <= w * h * 4)%nat ->
  exists r', scan theta mag qs (r, edges) = Ok (r', edges ++ flat_map edges_of qs) /\ sized r' /\
    (forall p, In p qs -> ~ value mag p < min_mag -> recorded r' p) /\ (forall p, inner p -> recorded r p -> recorded r' p).
Proof.
  induction qs as [ | q qs IH ]; intros r edges I Z L.
  - exists r. cbn [scan flat_map]. rewrite app_nil_r. split; [ reflexivity | ]. split; [ exact Z | ]. split; [ intros p [] | tauto ].
  - cbn [length] in L. destruct (scan_pixel_ok r edges q (I q (or_introl eq_refl)) Z ltac:(lia)) as (r1 & E & Z1 & L4 & A & B).
    destruct (IH r1 (edges ++ edges_of q) ltac:(intros; apply I; right; assumption) Z1) as (r2 & E2 & Z2 & A2 & B2); [ rewrite app_length; lia | ].
    exists r2. cbn [scan]. rewrite E. cbn [obind]. rewrite E2. cbn [flat_map]. rewrite app_assoc. split; [ reflexivity | ]. split; [ exact Z2 | ]. split.
    + intros p [<- | H] M; [ apply B2; [ apply I; left; reflexivity | apply A; exact M ] | apply A2; assumption ].
    + intros p IP H. apply B2; [ exact IP | ]. apply B; assumption.
Qed.

(** ** Which edges there are *)
Hypothesis BORDER : forall q, on_border mag q -> value mag q = 0.
Definition all_edges : list edge := flat_map edges_of (raster (w - 1) (h - 1)).
Lemma strong_inside q : within theta q -> 4 / 1000 <= value mag q -> (1 <= fst q /\ fst q + 1 < w /\ 1 <= snd q /\ snd q + 1 < h)%nat.
Proof.
  intros [X Y] M. assert (N : ~ on_border mag q) by (intros B; rewrite (BORDER q B) in M; lra).
  unfold on_border, within in N. rewrite SW, SH in N. assert (~ (fst q = 0 \/ snd q = 0 \/ fst q = w - 1 \/ snd q = h - 1)%nat) by tauto. lia.
Qed.
Lemma in_edges e : In e all_edges <-> exists p q, inner p /\ In q (later p) /\ 4 / 1000 <= value mag p /\
  (0 <= edge_cost (value theta p) (value theta q) (value mag q))%Z /\ e = Edge (edge_cost (value theta p) (value theta q) (value mag q)) (idx w p) (idx w q).
Proof.
  unfold all_edges. rewrite in_flat_map. split.
  - intros (p & P & H). apply in_raster in P. unfold edges_of in H. destruct (Rlt_dec (value mag p) min_mag) as [M | M]; [ contradiction | ].
    apply in_flat_map in H. destruct H as (q & Q & H). unfold candidate in H. cbv zeta in H. destruct (Z.leb_spec 0 (edge_cost (value theta p) (value theta q) (value mag q))) as [C | C]; [ | contradiction ].
    destruct H as [<- | []]. exists p, q. split; [ unfold inner; lia | ]. split; [ exact Q | ]. split; [ unfold min_mag in M; lra | ]. split; [ exact C | reflexivity ].
  - intros (p & q & P & Q & M & C & ->). exists p. split; [ apply in_raster; unfold inner in P; lia | ].
    unfold edges_of. destruct (Rlt_dec (value mag p) min_mag) as [M' | M']; [ unfold min_mag in M'; lra | ].
    apply in_flat_map. exists q. split; [ exact Q | ]. unfold candidate. cbv zeta. rewrite (proj2 (Z.leb_le _ _) C). left. reflexivity.
Qed.
Lemma later_neighbours p q : inner p -> In q (later p) -> within theta q /\ neighbours p q.
Proof.
  destruct p as [x y]. unfold inner, later, within, neighbours. cbn [fst snd]. intros [X Y] H. apply in_app_or in H.
  destruct H as [[<- | [<- | [<- | []]]] | H]; [ .. | destruct (Nat.eqb_spec x 0) as [Z | NZ]; [ contradiction | destruct H as [<- | []] ] ]; cbn [fst snd]; (split; [ lia | ]; split; [ | lia ]);
    intros Q; injection Q; lia.
Qed.
Lemma neighbours_later p q : inner p -> neighbours p q -> In q (later p) \/ In p (later q).
Proof.
  destruct p as [x y], q as [x' y']. unfold inner, later, neighbours. cbn [fst snd]. intros [X Y] (NE & A & B & C & D).
  assert (NE' : ~ (x = x' /\ y = y')%nat) by (intros [-> ->]; apply NE; reflexivity).
  destruct (lt_eq_lt_dec y y') as [[E | E] | E].
  - assert (y' = y + 1)%nat by lia. subst y'. left. apply in_or_app. destruct (lt_eq_lt_dec x x') as [[F | F] | F].
    + left. right. right. left. f_equal; lia.
    + left. right. left. f_equal; lia.
    + right. destruct (Nat.eqb_spec x 0); [ lia | ]. left. f_equal; lia.
  - subst y'. destruct (lt_eq_lt_dec x x') as [[F | F] | F]; [ left | lia | right ]; apply in_or_app; left; left; f_equal; lia.
  - assert (y = y' + 1)%nat by lia. subst y. right. apply in_or_app. destruct (lt_eq_lt_dec x' x) as [[F | F] | F].
    + left. right. right. left. f_equal; lia.
    + left. right. left. f_equal; lia.
    + right. destruct (Nat.eqb_spec x' 0); [ lia | ]. left. f_equal; lia.
Qed.
Lemma edges_similar p q : within theta p -> within theta q ->
  ((exists c, In (Edge c (idx w p) (idx w q)) all_edges \/ In (Edge c (idx w q) (idx w p)) all_edges) <-> similar theta mag p q).
Proof.
  assert (ONE : forall p q c, within theta p -> within theta q -> In (Edge c (idx w p) (idx w q)) all_edges -> similar theta mag p q).
  { intros p0 q0 c W1 W2 H. apply in_edges in H. destruct H as (p1 & q1 & I & Lt & M & C & E).
    assert (E1 : idx w p0 = idx w p1) by congruence. assert (E2 : idx w q0 = idx w q1) by congruence. clear E.
    destruct (later_neighbours p1 q1 I Lt) as [Wq N].
    apply idx_inj in E1; [ | apply W1 | unfold inner in I; lia ]. apply idx_inj in E2; [ | apply W2 | apply Wq ]. subst p1 q1.
    apply edge_cost_pos in C. unfold similar. tauto. }
  intros W1 W2. split.
  - intros (c & [H | H]); [ exact (ONE _ _ _ W1 W2 H) | ]. destruct (ONE _ _ _ W2 W1 H) as (A1 & A2 & (N1 & N2) & A4 & A5 & A6).
    unfold similar, neighbours. split; [ exact W1 | ]. split; [ exact W2 | ]. split; [ split; [ congruence | lia ] | ]. split; [ exact A5 | ]. split; [ exact A4 | apply close_sym; exact A6 ].
  - intros (_ & _ & N & M1 & M2 & C). pose proof (strong_inside p W1 M1) as I1. pose proof (strong_inside q W2 M2) as I2.
    assert (Ip : inner p) by (unfold inner; lia). assert (Iq : inner q) by (unfold inner; lia).
    destruct (neighbours_later p q Ip N) as [H | H].
    + eexists. left. apply in_edges. exists p, q. split; [ exact Ip | ]. split; [ exact H | ]. split; [ exact M1 | ]. split; [ apply edge_cost_pos; tauto | reflexivity ].
    + eexists. right. apply in_edges. exists q, p. split; [ exact Iq | ]. split; [ exact H | ]. split; [ exact M2 | ]. split; [ apply edge_cost_pos; split; [ exact M1 | apply close_sym; exact C ] | reflexivity ].
Qed.
End Images.

(** ** Sorting *)
Lemma insert_perm e l : Permutation (insert e l) (e :: l).
Proof. induction l as [ | f l IH ]; cbn [insert]; [ reflexivity | ]. destruct (cost e <=? cost f)%Z; [ reflexivity | ]. rewrite IH. apply perm_swap. Qed.
Lemma sort_perm l : Permutation (sort l) l.
Proof. induction l as [ | e l IH ]; [ reflexivity | ]. cbn [sort fold_right]. rewrite insert_perm. apply perm_skip. exact IH. Qed.
Lemma insert_sorted e l : StronglySorted (fun a b => (cost a <= cost b)%Z) l -> StronglySorted (fun a b => (cost a <= cost b)%Z) (insert e l).
Proof.
  induction 1 as [ | f l S IH F ]; cbn [insert]; [ repeat constructor | ]. destruct (Z.leb_spec (cost e) (cost f)) as [C | C].
  - constructor; [ constructor; assumption | ]. constructor; [ exact C | ]. eapply Forall_impl; [ | exact F ]. cbn. intros. lia.
  - constructor; [ exact IH | ]. eapply Permutation_Forall; [ symmetry; apply insert_perm | ]. constructor; [ lia | exact F ].
Qed.
Lemma sort_sorted l : StronglySorted (fun a b => (cost a <= cost b)%Z) (sort l).
Proof. induction l as [ | e l IH ]; [ constructor | ]. cbn [sort fold_right]. apply insert_sorted. exact IH. Qed.
Lemma sort_stable c l : filter (fun e => (cost e =? c)%Z) (sort l) = filter (fun e => (cost e =? c)%Z) l.
Proof.
  induction l as [ | e l IH ]; [ reflexivity | ]. cbn [sort fold_right filter]. fold (sort l). rewrite <- IH. generalize (sort l) as k. clear.
  induction k as [ | f k IH ]; [ reflexivity | ]. cbn [insert]. destruct (Z.leb_spec (cost e) (cost f)) as [C | C]; [ reflexivity | ].
  cbn [filter]. rewrite IH. destruct (Z.eqb_spec (cost f) c), (Z.eqb_spec (cost e) c); try reflexivity. lia.
Qed.
