(** * C94: grouping pixels of similar gradients *)
From Coq Require Import Reals List Arith ZArith Bool Lia Lra Relations Permutation Sorted.
From Verif Require Import Base LutModel LutProofs QsModel QsProofs GfModel GfSpec GfProofs UfModel UfProofs LfModel LfSpec EcModel EcSpec EcProofs EcMerge.
Import ListNotations.
Local Open Scope R_scope.

Definition at_index (m : image) (i : nat) : R := nth i (pixels m) 0.
Lemma filter_map_length {A B} (f : B -> bool) (g : A -> B) l : length (filter f (map g l)) = length (filter (fun x => f (g x)) l).
Proof. induction l as [ | a l IH ]; [ reflexivity | ]. cbn [map filter]. destruct (f (g a)); cbn [length]; rewrite IH; reflexivity. Qed.

Section Facts.
Variables theta mag : image.
Hypothesis GI : gradient_images theta mag.
Notation w := (width theta).
Notation h := (height theta).
Notation n := (w * h)%nat.
Lemma scanned : exists r0, scan theta mag (raster (w - 1) (h - 1)) (Ranges (repeat 0 n) (repeat 0 n) (repeat 0 n) (repeat 0 n), []) = Ok (r0, all_edges theta mag) /\
  grouped n (at_index theta) (at_index mag) [] (fun i => i) (make n) r0 /\
  (forall e, In e (all_edges theta mag) -> (pixel_a e < n)%nat /\ (pixel_b e < n)%nat /\ strong (at_index mag) (pixel_a e) /\ strong (at_index mag) (pixel_b e)).
Proof.
  destruct GI as (CT & CM & SW & SH & BO). 
  assert (Z : sized theta (Ranges (repeat 0 n) (repeat 0 n) (repeat 0 n) (repeat 0 n))) by (unfold sized; cbn [tmin tmax mmin mmax]; rewrite repeat_length; tauto).
  destruct (scan_ok theta mag CT CM SW SH (raster (w - 1) (h - 1)) (Ranges (repeat 0 n) (repeat 0 n) (repeat 0 n) (repeat 0 n)) []) as (r & E & Zr & RC & _).
  - intros q Q. apply in_raster in Q. unfold inner. lia.
  - exact Z.
  - change (length (@nil edge)) with 0%nat. rewrite Nat.add_0_l.
    assert (LR : length (raster (w - 1) (h - 1)) = ((h - 1) * (w - 1))%nat) by (rewrite <- (map_length (idx (w - 1))), raster_idx, seq_length; reflexivity).
    unfold pixel. rewrite LR. assert ((h - 1) * (w - 1) <= h * w)%nat by (apply Nat.mul_le_mono; lia). lia.
  - exists r. split; [ exact E | ].
    assert (EV : forall q, value mag q = at_index mag (idx w q)) by (intros q; unfold value, at_index, idx; rewrite SW; reflexivity).
    assert (IN : forall e, In e (all_edges theta mag) -> (pixel_a e < n)%nat /\ (pixel_b e < n)%nat /\ strong (at_index mag) (pixel_a e) /\ strong (at_index mag) (pixel_b e)).
    { intros e H. apply (in_edges theta mag SW SH) in H. destruct H as (p & q & I & L & M & C & ->). cbn [pixel_a pixel_b]. destruct (later_neighbours theta mag SW SH p q I L) as [[W1 W2] _]. destruct I as [I1 I2].
      apply edge_cost_pos in C. unfold strong. rewrite <- !EV. split; [ apply idx_lt; lia | ]. split; [ apply idx_lt; assumption | ]. tauto. }
    assert (G0 : grouped n (at_index theta) (at_index mag) [] (fun i => i) (make n) r).
    { destruct Zr as (Z1 & Z2 & Z3 & Z4).
      assert (RR : forall i, (i < n)%nat -> strong (at_index mag) i -> nth i (tmin r) 0 = at_index theta i /\ nth i (tmax r) 0 = at_index theta i /\ nth i (mmin r) 0 = at_index mag i /\ nth i (mmax r) 0 = at_index mag i).
      { intros i Hi Si. assert (I : In i (map (idx w) (raster w h))) by (rewrite raster_idx; apply in_seq; lia). apply in_map_iff in I. destruct I as (q & <- & Q). apply in_raster in Q.
        unfold strong in Si. rewrite <- EV in Si.
        pose proof (strong_inside theta mag SW SH BO q Q Si) as IS.
        destruct (RC q) as (R1 & R2 & R3 & R4); [ apply in_raster; lia | unfold min_mag; lra | ]. rewrite R1, R2, R3, R4, EV. unfold value, at_index, idx. tauto. }
      constructor.
      - apply make_good.
      - exact Z1.
      - exact Z2.
      - exact Z3.
      - exact Z4.
      - intros i Hi Si. destruct (RR i Hi Si) as (-> & -> & _ & _). exists 0%Z. lra.
      - intros i Hi Si. destruct (RR i Hi Si) as (-> & -> & _ & _). pose proof pi_small. lra.
      - intros i Hi Si. destruct (RR i Hi Si) as (_ & _ & -> & ->). lra.
      - intros i Hi Si. destruct (RR i Hi Si) as (_ & _ & -> & ->). exists i, i. tauto.
      - intros i Hi. apply rst_refl.
      - intros _ a b (c & []). }
    split; [ exact G0 | exact IN ].
Qed.
Lemma grouping : exists uf r rep, group_pixels theta mag = Ok (uf, r, all_edges theta mag) /\
  grouped n (at_index theta) (at_index mag) (sort (all_edges theta mag)) rep uf r /\
  (forall e, In e (all_edges theta mag) -> (pixel_a e < n)%nat /\ (pixel_b e < n)%nat /\ strong (at_index mag) (pixel_a e) /\ strong (at_index mag) (pixel_b e)).
Proof.
  destruct scanned as (r & E & G0 & IN). unfold group_pixels. cbv zeta. rewrite E. cbn [obind].
    destruct (merge_edges_ok n (at_index theta) (at_index mag) (sort (all_edges theta mag)) [] (fun i => i) (make n) r G0) as (uf & r' & rep & EM & GR).
    + intros e H. cbn [app] in H. apply IN. apply (Permutation_in _ (sort_perm _)). exact H.
    + rewrite EM. cbn [obind]. exists uf, r', rep. split; [ reflexivity | ]. split; [ exact GR | exact IN ].
Qed.
Lemma joins_iff a b : joins (sort (all_edges theta mag)) a b <-> exists c, In (Edge c a b) (all_edges theta mag).
Proof. split; intros (c & H); exists c; [ apply (Permutation_in _ (sort_perm _)) | apply (Permutation_in _ (Permutation_sym (sort_perm _))) ]; exact H. Qed.
Lemma joins_chained a b : clos_refl_sym_trans nat (joins (sort (all_edges theta mag))) a b ->
  a = b \/ exists p q, within theta p /\ within theta q /\ idx w p = a /\ idx w q = b /\ chained theta mag p q.
Proof.
  destruct GI as (CT & CM & SW & SH & BO).
  induction 1 as [ x y J | | x y _ IH | x y z _ IH1 _ IH2 ].
  - right. apply joins_iff in J. destruct J as (c & J). pose proof J as J'. apply (in_edges theta mag SW SH) in J. destruct J as (p & q & I & L & M & C & E).
    destruct (later_neighbours theta mag SW SH p q I L) as [Wq N]. assert (Wp : within theta p) by (unfold inner in I; unfold within; lia).
    assert (E1 : idx w p = x) by congruence. assert (E2 : idx w q = y) by congruence. exists p, q. split; [ exact Wp | ]. split; [ exact Wq | ]. split; [ exact E1 | ]. split; [ exact E2 | ].
    apply rst_step. apply (edges_similar theta mag SW SH BO p q Wp Wq). exists c. left. rewrite E1, E2. exact J'.
  - left. reflexivity.
  - destruct IH as [-> | (p & q & A & B & C & D & E)]; [ left; reflexivity | ]. right. exists q, p. split; [ exact B | ]. split; [ exact A | ]. split; [ exact D | ]. split; [ exact C | ]. apply rst_sym. exact E.
  - destruct IH1 as [-> | (p & q & A & B & C & D & E)]; [ exact IH2 | ]. destruct IH2 as [<- | (p' & q' & A' & B' & C' & D' & E')]; [ right; exists p, q; tauto | ].
    right. exists p, q'. split; [ exact A | ]. split; [ exact B' | ]. split; [ exact C | ]. split; [ exact D' | ]. eapply rst_trans; [ exact E | ].
    assert (q = p') as -> by (apply (idx_inj w); [ apply B | apply A' | congruence ]). exact E'.
Qed.
Lemma same_group rep uf r p q : grouped n (at_index theta) (at_index mag) (sort (all_edges theta mag)) rep uf r -> within theta p -> within theta q -> rep (idx w p) = rep (idx w q) -> chained theta mag p q.
Proof.
  intros G Wp Wq E. assert (J : clos_refl_sym_trans nat (joins (sort (all_edges theta mag))) (idx w p) (idx w q)).
  { eapply rst_trans; [ apply (m_link _ _ _ _ _ _ _ G); apply idx_lt; apply Wp | ]. rewrite E. apply rst_sym. apply (m_link _ _ _ _ _ _ _ G). apply idx_lt; apply Wq. }
  destruct (joins_chained _ _ J) as [Q | (p' & q' & A & B & C & D & F)].
  - assert (p = q) as -> by (apply (idx_inj w); [ apply Wp | apply Wq | exact Q ]). apply rst_refl.
  - apply idx_inj in C; [ | apply A | apply Wp ]. apply idx_inj in D; [ | apply B | apply Wq ]. subst p' q'. exact F.
Qed.
Lemma size_members rep q : group_size n rep (idx w q) = length (members theta (fun p => rep (idx w p)) (rep (idx w q))).
Proof.
  unfold group_size, total_of, members. change (all_pixels theta) with (raster w h). rewrite (Nat.mul_comm w h), <- (raster_idx w h).
  rewrite filter_map_length. reflexivity.
Qed.
Lemma in_all q : In q (all_pixels theta) <-> within theta q.
Proof. apply (in_raster w h). Qed.
End Facts.

(** The links found are exactly the pairs of neighbouring pixels with strong
    gradients of close directions; none of the accesses is out of bounds. *)
Theorem C94_edges : forall theta mag, gradient_images theta mag -> exists uf r edges, group_pixels theta mag = Ok (uf, r, edges) /\
  (forall p q, within theta p -> within theta q ->
    ((exists c, In (Edge c (snd p * width theta + fst p) (snd q * width theta + fst q)) edges \/ In (Edge c (snd q * width theta + fst q) (snd p * width theta + fst p)) edges) <-> similar theta mag p q)) /\
  forall e, In e edges -> exists p q k, within theta p /\ within theta q /\ pixel_a e = (snd p * width theta + fst p)%nat /\ pixel_b e = (snd q * width theta + fst q)%nat /\
    let d := Rabs (value theta q - value theta p + 2 * PI * IZR k) in d <= PI / 6 /\ IZR (cost e) <= 100 * (d / (PI / 6)) < IZR (cost e) + 1.
Proof.
  intros theta mag GI. destruct (grouping theta mag GI) as (uf & r & rep & E & _ & IN). exists uf, r, (all_edges theta mag). split; [ exact E | ].
  destruct GI as (CT & CM & SW & SH & BO). split.
  - intros p q Wp Wq. exact (edges_similar theta mag SW SH BO p q Wp Wq).
  - intros e H. apply (in_edges theta mag SW SH) in H. destruct H as (p & q & I & L & M & C & ->). destruct (later_neighbours theta mag SW SH p q I L) as [Wq _].
    destruct (edge_cost_value _ _ _ C) as (k & K). exists p, q, k. split; [ unfold inner in I; unfold within; lia | ]. split; [ exact Wq | ]. split; [ reflexivity | ]. split; [ reflexivity | ]. exact K.
Qed.
Print Assumptions C94_edges.

(** They are used in order of their costs, links of equal cost as found. *)
Theorem C94_order : forall l, Permutation (sort l) l /\ StronglySorted (fun a b => (cost a <= cost b)%Z) (sort l) /\
  forall c, filter (fun e => (cost e =? c)%Z) (sort l) = filter (fun e => (cost e =? c)%Z) l.
Proof. intros l. split; [ apply sort_perm | ]. split; [ apply sort_sorted | ]. intros c. apply sort_stable. Qed.
Print Assumptions C94_order.

(** The recorded bounds of each group hold for all its pixels, those of the
    magnitudes exactly. *)
Theorem C94_bounds : forall theta mag, gradient_images theta mag -> exists uf r edges, group_pixels theta mag = Ok (uf, r, edges) /\
  forall q, within theta q -> 4 / 1000 <= value mag q -> exists k uf', get_representative uf (snd q * width theta + fst q) = Ok (k, uf') /\
    angle_in (nth k (tmin r) 0) (nth k (tmax r) 0) (value theta q) /\ 0 <= nth k (tmax r) 0 - nth k (tmin r) 0 <= 2 * PI /\
    nth k (mmin r) 0 <= value mag q <= nth k (mmax r) 0 /\
    exists p p', within theta p /\ within theta p' /\ chained theta mag q p /\ chained theta mag q p' /\ value mag p = nth k (mmin r) 0 /\ value mag p' = nth k (mmax r) 0.
Proof.
  intros theta mag GI. destruct (grouping theta mag GI) as (uf & r & rep & E & G & IN). exists uf, r, (all_edges theta mag). split; [ exact E | ].
  intros q Wq M. pose proof GI as (CT & CM & SW & SH & BO).
  assert (EV : forall p, value mag p = at_index mag (idx (width theta) p)) by (intros p; unfold value, at_index, idx; rewrite SW; reflexivity).
  assert (Hi : (idx (width theta) q < width theta * height theta)%nat) by (apply idx_lt; apply Wq).
  assert (Si : strong (at_index mag) (idx (width theta) q)) by (unfold strong; rewrite <- EV; exact M).
  destruct (get_representative_good _ rep uf _ (m_good _ _ _ _ _ _ _ G) Hi) as (uf' & R & _). exists (rep (idx (width theta) q)), uf'. split; [ exact R | ].
  split; [ exact (m_angle _ _ _ _ _ _ _ G _ Hi Si) | ]. split; [ exact (m_width _ _ _ _ _ _ _ G _ Hi Si) | ]. split; [ rewrite EV; exact (m_mag _ _ _ _ _ _ _ G _ Hi Si) | ].
  destruct (m_att _ _ _ _ _ _ _ G _ Hi Si) as (a & b & A1 & B1 & A2 & B2 & A3 & B3 & A4 & B4).
  assert (PIX : forall i, (i < width theta * height theta)%nat -> exists p, within theta p /\ idx (width theta) p = i).
  { intros i L. assert (I : In i (map (idx (width theta)) (raster (width theta) (height theta)))) by (rewrite raster_idx; apply in_seq; lia). apply in_map_iff in I.
    destruct I as (p & P & I). exists p. split; [ apply in_raster in I; exact I | exact P ]. }
  destruct (PIX a A1) as (p & Wp & Pa). destruct (PIX b B1) as (p' & Wp' & Pb). exists p, p'. split; [ exact Wp | ]. split; [ exact Wp' | ].
  split; [ apply (same_group theta mag GI rep uf r q p G Wq Wp); congruence | ]. split; [ apply (same_group theta mag GI rep uf r q p' G Wq Wp'); congruence | ].
  rewrite !EV. split; congruence.
Qed.
Print Assumptions C94_bounds.

(** A link joins two groups only if the union spans little more directions and
    magnitudes than either; the larger the union, the less. *)
Theorem C94_selective : forall theta mag, gradient_images theta mag ->
  exists r0 edges, let n := (width theta * height theta)%nat in
  scan theta mag (raster (width theta - 1) (height theta - 1)) (Ranges (repeat 0 n) (repeat 0 n) (repeat 0 n) (repeat 0 n), []) = Ok (r0, edges) /\
  (exists uf r, merge_edges (make n) r0 (sort edges) = Ok (uf, r) /\ group_pixels theta mag = Ok (uf, r, edges)) /\
  forall es e rest, sort edges = es ++ e :: rest -> exists uf r uf' r' lab lab',
    merge_edges (make n) r0 es = Ok (uf, r) /\ merge_edge uf r e = Ok (uf', r') /\
    (forall i, (i < n)%nat -> exists u u', get_representative uf i = Ok (lab i, u) /\ get_representative uf' i = Ok (lab' i, u')) /\
    (((forall i, (i < n)%nat -> lab' i = lab i) /\ r' = r) \/
     (lab (pixel_a e) <> lab (pixel_b e) /\ lab' (pixel_a e) = lab' (pixel_b e) /\
      let k := lab' (pixel_a e) in let ka := lab (pixel_a e) in let kb := lab (pixel_b e) in
      let size := INR (length (filter (fun j => lab' j =? k)%nat (seq 0 n))) in
      nth k (tmax r') 0 - nth k (tmin r') 0 <= Rmin (nth ka (tmax r) 0 - nth ka (tmin r) 0) (nth kb (tmax r) 0 - nth kb (tmin r) 0) + 100 / size /\
      nth k (mmax r') 0 - nth k (mmin r') 0 <= Rmin (nth ka (mmax r) 0 - nth ka (mmin r) 0) (nth kb (mmax r) 0 - nth kb (mmin r) 0) + 1200 / size)).
Proof.
  intros theta mag GI. destruct (scanned theta mag GI) as (r0 & E & G0 & IN). exists r0, (all_edges theta mag). cbv zeta. split; [ exact E | ]. split.
  { destruct (merge_edges_ok _ _ _ (sort (all_edges theta mag)) [] _ _ _ G0) as (uf & r & lab & EM & _); [ intros x X; apply IN; apply (Permutation_in _ (sort_perm _)); exact X | ].
    exists uf, r. split; [ exact EM | ]. unfold group_pixels. cbv zeta. rewrite E. cbn [obind]. rewrite EM. reflexivity. }
  intros es e rest S.
  assert (IN' : forall x, In x (es ++ e :: rest) -> (pixel_a x < width theta * height theta)%nat /\ (pixel_b x < width theta * height theta)%nat /\ strong (at_index mag) (pixel_a x) /\ strong (at_index mag) (pixel_b x)).
  { intros x X. apply IN. apply (Permutation_in _ (sort_perm _)). rewrite S. exact X. }
  destruct (merge_edges_ok _ _ _ es [] _ _ _ G0) as (uf & r & lab & EM & G); [ intros x X; apply IN'; apply in_or_app; left; exact X | ]. cbn [app] in G.
  destruct (IN' e) as (I1 & I2 & I3 & I4); [ apply in_or_app; right; left; reflexivity | ].
  destruct (merge_edge_ok _ _ _ es lab uf r e G I1 I2 I3 I4) as (uf' & r' & lab' & EE & G' & D).
  { intros a b (c & J). destruct (IN' (Edge c a b)) as (X & Y & _); [ apply in_or_app; left; exact J | split; [ exact X | exact Y ] ]. }
  exists uf, r, uf', r', lab, lab'. split; [ exact EM | ]. split; [ exact EE | ]. split.
  - intros i Hi. destruct (get_representative_good _ lab uf i (m_good _ _ _ _ _ _ _ G) Hi) as (u & R1 & _). destruct (get_representative_good _ lab' uf' i (m_good _ _ _ _ _ _ _ G') Hi) as (u' & R2 & _). exists u, u'. split; assumption.
  - destruct D as [[-> ->] | D]; [ left; split; [ reflexivity | reflexivity ] | right; exact D ].
Qed.
Print Assumptions C94_selective.

(** The clusters handed to the line fit. *)
Lemma filter_inner (f : nat * nat -> bool) w h : (forall q, In q (raster w h) -> f q = true -> (fst q + 1 < w)%nat /\ (snd q + 1 < h)%nat) ->
  filter f (raster w h) = filter f (raster (w - 1) (h - 1)).
Proof.
  intros H.
  assert (NO : forall l, (forall q, In q l -> f q = true -> False) -> filter f l = []).
  { induction l as [ | a l IH ]; intros B; [ reflexivity | ]. cbn [filter]. destruct (f a) eqn:Ea; [ exfalso; apply (B a); [ left; reflexivity | exact Ea ] | ]. apply IH. intros q I. apply B. right. exact I. }
  assert (ROW : forall y, (y < h)%nat -> filter f (map (fun x => (x, y)) (seq 0 w)) = filter f (map (fun x => (x, y)) (seq 0 (w - 1)))).
  { intros y Hy. destruct w as [ | w']; [ reflexivity | ]. cbn [Nat.sub]. rewrite Nat.sub_0_r, seq_S, map_app, filter_app. cbn [map].
    cbn [Nat.add]. rewrite (NO [(w', y)]); [ apply app_nil_r | ]. intros q [<- | []] F. destruct (H (w', y)); [ apply in_raster; cbn [fst snd]; lia | exact F | cbn [fst snd] in *; lia ]. }
  assert (ALL : forall k, (k <= h)%nat -> filter f (raster w k) = filter f (raster (w - 1) k)).
  { induction k as [ | k IH ]; intros L; [ reflexivity | ]. rewrite !raster_S, !filter_app, IH, ROW by lia. reflexivity. }
  destruct h as [ | h']; [ rewrite ALL by lia; reflexivity | ]. cbn [Nat.sub]. rewrite Nat.sub_0_r, raster_S, filter_app, (ALL h') by lia.
  rewrite (NO (map _ _)); [ apply app_nil_r | ]. intros q I F. apply in_map_iff in I. destruct I as (x & <- & X). apply in_seq in X.
  destruct (H (x, h')); [ apply in_raster; cbn [fst snd]; lia | exact F | cbn [fst snd] in *; lia ].
Qed.
Theorem C94_clusters : forall theta mag, gradient_images theta mag -> exists cl label, clusters theta mag = Ok cl /\
  StronglySorted lt (map fst cl) /\
  (forall k pts, In (k, pts) cl <-> pts = map (fun q => XYW (INR (fst q)) (INR (snd q)) (value mag q)) (members theta label k) /\ (4 <= length pts)%nat) /\
  (forall p q, within theta p -> within theta q -> label p = label q -> chained theta mag p q) /\
  ((forall q, within theta q -> value mag q <= 80) -> forall p q, similar theta mag p q ->
     label p = label q \/ (16 <= length (members theta label (label p)) + length (members theta label (label q)))%nat).
Proof.
  intros theta mag GI. destruct (grouping theta mag GI) as (uf & r & rep & E & G & IN). pose proof GI as (CT & CM & SW & SH & BO).
  set (w := width theta) in *. set (h := height theta) in *. set (label := fun q => rep (idx w q)).
  assert (SM : forall q, group_size (w * h) rep (idx w q) = length (members theta label (label q))) by (intros q; apply size_members).
  destruct (collect_ok w (w * h) mag rep (raster (w - 1) (h - 1)) uf []) as (cl & EC & A & NE & LK).
  - exact (m_good _ _ _ _ _ _ _ G).
  - intros q Q. apply in_raster in Q. split; [ apply idx_lt; lia | ]. apply (get_mag theta mag CM SW SH q); [ fold w | fold h ]; lia.
  - constructor.
  - intros k ps [].
  - exists cl, label. split; [ unfold clusters; rewrite E; cbn [obind]; rewrite SW, SH; fold w h; exact EC | ]. split; [ exact A | ].
    assert (CH : forall p q, within theta p -> within theta q -> label p = label q -> chained theta mag p q) by (intros p q Wp Wq L; apply (same_group theta mag GI rep uf r p q G Wp Wq L)).
    split; [ | split; [ exact CH | ] ].
    + assert (LEN : forall k, members theta label k <> [] -> exists q, within theta q /\ label q = k).
      { intros k N. destruct (members theta label k) as [ | q l ] eqn:Em; [ contradiction | ]. exists q. assert (I : In q (members theta label k)) by (rewrite Em; left; reflexivity).
        apply filter_In in I. destruct I as [I1 I2]. split; [ apply (in_raster w h); exact I1 | apply Nat.eqb_eq; exact I2 ]. }
      assert (STRONG : forall p q, chained theta mag p q -> p = q \/ (within theta p /\ within theta q /\ 4 / 1000 <= value mag p /\ 4 / 1000 <= value mag q)).
      { intros p q C. induction C as [ x y (S1 & S2 & _ & S4 & S5 & _) | | x y _ IH | x y z _ I1 _ I2 ]; [ right; tauto | left; reflexivity | destruct IH as [-> | IH]; tauto | ].
        destruct I1 as [-> | I1]; [ exact I2 | ]. destruct I2 as [<- | I2]; [ right; exact I1 | right; tauto ]. }
      assert (PTS : forall k, filter (fun q => big w (w * h) rep q && (rep (idx w q) =? k)%nat) (raster (w - 1) (h - 1)) = if (4 <=? length (members theta label k))%nat then members theta label k else []).
      { intros k. rewrite <- filter_inner.
        - destruct (Nat.leb_spec 4 (length (members theta label k))) as [L | L].
          + unfold members. apply filter_ext_in. intros q Q. apply in_raster in Q. destruct (Nat.eqb_spec (rep (idx w q)) k) as [Ek | Ek].
            * unfold big. rewrite SM. fold (label q) in Ek. rewrite Ek. destruct (Nat.leb_spec 4 (length (members theta label k))); [ | lia ]. unfold label in Ek. cbn [andb]. symmetry. apply Nat.eqb_eq. first [ reflexivity | exact Ek ].
            * rewrite andb_false_r. symmetry. apply Nat.eqb_neq. exact Ek.
          + assert (NO : forall l, (forall q, In q l -> big w (w * h) rep q && (rep (idx w q) =? k)%nat = true -> False) -> filter (fun q => big w (w * h) rep q && (rep (idx w q) =? k)%nat) l = []).
            { induction l as [ | a l IH ]; intros B; [ reflexivity | ]. cbn [filter]. destruct (big w (w * h) rep a && _) eqn:Ea; [ exfalso; apply (B a); [ left; reflexivity | exact Ea ] | ]. apply IH. intros q I. apply B. right. exact I. }
            apply NO. intros q _ F. apply andb_prop in F. destruct F as [F1 F2]. apply Nat.eqb_eq in F2. unfold big in F1. apply Nat.leb_le in F1. rewrite SM in F1. fold (label q) in F2. rewrite F2 in F1. lia.
        - intros q Q F. apply in_raster in Q. apply andb_prop in F. destruct F as [F1 F2]. unfold big in F1. apply Nat.leb_le in F1. rewrite SM in F1.
          assert (OTHER : exists p, within theta p /\ p <> q /\ label p = label q).
          { assert (ND : NoDup (members theta label (label q))).
            { apply NoDup_filter. apply (NoDup_map_inv (idx w)). change (all_pixels theta) with (raster w h). rewrite raster_idx. apply seq_NoDup. }
            destruct (members theta label (label q)) as [ | a [ | b l ] ] eqn:Em; [ cbn in F1; lia | cbn in F1; lia | ].
            assert (Ia : In a (members theta label (label q))) by (rewrite Em; left; reflexivity). assert (Ib : In b (members theta label (label q))) by (rewrite Em; right; left; reflexivity).
            apply filter_In in Ia, Ib. destruct Ia as [Ia1 Ia2], Ib as [Ib1 Ib2]. apply in_raster in Ia1, Ib1. apply Nat.eqb_eq in Ia2, Ib2. inversion ND as [ | ? ? N1 N2 ]; subst.
            assert (NAB : a <> b) by (intros ->; apply N1; left; reflexivity).
            destruct (Nat.eq_dec (idx w a) (idx w q)) as [Eq | Nq].
            - exists b. split; [ exact Ib1 | ]. split; [ | exact Ib2 ]. intros ->. apply NAB. apply (idx_inj w); [ apply Ia1 | apply Q | exact Eq ].
            - exists a. split; [ exact Ia1 | ]. split; [ congruence | exact Ia2 ]. }
          destruct OTHER as (p & Wp & Npq & Lpq). destruct (STRONG p q (CH p q Wp Q Lpq)) as [Bad | (_ & _ & _ & Mq)]; [ contradiction | ].
          pose proof (strong_inside theta mag SW SH BO q Q Mq) as IS. fold w h in IS. lia. }
      intros k pts. rewrite (in_lookup cl k pts A NE), LK. cbn [lookup List.find app]. rewrite PTS.
      change (as_point mag) with (fun q : pixel => XYW (INR (fst q)) (INR (snd q)) (value mag q)).
      destruct (Nat.leb_spec 4 (length (members theta label k))) as [L | L].
      * split; [ intros [-> _]; split; [ reflexivity | rewrite map_length; exact L ] | ]. intros [-> L']. split; [ reflexivity | ]. intros Z. rewrite Z in L'. cbn in L'. lia.
      * split; [ intros [-> B]; contradiction | ]. intros [-> L']. rewrite map_length in L'. exfalso. apply (Nat.lt_irrefl 4). eapply Nat.le_lt_trans; [ exact L' | exact L ].
    + intros T p q S. assert (Wp : within theta p) by apply S. assert (Wq : within theta q) by apply S.
      assert (T' : forall i, (i < w * h)%nat -> strong (at_index mag) i -> at_index mag i <= 80).
      { intros i Hi _. assert (I : In i (map (idx w) (raster w h))) by (rewrite raster_idx; apply in_seq; lia). apply in_map_iff in I. destruct I as (x & <- & X). apply in_raster in X.
        replace (at_index mag (idx w x)) with (value mag x) by (unfold value, at_index, idx; rewrite SW; reflexivity). apply T. exact X. }
      rewrite <- !SM. apply (edges_similar theta mag SW SH BO p q Wp Wq) in S. destruct S as (c & [S | S]).
      * apply (m_frag _ _ _ _ _ _ _ G T'). apply joins_iff. exists c. exact S.
      * destruct (m_frag _ _ _ _ _ _ _ G T' (idx w q) (idx w p)) as [Q | Q]; [ apply joins_iff; exists c; exact S | left; symmetry; exact Q | right; lia ].
Qed.
Print Assumptions C94_clusters.

(** The line fit of C93 always has positive weights to work with. *)
Theorem C94_weights : forall theta mag, gradient_images theta mag -> exists cl, clusters theta mag = Ok cl /\
  forall k pts, In (k, pts) cl -> pts <> [] /\ forall a, In a pts -> 4 / 1000 <= pw a.
Proof.
  intros theta mag GI. destruct (C94_clusters theta mag GI) as (cl & label & E & _ & IN & CH & _). exists cl. split; [ exact E | ].
  intros k pts H. apply IN in H. destruct H as [-> L]. rewrite map_length in L. split; [ intros Z; apply (f_equal (@length _)) in Z; rewrite map_length in Z; cbn in Z; lia | ].
  intros a I. apply in_map_iff in I. destruct I as (q & <- & Q). cbn [pw].
  assert (STRONG : forall p q, chained theta mag p q -> p = q \/ (4 / 1000 <= value mag p /\ 4 / 1000 <= value mag q)).
  { intros p0 q0 C. induction C as [ x y (S1 & S2 & _ & S4 & S5 & _) | | x y _ IH | x y z _ I1 _ I2 ]; [ right; tauto | left; reflexivity | destruct IH as [-> | IH]; tauto | ].
    destruct I1 as [-> | I1]; [ exact I2 | ]. destruct I2 as [<- | I2]; [ right; exact I1 | right; tauto ]. }
  assert (ND : NoDup (members theta label k)).
  { apply NoDup_filter. apply (NoDup_map_inv (idx (width theta))). change (all_pixels theta) with (raster (width theta) (height theta)). rewrite raster_idx. apply seq_NoDup. }
  assert (MEM : forall x, In x (members theta label k) -> within theta x /\ label x = k).
  { intros x X. apply filter_In in X. destruct X as [X1 X2]. split; [ apply (in_all theta); exact X1 | apply Nat.eqb_eq; exact X2 ]. }
  assert (OTHER : exists p, In p (members theta label k) /\ p <> q).
  { destruct (members theta label k) as [ | x [ | y l ] ]; [ cbn in L; lia | cbn in L; lia | ]. inversion ND as [ | ? ? N1 N2 ]; subst.
    destruct Q as [<- | Q]; [ exists y; split; [ right; left; reflexivity | intros ->; apply N1; left; reflexivity ] | ]. exists x. split; [ left; reflexivity | intros ->; apply N1; exact Q ]. }
  destruct OTHER as (p & P & N). destruct (MEM p P) as [Wp Lp]. destruct (MEM q Q) as [Wq Lq]. destruct (STRONG p q (CH p q Wp Wq ltac:(congruence))) as [B | [_ B]]; [ contradiction | exact B ].
Qed.
Print Assumptions C94_weights.

Definition ex_theta : image := Image 4 4 (repeat 1 16).
Definition ex_mag : image := Image 4 4 [0;0;0;0; 0;1;1;0; 0;1;1;0; 0;0;0;0].
Example C94_ex : gradient_images ex_theta ex_mag /\ similar ex_theta ex_mag (1, 1)%nat (2, 2)%nat /\ forall q, within ex_theta q -> value ex_mag q <= 80.
Proof.
  split; [ | split ].
  - split; [ reflexivity | ]. split; [ reflexivity | ]. split; [ reflexivity | ]. split; [ reflexivity | ].
    intros [x y] [[X Y] B]. cbn [fst snd width height ex_mag] in *. assert (C : (x = 0 \/ x = 1 \/ x = 2 \/ x = 3)%nat) by lia. assert (D : (y = 0 \/ y = 1 \/ y = 2 \/ y = 3)%nat) by lia.
    destruct C as [-> | [-> | [-> | ->]]]; destruct D as [-> | [-> | [-> | ->]]]; first [ reflexivity | lia ].
  - unfold similar, within, neighbours, close. cbn [fst snd width height ex_theta ex_mag]. split; [ lia | ]. split; [ lia | ]. split; [ split; [ congruence | lia ] | ].
    unfold value. cbn. split; [ lra | ]. split; [ lra | ]. exists 0%Z. rewrite Rmult_0_r. replace (1 - 1 + 0) with 0 by lra. rewrite Rabs_R0. pose proof PI_RGT_0. lra.
  - intros [x y] [X Y]. cbn [fst snd width height ex_theta] in *. assert (C : (x = 0 \/ x = 1 \/ x = 2 \/ x = 3)%nat) by lia. assert (D : (y = 0 \/ y = 1 \/ y = 2 \/ y = 3)%nat) by lia.
    destruct C as [-> | [-> | [-> | ->]]]; destruct D as [-> | [-> | [-> | ->]]]; unfold value; cbn; lra.
Qed.
