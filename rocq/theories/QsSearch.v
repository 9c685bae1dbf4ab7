(** * The search for loops *)
From Coq Require Import Reals ZArith List Bool Lia Lra.
From Verif Require Import Base KinModel RotEuler LutModel LutProofs TdModel QsModel QsSpec QsProofs.
Import ListNotations.
Local Open Scope R_scope.

Lemma rltb_true a b : rltb a b = true <-> a < b.
Proof. unfold rltb. destruct (Rlt_dec a b); split; intros; try reflexivity; try assumption; try discriminate; contradiction. Qed.
Lemma rltb_false a b : rltb a b = false <-> b <= a.
Proof. unfold rltb. destruct (Rlt_dec a b); split; intros; try reflexivity; try discriminate; lra. Qed.

Lemma total_turning t0 t1 t2 t3 :
  let m := mod2pi (t1 - t0) + mod2pi (t2 - t1) + mod2pi (t3 - t2) + mod2pi (t0 - t3) in
  (-7 <= m <= -5 <-> m = - (2 * PI)).
Proof.
  cbv zeta. destruct (mod2pi_spec (t1 - t0)) as (a & A & _), (mod2pi_spec (t2 - t1)) as (b & B & _), (mod2pi_spec (t3 - t2)) as (c & C & _), (mod2pi_spec (t0 - t3)) as (d & D & _).
  rewrite A, B, C, D. set (k := (a + b + c + d)%Z).
  replace (t1 - t0 + 2 * PI * IZR a + (t2 - t1 + 2 * PI * IZR b) + (t3 - t2 + 2 * PI * IZR c) + (t0 - t3 + 2 * PI * IZR d)) with (2 * PI * IZR k) by (unfold k; rewrite !plus_IZR; ring).
  pose proof small_pi as (P1 & P2). split.
  - intros (L & H). assert (k = -1)%Z.
    { destruct (Z.le_gt_cases k (-2)) as [ K | K ]; [ apply IZR_le in K; exfalso; nra | ]. destruct (Z.le_gt_cases 0 k) as [ K' | K' ]; [ apply IZR_le in K'; exfalso; nra | lia ]. }
    rewrite H0. ring.
  - intros ->. lra.
Qed.

Section Search.
Variable segs : list segment.
Notation sg := (nth_segment segs).

Definition listed (l : list nat) : nat -> nat := fun i => nth i l 0%nat.
Definition accept (l : list nat) : list quad := terminal segs (listed l) [].

Lemma terminal_app path quads : terminal segs path quads = quads ++ terminal segs path [].
Proof. unfold terminal. cbv zeta. destruct (path 4 =? path 0)%nat; [ | rewrite app_nil_r; reflexivity ]. repeat (match goal with |- context [if ?c then _ else _] => destruct c end; try (rewrite app_nil_r; reflexivity)). reflexivity. Qed.
Lemma terminal_ext path path' quads : (forall i, (i <= 4)%nat -> path i = path' i) -> terminal segs path quads = terminal segs path' quads.
Proof. intros H. unfold terminal. cbv zeta. cbn [map seq]. rewrite (H 0%nat), (H 1%nat), (H 2%nat), (H 3%nat), (H 4%nat) by lia. reflexivity. Qed.

Definition perimeter (a b c d : nat) : R := s_length (sg a) + s_length (sg b) + s_length (sg c) + s_length (sg d).

Lemma accept_open a b c d e : e <> a -> accept [a; b; c; d; e] = [].
Proof. intros H. unfold accept, terminal. cbn [listed nth]. destruct (Nat.eqb_spec e a); [ contradiction | reflexivity ]. Qed.
Lemma accept_loop a b c d :
  (exists p q r s, quadrilateral (sg a) (sg b) (sg c) (sg d) p q r s /\ accept [a; b; c; d; a] = [Quad [p; q; r; s] [a; b; c; d; a] (perimeter a b c d)]) \/
  (accept [a; b; c; d; a] = [] /\ forall p q r s, ~ quadrilateral (sg a) (sg b) (sg c) (sg d) p q r s).
Proof.
  unfold accept, terminal. cbv zeta. unfold listed. cbn [nth map seq]. rewrite Nat.eqb_refl.
  set (A := sg a). set (B := sg b). set (C := sg c). set (D := sg d).
  set (p := intersection_with (line_of A) (line_of B)). set (q := intersection_with (line_of B) (line_of C)).
  set (r := intersection_with (line_of C) (line_of D)). set (s := intersection_with (line_of D) (line_of A)).
  assert (SAME : forall p' q' r' s', quadrilateral A B C D p' q' r' s' -> p' = p /\ q' = q /\ r' = r /\ s' = s).
  { intros p' q' r' s' ((C1 & C2 & C3 & C4) & (N1 & N2 & N3 & N4) & _).
    split; [ symmetry; apply meets; assumption | ]. split; [ symmetry; apply meets; assumption | ]. split; symmetry; apply meets; assumption. }
  assert (FIX : forall (X : list quad), (quadrilateral A B C D p q r s -> X = [Quad [p; q; r; s] [a; b; c; d; a] (perimeter a b c d)]) -> (~ quadrilateral A B C D p q r s -> X = []) ->
     {quadrilateral A B C D p q r s} + {~ quadrilateral A B C D p q r s} ->
     (exists p0 q0 r0 s1, quadrilateral A B C D p0 q0 r0 s1 /\ X = [Quad [p0; q0; r0; s1] [a; b; c; d; a] (perimeter a b c d)]) \/
     (X = [] /\ forall p0 q0 r0 s1, ~ quadrilateral A B C D p0 q0 r0 s1)).
  { intros X Y N [ H | H ]; [ left; exists p, q, r, s; split; [ exact H | exact (Y H) ] | right; split; [ exact (N H) | ] ].
    intros p' q' r' s' G. destruct (SAME _ _ _ _ G) as (-> & -> & -> & ->). contradiction. }
  destruct (Req_EM_T (fst p) (-1)) as [ E1 | E1 ].
  { cbn [orb]. apply FIX; [ intros (_ & (N & _) & _); contradiction | reflexivity | right; intros (_ & (N & _) & _); contradiction ]. }
  destruct (Req_EM_T (fst q) (-1)) as [ E2 | E2 ].
  { cbn [orb]. apply FIX; [ intros (_ & (_ & N & _) & _); contradiction | reflexivity | right; intros (_ & (_ & N & _) & _); contradiction ]. }
  destruct (Req_EM_T (fst r) (-1)) as [ E3 | E3 ].
  { cbn [orb]. apply FIX; [ intros (_ & (_ & _ & N & _) & _); contradiction | reflexivity | right; intros (_ & (_ & _ & N & _) & _); contradiction ]. }
  destruct (Req_EM_T (fst s) (-1)) as [ E4 | E4 ].
  { cbn [orb]. apply FIX; [ intros (_ & (_ & _ & _ & N) & _); contradiction | reflexivity | right; intros (_ & (_ & _ & _ & N) & _); contradiction ]. }
  cbn [orb].
  assert (CP : crossing A B p) by (apply (meets A B p E1); reflexivity). assert (CQ : crossing B C q) by (apply (meets B C q E2); reflexivity).
  assert (CC : crossing C D r) by (apply (meets C D r E3); reflexivity). assert (CS : crossing D A s) by (apply (meets D A s E4); reflexivity).
  pose proof (line_direction B p q (proj2 (proj2 CP)) (proj1 (proj2 CQ))) as LB. pose proof (line_direction C q r (proj2 (proj2 CQ)) (proj1 (proj2 CC))) as LC.
  pose proof (line_direction D r s (proj2 (proj2 CC)) (proj1 (proj2 CS))) as LD. pose proof (line_direction A s p (proj2 (proj2 CS)) (proj1 (proj2 CP))) as LA.
  assert (TURN : 6 <= norm (minus q p) -> 6 <= norm (minus r q) -> 6 <= norm (minus s r) -> 6 <= norm (minus p s) ->
     turn (minus q p) (minus r q) (mod2pi (direction q r - direction p q)) /\ turn (minus r q) (minus s r) (mod2pi (direction r s - direction q r)) /\
     turn (minus s r) (minus p s) (mod2pi (direction s p - direction r s)) /\ turn (minus p s) (minus q p) (mod2pi (direction p q - direction s p))).
  { intros D0 D1 D2 D3. assert (POS : forall u, 6 <= norm u -> 0 < dot u u) by (intros u HU; apply norm_pos; lra).
    split; [ apply turn_mod; [ lra | lra | ]; apply (cross_directions (course B) (course C)); auto; apply (crossing_nonzero _ _ _ CQ) | ].
    split; [ apply turn_mod; [ lra | lra | ]; apply (cross_directions (course C) (course D)); auto; apply (crossing_nonzero _ _ _ CC) | ].
    split; [ apply turn_mod; [ lra | lra | ]; apply (cross_directions (course D) (course A)); auto; apply (crossing_nonzero _ _ _ CS) | ].
    apply turn_mod; [ lra | lra | ]; apply (cross_directions (course A) (course B)); auto; apply (crossing_nonzero _ _ _ CP). }
  pose proof (total_turning (direction p q) (direction q r) (direction r s) (direction s p)) as TT. cbv zeta in TT.
  set (m := mod2pi (direction q r - direction p q) + mod2pi (direction r s - direction q r) + mod2pi (direction s p - direction r s) + mod2pi (direction p q - direction s p)) in *.
  destruct (rltb m (-7) || rltb (-5) m) eqn:W.
  { assert (NM : m <> - (2 * PI)).
    { intros E. apply TT in E. apply orb_true_iff in W. destruct W as [ W | W ]; apply rltb_true in W; lra. }
    assert (NQ : ~ quadrilateral A B C D p q r s).
    { intros (_ & _ & (w & x & y & z & T1 & T2 & T3 & T4 & SUM) & _ & (BIG & _)). cbn [In] in BIG.
      pose proof (BIG _ (or_introl eq_refl)) as D0. pose proof (BIG _ (or_intror (or_introl eq_refl))) as D1. pose proof (BIG _ (or_intror (or_intror (or_introl eq_refl)))) as D2.
      pose proof (BIG _ (or_intror (or_intror (or_intror (or_introl eq_refl))))) as D3. destruct (TURN D0 D1 D2 D3) as (U1 & U2 & U3 & U4). apply NM. unfold m.
      rewrite (turn_unique (minus q p) (minus r q) _ _ ltac:(lra) ltac:(lra) U1 T1), (turn_unique (minus r q) (minus s r) _ _ ltac:(lra) ltac:(lra) U2 T2), (turn_unique (minus s r) (minus p s) _ _ ltac:(lra) ltac:(lra) U3 T3), (turn_unique (minus p s) (minus q p) _ _ ltac:(lra) ltac:(lra) U4 T4). exact SUM. }
    apply FIX; [ contradiction | reflexivity | right; exact NQ ]. }
  apply orb_false_iff in W. destruct W as (W1 & W2). apply rltb_false in W1, W2. assert (M : m = - (2 * PI)) by (apply TT; lra).
  rewrite !distance_norm. rewrite (norm_minus p q), (norm_minus q r), (norm_minus r s), (norm_minus s p).
  unfold minimum_edge_length, max_quad_aspect_ratio.
  destruct (rltb (norm (minus q p)) 6 || rltb (norm (minus r q)) 6 || rltb (norm (minus s r)) 6 || rltb (norm (minus p s)) 6 || rltb (norm (minus p r)) 6 || rltb (norm (minus q s)) 6) eqn:SM.
  { assert (NQ : ~ quadrilateral A B C D p q r s).
    { intros (_ & _ & _ & (D4 & D5) & (BIG & _)). cbn [In] in BIG.
      pose proof (BIG _ (or_introl eq_refl)) as D0. pose proof (BIG _ (or_intror (or_introl eq_refl))) as D1. pose proof (BIG _ (or_intror (or_intror (or_introl eq_refl)))) as D2.
      pose proof (BIG _ (or_intror (or_intror (or_intror (or_introl eq_refl))))) as D3.
      apply rltb_false in D0, D1, D2, D3, D4, D5. rewrite D0, D1, D2, D3, D4, D5 in SM. discriminate. }
    apply FIX; [ contradiction | reflexivity | right; exact NQ ]. }
  apply orb_false_iff in SM. destruct SM as (SM & D5). apply orb_false_iff in SM. destruct SM as (SM & D4). apply orb_false_iff in SM. destruct SM as (SM & D3).
  apply orb_false_iff in SM. destruct SM as (SM & D2). apply orb_false_iff in SM. destruct SM as (D0 & D1). apply rltb_false in D0, D1, D2, D3, D4, D5.
  destruct (TURN D0 D1 D2 D3) as (U1 & U2 & U3 & U4).
  set (d0 := norm (minus q p)) in *. set (d1 := norm (minus r q)) in *. set (d2 := norm (minus s r)) in *. set (d3 := norm (minus p s)) in *.
  pose proof (Rmax_l (Rmax d0 d1) (Rmax d2 d3)) as X1. pose proof (Rmax_r (Rmax d0 d1) (Rmax d2 d3)) as X2. pose proof (Rmax_l d0 d1) as X3. pose proof (Rmax_r d0 d1) as X4. pose proof (Rmax_l d2 d3) as X5. pose proof (Rmax_r d2 d3) as X6.
  pose proof (Rmin_l (Rmin d0 d1) (Rmin d2 d3)) as Y1. pose proof (Rmin_r (Rmin d0 d1) (Rmin d2 d3)) as Y2. pose proof (Rmin_l d0 d1) as Y3. pose proof (Rmin_r d0 d1) as Y4. pose proof (Rmin_l d2 d3) as Y5. pose proof (Rmin_r d2 d3) as Y6.
  destruct (rltb (Rmin (Rmin d0 d1) (Rmin d2 d3) * 32) (Rmax (Rmax d0 d1) (Rmax d2 d3))) eqn:AR.
  { apply rltb_true in AR.
    assert (NQ : ~ quadrilateral A B C D p q r s).
    { intros (_ & _ & _ & _ & (_ & RAT)). fold d0 d1 d2 d3 in RAT.
      assert (IMAX : In (Rmax (Rmax d0 d1) (Rmax d2 d3)) [d0; d1; d2; d3]).
      { unfold Rmax. repeat destruct (Rle_dec _ _); cbn [In]; auto 6. }
      assert (IMIN : In (Rmin (Rmin d0 d1) (Rmin d2 d3)) [d0; d1; d2; d3]).
      { unfold Rmin. repeat destruct (Rle_dec _ _); cbn [In]; auto 6. }
      pose proof (RAT _ _ IMAX IMIN). lra. }
    apply FIX; [ contradiction | reflexivity | right; exact NQ ]. }
  apply rltb_false in AR.
  assert (Q : quadrilateral A B C D p q r s).
  { unfold quadrilateral. cbv zeta. fold d0 d1 d2 d3.
    split; [ split; [ exact CP | split; [ exact CQ | split; [ exact CC | exact CS ] ] ] | ].
    split; [ split; [ exact E1 | split; [ exact E2 | split; [ exact E3 | exact E4 ] ] ] | ].
    split; [ exists (mod2pi (direction q r - direction p q)), (mod2pi (direction r s - direction q r)), (mod2pi (direction s p - direction r s)), (mod2pi (direction p q - direction s p));
       split; [ exact U1 | split; [ exact U2 | split; [ exact U3 | split; [ exact U4 | exact M ] ] ] ] | ].
    split; [ split; [ exact D4 | exact D5 ] | ].
    split.
    - intros e HE. cbn [In] in HE. destruct HE as [ <- | [ <- | [ <- | [ <- | [] ] ] ] ]; assumption.
    - intros e f HE HF. assert (e <= Rmax (Rmax d0 d1) (Rmax d2 d3)) by (cbn [In] in HE; destruct HE as [ <- | [ <- | [ <- | [ <- | [] ] ] ] ]; lra).
      assert (Rmin (Rmin d0 d1) (Rmin d2 d3) <= f) by (cbn [In] in HF; destruct HF as [ <- | [ <- | [ <- | [ <- | [] ] ] ] ]; lra). lra. }
  apply FIX; [ | contradiction | left; exact Q ].
  intros _. cbn [app]. unfold perimeter. rewrite Rplus_0_l. reflexivity.
Qed.

(** The walks of a given number of steps from [parent] that stay at angles not
    greater than [th]. *)
Variable children : nat -> list nat.
Fixpoint walks (left : nat) (th : R) (parent : nat) : list (list nat) :=
  match left with
  | O => [[]]
  | S left' => flat_map (fun c => if Rlt_dec th (s_theta (sg c)) then [] else map (cons c) (walks left' th c)) (children parent)
  end.

Lemma flat_map_map {A B C} (f : B -> list C) (g : A -> B) l : flat_map f (map g l) = flat_map (fun x => f (g x)) l.
Proof. induction l as [ | x l IH ]; cbn [map flat_map]; [ reflexivity | rewrite IH; reflexivity ]. Qed.
Lemma flat_map_ext' {A B} (f g : A -> list B) l : (forall x, f x = g x) -> flat_map f l = flat_map g l.
Proof. intros H. induction l as [ | x l IH ]; cbn [flat_map]; [ reflexivity | rewrite H, IH; reflexivity ]. Qed.

Lemma search_walks left : forall parent depth st, (left + depth = 4)%nat ->
  (forall i, (i <= depth)%nat -> fst (search left segs children parent depth st) i = fst st i) /\
  snd (search left segs children parent depth st) =
    snd st ++ flat_map (fun w => accept (map (fst st) (seq 0 (S depth)) ++ w)) (walks left (s_theta (sg (fst st 0%nat))) parent).
Proof.
  induction left as [ | left IH ]; intros parent depth st D.
  - cbn [search walks flat_map fst snd]. split; [ reflexivity | ]. rewrite app_nil_r, app_nil_r, terminal_app. apply (f_equal (app (snd st))).
    unfold accept. apply terminal_ext. intros i HI. assert (depth = 4)%nat by lia. subst depth. unfold listed. cbn [seq map]. destruct i as [ | [ | [ | [ | [ | i ] ] ] ] ]; try reflexivity. lia.
  - cbn [search walks]. generalize (children parent) as l. intros l. revert st. induction l as [ | c l IHl ]; intros st.
    + cbn [fold_left flat_map fst snd]. rewrite app_nil_r. split; reflexivity.
    + cbn [fold_left flat_map]. destruct (Rlt_dec (s_theta (sg (fst st 0%nat))) (s_theta (sg c))) as [ T | T ]; [ exact (IHl st) | ].
      set (st1 := (set_path (fst st) (S depth) c, snd st)).
      destruct (IH c (S depth) st1 ltac:(lia)) as (P1 & Q1). set (st2 := search left segs children c (S depth) st1) in *.
      destruct (IHl st2) as (P2 & Q2).
      assert (AG : forall i, (i <= depth)%nat -> fst st2 i = fst st i).
      { intros i HI. rewrite P1 by lia. unfold st1, set_path. cbn [fst]. destruct (Nat.eqb_spec i (S depth)); [ lia | reflexivity ]. }
      split; [ intros i HI; rewrite P2 by exact HI; exact (AG i HI) | ].
      rewrite Q2, Q1. rewrite (AG 0%nat) by lia.
      assert (M2 : map (fst st2) (seq 0 (S depth)) = map (fst st) (seq 0 (S depth))) by (apply map_ext_in; intros i HI; apply in_seq in HI; apply AG; lia). rewrite M2.
      assert (M1 : map (fst st1) (seq 0 (S (S depth))) = map (fst st) (seq 0 (S depth)) ++ [c]).
      { rewrite (seq_S (S depth)), map_app. cbn [map]. f_equal.
        - apply map_ext_in. intros i HI. apply in_seq in HI. unfold st1, set_path. cbn [fst]. destruct (Nat.eqb_spec i (S depth)); [ lia | reflexivity ].
        - unfold st1, set_path. cbn [fst Nat.add]. rewrite Nat.eqb_refl. reflexivity. }
      rewrite M1. assert (Z0 : fst st1 0%nat = fst st 0%nat) by reflexivity. rewrite Z0.
      rewrite flat_map_app, flat_map_map, <- app_assoc. unfold st1. cbn [snd]. apply (f_equal (app (snd st))). f_equal.
      apply flat_map_ext'. intros w. rewrite <- app_assoc. reflexivity.
Qed.

Lemma find_quads_walks : find_quads segs children =
  flat_map (fun a => flat_map (fun w => accept (a :: w)) (walks 4 (s_theta (sg a)) a)) (seq 0 (length segs)).
Proof.
  unfold find_quads. set (step := fun st i => search 4 segs children i 0 (set_path (fst st) 0 i, snd st)).
  assert (G : forall is st, snd (fold_left step is st) = snd st ++ flat_map (fun a => flat_map (fun w => accept (a :: w)) (walks 4 (s_theta (sg a)) a)) is).
  { induction is as [ | a r IH ]; intros st; cbn [fold_left flat_map]; [ rewrite app_nil_r; reflexivity | ].
    rewrite IH. unfold step at 1. destruct (search_walks 4 a 0 (set_path (fst st) 0 a, snd st) eq_refl) as (_ & Q). rewrite Q. cbn [fst snd]. rewrite <- app_assoc. reflexivity. }
  rewrite G. reflexivity.
Qed.

Lemma in_walks left : forall th parent w, In w (walks left th parent) <->
  match left, w with
  | O, [] => True
  | S left', c :: w' => In c (children parent) /\ s_theta (sg c) <= th /\ In w' (walks left' th c)
  | _, _ => False
  end.
Proof.
  destruct left as [ | left ]; intros th parent w; cbn [walks].
  - destruct w; cbn [In]; split; intros H; try tauto; [ destruct H as [ H | [] ]; discriminate ].
  - rewrite in_flat_map. split.
    + intros (c & HC & HW). destruct (Rlt_dec th (s_theta (sg c))) as [ T | T ]; [ destruct HW | ]. apply in_map_iff in HW. destruct HW as (w' & <- & HW'). split; [ exact HC | ]. split; [ lra | exact HW' ].
    + destruct w as [ | c w' ]; [ intros [] | ]. intros (HC & T & HW). exists c. split; [ exact HC | ]. destruct (Rlt_dec th (s_theta (sg c))); [ lra | ]. apply in_map. exact HW.
Qed.
Lemma nodup_flat_map {A B} (f : A -> list B) (key : B -> A) l : NoDup l -> (forall x, In x l -> NoDup (f x)) -> (forall x y, In y (f x) -> key y = x) -> NoDup (flat_map f l).
Proof.
  intros N F K. induction N as [ | x l NI N IH ]; cbn [flat_map]; [ constructor | ].
  assert (A1 : NoDup (f x)) by (apply F; left; reflexivity). assert (A2 : NoDup (flat_map f l)) by (apply IH; intros z HZ; apply F; right; exact HZ).
  assert (DJ : forall y, In y (f x) -> ~ In y (flat_map f l)).
  { intros y HY G. apply in_flat_map in G. destruct G as (z & HZ & HY'). apply K in HY, HY'. congruence. }
  clear - A1 A2 DJ. induction (f x) as [ | y r IHr ]; cbn [app]; [ exact A2 | ]. inversion A1 as [ | y' r' NY NR ]; subst. constructor.
  - intros G. apply in_app_or in G. destruct G as [ G | G ]; [ contradiction | ]. exact (DJ y (or_introl eq_refl) G).
  - apply IHr; [ exact NR | ]. intros z HZ. apply DJ. right. exact HZ.
Qed.
Lemma walks_nodup left : (forall i, NoDup (children i)) -> forall th parent, NoDup (walks left th parent).
Proof.
  intros N. induction left as [ | left IH ]; intros th parent; cbn [walks]; [ constructor; [ intros [] | constructor ] | ].
  apply (nodup_flat_map _ (fun w => hd 0%nat w)); [ apply N | | ].
  - intros c _. destruct (Rlt_dec th (s_theta (sg c))); [ constructor | ]. specialize (IH th c). induction IH as [ | w l NW IHn IHw ]; cbn [map]; [ constructor | ].
    constructor; [ | exact IHw ]. intros G. apply in_map_iff in G. destruct G as (w' & E & HW). assert (w' = w) by congruence. subst. contradiction.
  - intros c w HW. destruct (Rlt_dec th (s_theta (sg c))); [ destruct HW | ]. apply in_map_iff in HW. destruct HW as (w' & <- & _). reflexivity.
Qed.

Lemma accept_segments a b c d e q : In q (accept [a; b; c; d; e]) -> e = a /\ q_segments q = [a; b; c; d; a].
Proof.
  intros H. destruct (Nat.eq_dec e a) as [ -> | N ]; [ | rewrite accept_open in H by exact N; destruct H ]. split; [ reflexivity | ].
  destruct (accept_loop a b c d) as [ (p & q' & r & s & _ & E) | (E & _) ]; rewrite E in H; [ | destruct H ]. destruct H as [ <- | [] ]. reflexivity.
Qed.
Lemma walk4 th a w : In w (walks 4 th a) -> exists b c d e, w = [b; c; d; e] /\ (In b (children a) /\ s_theta (sg b) <= th) /\ (In c (children b) /\ s_theta (sg c) <= th) /\
   (In d (children c) /\ s_theta (sg d) <= th) /\ (In e (children d) /\ s_theta (sg e) <= th).
Proof.
  intros H. apply in_walks in H. destruct w as [ | b w ]; [ destruct H | ]. destruct H as (B1 & B2 & H). apply in_walks in H. destruct w as [ | c w ]; [ destruct H | ]. destruct H as (C1 & C2 & H).
  apply in_walks in H. destruct w as [ | d w ]; [ destruct H | ]. destruct H as (D1 & D2 & H). apply in_walks in H. destruct w as [ | e w ]; [ destruct H | ]. destruct H as (E1 & E2 & H). apply in_walks in H. destruct w; [ | destruct H ].
  exists b, c, d, e. tauto.
Qed.

Lemma find_quads_in q : In q (find_quads segs children) <->
  exists a b c d p1 p2 p3 p4, (a < length segs)%nat /\ In b (children a) /\ In c (children b) /\ In d (children c) /\ In a (children d) /\
    s_theta (sg b) <= s_theta (sg a) /\ s_theta (sg c) <= s_theta (sg a) /\ s_theta (sg d) <= s_theta (sg a) /\
    quadrilateral (sg a) (sg b) (sg c) (sg d) p1 p2 p3 p4 /\ q = Quad [p1; p2; p3; p4] [a; b; c; d; a] (perimeter a b c d).
Proof.
  rewrite find_quads_walks, in_flat_map. split.
  - intros (a & HA & HQ). apply in_seq in HA. apply in_flat_map in HQ. destruct HQ as (w & HW & HQ). destruct (walk4 _ _ _ HW) as (b & c & d & e & -> & (B1 & B2) & (C1 & C2) & (D1 & D2) & (E1 & E2)).
    destruct (accept_segments _ _ _ _ _ _ HQ) as (-> & _). destruct (accept_loop a b c d) as [ (p & q' & r & s & QU & E) | (E & _) ]; rewrite E in HQ; [ | destruct HQ ]. destruct HQ as [ <- | [] ].
    exists a, b, c, d, p, q', r, s. split; [ lia | ]. tauto.
  - intros (a & b & c & d & p1 & p2 & p3 & p4 & HA & HB & HC & HD & HE & TB & TC & TD & QU & ->). exists a. split; [ apply in_seq; lia | ]. apply in_flat_map. exists [b; c; d; a]. split.
    + apply in_walks. split; [ exact HB | ]. split; [ exact TB | ]. apply in_walks. split; [ exact HC | ]. split; [ exact TC | ]. apply in_walks. split; [ exact HD | ]. split; [ exact TD | ].
      apply in_walks. split; [ exact HE | ]. split; [ lra | ]. apply in_walks. exact Logic.I.
    + destruct (accept_loop a b c d) as [ (p & q' & r & s & QU' & E) | (_ & N) ]; [ | exfalso; exact (N _ _ _ _ QU) ]. rewrite E.
      destruct QU as ((X1 & X2 & X3 & X4) & _). destruct QU' as ((Y1 & Y2 & Y3 & Y4) & _).
      rewrite (crossing_unique _ _ _ _ X1 Y1), (crossing_unique _ _ _ _ X2 Y2), (crossing_unique _ _ _ _ X3 Y3), (crossing_unique _ _ _ _ X4 Y4). left. reflexivity.
Qed.
Lemma find_quads_nodup : (forall i, NoDup (children i)) -> NoDup (map q_segments (find_quads segs children)).
Proof.
  intros N. rewrite find_quads_walks.
  assert (MF : forall {A} (f : A -> list quad) l, map q_segments (flat_map f l) = flat_map (fun x => map q_segments (f x)) l).
  { intros A f l. induction l as [ | x l IH ]; cbn [flat_map map]; [ reflexivity | rewrite map_app, IH; reflexivity ]. }
  rewrite MF. apply (nodup_flat_map _ (fun w => hd 0%nat w)); [ apply seq_NoDup | | ].
  - intros a _. rewrite MF. 
    assert (G : forall l, NoDup l -> (forall w, In w l -> exists b c d e, w = [b; c; d; e]) -> NoDup (flat_map (fun x => map q_segments (accept (a :: x))) l)).
    { intros l NL SH. induction NL as [ | w l NW NL IH ]; cbn [flat_map]; [ constructor | ].
      assert (IH' : NoDup (flat_map (fun x => map q_segments (accept (a :: x))) l)) by (apply IH; intros z HZ; apply SH; right; exact HZ).
      destruct (SH w (or_introl eq_refl)) as (b & c & d & e & ->). destruct (Nat.eq_dec e a) as [ -> | NE ]; [ | rewrite accept_open by exact NE; exact IH' ].
      destruct (accept_loop a b c d) as [ (p & q' & r & s & _ & E) | (E & _) ]; rewrite E; cbn [map app]; [ | exact IH' ]. constructor; [ | exact IH' ].
      intros G. cbn [q_segments] in G. apply in_flat_map in G. destruct G as (w & HW & G). apply in_map_iff in G. destruct G as (q2 & E2 & HQ). destruct (SH w (or_intror HW)) as (b2 & c2 & d2 & e2 & ->).
      destruct (accept_segments _ _ _ _ _ _ HQ) as (-> & E3). assert (b2 = b /\ c2 = c /\ d2 = d) as (-> & -> & ->) by (rewrite E2 in E3; injection E3; auto). contradiction. }
    apply G; [ apply walks_nodup; exact N | ]. intros w HW. destruct (walk4 _ _ _ HW) as (b & c & d & e & -> & _). exists b, c, d, e. reflexivity.
  - intros a w HW. apply in_map_iff in HW. destruct HW as (q & <- & HQ). apply in_flat_map in HQ. destruct HQ as (w & HW & HQ). destruct (walk4 _ _ _ HW) as (b & c & d & e & -> & _).
    destruct (accept_segments _ _ _ _ _ _ HQ) as (_ & ->). reflexivity.
Qed.
End Search.
