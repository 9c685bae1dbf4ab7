(** C46: the sparse block matrix and its arithmetic. *)
From Coq Require Import Reals ZArith List Bool Lia Lra.
From Verif Require Import Base Arith RArith OMap JacModel JacProps SbmModel SbmSpec SbmProofs SbmMore SbmReal.
Import ListNotations.
Open Scope nat_scope.

(** Two small matrices: block sizes (1,2) and (1,2), and (1,2) and (2). *)
Definition ex_a : sbm RA := Sbm (A := RA) [1; 3] [1; 3]
  [[(0, [[2%R]])]; [(0, [[1%R; 0%R]]); (1, [[4%R; 1%R]; [1%R; 5%R]])]] true.
Definition ex_b : sbm RA := Sbm (A := RA) [1; 3] [2] [[(1, [[1%R; 2%R]; [3%R; 4%R]])]] true.
Definition ex_z : sbm ZA := Sbm (A := ZA) [1; 3] [1; 3]
  [[(0, [[2%Z]])]; [(0, [[7; 8]]%Z); (1, [[4; 1]; [1; 5]]%Z)]] true.

Example C46_ex_matrices : wf ex_a /\ wf ex_b /\ wf ex_z /\ square ex_a /\ upper_only ex_z /\
  cbi ex_a = rbi ex_b.
Proof.
  split; [apply wfb_ok; reflexivity | ]. split; [apply wfb_ok; reflexivity | ].
  split; [apply wfb_ok; reflexivity | ]. split; [reflexivity | ]. split; [ | reflexivity].
  intros r c H. destruct c as [ | [ | [ | c]]].
  - destruct r; [lia | ]. exfalso. apply H. reflexivity.
  - destruct r as [ | [ | r]]; [lia | lia | ]. exfalso. apply H. reflexivity.
  - exfalso. apply H. reflexivity.
  - exfalso. apply H. reflexivity.
Qed.

(** ** Reading. *)
(** Every scalar position inside the matrix lies in exactly one block, reading
    it gives the element of that block or zero, and reading outside throws. *)
Theorem C46_read (A : Arith) (m : sbm A) r c : wf m ->
  if (r <? total (rbi m)) && (c <? total (cbi m)) then
    exists br i bc j, br < length (rbi m) /\ i < size_of (rbi m) br /\
      bc < length (cbi m) /\ j < size_of (cbi m) bc /\
      r = base_of (rbi m) br + i /\ c = base_of (cbi m) bc + j /\
      entry A m r c = Ok (match blk m br bc with
                          | Some B => nth j (nth i B []) (of_Z A 0) | None => of_Z A 0 end)
  else entry A m r c = Throw.
Proof.
  intro W. destruct (Nat.ltb_spec r (total (rbi m))) as [Hr | Hr];
    [destruct (Nat.ltb_spec c (total (cbi m))) as [Hc | Hc] | ]; cbn [andb].
  - destruct (locate _ _ (wf_rlay _ _ W) Hr) as (br & i & H1 & H2 & -> & _).
    destruct (locate _ _ (wf_clay _ _ W) Hc) as (bc & j & H3 & H4 & -> & _).
    exists br, i, bc, j. do 6 (split; [auto | ]). now apply entry_at.
  - unfold entry. rewrite (proj2 (Nat.ltb_ge c _)) by lia. now rewrite andb_false_r.
  - unfold entry. now rewrite (proj2 (Nat.ltb_ge r _)) by lia.
Qed.
Print Assumptions C46_read.
Example C46_ex_read : map (fun c => entry ZA ex_z 1 c) [0; 1; 2; 3] = [Ok 0%Z; Ok 4%Z; Ok 1%Z; Throw].
Proof. reflexivity. Qed.

(** The dense copy has the matrix's size and the same elements. *)
Theorem C46_dense (A : Arith) (m : sbm A) : wf m -> exists D, to_dense A m = Ok D /\
  length D = total (rbi m) /\ Forall (fun row => length row = total (cbi m)) D /\
  forall r c, r < total (rbi m) -> c < total (cbi m) ->
    entry A m r c = Ok (nth c (nth r D []) (of_Z A 0)).
Proof.
  intro W. destruct (to_dense_ok A m W) as (D & E & S0 & V). exists D.
  apply shaped_iff in S0 as [S1 S2]. split; [exact E | ]. split; [exact S1 | ]. split; [exact S2 | ].
  intros r c Hr Hc. rewrite V by assumption. now apply entry_el.
Qed.
Print Assumptions C46_dense.
Example C46_ex_dense : to_dense ZA ex_z = Ok [[2; 7; 8]; [0; 4; 1]; [0; 1; 5]]%Z.
Proof. reflexivity. Qed.

(** ** Writing a block. *)
(** Writing a block of an owning matrix (which creates it, zeroed, when it is
    not there) gives that block the written value and leaves the rest alone. *)
Theorem C46_write (A : Arith) (m : sbm A) r c f B' : wf m -> owns m = true ->
  r < length (rbi m) -> c < length (cbi m) ->
  f (match blk m r c with Some B => B | None =>
       repeat (repeat (of_Z A 0) (size_of (cbi m) c)) (size_of (rbi m) r) end) = Ok B' ->
  shaped A (size_of (rbi m) r) (size_of (cbi m) c) B' = true ->
  exists m', update A r c f m = Ok m' /\ wf m' /\ rbi m' = rbi m /\ cbi m' = cbi m /\ owns m' = true /\
    blk m' r c = Some B' /\ forall r' c', (r', c') <> (r, c) -> blk m' r' c' = blk m r' c'.
Proof.
  intros W O Hr Hc F S0. exists (put A r c B' m).
  assert (Hc' : c < length (bcols m)) by (rewrite (wf_cols _ _ W); exact Hc).
  destruct (alike_put A r c B' m) as (L1 & L2 & L3 & _).
  conj; [now apply update_ok | now apply put_wf | exact L1 | exact L2 | now rewrite L3 | | ].
  - rewrite put_blk by exact Hc'. now rewrite !Nat.eqb_refl.
  - intros r' c' N. rewrite put_blk by exact Hc'.
    destruct (Nat.eqb_spec r r'); [ | reflexivity]. destruct (Nat.eqb_spec c c'); [ | reflexivity].
    subst. congruence.
Qed.
Print Assumptions C46_write.
Example C46_ex_write :
  omap (fun m => to_dense ZA m) (update ZA 1 0 (assign ZA [[3]; [4]]%Z) ex_z) =
  Ok (Ok [[2; 7; 8]; [3; 4; 1]; [4; 1; 5]]%Z).
Proof. reflexivity. Qed.

(** Asking a matrix that does not own its blocks (a view) for a missing block
    to write to gives a null pointer; the arithmetic dereferences it. *)
Theorem C46_view_refuted : exists m : sbm ZA, wf m /\ owns m = false /\
  update ZA 1 0 (assign ZA [[3]; [4]]%Z) m = UB.
Proof.
  exists (Sbm (A := ZA) [1; 3] [1; 3] (bcols ex_z) false). split; [apply wfb_ok; reflexivity | ].
  split; reflexivity.
Qed.
Print Assumptions C46_view_refuted.

(** Clearing, with or without deallocating, leaves a zero matrix of the same
    layout; copying gives the same elements. *)
Theorem C46_clear (A : Arith) (m : sbm A) dealloc : wf m ->
  wf (clear A dealloc m) /\ rbi (clear A dealloc m) = rbi m /\ cbi (clear A dealloc m) = cbi m /\
  forall r c, r < total (rbi m) -> c < total (cbi m) -> entry A (clear A dealloc m) r c = Ok (of_Z A 0).
Proof.
  intro W. destruct (clear_alike A dealloc m) as (L1 & L2 & _).
  conj; [now apply clear_wf | exact L1 | exact L2 | ].
  intros r c Hr Hc. pose proof (C46_read A (clear A dealloc m) r c (clear_wf A dealloc m W)) as G.
  rewrite L1, L2 in G. rewrite (proj2 (Nat.ltb_lt _ _) Hr), (proj2 (Nat.ltb_lt _ _) Hc) in G.
  cbn [andb] in G. destruct G as (br & i & bc & j & _ & _ & _ & _ & _ & _ & G). rewrite G. f_equal.
  exact (clear_val A dealloc m br i bc j).
Qed.
Print Assumptions C46_clear.
Theorem C46_clone (A : Arith) (m : sbm A) : wf m -> wf (clone A m) /\ owns (clone A m) = true /\
  forall r c, entry A (clone A m) r c = entry A m r c.
Proof. intro W. split; [now apply clone_wf | ]. split; reflexivity. Qed.
Print Assumptions C46_clone.
Example C46_ex_clear : to_dense ZA (clear ZA true ex_z) = Ok [[0; 0; 0]; [0; 0; 0]; [0; 0; 0]]%Z /\
  to_dense ZA (clear ZA false ex_z) = Ok [[0; 0; 0]; [0; 0; 0]; [0; 0; 0]]%Z.
Proof. split; reflexivity. Qed.

(** ** Transposing. *)
(** Into a new matrix. *)
Theorem C46_transpose (A : Arith) (m : sbm A) : wf m -> exists m', transpose_into A m None = Ok (true, m') /\
  wf m' /\ total (rbi m') = total (cbi m) /\ total (cbi m') = total (rbi m) /\
  forall r c, r < total (rbi m) -> c < total (cbi m) -> entry A m' c r = entry A m r c.
Proof.
  intro W. destruct (transpose_fresh A m W) as (m' & E & W' & H1 & H2 & _ & V). exists m'.
  conj; [exact E | exact W' | now rewrite H1 | now rewrite H2 | ].
  intros r c Hr Hc. rewrite !entry_el; rewrite ?H1, ?H2; auto. now rewrite V.
Qed.
Print Assumptions C46_transpose.
Example C46_ex_transpose :
  omap (fun p : bool * sbm ZA => to_dense ZA (snd p)) (transpose_into ZA ex_z None) =
  Ok (Ok [[2; 0; 0]; [7; 4; 1]; [8; 1; 5]]%Z).
Proof. reflexivity. Qed.

(** Into an existing matrix of the right layout: the call succeeds, yet blocks
    of the destination with no counterpart in the source keep their old
    contents, so the result need not be the transpose. *)
Theorem C46_transpose_into_refuted : exists m d d' : sbm ZA, wf m /\ wf d /\ owns d = true /\
  transpose_into ZA m (Some d) = Ok (true, d') /\
  exists r c, r < total (rbi m) /\ c < total (cbi m) /\ entry ZA d' c r <> entry ZA m r c.
Proof.
  pose (m := Sbm (A := ZA) [1; 2] [1; 2] [[(0, [[1%Z]])]; []] true).
  pose (d := Sbm (A := ZA) [1; 2] [1; 2] [[]; [(1, [[9%Z]])]] true).
  exists m, d, (Sbm (A := ZA) [1; 2] [1; 2] [[(0, [[1%Z]])]; [(1, [[9%Z]])]] true).
  split; [apply wfb_ok; reflexivity | ]. split; [apply wfb_ok; reflexivity | ].
  split; [reflexivity | ]. split; [reflexivity | ].
  exists 1, 1. split; [cbn; lia | ]. split; [cbn; lia | ]. vm_compute. discriminate.
Qed.
Print Assumptions C46_transpose_into_refuted.
(** What holds: blocks stored in the source arrive transposed. *)
Theorem C46_transpose_into_partial (A : Arith) (m d : sbm A) : wf m -> wf d -> owns d = true ->
  rbi m = cbi d -> cbi m = rbi d ->
  exists d', transpose_into A m (Some d) = Ok (true, d') /\ wf d' /\ rbi d' = rbi d /\ cbi d' = cbi d /\
    forall r c, blk m r c <> None \/ blk d c r = None ->
      forall i j, i < size_of (rbi m) r -> j < size_of (cbi m) c ->
        val_at d' c j r i = val_at m r i c j.
Proof.
  intros W Wd O R C. destruct (transpose_ok A m d W Wd O R C) as (d' & E & W' & L & HB). exists d'.
  assert (G : transpose_into A m (Some d) = Ok (true, d')).
  { unfold transpose_into. rewrite O, (proj2 (same_layout_iff _ _) R), (proj2 (same_layout_iff _ _) C).
    cbn [andb]. rewrite E. reflexivity. }
  destruct L as (L1 & L2 & _). conj; [exact G | exact W' | exact L1 | exact L2 | ].
  intros r c K i j Hi Hj. unfold val_at. rewrite HB. destruct (blk m r c) as [B | ] eqn:EB.
  - apply (wf_blk _ _ W) in EB as [_ S0]. eapply mtrans_val; eassumption.
  - destruct K as [K | K]; [congruence | ]. now rewrite K.
Qed.
Print Assumptions C46_transpose_into_partial.

(** ** Sums, products, scaling (real arithmetic). *)
Theorem C46_add (m d : sbm RA) : wf m -> wf d -> owns d = true -> rbi m = rbi d -> cbi m = cbi d ->
  exists d', add_into RA m (Some d) = Ok (true, d') /\ wf d' /\ rbi d' = rbi d /\ cbi d' = cbi d /\
    forall r c, r < total (rbi d) -> c < total (cbi d) -> elr d' r c = (elr d r c + elr m r c)%R.
Proof.
  intros W Wd O R C. destruct (add_ok m d W Wd O R C) as (d' & E & W' & L & V & _). exists d'.
  destruct L as (L1 & L2 & _). conj; [exact E | exact W' | exact L1 | exact L2 | ].
  intros r c Hr Hc.
  destruct (locate _ _ (wf_rlay _ _ Wd) Hr) as (br & i & H1 & H2 & -> & _).
  destruct (locate _ _ (wf_clay _ _ Wd) Hc) as (bc & j & H3 & H4 & -> & _).
  pose proof (elr_at d' br i bc j W') as G1. rewrite L1, L2 in G1. rewrite G1 by assumption.
  rewrite (elr_at d br i bc j Wd) by assumption.
  pose proof (elr_at m br i bc j W) as G2. rewrite R, C in G2. rewrite G2 by assumption.
  now apply V.
Qed.
Print Assumptions C46_add.
Example C46_ex_add : exists d', add_into RA ex_a (Some ex_a) = Ok (true, d') /\ elr d' 1 1 = (4 + 4)%R.
Proof.
  destruct C46_ex_matrices as (W & _).
  destruct (C46_add ex_a ex_a W W eq_refl eq_refl eq_refl) as (d' & E & _ & _ & _ & V).
  exists d'. split; [exact E | ]. rewrite V by (cbn; lia). reflexivity.
Qed.

(** The product of two matrices whose inner layouts agree. *)
Theorem C46_product (a b : sbm RA) : wf a -> wf b -> cbi a = rbi b ->
  exists p, product RA a b = Ok p /\ wf p /\ rbi p = rbi a /\ cbi p = cbi b /\
    forall r c, r < total (rbi a) -> c < total (cbi b) ->
      elr p r c = sumn (total (cbi a)) (fun k => (elr a r k * elr b k c)%R).
Proof.
  intros Wa Wb K.
  assert (Wf : wf (fresh RA (rbi a) (cbi b))) by (apply fresh_wf; [apply Wa | apply Wb]).
  destruct (multiply_ok a b (fresh RA (rbi a) (cbi b)) Wa Wb Wf eq_refl K eq_refl eq_refl)
    as (d' & E & W' & L & V). exists d'.
  destruct L as (L1 & L2 & _).
  assert (G : product RA a b = Ok d') by (unfold product; rewrite E; reflexivity).
  conj; [exact G | exact W' | exact L1 | exact L2 | ].
  intros r c Hr Hc. rewrite V by assumption.
  pose proof (C46_read RA (fresh RA (rbi a) (cbi b)) r c Wf) as Q. cbn [rbi cbi fresh] in Q.
  rewrite (proj2 (Nat.ltb_lt _ _) Hr), (proj2 (Nat.ltb_lt _ _) Hc) in Q. cbn [andb] in Q.
  destruct Q as (br & i & bc & j & _ & _ & _ & _ & _ & _ & Q).
  assert (Z : elr (fresh RA (rbi a) (cbi b)) r c = 0%R).
  { unfold elr, el. rewrite Q. exact (fresh_val RA (rbi a) (cbi b) br i bc j). }
  rewrite Z. apply Rplus_0_l.
Qed.
Print Assumptions C46_product.
(** Inner layouts that differ are rejected. *)
Theorem C46_product_mismatch (A : Arith) (a b : sbm A) : cbi a <> rbi b -> product A a b = Throw.
Proof.
  intro N. unfold product, multiply_into. destruct (same_layout (cbi a) (rbi b)) eqn:E; [ | reflexivity].
  apply same_layout_iff in E. contradiction.
Qed.
Print Assumptions C46_product_mismatch.
Example C46_ex_product : exists p, product RA ex_a ex_b = Ok p /\ elr p 1 0 = 7%R.
Proof.
  destruct C46_ex_matrices as (Wa & Wb & _ & _ & _ & K).
  destruct (C46_product ex_a ex_b Wa Wb K) as (p & E & _ & _ & _ & V). exists p. split; [exact E | ].
  rewrite V by (cbn; lia). unfold sumn, rsum, elr, el. cbn. lra.
Qed.

(** Multiplying into an existing matrix adds to it instead: after success it
    need not hold the product. *)
Theorem C46_product_into (a b d : sbm RA) : wf a -> wf b -> wf d -> owns d = true -> cbi a = rbi b ->
  rbi d = rbi a -> cbi d = cbi b ->
  exists d', multiply_into RA a b (Some d) = Ok (true, d') /\ wf d' /\
    forall r c, r < total (rbi d) -> c < total (cbi d) ->
      elr d' r c = (elr d r c + sumn (total (cbi a)) (fun k => elr a r k * elr b k c))%R.
Proof.
  intros. destruct (multiply_ok a b d) as (d' & E & W' & _ & V); auto. exists d'. auto.
Qed.
Print Assumptions C46_product_into.
Theorem C46_product_into_refuted : exists a d d' p : sbm ZA, wf a /\ wf d /\ owns d = true /\
  multiply_into ZA a a (Some d) = Ok (true, d') /\ product ZA a a = Ok p /\
  entry ZA d' 0 0 <> entry ZA p 0 0.
Proof.
  pose (m := Sbm (A := ZA) [1] [1] [[(0, [[2%Z]])]] true).
  exists m, m, (Sbm (A := ZA) [1] [1] [[(0, [[6%Z]])]] true), (Sbm (A := ZA) [1] [1] [[(0, [[4%Z]])]] true).
  split; [apply wfb_ok; reflexivity | ]. split; [apply wfb_ok; reflexivity | ].
  split; [reflexivity | ]. split; [reflexivity | ]. split; [reflexivity | ]. vm_compute. discriminate.
Qed.
Print Assumptions C46_product_into_refuted.
(** The destination's layout is never compared with the operands': adding a
    product of another size to a block reads outside it. *)
Theorem C46_product_layout_refuted : exists a d : sbm ZA, wf a /\ wf d /\ owns d = true /\
  multiply_into ZA a a (Some d) = UB.
Proof.
  exists (Sbm (A := ZA) [2] [2] [[(0, [[1; 2]; [3; 4]]%Z)]] true), (fresh ZA [1] [1]).
  split; [apply wfb_ok; reflexivity | ]. split; [apply wfb_ok; reflexivity | ]. split; reflexivity.
Qed.
Print Assumptions C46_product_layout_refuted.

Theorem C46_scale (m : sbm RA) (a : R) : wf m -> wf (scale RA a m) /\
  rbi (scale RA a m) = rbi m /\ cbi (scale RA a m) = cbi m /\
  forall r c, r < total (rbi m) -> c < total (cbi m) -> elr (scale RA a m) r c = (a * elr m r c)%R.
Proof.
  intro W. assert (W' : wf (scale RA a m)).
  { apply map_blocks_wf; [exact W | ]. intros r c B. apply map_map_shaped. }
  conj; [exact W' | reflexivity | reflexivity | ].
  intros r c Hr Hc.
  destruct (locate _ _ (wf_rlay _ _ W) Hr) as (br & i & H1 & H2 & -> & _).
  destruct (locate _ _ (wf_clay _ _ W) Hc) as (bc & j & H3 & H4 & -> & _).
  rewrite (elr_at m br i bc j W) by assumption.
  etransitivity; [exact (elr_at (scale RA a m) br i bc j W' H1 H2 H3 H4) | ].
  unfold val, val_at, scale. rewrite map_blocks_blk. destruct (blk m br bc) as [B | ] eqn:E.
  - apply (wf_blk _ _ W) in E as [_ S0]. etransitivity; [exact (map_map_val RA (fun v => mul RA v a) _ _ _ _ _ S0 H2 H4) | ].
    apply Rmult_comm.
  - symmetry. apply Rmult_0_r.
Qed.
Print Assumptions C46_scale.
Example C46_ex_scale : elr (scale RA 3%R ex_a) 2 2 = 15%R.
Proof.
  destruct C46_ex_matrices as (W & _). destruct (C46_scale ex_a 3%R W) as (_ & _ & _ & V).
  rewrite V by (cbn; lia). unfold elr, el. cbn. lra.
Qed.

(** Matrix times vector, and transposed matrix times vector. *)
Lemma sumn_0_plus (v w : R) : v = 0%R -> (v + w)%R = w.
Proof. intros ->. apply Rplus_0_l. Qed.
Theorem C46_vector (m : sbm RA) (x : list R) : wf m -> length x = total (cbi m) ->
  exists y : list R, mul_vec RA m x = Ok y /\ length y = total (rbi m) /\
    forall r, r < total (rbi m) -> nth r y 0%R = sumn (total (cbi m)) (fun c => (elr m r c * nth c x 0)%R).
Proof.
  intros W L.
  destruct (mul_vec_ok m x (repeat 0%R (total (rbi m))) W L (repeat_length _ _)) as (y & E & H1 & H2).
  exists y. conj; [exact E | exact H1 | ]. intros r Hr. rewrite H2 by exact Hr.
  apply sumn_0_plus, nth_repeat.
Qed.
Print Assumptions C46_vector.
Theorem C46_vector_transposed (m : sbm RA) (x : list R) : wf m -> length x = total (rbi m) ->
  exists y : list R, tmul_vec RA m x = Ok y /\ length y = total (cbi m) /\
    forall c, c < total (cbi m) -> nth c y 0%R = sumn (total (rbi m)) (fun r => (elr m r c * nth r x 0)%R).
Proof.
  intros W L.
  destruct (tmul_vec_ok m x (repeat 0%R (total (cbi m))) W L (repeat_length _ _)) as (y & E & H1 & H2).
  exists y. conj; [exact E | exact H1 | ]. intros r Hr. rewrite H2 by exact Hr.
  apply sumn_0_plus, nth_repeat.
Qed.
Print Assumptions C46_vector_transposed.
(** The pointer versions add to what the destination holds. *)
Theorem C46_vector_onto (m : sbm RA) (x y : list R) : wf m -> length x = total (cbi m) ->
  length y = total (rbi m) ->
  exists y' : list R, mul_vec_onto RA m x y = Ok y' /\ length y' = total (rbi m) /\
    forall r, r < total (rbi m) -> nth r y' 0%R =
      (nth r y 0 + sumn (total (cbi m)) (fun c => elr m r c * nth c x 0))%R.
Proof. exact (mul_vec_ok m x y). Qed.
Print Assumptions C46_vector_onto.
Example C46_ex_vector : mul_vec ZA ex_z [1; 2; 3]%Z = Ok [40; 11; 17]%Z /\
  tmul_vec ZA ex_z [1; 2; 3]%Z = Ok [2; 18; 25]%Z /\
  mul_vec_onto ZA ex_z [1; 2; 3]%Z [1; 1; 1]%Z = Ok [41; 12; 18]%Z.
Proof. split; [reflexivity | ]. split; reflexivity. Qed.

(** ** Slicing. *)
Theorem C46_slice (A : Arith) (m : sbm A) rmin rmax cmin cmax : wf m -> rmin < rmax ->
  rmax <= length (rbi m) -> cmin < cmax -> cmax <= length (cbi m) ->
  exists s, slice A rmin rmax cmin cmax m = Ok s /\ wf s /\
    total (rbi s) = base_of (rbi m) rmax - base_of (rbi m) rmin /\
    total (cbi s) = base_of (cbi m) cmax - base_of (cbi m) cmin /\
    forall r c, r < total (rbi s) -> c < total (cbi s) ->
      entry A s r c = entry A m (base_of (rbi m) rmin + r) (base_of (cbi m) cmin + c).
Proof.
  intros W H1 H2 H3 H4.
  destruct (slice_ok A m rmin rmax cmin cmax W H1 H2 H3 H4) as (s & E & Ws & _ & R & C & V).
  assert (V' : forall r c i j, r < rmax - rmin -> c < cmax - cmin ->
     val_at s r i c j = val_at m (rmin + r) i (cmin + c) j).
  { intros r c i j Hr Hc. unfold val_at. now rewrite V. }
  destruct (shifted_el A m s rmin rmax cmin cmax W Ws H1 H2 H3 H4 R C V') as (T1 & T2 & T3).
  exists s. conj; [exact E | exact Ws | exact T1 | exact T2 | ].
  intros r c Hr Hc. rewrite !entry_el; auto.
  - f_equal. auto.
  - apply Nat.lt_le_trans with (base_of (rbi m) rmax); [lia | ].
    rewrite total_base. apply layout_mono; [apply W | lia | lia].
  - apply Nat.lt_le_trans with (base_of (cbi m) cmax); [lia | ].
    rewrite total_base. apply layout_mono; [apply W | lia | lia].
Qed.
Print Assumptions C46_slice.
Theorem C46_slice_into (A : Arith) (m out : sbm A) rmin rmax cmin cmax : wf m -> wf out ->
  owns out = true -> rmin < rmax -> rmax <= length (rbi m) -> cmin < cmax -> cmax <= length (cbi m) ->
  rbi out = slice_layout (rbi m) rmin rmax -> cbi out = slice_layout (cbi m) cmin cmax ->
  exists s, slice_into A rmin rmax cmin cmax m out = Ok s /\ wf s /\
    forall r c, r < total (rbi s) -> c < total (cbi s) ->
      entry A s r c = entry A m (base_of (rbi m) rmin + r) (base_of (cbi m) cmin + c).
Proof.
  intros W Wo O H1 H2 H3 H4 R C.
  destruct (slice_into_ok A m out rmin rmax cmin cmax W Wo O H1 H2 H3 H4 R C) as (s & E & Ws & L & V).
  destruct L as (L1 & L2 & _).
  destruct (shifted_el A m s rmin rmax cmin cmax W Ws H1 H2 H3 H4) as (T1 & T2 & T3); auto; try congruence.
  exists s. conj; [exact E | exact Ws | ].
  intros r c Hr Hc. rewrite !entry_el; auto.
  - f_equal. auto.
  - apply Nat.lt_le_trans with (base_of (rbi m) rmax); [lia | ].
    rewrite total_base. apply layout_mono; [apply W | lia | lia].
  - apply Nat.lt_le_trans with (base_of (cbi m) cmax); [lia | ].
    rewrite total_base. apply layout_mono; [apply W | lia | lia].
Qed.
Print Assumptions C46_slice_into.
Example C46_ex_slice :
  omap (fun s => to_dense ZA s) (slice ZA 0 1 1 2 ex_z) = Ok (Ok [[7; 8]]%Z).
Proof. reflexivity. Qed.
(** An empty range writes the first element of an empty array. *)
Theorem C46_slice_empty_refuted : exists (m : sbm ZA) rmin rmax cmin cmax, wf m /\ rmin <= rmax /\
  rmax <= length (rbi m) /\ cmin <= cmax /\ cmax <= length (cbi m) /\ slice ZA rmin rmax cmin cmax m = UB.
Proof.
  exists ex_z, 1, 1, 0, 2. split; [apply wfb_ok; reflexivity | ]. cbn. do 4 (split; [lia | ]). reflexivity.
Qed.
Print Assumptions C46_slice_empty_refuted.

(** ** Symmetric permutation of the blocks. *)
(** All blocks: element (i, j) of block (r, c) arrives in block (p r, p c). *)
Theorem C46_permute (A : Arith) (m : sbm A) pinv dest : wf m -> square m -> rbi m <> [] ->
  permutation pinv (length (rbi m)) ->
  (forall d, dest = Some d -> wf d /\ owns d = true /\ square d /\ perm_layout (rbi m) pinv (rbi d)) ->
  exists d', symm_permutation A m pinv false dest = Ok (true, d') /\ wf d' /\ square d' /\
    perm_layout (rbi m) pinv (rbi d') /\
    forall r i c j, r < length (rbi m) -> i < size_of (rbi m) r -> c < length (rbi m) -> j < size_of (rbi m) c ->
      entry A d' (base_of (rbi d') (nth r pinv 0) + i) (base_of (rbi d') (nth c pinv 0) + j) =
      entry A m (base_of (rbi m) r + i) (base_of (rbi m) c + j).
Proof.
  intros W Q NE P HD.
  destruct (symm_permutation_ok A m pinv false dest W Q NE P ltac:(discriminate) HD)
    as (d' & E & W' & Q' & (L1 & L2 & L3) & V1 & V2).
  exists d'. split; [exact E | ]. split; [exact W' | ]. split; [exact Q' | ]. split; [now split | ].
  intros r i c j Hr Hi Hc Hj.
  pose proof (perm_bound _ _ _ P Hr). pose proof (perm_bound _ _ _ P Hc).
  rewrite Q' at 2. rewrite Q at 2. rewrite !entry_at; auto; rewrite <- ?Q, <- ?Q', ?L1, ?L3; auto.
  f_equal. now apply perm_full.
Qed.
Print Assumptions C46_permute.

(** Upper triangle only: the symmetric matrix the result stands for is the
    permuted symmetric matrix. *)
Theorem C46_permute_upper (A : Arith) (m : sbm A) pinv dest : wf m -> square m -> rbi m <> [] ->
  permutation pinv (length (rbi m)) -> upper_only m ->
  (forall d, dest = Some d -> wf d /\ owns d = true /\ square d /\ perm_layout (rbi m) pinv (rbi d)) ->
  exists d', symm_permutation A m pinv true dest = Ok (true, d') /\ wf d' /\ square d' /\
    perm_layout (rbi m) pinv (rbi d') /\
    forall r i c j, r < length (rbi m) -> i < size_of (rbi m) r -> c < length (rbi m) -> j < size_of (rbi m) c ->
      sym d' (base_of (rbi d') (nth r pinv 0) + i) (base_of (rbi d') (nth c pinv 0) + j) =
      sym m (base_of (rbi m) r + i) (base_of (rbi m) c + j).
Proof.
  intros W Q NE P U HD.
  destruct (symm_permutation_ok A m pinv true dest W Q NE P (fun _ => U) HD)
    as (d' & E & W' & Q' & L & V1 & V2).
  exists d'. split; [exact E | ]. split; [exact W' | ]. split; [exact Q' | ]. split; [exact L | ].
  intros r i c j Hr Hi Hc Hj. now apply (perm_sym A m d' pinv W W' Q Q' P U L V1 V2).
Qed.
Print Assumptions C46_permute_upper.
Example C46_ex_permute : permutation [1; 0] (length (rbi ex_z)) /\
  omap (fun p : bool * sbm ZA => to_dense ZA (snd p)) (symm_permutation ZA ex_z [1; 0] true None) =
    Ok (Ok [[4; 1; 7]; [1; 5; 8]; [0; 0; 2]]%Z) /\
  omap (fun p : bool * sbm ZA => to_dense ZA (snd p)) (symm_permutation ZA ex_z [1; 0] false None) =
    Ok (Ok [[4; 1; 0]; [1; 5; 0]; [7; 8; 2]]%Z).
Proof.
  split; [ | split; reflexivity]. split; [reflexivity | ]. split.
  - repeat constructor; cbn; intuition discriminate.
  - repeat constructor.
Qed.

(** ** The pattern of blocks. *)
Lemma pointers_app (cols : list (list nat)) (l : list nat) : l <> [] ->
  fold_left (fun l k => l ++ [last l 0 + length k]) cols l =
  l ++ map (fun c => last l 0 + length (concat (firstn (S c) cols))) (seq 0 (length cols)).
Proof.
  revert l; induction cols as [ | k cols IH ]; intros l N; cbn [fold_left length seq map].
  - rewrite app_nil_r. reflexivity.
  - rewrite IH by (intros X; apply app_eq_nil in X; destruct X; discriminate).
    rewrite last_last, <- app_assoc. cbn [app]. f_equal. f_equal.
    + cbn [firstn concat]. rewrite app_nil_r. reflexivity.
    + rewrite <- seq_shift, map_map. apply map_ext. intros c.
      change (firstn (S (S c)) (k :: cols)) with (k :: firstn (S c) cols). cbn [concat]. rewrite app_length. lia.
Qed.
Lemma slice_concat (cols : list (list nat)) c : c < length cols ->
  firstn (length (nth c cols [])) (skipn (length (concat (firstn c cols))) (concat cols)) = nth c cols [].
Proof.
  revert c; induction cols as [ | k cols IH ]; intros [ | c ] H; cbn [length] in H; try lia.
  - cbn [nth firstn concat length skipn]. rewrite firstn_app, Nat.sub_diag, firstn_O, app_nil_r. apply firstn_all.
  - cbn [nth firstn concat]. rewrite app_length, skipn_app.
    replace (length k + length (concat (firstn c cols)) - length k) with (length (concat (firstn c cols))) by lia.
    rewrite skipn_all2 by lia. cbn [app]. apply IH. lia.
Qed.
(** Column c of the pattern handed to the ordering lists, once each, the block
    rows on or above the diagonal that are stored in column c. *)
Theorem C46_block_structure (A : Arith) (m : sbm A) p i : wf m -> block_structure A m = (p, i) ->
  length p = S (length (cbi m)) /\ nth 0 p 0 = 0 /\ nth (length (cbi m)) p 0 = length i /\
  forall c, c < length (cbi m) ->
    nth c p 0 <= nth (S c) p 0 /\
    let rows := firstn (nth (S c) p 0 - nth c p 0) (skipn (nth c p 0) i) in
    NoDup rows /\ forall r, In r rows <-> r <= c /\ blk m r c <> None.
Proof.
  intros W E. unfold block_structure in E.
  set (cols := map (fun p => filter (fun r => r <=? fst p) (map fst (snd p))) (combine (seq 0 (length (bcols m))) (bcols m))) in E.
  assert (LC : length cols = length (cbi m)).
  { unfold cols. rewrite map_length, combine_length, seq_length, Nat.min_id. apply (wf_cols _ m W). }
  rewrite pointers_app in E by discriminate. cbn [last app Nat.add] in E.
  assert (Ei : i = concat cols) by congruence.
  assert (Ep : p = 0 :: map (fun c => length (concat (firstn (S c) cols))) (seq 0 (length cols))) by congruence.
  assert (P : forall c, c <= length cols -> nth c p 0 = length (concat (firstn c cols))).
  { intros [ | c ] H; rewrite Ep; [ reflexivity | ]. cbn [nth].
    set (F := fun c => length (concat (firstn (S c) cols))).
    rewrite (nth_indep _ 0 (F 0)) by (rewrite map_length, seq_length; lia).
    rewrite map_nth, seq_nth by lia. reflexivity. }
  split; [ rewrite Ep; cbn [length]; rewrite map_length, seq_length; lia | ].
  split; [ rewrite Ep; reflexivity | ].
  split; [ rewrite P by lia; rewrite firstn_all2 by lia; rewrite Ei; reflexivity | ].
  intros c Hc. rewrite (P c), (P (S c)) by lia.
  assert (SC : firstn (S c) cols = firstn c cols ++ [nth c cols []]).
  { assert (Hc' : c < length cols) by lia. clear -Hc'. clearbody cols. revert c Hc'.
    induction cols as [ | k cs IH ]; intros [ | c ] H; cbn [length] in H; try lia; [ reflexivity | ].
    cbn [firstn nth app]. f_equal. apply IH. lia. }
  rewrite SC, concat_app, app_length. cbn [concat]. rewrite app_nil_r.
  replace (length (concat (firstn c cols)) + length (nth c cols []) - length (concat (firstn c cols))) with (length (nth c cols [])) by lia.
  split; [ lia | ]. rewrite Ei, slice_concat by lia. cbv zeta.
  assert (HB : c < length (bcols m)) by (rewrite (wf_cols _ m W); exact Hc).
  assert (EC : nth c cols [] = filter (fun r => r <=? c) (map fst (nth c (bcols m) []))).
  { unfold cols. set (F := fun p : nat * list (nat * mat A) => filter (fun r => r <=? fst p) (map fst (snd p))).
    rewrite (nth_indep _ [] (F (0, []))) by (rewrite map_length, combine_length, seq_length; lia).
    rewrite map_nth, combine_nth by apply seq_length. rewrite seq_nth by exact HB. reflexivity. }
  assert (SO : sorted Nat.compare (nth c (bcols m) [])).
  { apply (proj1 (Forall_forall _ _) (wf_keys _ m W)), nth_In, HB. }
  rewrite EC. split; [ apply NoDup_filter, (sorted_nodup Nat.compare Natcompare_order _ SO) | ].
  intros r. rewrite filter_In, Nat.leb_le. unfold blk.
  rewrite (nth_error_nth' _ [] HB). rewrite (mget_in_keys Nat.compare Natcompare_order r _ SO). tauto.
Qed.
Print Assumptions C46_block_structure.
Example C46_ex_structure : block_structure ZA ex_z = ([0; 1; 3], [0; 0; 1]).
Proof. reflexivity. Qed.
