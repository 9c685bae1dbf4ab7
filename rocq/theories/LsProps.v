(** C47: what the linear solvers hand to their libraries. *)
From Coq Require Import ZArith List Bool Lia Permutation.
From Verif Require Import Base Arith OMap JacModel JacProps CcmModel CcmSpec SbmModel SbmSpec SbmProofs SbmMore
  SbmCcs SbmFull SbmProps LsModel LsSpec LsProofs.
Import ListNotations.
Open Scope nat_scope.

(** A second matrix with the pattern of [ex_z] and one with another pattern. *)
Definition ex_z2 : sbm ZA := Sbm (A := ZA) [1; 3] [1; 3]
  [[(0, [[9%Z]])]; [(0, [[1; 2]]%Z); (1, [[6; 3]; [3; 7]]%Z)]] true.
Definition ex_d : sbm ZA := Sbm (A := ZA) [1; 3] [1; 3]
  [[(0, [[9%Z]])]; [(1, [[6; 3]; [3; 7]]%Z)]] true.

Lemma ex_fine q (a b c : mat ZA) : shaped ZA 1 1 a = true -> shaped ZA 1 2 b = true -> shaped ZA 2 2 c = true ->
  fine ZA q (Sbm (A := ZA) [1; 3] [1; 3] [[(0, a)]; [(0, b); (1, c)]] true).
Proof.
  intros Ha Hb Hc. constructor.
  - apply wfb_ok. unfold wfb. cbn -[shaped]. now rewrite Ha, Hb, Hc.
  - reflexivity.
  - intros [ | [ | i]] H; cbn in H |- *; lia.
  - discriminate.
  - intros _ r c0 H. destruct c0 as [ | [ | [ | c0]]].
    + destruct r; [lia | ]. exfalso. apply H. reflexivity.
    + destruct r as [ | [ | r]]; [lia | lia | ]. exfalso. apply H. reflexivity.
    + exfalso. apply H. reflexivity.
    + exfalso. apply H. reflexivity.
Qed.

(** ** One matrix. *)
(** Compressed columns of the upper part: sorted columns, values in place, and
    no more room needed than is allocated; the values on their own come in the
    same order. *)
Theorem C47_upper (A : Arith) (m : sbm A) : wf m -> square m -> positive (rbi m) ->
  exists k, fill_ccs A m true = Ok k /\ fill_values A m true = Ok (ccs_x k) /\
    length (ccs_p k) = total (cbi m) + 1 /\
    length (ccs_i k) = length (ccs_x k) /\ length (ccs_x k) <= nonzeros A m /\
    well_formed A (Ccm (total (rbi m)) (total (cbi m)) (ccs_x k) (ccs_i k) (ccs_p k) false) /\
    exists f, dense_is A (Ccm (total (rbi m)) (total (cbi m)) (ccs_x k) (ccs_i k) (ccs_p k) false) f /\
      forall r c, r <= c -> c < total (rbi m) -> f r c = el m r c.
Proof.
  intros W Q P. destruct (rbi m) as [ | x l] eqn:ER.
  - assert (EC : cbi m = []) by (rewrite <- Q; exact ER).
    assert (F : fit A m true) by (intros _; split; [exact Q | rewrite ER; exact P]).
    destruct (fill_values_ok A m true W F) as (k & E & EV).
    destruct (fill_ccs_ok A m true W F) as (k' & E' & WF & g & D & G).
    assert (k' = k) by congruence. subst k'. unfold handed in WF, D. rewrite ER in WF, D.
    destruct (space_ok A m true k W F E) as (L1 & L2 & L3).
    exists k. do 5 (split; [assumption | ]). split; [exact WF | ]. exists g. split; [exact D | ].
    cbn. intros; lia.
  - assert (F : fine A Cholmod m).
    { constructor; [exact W | exact Q | rewrite ER; exact P | congruence | discriminate]. }
    destruct (filled_ok A Cholmod m F) as (k & E & EV & L1 & L2 & L3 & _ & WF & f & D & Wt).
    rewrite <- ER. exists k. do 5 (split; [assumption | ]). split; [exact WF | ].
    exists f. split; [exact D | ]. intros r c H1 H2. apply Wt; lia.
Qed.
Print Assumptions C47_upper.
Example C47_ex_upper : omap (fun k : ccs ZA => (ccs_p k, ccs_i k, ccs_x k)) (fill_ccs ZA ex_z true) =
  Ok ([0; 1; 3; 6], [0; 0; 1; 0; 1; 2], [2; 7; 4; 8; 1; 5]%Z).
Proof. reflexivity. Qed.

(** All of a block matrix, of any shape. *)
Theorem C47_all (A : Arith) (m : sbm A) : wf m ->
  exists k, fill_ccs A m false = Ok k /\ fill_values A m false = Ok (ccs_x k) /\
    length (ccs_x k) <= nonzeros A m /\
    well_formed A (Ccm (total (rbi m)) (total (cbi m)) (ccs_x k) (ccs_i k) (ccs_p k) false) /\
    exists f, dense_is A (Ccm (total (rbi m)) (total (cbi m)) (ccs_x k) (ccs_i k) (ccs_p k) false) f /\
      forall r c, r < total (rbi m) -> c < total (cbi m) -> f r c = el m r c.
Proof.
  intros W. assert (F : fit A m false) by (intro; discriminate).
  destruct (fill_values_ok A m false W F) as (k & E & EV).
  destruct (fill_ccs_ok A m false W F) as (k' & E' & WF & g & D & G).
  assert (k' = k) by congruence. subst k'.
  destruct (space_ok A m false k W F E) as (_ & _ & L3).
  exists k. split; [exact E | ]. split; [exact EV | ]. split; [exact L3 | ]. split; [exact WF | ].
  exists g. split; [exact D | ]. intros r c Hr Hc.
  destruct (locate _ _ (wf_rlay _ _ W) Hr) as (br & i & H1 & H2 & -> & _).
  destruct (locate _ _ (wf_clay _ _ W) Hc) as (bc & j & H3 & H4 & -> & _).
  rewrite G by assumption. cbn [andb]. symmetry. now apply el_at.
Qed.
Print Assumptions C47_all.
Example C47_ex_all : omap (fun k : ccs ZA => (ccs_p k, ccs_i k, ccs_x k)) (fill_ccs ZA ex_z false) =
  Ok ([0; 1; 4; 7], [0; 0; 1; 2; 0; 1; 2], [2; 7; 4; 1; 8; 1; 5]%Z).
Proof. reflexivity. Qed.

(** The symmetric matrix spelled out, for the QR solver. *)
Theorem C47_full (A : Arith) (m : sbm A) : wf m -> square m -> positive (rbi m) -> upper_only m ->
  exists k, fill_upper_triangle_ccs A m = Ok k /\ fill_upper_triangle_values A m = Ok (ccs_x k) /\
    length (ccs_x k) <= nonzeros A m * 2 /\
    well_formed A (Ccm (total (rbi m)) (total (cbi m)) (ccs_x k) (ccs_i k) (ccs_p k) false) /\
    exists f, dense_is A (Ccm (total (rbi m)) (total (cbi m)) (ccs_x k) (ccs_i k) (ccs_p k) false) f /\
      forall r c, r < total (rbi m) -> c < total (rbi m) ->
        f r c = (if r <=? c then el m r c else el m c r).
Proof.
  intros W Q P U. destruct (fill_full_ok A m W Q P U) as (k & E & EV & WF & g & D & G).
  destruct (full_space A m k W Q P E) as (_ & _ & L3).
  exists k. split; [exact E | ]. split; [exact EV | ]. split; [exact L3 | ].
  split; [exact WF | ]. exists g. split; [exact D | exact G].
Qed.
Print Assumptions C47_full.
Example C47_ex_full : omap (fun k : ccs ZA => (ccs_p k, ccs_i k, ccs_x k)) (fill_upper_triangle_ccs ZA ex_z) =
  Ok ([0; 3; 6; 9], [0; 1; 2; 0; 1; 2; 0; 1; 2], [2; 7; 8; 7; 4; 1; 8; 1; 5]%Z) /\
  upper_only ex_z /\ positive (rbi ex_z).
Proof.
  split; [reflexivity | ]. pose proof (ex_fine Spqr [[2%Z]] [[7; 8]]%Z [[4; 1]; [1; 5]]%Z eq_refl eq_refl eq_refl) as [_ _ P _ U].
  split; [exact (U eq_refl) | exact P].
Qed.

(** The dense solver sees the upper triangle. *)
Theorem C47_dense (A : Arith) (m : sbm A) : wf m -> square m ->
  exists D, dense_input A m = Ok D /\ shaped A (total (rbi m)) (total (rbi m)) D = true /\
    forall r c, r <= c -> c < total (rbi m) -> nth c (nth r D []) (of_Z A 0) = el m r c.
Proof. apply dense_input_ok. Qed.
Print Assumptions C47_dense.
Example C47_ex_dense : dense_input ZA ex_z = Ok [[2; 7; 8]; [0; 4; 1]; [0; 1; 5]]%Z.
Proof. reflexivity. Qed.

(** With more rows than columns it writes outside its matrix. *)
Theorem C47_dense_tall_refuted : exists m : sbm ZA, wf m /\ dense_input ZA m = UB.
Proof.
  exists (Sbm (A := ZA) [2] [1] [[(0, [[1]; [2]]%Z)]] true). split; [apply wfb_ok; reflexivity | reflexivity].
Qed.
Print Assumptions C47_dense_tall_refuted.

(** ** A solver's whole life. *)
(** As long as a solver is initialised again whenever the block pattern
    changes, it never touches memory it does not have, and at every solve the
    library reads exactly the matrix passed to that solve, under a symbolic
    factorisation of that matrix's own pattern. *)
Theorem C47_history (A : Arith) (q : kind) (os : list (op A)) : allowed A q None os ->
  exists hs, run A q os (start A) = Ok hs /\ map (fun e => fst (fst e)) hs = asked A os /\
    Forall (fun e => let '(m, h, f) := e in
      nrows h = total (rbi m) /\ ncols h = total (cbi m) /\ well_formed A h /\
      (exists g, dense_is A h g /\
         match q with
         | Spqr => forall r c, r < total (rbi m) -> c < total (rbi m) -> g r c = sym m r c
         | _ => forall r c, r < total (rbi m) -> c < total (rbi m) -> r <= c -> g r c = el m r c
         end) /\ f = (nrows h, ncols h, cptr h, rind h)) hs.
Proof.
  intro H. destruct (run_ok A q os None (start A) (start_inv A q) H) as (hs & E & M & F).
  exists hs. split; [exact E | ]. split; [exact M | exact F].
Qed.
Print Assumptions C47_history.

Definition ex_ops : list (op ZA) :=
  [OInit; OSolve ex_z true; OSolve ex_z2 true; OBlocks ex_z false; OInit; OSolve ex_z2 false; OSolve ex_z true].
Example C47_ex_history q : allowed ZA q None ex_ops /\
  omap (fun hs => map (fun e : sbm ZA * ccm ZA * _ => vals (snd (fst e))) hs)
    (run ZA CSparse ex_ops (start ZA)) =
  Ok [[2; 7; 4; 8; 1; 5]; [9; 1; 6; 2; 3; 7]; [2; 7; 4; 8; 1; 5]; [9; 1; 6; 2; 3; 7]; [2; 7; 4; 8; 1; 5]]%Z.
Proof.
  split; [ | vm_compute; reflexivity].
  assert (F1 : fine ZA q ex_z) by (apply ex_fine; reflexivity).
  assert (F2 : fine ZA q ex_z2) by (apply ex_fine; reflexivity).
  assert (P : forall m m' : sbm ZA, In m [ex_z; ex_z2] -> In m' [ex_z; ex_z2] -> same_pattern ZA m m').
  { intros m m' Hm Hm'.
    assert (K : forall x : sbm ZA, In x [ex_z; ex_z2] -> rbi x = [1; 3] /\ cbi x = [1; 3] /\
      forall r c, blk x r c = None <-> ~ ((r = 0 /\ c = 0) \/ (r <= 1 /\ c = 1))).
    { intros x Hx. assert (Q : exists a b d, x = Sbm (A := ZA) [1; 3] [1; 3] [[(0, a)]; [(0, b); (1, d)]] true).
      { destruct Hx as [<- | [<- | []]]; do 3 eexists; reflexivity. }
      destruct Q as (a & b & d & ->). split; [reflexivity | ]. split; [reflexivity | ].
      intros r c. unfold blk. cbn [bcols].
      destruct c as [ | [ | c]].
      - destruct r; cbn; split; try discriminate; try reflexivity; intros; lia.
      - destruct r as [ | [ | r]]; cbn; split; try discriminate; try reflexivity; intros; lia.
      - destruct c; cbn; split; intros; try reflexivity; lia. }
    destruct (K m Hm) as (R1 & C1 & B1), (K m' Hm') as (R2 & C2 & B2).
    split; [congruence | ]. split; [congruence | ]. intros r c. now rewrite B1, B2. }
  unfold ex_ops. cbn [allowed]. split; [exact I | ].
  assert (Q : forall held m, (forall m0, held = Some m0 -> In m0 [ex_z; ex_z2]) -> In m [ex_z; ex_z2] ->
    fine ZA q m /\ (forall m0, held = Some m0 -> same_pattern ZA m0 m)).
  { intros held m Hh Hm. split; [destruct Hm as [<- | [<- | []]]; assumption | ].
    intros m0 E. apply P; auto. }
  split; [apply Q; cbn; auto; discriminate | ].
  split; [apply Q; [ | cbn; auto]; intros m0 E; destruct q; injection E as <-; cbn; auto | ].
  split; [apply Q; [ | cbn; auto]; intros m0 E; destruct q; injection E as <-; cbn; auto | ].
  split; [exact I | ].
  split; [apply Q; cbn; auto; discriminate | ].
  split; [apply Q; [ | cbn; auto]; intros m0 E; destruct q; cbn in E; try discriminate; injection E as <-; cbn; auto | ].
  exact I.
Qed.

(** Reusing a factorisation for a matrix with more blocks writes past the end
    of the allocated array. *)
Theorem C47_grown_refuted : exists m1 m2 : sbm ZA, fine ZA Cholmod m1 /\ fine ZA Cholmod m2 /\
  rbi m1 = rbi m2 /\ run ZA Cholmod [OSolve m1 true; OSolve m2 true] (start ZA) = UB.
Proof.
  exists ex_d, ex_z. split.
  { constructor; [apply wfb_ok; reflexivity | reflexivity | | discriminate | discriminate].
    intros [ | [ | i]] H; cbn in H |- *; lia. }
  split; [apply ex_fine; reflexivity | ]. split; [reflexivity | vm_compute; reflexivity].
Qed.
Print Assumptions C47_grown_refuted.

(** With as many elements in other places, the library silently gets another
    matrix. *)
Theorem C47_moved_refuted : exists m1 m2 : sbm ZA, exists h1 h2 f1 f2,
  fine ZA Cholmod m1 /\ fine ZA Cholmod m2 /\ rbi m1 = rbi m2 /\
  run ZA Cholmod [OSolve m1 true; OSolve m2 true] (start ZA) = Ok [(m1, h1, f1); (m2, h2, f2)] /\
  CcmModel.to_dense ZA h2 = Ok [1; 0; 0; 9; 2; 0; 0; 0; 3]%Z /\
  el m2 0 1 = 0%Z /\ el m2 1 1 = 9%Z.
Proof.
  exists (Sbm (A := ZA) [1; 2; 3] [1; 2; 3]
            [[(0, [[4%Z]])]; [(0, [[5%Z]]); (1, [[6%Z]])]; [(2, [[7%Z]])]] true).
  exists (Sbm (A := ZA) [1; 2; 3] [1; 2; 3]
            [[(0, [[1%Z]])]; [(1, [[9%Z]])]; [(0, [[2%Z]]); (2, [[3%Z]])]] true).
  do 4 eexists. split; [ | split; [ | split; [reflexivity | ]]].
  - constructor; [apply wfb_ok; reflexivity | reflexivity | | discriminate | discriminate].
    intros [ | [ | [ | i]]] H; cbn in H |- *; lia.
  - constructor; [apply wfb_ok; reflexivity | reflexivity | | discriminate | discriminate].
    intros [ | [ | [ | i]]] H; cbn in H |- *; lia.
  - split; [vm_compute; reflexivity | ]. split; [vm_compute; reflexivity | ]. split; reflexivity.
Qed.
Print Assumptions C47_moved_refuted.

(** An empty system is written through a null pointer. *)
Theorem C47_empty_refuted : exists m : sbm ZA, wf m /\ square m /\
  run ZA Cholmod [OInit; OSolve m true] (start ZA) = UB.
Proof. exists (Sbm (A := ZA) [] [] [] true). split; [apply wfb_ok; reflexivity | ]. split; reflexivity. Qed.
Print Assumptions C47_empty_refuted.

(** ** Orderings. *)
(** Spreading an ordering of the blocks over the scalars gives an ordering of
    the scalars that keeps every block together and in order. *)
Theorem C47_ordering l bp : layout l -> Permutation bp (seq 0 (length l)) ->
  Permutation (scalar_order l bp) (seq 0 (total l)) /\
  forall bp1 b bp2, bp = bp1 ++ b :: bp2 ->
    exists before after, scalar_order l bp = before ++ seq (base_of l b) (size_of l b) ++ after.
Proof.
  intros L P. split; [now apply scalar_order_ok | ]. intros bp1 b bp2 ->.
  exists (scalar_order l bp1), (scalar_order l bp2).
  unfold scalar_order. rewrite flat_map_app. cbn [flat_map]. f_equal. f_equal.
  clear. generalize (base_of l b) as x, (size_of l b) as n. intros x n.
  replace (seq x n) with (seq (x + 0) n) by now rewrite Nat.add_0_r. generalize 0 as s. induction n as [ | n IH]; intro s; [reflexivity | ].
  cbn [seq map]. f_equal. rewrite IH. f_equal. lia.
Qed.
Print Assumptions C47_ordering.
Example C47_ex_ordering : scalar_order [1; 3; 5] [2; 0; 1] = [3; 4; 0; 1; 2] /\ layout [1; 3; 5] /\
  Permutation [2; 0; 1] (seq 0 3).
Proof.
  split; [reflexivity | ]. split; [apply layoutb_ok; reflexivity | ].
  apply NoDup_Permutation_bis; [ | cbn; lia | ].
  - repeat constructor; cbn; lia.
  - intros x [<- | [<- | [<- | []]]]; cbn; auto.
Qed.

(** The inverse the covariance recovery uses is the inverse. *)
Theorem C47_inverse p : Permutation p (seq 0 (length p)) ->
  exists v, invert p = Ok v /\ length v = length p /\
    (forall i, i < length p -> nth (nth i p 0) v 0 = i) /\
    (forall k, k < length p -> nth (nth k v 0) p 0 = k).
Proof.
  intro P. destruct (invert_ok p P) as (v & E & L & H). exists v.
  split; [exact E | ]. split; [exact L | ]. split; [exact H | ]. intros k Hk.
  assert (K : In k p) by (apply (Permutation_in _ (Permutation_sym P)), in_seq; lia).
  destruct (In_nth p k 0 K) as (i & Hi & <-). now rewrite H.
Qed.
Print Assumptions C47_inverse.
Example C47_ex_inverse : invert [2; 0; 1] = Ok [1; 2; 0].
Proof. reflexivity. Qed.

(** The arrays for the block pattern are always large enough. *)
Theorem C47_structure n nz s : n <= st_maxn (alloc n nz s) /\ nz <= st_maxnz (alloc n nz s).
Proof.
  unfold alloc. destruct (st_n s =? 0); cbn [st_maxn st_maxnz]; [lia | ].
  destruct (Nat.ltb_spec (st_maxn s) n), (Nat.ltb_spec (st_maxnz s) nz); lia.
Qed.
Print Assumptions C47_structure.
Example C47_ex_structure : alloc 4 9 (alloc 3 5 (Structure 0 0 0)) = Structure 4 8 18.
Proof. reflexivity. Qed.
