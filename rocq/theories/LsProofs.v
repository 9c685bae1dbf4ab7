(** The solvers hand over the matrix they were given. *)
From Coq Require Import ZArith List Bool Lia Sorted Permutation.
From Verif Require Import Base Arith OMap JacModel CcmModel CcmSpec CcmProofs
  SbmModel SbmSpec SbmProofs SbmMore SbmCcs SbmFull LsModel LsSpec.
Import ListNotations.
Open Scope nat_scope.

Section Ls.
Variable A : Arith.
Notation num := (num A).
Notation zero := (of_Z A 0).
Notation sbm := (sbm A).
Notation ls := (ls A).
Notation fine := (fine A).
Notation wanted := (wanted A).
Notation good := (good A).
Notation next := (next A).
Notation allowed := (allowed A).
Notation asked := (asked A).

Definition filled (q : kind) (m : sbm) : outcome (ccs A) :=
  match q with Spqr => fill_upper_triangle_ccs A m | _ => fill_ccs A m true end.
Definition filled_values (q : kind) (m : sbm) : outcome (list num) :=
  match q with Spqr => fill_upper_triangle_values A m | _ => fill_values A m true end.
Definition room (q : kind) (m : sbm) : nat :=
  match q with Spqr => nonzeros A m * 2 | _ => nonzeros A m end.

Lemma fine_fit q m : fine q m -> fit A m true.
Proof. intros [W Q P _ _] _. auto. Qed.

Lemma filled_ok q m : fine q m -> exists k, filled q m = Ok k /\ filled_values q m = Ok (ccs_x k) /\
  length (ccs_p k) = total (cbi m) + 1 /\ length (ccs_i k) = length (ccs_x k) /\
  length (ccs_x k) <= room q m /\ nth_error (ccs_p k) (total (cbi m)) = Some (length (ccs_x k)) /\
  well_formed A (handed A m k) /\ exists f, dense_is A (handed A m k) f /\ wanted q m f.
Proof.
  intros H. pose proof (fine_fit q m H) as F. destruct H as [W Q P S U].
  assert (G : (q <> Spqr -> exists k, fill_ccs A m true = Ok k /\ fill_values A m true = Ok (ccs_x k) /\
    length (ccs_p k) = total (cbi m) + 1 /\ length (ccs_i k) = length (ccs_x k) /\
    length (ccs_x k) <= nonzeros A m /\ nth_error (ccs_p k) (total (cbi m)) = Some (length (ccs_x k)) /\
    well_formed A (handed A m k) /\ exists f, dense_is A (handed A m k) f /\
    forall r c, r < total (rbi m) -> c < total (rbi m) -> r <= c -> f r c = el m r c)).
  { intros _. destruct (fill_values_ok A m true W F) as (k & E & EV).
    destruct (fill_ccs_ok A m true W F) as (k' & E' & WF & g & D & G).
    assert (k' = k) by congruence. subst k'.
    destruct (space_ok A m true k W F E) as (L1 & L2 & L3).
    exists k. split; [exact E | ]. split; [exact EV | ]. split; [exact L1 | ]. split; [exact L2 | ].
    split; [exact L3 | ]. split; [exact (wf_last A _ WF) | ].
    split; [exact WF | ]. exists g. split; [exact D | ].
    intros r c Hr Hc Hrc.
    destruct (locate _ _ (wf_rlay _ _ W) Hr) as (br & i & H1 & H2 & -> & _).
    destruct (locate _ _ (wf_rlay _ _ W) Hc) as (bc & j & H3 & H4 & -> & _).
    apply block_order in Hrc; auto; [ | apply W].
    rewrite Q at 2 4. rewrite G by (try rewrite <- Q; assumption).
    rewrite el_at by (try rewrite <- Q; assumption). cbn [andb].
    destruct Hrc as [Hlt | [-> Hle]].
    - now rewrite (proj2 (Nat.eqb_neq br bc)) by lia.
    - rewrite Nat.eqb_refl. now rewrite (proj2 (Nat.ltb_ge j i)) by lia. }
  destruct q; [apply G; discriminate | apply G; discriminate | ]. clear G.
  destruct (fill_full_ok A m W Q P (U eq_refl)) as (k & E & EV & WF & g & D & G).
  destruct (full_space A m k W Q P E) as (L1 & L2 & L3).
  exists k. split; [exact E | ]. split; [exact EV | ]. split; [exact L1 | ]. split; [exact L2 | ].
  split; [exact L3 | ]. split; [exact (wf_last A _ WF) | ].
  split; [exact WF | ]. exists g. split; [exact D | exact G].
Qed.

Lemma filled_pattern q m m' k k' : fine q m -> fine q m' -> same_pattern A m m' ->
  filled q m = Ok k -> filled q m' = Ok k' -> ccs_p k = ccs_p k' /\ ccs_i k = ccs_i k'.
Proof.
  intros H H' P E E'. pose proof (fine_fit q m H) as F. destruct H as [W Q Po _ _], H' as [W' _ _ _ _].
  destruct q; cbn [filled] in E, E'; [exact (fill_pattern A m m' true k k' W W' F P E E') | exact (fill_pattern A m m' true k k' W W' F P E E') | ].
  exact (full_pattern A m m' k k' W W' Q Po P E E').
Qed.

(** What the solver's state has to do with the matrix its factorisation was
    made for. *)
Definition inv (q : kind) (held : option sbm) (s : ls) : Prop :=
  (has_p s = false -> cols_cap s = 0) /\
  length (arr_i s) <= nz_cap s /\ length (arr_x s) <= nz_cap s /\
  match held with
  | None => factor s = None
  | Some m0 => fine q m0 /\ exists k0, filled q m0 = Ok k0 /\
      arr_p s = Some (ccs_p k0) /\ firstn (length (ccs_i k0)) (arr_i s) = ccs_i k0 /\
      length (ccs_i k0) <= length (arr_i s) /\ total (cbi m0) <= cols_cap s /\
      length (ccs_x k0) <= nz_cap s /\ length (ccs_x k0) <= length (arr_x s) /\
      factor s = Some (total (rbi m0), total (cbi m0), ccs_p k0, ccs_i k0)
  end.

Lemma over_firstn {V} (new old : list V) : firstn (length new) (over new old) = new.
Proof.
  unfold over. rewrite firstn_app, Nat.sub_diag, firstn_all. cbn [firstn]. apply app_nil_r.
Qed.
Lemma over_length {V} (new old : list V) : length (over new old) = Nat.max (length new) (length old).
Proof. unfold over. rewrite app_length, skipn_length. lia. Qed.

Lemma view_ok m (s : ls) p nz : arr_p s = Some p -> length p = total (cbi m) + 1 ->
  nth_error p (total (cbi m)) = Some nz -> nz <= length (arr_i s) -> nz <= length (arr_x s) ->
  view A m s = Ok (Ccm (total (rbi m)) (total (cbi m)) (firstn nz (arr_x s)) (firstn nz (arr_i s)) p false).
Proof.
  intros E L N H1 H2. unfold view. rewrite E, N.
  rewrite (proj2 (Nat.leb_le _ _) H1), (proj2 (Nat.leb_le _ _) H2). cbn [andb].
  rewrite (firstn_all2 p) by lia. reflexivity.
Qed.

(** One solve. *)
Lemma fill_step q held m s : inv q held s -> fine q m ->
  (forall m0, held = Some m0 -> same_pattern A m0 m) ->
  exists s1 k, filled q m = Ok k /\
    fill A q (match factor s with Some _ => true | None => false end) m s = Ok s1 /\
    view A m s1 = Ok (handed A m k) /\ factor s1 = factor s /\
    (match factor s with Some f => f | None => pattern_of A (handed A m k) end) =
      (total (rbi m), total (cbi m), ccs_p k, ccs_i k) /\
    (forall m', m' = match held with Some m0 => m0 | None => m end ->
       inv q (Some m') (Ls (cols_cap s1) (nz_cap s1) (has_p s1) (arr_p s1) (arr_i s1) (arr_x s1)
          (Some (match factor s1 with Some f => f | None => pattern_of A (handed A m k) end)))) /\
    inv q None (Ls (cols_cap s1) (nz_cap s1) (has_p s1) (arr_p s1) (arr_i s1) (arr_x s1) None).
Proof.
  intros (I1 & I2 & I3 & I4) Hm HP.
  destruct (filled_ok q m Hm) as (k & E & EV & L1 & L2 & L3 & L4 & WF & _).
  assert (NZ : 0 < total (cbi m)).
  { destruct Hm as [W Q P S _]. rewrite <- Q.
    destruct (rbi m) as [ | x l] eqn:ER; [congruence | ]. rewrite <- ER in *.
    assert (Hl : 0 < length (rbi m)) by (rewrite ER; cbn; lia).
    pose proof (P 0 Hl) as P0. pose proof (layout_total (rbi m) 0 (wf_rlay _ _ W) Hl). lia. }
  destruct held as [m0 | ].
  - destruct I4 as (F0 & k0 & E0 & J1 & J2 & J3 & J4 & J5 & J6 & J7).
    specialize (HP m0 eq_refl).
    destruct (filled_pattern q m0 m k0 k F0 Hm HP E0 E) as [PP PI]. pose proof HP as (PR & PC & _).
    assert (LX : length (ccs_x k0) = length (ccs_x k)).
    { destruct (filled_ok q m0 F0) as (k0' & E0' & _ & _ & L2' & _). rewrite E0 in E0'. injection E0' as <-.
      rewrite <- L2', PI, L2. reflexivity. }
    exists (Ls (cols_cap s) (nz_cap s) (has_p s) (arr_p s) (arr_i s) (over (ccs_x k) (arr_x s)) (factor s)), k.
    split; [exact E | ].
    assert (EF : fill A q true m s =
      Ok (Ls (cols_cap s) (nz_cap s) (has_p s) (arr_p s) (arr_i s) (over (ccs_x k) (arr_x s)) (factor s))).
    { unfold fill. cbv zeta. rewrite <- PC, (proj2 (Nat.ltb_ge _ _) J4). cbn [negb andb].
      change (match q with Spqr => fill_upper_triangle_values A m | _ => fill_values A m true end)
        with (filled_values q m). rewrite EV. cbn [obind].
      rewrite (proj2 (Nat.leb_le _ _)) by lia. reflexivity. }
    split; [rewrite J7; rewrite J7 in EF; exact EF | ].
    assert (LI : length (ccs_i k) = length (ccs_i k0)) by now rewrite PI.
    split.
    { rewrite (view_ok m _ (ccs_p k) (length (ccs_x k))); cbn [arr_p arr_i arr_x].
      - unfold handed. rewrite over_firstn. rewrite <- L2, LI, J2, PI. reflexivity.
      - now rewrite J1, PP.
      - exact L1.
      - exact L4.
      - lia.
      - rewrite over_length. lia. }
    split; [reflexivity | ]. split; [now rewrite J7, PR, PC, PP, PI | ]. split.
    + intros m' ->. unfold inv. cbn [cols_cap nz_cap has_p arr_p arr_i arr_x factor]. rewrite J7.
      split; [exact I1 | ]. split; [exact I2 | ]. split; [rewrite over_length; lia | ].
      split; [exact F0 | ]. exists k0. split; [exact E0 | ]. split; [exact J1 | ]. split; [exact J2 | ].
      split; [exact J3 | ]. split; [exact J4 | ]. split; [exact J5 | ].
      split; [rewrite over_length; lia | reflexivity].
    + unfold inv. cbn [cols_cap nz_cap has_p arr_p arr_i arr_x factor].
      split; [exact I1 | ]. split; [exact I2 | ]. split; [rewrite over_length; lia | reflexivity].
  - rewrite I4.
    set (cc := if cols_cap s <? total (cbi m) then (if cols_cap s =? 0 then total (cbi m) else 2 * total (cbi m)) else cols_cap s).
    set (hp := if cols_cap s <? total (cbi m) then true else has_p s).
    set (nc := if nz_cap s <? room q m then (if nz_cap s =? 0 then room q m else 2 * room q m) else nz_cap s).
    set (oi := if nz_cap s <? room q m then [] else arr_i s).
    set (ox := if nz_cap s <? room q m then [] else arr_x s).
    assert (CC : total (cbi m) <= cc).
    { unfold cc. destruct (Nat.ltb_spec (cols_cap s) (total (cbi m))); [ | assumption].
      destruct (cols_cap s =? 0); lia. }
    assert (HP' : hp = true).
    { unfold hp. destruct (Nat.ltb_spec (cols_cap s) (total (cbi m))); [reflexivity | ].
      destruct (has_p s) eqn:EH; [reflexivity | ]. specialize (I1 eq_refl). lia. }
    assert (NC : room q m <= nc).
    { unfold nc. destruct (Nat.ltb_spec (nz_cap s) (room q m)); [ | assumption].
      destruct (nz_cap s =? 0); lia. }
    assert (OI : length oi <= nc /\ length ox <= nc).
    { unfold oi, ox, nc. destruct (nz_cap s <? room q m); [cbn; lia | auto]. }
    exists (Ls cc nc hp (Some (ccs_p k)) (over (ccs_i k) oi) (over (ccs_x k) ox) None), k.
    split; [exact E | ].
    assert (EF : fill A q false m s = Ok (Ls cc nc hp (Some (ccs_p k)) (over (ccs_i k) oi) (over (ccs_x k) ox) None)).
    { unfold fill. cbv zeta. cbn [negb andb].
      change (match q with Spqr => fill_upper_triangle_ccs A m | _ => fill_ccs A m true end) with (filled q m).
      change (match q with Spqr => nonzeros A m * 2 | _ => nonzeros A m end) with (room q m).
      rewrite E. cbn [obind]. unfold cc, hp, nc, oi, ox in *.
      destruct (cols_cap s <? total (cbi m)); cbn [cols_cap nz_cap has_p arr_p arr_i arr_x factor];
        destruct (nz_cap s <? room q m); cbn [cols_cap nz_cap has_p arr_p arr_i arr_x factor];
        rewrite ?HP', ?I4; cbn [andb];
        rewrite (proj2 (Nat.leb_le (length (ccs_p k)) _)) by lia;
        rewrite (proj2 (Nat.leb_le (length (ccs_x k)) _)) by lia; reflexivity. }
    split; [exact EF | ]. split.
    { rewrite (view_ok m _ (ccs_p k) (length (ccs_x k))); cbn [arr_p arr_i arr_x].
      - unfold handed. rewrite over_firstn. rewrite <- L2, over_firstn. reflexivity.
      - reflexivity.
      - exact L1.
      - exact L4.
      - rewrite over_length. lia.
      - rewrite over_length. lia. }
    split; [reflexivity | ]. split; [reflexivity | ]. split.
    + intros m' ->. unfold inv. cbn [cols_cap nz_cap has_p arr_p arr_i arr_x factor].
      split; [congruence | ]. split; [rewrite over_length; lia | ]. split; [rewrite over_length; lia | ].
      split; [exact Hm | ]. exists k. split; [exact E | ]. split; [reflexivity | ].
      split; [apply over_firstn | ]. split; [rewrite over_length; lia | ]. split; [exact CC | ].
      split; [lia | ]. split; [rewrite over_length; lia | reflexivity].
    + unfold inv. cbn [cols_cap nz_cap has_p arr_p arr_i arr_x factor].
      split; [congruence | ]. split; [rewrite over_length; lia | ]. split; [rewrite over_length; lia | reflexivity].
Qed.

Lemma run_ok q os : forall held s, inv q held s -> allowed q held os ->
  exists hs, run A q os s = Ok hs /\ map (fun e => fst (fst e)) hs = asked os /\ Forall (good q) hs.
Proof.
  induction os as [ | o os IH]; intros held s I AL.
  - exists []. split; [reflexivity | ]. split; [reflexivity | constructor].
  - cbn [allowed] in AL. destruct AL as [AL1 AL2].
    assert (S : forall m ok, (o = OSolve m ok \/ o = OBlocks m ok) -> exists s' k,
      step A q o s = Ok (s', Some (handed A m k)) /\ filled q m = Ok k /\ fine q m /\
      (match factor s with Some f => f | None => pattern_of A (handed A m k) end) =
        (total (rbi m), total (cbi m), ccs_p k, ccs_i k) /\ inv q (next q held o) s').
    { intros m ok HO.
      assert (AL : fine q m /\ (forall m0, held = Some m0 -> same_pattern A m0 m))
        by (destruct HO as [-> | ->]; exact AL1).
      destruct AL as [Hm HP].
      destruct (fill_step q held m s I Hm HP) as (s1 & k & E & EF & EVw & FS & FP & V1 & V2).
      destruct HO as [-> | ->]; cbn [step next].
      - rewrite EF. cbn [obind]. rewrite EVw. cbn [obind]. eexists. exists k.
        split; [reflexivity | ]. split; [exact E | ]. split; [exact Hm | ]. split; [exact FP | ].
        destruct q; [destruct ok; cbn [negb]; [apply V1; reflexivity | exact V2] | apply V1; reflexivity | apply V1; reflexivity].
      - rewrite EF. cbn [obind]. rewrite EVw. cbn [obind]. eexists. exists k.
        split; [reflexivity | ]. split; [exact E | ]. split; [exact Hm | ]. split; [exact FP | ].
        apply V1. reflexivity. }
    assert (G : forall m k, fine q m -> filled q m = Ok k ->
      good q (m, handed A m k, (total (rbi m), total (cbi m), ccs_p k, ccs_i k))).
    { intros m k Hm E. destruct (filled_ok q m Hm) as (k' & E' & _ & _ & _ & _ & _ & WF & f & D & Wt).
      assert (k' = k) by congruence. subst k'. cbn [good].
      split; [reflexivity | ]. split; [reflexivity | ]. split; [exact WF | ].
      split; [exists f; auto | reflexivity]. }
    destruct o as [ | m ok | m ok].
    + destruct (IH None (Ls (cols_cap s) (nz_cap s) (has_p s) (arr_p s) (arr_i s) (arr_x s) None)) as (hs & E & M & F).
      * destruct I as (I1 & I2 & I3 & _). unfold inv; conj; [exact I1 | exact I2 | exact I3 | reflexivity].
      * exact AL2.
      * exists hs. cbn [run step obind]. rewrite E. cbn [obind]. auto.
    + destruct (S m ok (or_introl eq_refl)) as (s' & k & ES & EK & Hm & FP & I').
      destruct (IH _ s' I' AL2) as (hs & E & M & F).
      cbn [run]. rewrite ES. cbn [obind]. rewrite E. cbn [obind]. eexists. split; [reflexivity | ].
      split; [cbn [map fst asked flat_map app]; now rewrite M | ]. constructor; [ | exact F].
      rewrite FP. now apply G.
    + destruct (S m ok (or_intror eq_refl)) as (s' & k & ES & EK & Hm & FP & I').
      destruct (IH _ s' I' AL2) as (hs & E & M & F).
      cbn [run]. rewrite ES. cbn [obind]. rewrite E. cbn [obind]. eexists. split; [reflexivity | ].
      split; [cbn [map fst asked flat_map app]; now rewrite M | ]. constructor; [ | exact F].
      rewrite FP. now apply G.
Qed.

Lemma dense_input_skip (m : sbm) ws : forall H, fold_left (fun o (e : nat * nat * mat A) =>
      do H <- o;
      let '(r, c, B) := e in
      if r <=? c then
        if shaped A (size_of (rbi m) r) (size_of (cbi m) c) B &&
           (base_of (rbi m) r + size_of (rbi m) r <=? total (cbi m)) &&
           (base_of (cbi m) c + size_of (cbi m) c <=? total (cbi m))
        then Ok (write_block A (base_of (rbi m) r) (base_of (cbi m) c) B H)
        else UB
      else Ok H) ws H =
  fold_left (fun o (e : nat * nat * mat A) =>
      do H <- o;
      let '(r, c, B) := e in
        if shaped A (size_of (rbi m) r) (size_of (cbi m) c) B &&
           (base_of (rbi m) r + size_of (rbi m) r <=? total (cbi m)) &&
           (base_of (cbi m) c + size_of (cbi m) c <=? total (cbi m))
        then Ok (write_block A (base_of (rbi m) r) (base_of (cbi m) c) B H)
        else UB) (filter (fun e : nat * nat * mat A => fst (fst e) <=? snd (fst e)) ws) H.
Proof.
  induction ws as [ | ((r & c) & B) ws IH]; intro H; [reflexivity | ].
  cbn [filter fold_left fst snd]. destruct (r <=? c); cbn [fold_left]; rewrite IH; [reflexivity | ].
  now destruct H.
Qed.

Lemma assoc_filter (ws : list (nat * nat * mat A)) r c : r <= c ->
  assoc A (filter (fun e : nat * nat * mat A => fst (fst e) <=? snd (fst e)) ws) r c = assoc A ws r c.
Proof.
  intro H. induction ws as [ | ((r' & c') & B) ws IH]; [reflexivity | ].
  cbn [filter assoc fst snd]. destruct (Nat.leb_spec r' c'); cbn [assoc]; rewrite IH; [reflexivity | ].
  destruct (Nat.eqb_spec r' r) as [-> | ]; [ | reflexivity].
  destruct (Nat.eqb_spec c' c) as [-> | ]; [lia | reflexivity].
Qed.

Lemma map_filter_nodup {U V} (f : U -> V) g l : NoDup (map f l) -> NoDup (map f (filter g l)).
Proof.
  induction l as [ | x l IH]; intro N; [exact N | ]. cbn [map] in N. inversion_clear N as [ | ? ? N1 N2].
  cbn [filter]. destruct (g x); [ | auto]. cbn [map]. constructor; [ | auto].
  intro K. apply N1. apply in_map_iff in K as (y & E & K). apply filter_In in K as [K _].
  rewrite <- E. now apply in_map.
Qed.

Lemma dense_input_ok (m : sbm) : wf m -> square m -> exists D, dense_input A m = Ok D /\
  shaped A (total (rbi m)) (total (rbi m)) D = true /\
  forall r c, r <= c -> c < total (rbi m) -> nth c (nth r D []) zero = el m r c.
Proof.
  intros W Q. assert (Q' : cbi m = rbi m) by (symmetry; exact Q).
  destruct (dense_fold A m (wf_rlay _ _ W) (wf_clay _ _ W)
              (filter (fun e : nat * nat * mat A => fst (fst e) <=? snd (fst e)) (blocks A m))
              (zeros A (total (rbi m)) (total (cbi m)))) as (D & E & SD & V).
  - apply map_filter_nodup, (blocks_nodup A m W).
  - intros r c B H. apply filter_In in H as [H _]. exact (blocks_facts A m r c B W H).
  - apply zeros_shaped.
  - exists D. split.
    + unfold dense_input. cbv zeta. rewrite dense_input_skip.
      assert (T : total (cbi m) = total (rbi m)) by now rewrite Q'.
      rewrite <- E. clear - T.
      replace (zeros A (total (cbi m)) (total (cbi m))) with (zeros A (total (rbi m)) (total (cbi m))) by now rewrite T.
      generalize (Ok (zeros A (total (rbi m)) (total (cbi m)))) as H.
      induction (filter (fun e : nat * nat * mat A => fst (fst e) <=? snd (fst e)) (blocks A m))
        as [ | ((r & c) & B) ws IH]; intro H; [reflexivity | ].
      cbn [fold_left]. rewrite IH. f_equal. unfold dense_step. destruct H; cbn [obind]; try reflexivity.
      now rewrite T.
    + rewrite Q' in SD at 1. split; [exact SD | ].
      intros r c Hrc Hc. assert (Hr : r < total (rbi m)) by lia. assert (Hc' : c < total (cbi m)) by (rewrite Q'; exact Hc).
      destruct (locate _ r (wf_rlay _ _ W) Hr) as (b & i & Hb & Hi & -> & _).
      destruct (locate _ c (wf_clay _ _ W) Hc') as (b' & j & Hb' & Hj & -> & _).
      rewrite V, el_at by assumption. rewrite assoc_filter, assoc_blocks; [ | exact W | ].
      * unfold val_at. destruct (blk m b b'); [reflexivity | ]. apply zeros_val.
      * rewrite Q' in Hrc, Hb', Hj. apply block_order in Hrc; auto; [lia | apply W].
Qed.

Lemma start_inv q : inv q None (start A).
Proof. unfold inv, start. cbn [has_p cols_cap nz_cap arr_i arr_x factor length]. conj; auto. Qed.
End Ls.

(** ** Orderings. *)
Lemma flat_map_perm {U V} (f : U -> list V) a b : Permutation a b -> Permutation (flat_map f a) (flat_map f b).
Proof.
  induction 1; cbn [flat_map].
  - constructor.
  - now apply Permutation_app_head.
  - rewrite !app_assoc. apply Permutation_app_tail, Permutation_app_comm.
  - etransitivity; eassumption.
Qed.

Lemma scalar_order_ok l bp : layout l -> Permutation bp (seq 0 (length l)) ->
  Permutation (scalar_order l bp) (seq 0 (total l)).
Proof.
  intros L P. unfold scalar_order. rewrite total_base, <- (flat_seq l L (length l)) by lia.
  now apply flat_map_perm.
Qed.

Lemma invert_ok p : Permutation p (seq 0 (length p)) ->
  exists v, invert p = Ok v /\ length v = length p /\ forall i, i < length p -> nth (nth i p 0) v 0 = i.
Proof.
  intro P.
  assert (B : forall i, i < length p -> nth i p 0 < length p).
  { intros i Hi. assert (H : In (nth i p 0) (seq 0 (length p))) by (apply (Permutation_in _ P), nth_In; exact Hi).
    apply in_seq in H. lia. }
  assert (N : NoDup p) by (apply (Permutation_NoDup (Permutation_sym P)), seq_NoDup).
  assert (G : forall n, n <= length p -> exists v,
    fold_left (fun o i => do v <- o; match nth_error p i with
        | Some k => if k <? length p then Ok (put_nth k i v) else UB | None => UB end)
      (seq 0 n) (Ok (repeat 0 (length p))) = Ok v /\ length v = length p /\
    forall i, i < n -> nth (nth i p 0) v 0 = i).
  { induction n as [ | n IH]; intro Hn.
    - exists (repeat 0 (length p)). split; [reflexivity | ]. split; [apply repeat_length | lia].
    - destruct (IH ltac:(lia)) as (v & E & L & V). rewrite seq_S, fold_left_app, E. cbn [fold_left obind Nat.add].
      rewrite (nth_error_nth' p 0) by lia. rewrite (proj2 (Nat.ltb_lt _ _) (B n ltac:(lia))).
      exists (put_nth (nth n p 0) n v). split; [reflexivity | ].
      split; [now rewrite put_nth_length | ].
      intros i Hi. assert (Bi := B i ltac:(lia)). assert (Bn := B n ltac:(lia)).
      apply nth_error_nth. rewrite nth_error_put_nth by (rewrite L; exact Bn).
      destruct (Nat.eqb_spec (nth n p 0) (nth i p 0)) as [EQ | NE].
      + f_equal. apply (proj1 (NoDup_nth p 0) N) in EQ; lia.
      + rewrite (nth_error_nth' v 0) by lia. f_equal. apply V.
        assert (i <> n) by (intros ->; congruence). lia. }
  exact (G (length p) (le_n _)).
Qed.
