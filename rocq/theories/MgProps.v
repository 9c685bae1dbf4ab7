(** * C74: marginalization keeps what the removed variables knew *)
From Coquelicot Require Import Coquelicot.
From Coq Require Import Reals List Arith ZArith Bool Lia Lra.
From Verif Require Import Base BsplModel BsplSpec BsplProofs BsdProofs MgModel MgSpec MgProofs.
Import ListNotations.
Local Open Scope R_scope.

(** marginalize() on distinct variables and terms that fit. *)
Lemma marginalize_eq qr inverse m dvs ets nrem ntop : covers dvs ets -> NoDup (map tid ets) ->
  let rows := tdims ets in let cols := dims dvs in let gone := dims (removed nrem dvs) in
  exists J b m2 top,
    partition nrem ntop 0 0 dvs = (gone, remaining nrem dvs, top) /\
    (forall x, bsum rows (fun i => (bsum cols (fun j => J i j * x j) - b i) * (bsum cols (fun j => J i j * x j) - b i)) =
               linear_cost ets (disp dvs 0 x)) /\
    (forall x y, bsum rows (fun i => bsum cols (fun j => J i j * x j) * bsum cols (fun j => J i j * y j)) =
                 moved_product ets (disp dvs 0 x) (disp dvs 0 y)) /\
    (forall t i, In t ets -> (i < tdim t)%nat -> exists k, (k < rows)%nat /\
       forall x, moved_error (tjac t) (disp dvs 0 x) i = bsum cols (fun j => J k j * x j)) /\
    (forall v, ~ In v (map vid dvs) -> colb m2 v = colb m v /\ blk m2 v = blk m v) /\
    (forall t, ~ In t (map tid ets) -> rowb m2 t = rowb m t) /\ rows_at m2 0 ets /\
    marginalize qr inverse m dvs ets nrem ntop =
      if (rows <? cols)%nat then (m2, Throw)
      else
        let '(Q, R) := qr rows cols J in
        let d := fun i => bsum rows (fun k => Q k i * b k) in
        match (if (0 <? ntop)%nat
               then if ((rows =? cols) && (ntop <=? cols))%nat
                    then let Ri := inverse cols R in Ok (Some (fun i j => bsum cols (fun k => Ri i k * Ri j k)))
                    else UB
               else Ok None) with
        | Ok cov =>
            let n := (cols - gone)%nat in
            match make_prior (remaining nrem dvs) n (fun i => d (gone + i)%nat) n n (fun i j => R (gone + i)%nat (gone + j)%nat) with
            | Ok p => (restore_terms m ets (restore_variables m dvs m2), Ok (Result p cov top))
            | _ => (m2, Throw)
            end
        | _ => (m2, UB)
        end.
Proof.
  intros (ND & CV) NT. cbv zeta. unfold marginalize.
  rewrite (proj2 (repeated_spec (map vid dvs) [])) by (split; [ exact ND | intros x _ [] ]).
  rewrite (proj2 (repeated_spec (map tid ets) [])) by (split; [ exact NT | intros x _ [] ]).
  pose proof (partition_spec nrem ntop dvs 0 0) as PS. destruct (partition nrem ntop 0 0 dvs) as ((gone, rest), top).
  rewrite Z.sub_0_r in PS. cbn [fst] in PS. injection PS as -> ->.
  pose proof (number_variables_spec dvs 0 0 m ND) as NV. destruct (number_variables 0 0 dvs m) as (m1 & cols).
  destruct NV as (-> & CA & RB & OUT). cbn [Nat.add].
  pose proof (number_terms_spec ets 0 m1 NT) as NE. destruct (number_terms 0 ets m1) as (m2 & rows).
  destruct NE as (-> & RA & CB & BB & OUT2). cbn [Nat.add].
  assert (CA2 : cols_at m2 0 dvs).
  { clear - CA CB. revert CA. generalize 0%nat. induction dvs as [ | v l IH ]; intros o CA; [ exact I | ].
    destruct CA as (C1 & C2). split; [ rewrite CB; exact C1 | apply IH; exact C2 ]. }
  destruct (system_spec m2 dvs (tdims ets) CA2 ND ets 0 (fun _ _ => 0) (fun _ => 0) RA (le_n _) CV (fun _ _ _ => eq_refl))
    as (J & b & EJ & EB & _ & COST & PROD & ROW). cbn [Nat.add] in COST, PROD, ROW.
  exists J, b, m2, top. split; [ reflexivity | ]. split; [ exact COST | ]. split; [ exact PROD | ]. split; [ exact ROW | ].
  split. { intros v Hv. rewrite CB, BB. apply OUT. exact Hv. }
  split. { intros t Ht. rewrite OUT2, RB by exact Ht. reflexivity. }
  split; [ exact RA | ]. rewrite EB, EJ. reflexivity.
Qed.

(** marginalize() succeeds on distinct, fitting variables and terms when some
    variables remain, there are at least as many error rows as columns and no
    covariance is asked for. *)
Theorem C74_accepts : forall qr inverse m dvs ets nrem, covers dvs ets -> NoDup (map tid ets) ->
  (dims dvs <= tdims ets)%nat -> remaining nrem dvs <> [] ->
  exists m' res, marginalize qr inverse m dvs ets nrem 0 = (m', Ok res).
Proof.
  intros qr inverse m dvs ets nrem CV NT LE NE.
  destruct (marginalize_eq qr inverse m dvs ets nrem 0 CV NT) as (J & b & m2 & top & _ & _ & _ & _ & _ & _ & _ & E).
  rewrite E. destruct (Nat.ltb_spec (tdims ets) (dims dvs)); [ lia | ]. destruct (qr (tdims ets) (dims dvs) J) as (Q & R).
  cbn [Nat.ltb Nat.leb]. cbv zeta. unfold make_prior. destruct (remaining nrem dvs); [ contradiction | ]. eexists. eexists. reflexivity.
Qed.
Print Assumptions C74_accepts.

(** Repeated variables or terms, too few rows, and no remaining variable are
    rejected. *)
Theorem C74_rejects : forall qr inverse m dvs ets nrem ntop,
  (~ NoDup (map vid dvs) \/ ~ NoDup (map tid ets) -> marginalize qr inverse m dvs ets nrem ntop = (m, Throw)) /\
  (covers dvs ets -> NoDup (map tid ets) -> (tdims ets < dims dvs)%nat -> snd (marginalize qr inverse m dvs ets nrem ntop) = Throw) /\
  (covers dvs ets -> NoDup (map tid ets) -> remaining nrem dvs = [] -> ntop = 0%nat -> snd (marginalize qr inverse m dvs ets nrem ntop) = Throw).
Proof.
  intros qr inverse m dvs ets nrem ntop. split; [ | split ].
  - intros H. unfold marginalize. destruct (repeated [] (map vid dvs)) eqn:A; [ reflexivity | ].
    destruct (repeated [] (map tid ets)) eqn:B; [ reflexivity | ].
    apply repeated_spec in A, B. exfalso. tauto.
  - intros CV NT LT. destruct (marginalize_eq qr inverse m dvs ets nrem ntop CV NT) as (J & b & m2 & top & _ & _ & _ & _ & _ & _ & _ & E).
    rewrite E. destruct (Nat.ltb_spec (tdims ets) (dims dvs)); [ reflexivity | lia ].
  - intros CV NT EM ->. destruct (marginalize_eq qr inverse m dvs ets nrem 0 CV NT) as (J & b & m2 & top & _ & _ & _ & _ & _ & _ & _ & E).
    rewrite E, EM. destruct (tdims ets <? dims dvs)%nat; [ reflexivity | ]. destruct (qr (tdims ets) (dims dvs) J) as (Q & R). reflexivity.
Qed.
Print Assumptions C74_rejects.

(** After success the block indices, column and row offsets are as before. *)
Theorem C74_restores : forall qr inverse m dvs ets nrem ntop m' res, covers dvs ets ->
  marginalize qr inverse m dvs ets nrem ntop = (m', Ok res) ->
  forall i, blk m' i = blk m i /\ colb m' i = colb m i /\ rowb m' i = rowb m i.
Proof.
  intros qr inverse m dvs ets nrem ntop m' res CV EM i.
  assert (NT : NoDup (map tid ets)).
  { unfold marginalize in EM. destruct (repeated [] (map vid dvs)); [ discriminate | ].
    destruct (repeated [] (map tid ets)) eqn:B; [ discriminate | ]. apply repeated_spec in B. tauto. }
  destruct (marginalize_eq qr inverse m dvs ets nrem ntop CV NT) as (J & b & m2 & top & _ & _ & _ & _ & OV & OT & _ & E).
  rewrite E in EM. destruct (tdims ets <? dims dvs)%nat; [ discriminate | ]. destruct (qr (tdims ets) (dims dvs) J) as (Q & R).
  cbv zeta in EM. destruct (if (0 <? ntop)%nat then _ else _); try discriminate. destruct (make_prior _ _ _ _ _ _); try discriminate.
  injection EM as <- _.
  destruct (restore_variables_spec m dvs m2) as (A1 & A2). destruct (restore_terms_spec m ets (restore_variables m dvs m2)) as (B1 & B2 & B3).
  rewrite B1, B2. destruct (A2 i) as (A3 & A4 & A5). destruct (B3 i) as (B4 & B5). rewrite A1 in B5.
  destruct (in_dec Nat.eq_dec i (map vid dvs)) as [ I | N ].
  - split; [ exact (proj1 (A3 I)) | ]. split; [ exact (proj2 (A3 I)) | ].
    destruct (in_dec Nat.eq_dec i (map tid ets)) as [ I' | N' ]; [ exact (B4 I') | exact (B5 (OT i N')) ].
  - destruct (OV i N) as (O1 & O2). split; [ exact (A4 O2) | ]. split; [ exact (A5 O1) | ].
    destruct (in_dec Nat.eq_dec i (map tid ets)) as [ I' | N' ]; [ exact (B4 I') | exact (B5 (OT i N')) ].
Qed.
Print Assumptions C74_restores.

(** The prior is the linearised cost minimised over the removed variables, up
    to a constant. *)
Theorem C74_marginal : forall qr inverse m dvs ets nrem ntop m' res, covers dvs ets -> qr_correct qr (tdims ets) (dims dvs) ->
  marginalize qr inverse m dvs ets nrem ntop = (m', Ok res) ->
  determined (removed nrem dvs) ets -> (forall v, In v (removed nrem dvs) -> vscaling v <> 0) ->
  (forall v, In v (remaining nrem dvs) -> vscaling v = 1) ->
  pvars (res_prior res) = remaining nrem dvs /\
  exists rest, 0 <= rest /\ forall x, exists c, prior_cost (res_prior res) (displacements (remaining nrem dvs) x) = Ok c /\
    (exists y, agree (remaining nrem dvs) y x /\ linear_cost ets y = c + rest) /\
    (forall y, agree (remaining nrem dvs) y x -> c + rest <= linear_cost ets y).
Proof.
  intros qr inverse m dvs ets nrem ntop m' res CV QC EM DT SR S1.
  assert (NT : NoDup (map tid ets)).
  { unfold marginalize in EM. destruct (repeated [] (map vid dvs)); [ discriminate | ].
    destruct (repeated [] (map tid ets)) eqn:B; [ discriminate | ]. apply repeated_spec in B. tauto. }
  destruct (marginalize_eq qr inverse m dvs ets nrem ntop CV NT) as (J & b & m2 & top & _ & COST & _ & ROW & _ & _ & _ & E).
  assert (SPL : dvs = removed nrem dvs ++ remaining nrem dvs) by (unfold removed, remaining; symmetry; apply firstn_skipn).
  assert (DS : forall a c, dims (a ++ c) = (dims a + dims c)%nat) by (induction a; intros; [ reflexivity | cbn [app dims]; rewrite IHa; lia ]).
  assert (CV' := CV). destruct CV' as (ND & CVE).
  set (A := removed nrem dvs) in *. set (B := remaining nrem dvs) in *. set (n := dims dvs) in *. set (rows := tdims ets) in *. set (g := dims A) in *.
  assert (NG : n = (g + dims B)%nat) by (unfold n; rewrite SPL at 1; apply DS).
  rewrite E in EM. destruct (Nat.ltb_spec rows n) as [ | LE ]; [ discriminate | ].
  specialize (QC J). destruct (qr rows n J) as (Q & R). cbn [fst snd] in QC. cbv zeta in EM.
  destruct (if (0 <? ntop)%nat then _ else _) as [ cov | | | ]; try discriminate.
  replace (n - g)%nat with (dims B) in EM by lia.
  assert (RES : res_prior res = Prior B (dims B) (dims B) (dims B) (fun i j => R (g + i)%nat (g + j)%nat) (fun i => bsum rows (fun k => Q k (g + i)%nat * b k))).
  { unfold make_prior in EM. destruct B; [ discriminate | ]. injection EM as _ <-. reflexivity. }
  clear EM E. rewrite RES. cbn [pvars]. split; [ reflexivity | ].
  destruct QC as (O1 & O2 & UT & P). pose proof (conj O1 (conj O2 (conj UT P))) as QC.
  set (d := fun i => bsum rows (fun k => Q k i * b k)).
  (* the cost, split by rows *)
  set (sq := fun r => (r * r)%R).
  assert (SPLIT : forall w, linear_cost ets (disp dvs 0 w) =
     bsum g (fun i => sq (bsum n (fun j => R i j * w j) - d i)) +
     bsum (dims B) (fun i => sq (bsum (dims B) (fun j => R (g + i)%nat (g + j)%nat * w (g + j)%nat) - d (g + i)%nat)) +
     bsum (rows - n) (fun i => sq (d (n + i)%nat))).
  { intros w. rewrite <- COST, (qr_cost rows n J Q R b w QC). fold d.
    replace rows with (g + (dims B + (rows - n)))%nat at 1 by lia. rewrite !bsum_app, Rplus_assoc. f_equal. f_equal.
    - apply bsum_ext. intros i Hi. unfold sq.
      replace (bsum n (fun j => R (g + i)%nat j * w j)) with (bsum (dims B) (fun j => R (g + i)%nat (g + j)%nat * w (g + j)%nat)); [ reflexivity | ].
      rewrite NG, bsum_app, (bsum_zero g); [ ring | ]. intros j Hj. rewrite UT by lia. ring.
    - apply bsum_ext. intros i Hi. unfold sq. replace (n + i)%nat with (g + (dims B + i))%nat by lia.
      rewrite bsum_zero; [ fold (d (g + (dims B + i))%nat); ring | ]. intros j Hj. rewrite UT by lia. ring. }
  (* the diagonal of the removed part *)
  assert (DG : forall i, (i < g)%nat -> R i i <> 0).
  { apply (diagonal_nonzero g R); [ intros; apply UT; lia | ]. intros z Hz.
    set (w := fun j => if (j <? g)%nat then z j else 0).
    assert (RW : forall i, (i < rows)%nat -> bsum n (fun j => R i j * w j) = 0).
    { intros i Hi. rewrite NG, bsum_app.
      rewrite (bsum_zero (dims B)) by (intros j Hj; unfold w; destruct (Nat.ltb_spec (g + j) g); [ lia | ring ]).
      rewrite (bsum_ext g _ (fun j => R i j * z j)) by (intros j Hj; unfold w; destruct (Nat.ltb_spec j g); [ reflexivity | lia ]).
      destruct (Nat.lt_ge_cases i g) as [ L | L ]; [ rewrite Hz by exact L; ring | ].
      rewrite bsum_zero; [ ring | ]. intros j Hj. rewrite UT by lia. ring. }
    assert (JW : forall k, (k < rows)%nat -> bsum n (fun j => J k j * w j) = 0).
    { intros k Hk. rewrite (bsum_ext n _ (fun j => bsum rows (fun l => Q k l * (R l j * w j)))).
      - rewrite bsum_swap. apply bsum_zero. intros l Hl. rewrite bsum_scal, RW by exact Hl. ring.
      - intros j Hj. rewrite P by assumption. change total with bsum. rewrite <- bsum_scal_r. apply bsum_ext. intros l Hl. ring. }
    assert (ZA : agree A (disp dvs 0 w) (fun _ _ => 0)).
    { intros v Hv j Hj.
      assert (X : agree A (fun i j => if in_dec Nat.eq_dec i (map vid A) then disp dvs 0 w i j else 0) (fun _ _ => 0)).
      { apply DT.
        - intros u k Hu. destruct (in_dec Nat.eq_dec u (map vid A)); [ contradiction | reflexivity ].
        - intros t i Ht Hi. destruct (ROW t i Ht Hi) as (k & K1 & K2).
          rewrite (moved_error_ext dvs _ (disp dvs 0 w)); [ rewrite K2; apply JW; exact K1 | | intros u M Hu; exact (proj2 (CVE t Ht) u M Hu) ].
          intros u Hu k' Hk'. destruct (in_dec Nat.eq_dec (vid u) (map vid A)) as [ | NI ]; [ reflexivity | ].
          rewrite SPL, disp_app by exact NI. cbn [Nat.add]. fold g.
          assert (UB' : In u B). { rewrite SPL in Hu. apply in_app_or in Hu. destruct Hu as [ Hu | Hu ]; [ | exact Hu ]. exfalso. apply NI, in_map, Hu. }
          assert (Z : forall l o, (g <= o)%nat -> In u l -> 0 = disp l o w (vid u) k').
          { induction l as [ | q l IH ]; intros o Ho Hl; [ reflexivity | ]. cbn [disp]. destruct (Nat.eqb_spec (vid q) (vid u)) as [ | NQ ].
            - unfold w. destruct (Nat.ltb_spec (o + k') g); [ lia | ring ].
            - apply IH; [ lia | ]. destruct Hl as [ <- | Hl ]; [ congruence | exact Hl ]. }
          apply Z; [ lia | exact UB' ]. }
      pose proof (X v Hv j Hj) as Y. cbv beta in Y. destruct (in_dec Nat.eq_dec (vid v) (map vid A)) as [ | NI ]; [ exact Y | ].
      exfalso. apply NI, in_map, Hv. }
    intros j Hj.
    assert (ZZ : forall l o, NoDup (map vid l) -> (forall v, In v l -> vscaling v <> 0) -> agree l (disp l o w) (fun _ _ => 0) ->
                 forall i, (i < dims l)%nat -> w (o + i)%nat = 0).
    { clear. induction l as [ | q l IH ]; intros o N S AG i Hi; [ cbn [dims] in Hi; lia | ]. cbn [dims] in Hi. inversion N as [ | ? ? N1 N2 ]; subst.
      destruct (Nat.lt_ge_cases i (vdim q)) as [ L | L ].
      - pose proof (AG q (or_introl eq_refl) i L) as X. cbn [disp] in X. rewrite Nat.eqb_refl in X.
        apply Rmult_integral in X. destruct X as [ X | X ]; [ | exact X ]. exfalso. exact (S q (or_introl eq_refl) X).
      - replace (o + i)%nat with (o + vdim q + (i - vdim q))%nat by lia. apply IH; [ exact N2 | intros v Hv; apply S; right; exact Hv | | lia ].
        intros v Hv k Hk. rewrite <- (AG v (or_intror Hv) k Hk). cbn [disp].
        destruct (Nat.eqb_spec (vid q) (vid v)) as [ E | _ ]; [ | reflexivity ]. exfalso. apply N1. rewrite E. apply in_map, Hv. }
    assert (W0 : w (0 + j)%nat = 0).
    { assert (NA : NoDup (map vid A)).
      { rewrite SPL, map_app in ND. clear - ND. induction (map vid A) as [ | a l IH ]; [ constructor | ]. inversion ND; subst. constructor; [ | apply IH; assumption ].
        intros I. apply H1. apply in_or_app. left. exact I. }
      apply (ZZ A 0%nat NA SR); [ | exact Hj ]. intros v Hv k Hk. rewrite <- (ZA v Hv k Hk). rewrite SPL, disp_app_l by (apply in_map, Hv). reflexivity. }
    cbn [Nat.add] in W0. unfold w in W0. destruct (Nat.ltb_spec j g); [ exact W0 | lia ]. }
  exists (bsum (rows - n) (fun i => sq (d (n + i)%nat))). split. { apply bsum_nonneg. intros i _. unfold sq. apply Rle_0_sqr. }
  intros x. unfold prior_cost, prior_error. cbn [pcols prows pdrows pR pd].
  destruct (differences_spec x B (dims B) 0 (fun _ => 0) (le_n _)) as (z & EZ & _ & ZV). cbn [Nat.add] in ZV. rewrite EZ, Nat.eqb_refl. cbn [obind].
  eexists. split; [ reflexivity | ].
  assert (CE : forall w : vec, (forall i, (i < dims B)%nat -> w (g + i)%nat = flat B x i) ->
    bsum (dims B) (fun i => - (bsum rows (fun k => Q k (g + i)%nat * b k) - bsum (dims B) (fun j => R (g + i)%nat (g + j)%nat * z j)) *
                            - (bsum rows (fun k => Q k (g + i)%nat * b k) - bsum (dims B) (fun j => R (g + i)%nat (g + j)%nat * z j))) =
    bsum (dims B) (fun i => sq (bsum (dims B) (fun j => R (g + i)%nat (g + j)%nat * w (g + j)%nat) - d (g + i)%nat))).
  { intros w Hw. apply bsum_ext. intros i Hi. unfold sq. fold (d (g + i)%nat).
    rewrite (bsum_ext (dims B) (fun j => R (g + i)%nat (g + j)%nat * w (g + j)%nat) (fun j => R (g + i)%nat (g + j)%nat * z j)); [ ring | ].
    intros j Hj. rewrite Hw, ZV by exact Hj. reflexivity. }
  split.
  - destruct (back_substitution g R (fun i => d i - bsum (dims B) (fun j => R i (g + j)%nat * flat B x j))) as (xa & XA);
      [ exact DG | intros; apply UT; lia | ].
    set (w := fun j => if (j <? g)%nat then xa j else flat B x (j - g)).
    assert (W2 : forall i, (i < dims B)%nat -> w (g + i)%nat = flat B x i).
    { intros i Hi. unfold w. destruct (Nat.ltb_spec (g + i) g); [ lia | ]. f_equal. lia. }
    exists (disp dvs 0 w). split.
    + intros v Hv j Hj. assert (NI : ~ In (vid v) (map vid A)).
      { intros I. rewrite SPL, map_app in ND. clear - ND I Hv. induction (map vid A) as [ | a l IH ]; [ destruct I | ]. inversion ND; subst.
        destruct I as [ -> | I ]; [ | apply IH; assumption ]. apply H1. apply in_or_app. right. apply in_map, Hv. }
      rewrite SPL, disp_app by exact NI. cbn [Nat.add]. fold g.
      apply (disp_spread x B g w); [ | intros u Hu; rewrite (S1 u Hu); lra | | exact Hv | exact Hj ].
      * rewrite SPL, map_app in ND. clear - ND. induction (map vid A) as [ | a l IH ]; [ exact ND | ]. inversion ND; subst. apply IH. assumption.
      * intros i Hi. rewrite W2 by exact Hi. symmetry. apply spread_flat. exact S1.
    + rewrite SPLIT, (CE w W2). rewrite (bsum_zero g); [ ring | ]. intros i Hi. unfold sq.
      rewrite NG, bsum_app. rewrite (bsum_ext g _ (fun j => R i j * xa j)) by (intros j Hj; unfold w; destruct (Nat.ltb_spec j g); [ reflexivity | lia ]).
      rewrite XA by exact Hi. rewrite (bsum_ext (dims B) (fun j => R i (g + j)%nat * w (g + j)%nat) (fun j => R i (g + j)%nat * flat B x j)) by (intros j Hj; rewrite W2 by exact Hj; reflexivity).
      ring.
  - intros y AG. set (w := spread dvs y).
    assert (W2 : forall i, (i < dims B)%nat -> w (g + i)%nat = flat B x i).
    { intros i Hi. unfold w. rewrite SPL. unfold g. rewrite spread_app, spread_flat by exact S1.
      clear - AG Hi. revert i Hi. assert (H : forall l, (forall v, In v l -> In v B) -> forall i, (i < dims l)%nat -> flat l y i = flat l x i).
      { induction l as [ | v l IH ]; intros H i Hi; [ reflexivity | ]. cbn [flat dims] in *. destruct (Nat.ltb_spec i (vdim v)).
        - apply AG; [ apply H; left; reflexivity | assumption ].
        - apply IH; [ intros u Hu; apply H; right; exact Hu | lia ]. }
      apply H. trivial. }
    rewrite (CE w W2).
    rewrite <- (linear_cost_ext dvs (disp dvs 0 w) y); [ | | intros t Ht; exact (proj2 (CVE t Ht)) ].
    + rewrite SPLIT. assert (0 <= bsum g (fun i => sq (bsum n (fun j => R i j * w j) - d i))); [ | lra ].
      apply bsum_nonneg. intros i _. unfold sq. apply Rle_0_sqr.
    + apply disp_spread; [ exact ND | | intros i Hi; reflexivity ].
      intros v Hv. rewrite SPL in Hv. apply in_app_or in Hv. destruct Hv as [ Hv | Hv ]; [ exact (SR v Hv) | rewrite (S1 v Hv); lra ].
Qed.
Print Assumptions C74_marginal.

(** The covariance, when it is computed, is the leading block of the inverse
    of the normal matrix of all variables. *)
Theorem C74_covariance : forall qr inverse m dvs ets nrem ntop m' res, covers dvs ets -> qr_correct qr (tdims ets) (dims dvs) ->
  inverse_correct inverse (dims dvs) -> marginalize qr inverse m dvs ets nrem ntop = (m', Ok res) -> (0 < ntop)%nat ->
  determined dvs ets -> (forall v, In v dvs -> vscaling v = 1) ->
  let normal := fun i j => moved_product ets (unit_displacement dvs i) (unit_displacement dvs j) in
  (ntop <= dims dvs)%nat /\
  exists P, res_cov res = Some P /\ (forall i j, (i < dims dvs)%nat -> (j < dims dvs)%nat -> product (dims dvs) P normal i j = identity i j) /\
    (forall i j, P i j = P j i).
Proof.
  intros qr inverse m dvs ets nrem ntop m' res CV QC IC EM TOP DT S1. cbv zeta.
  assert (NT : NoDup (map tid ets)).
  { unfold marginalize in EM. destruct (repeated [] (map vid dvs)); [ discriminate | ].
    destruct (repeated [] (map tid ets)) eqn:B; [ discriminate | ]. apply repeated_spec in B. tauto. }
  destruct (marginalize_eq qr inverse m dvs ets nrem ntop CV NT) as (J & b & m2 & top & _ & _ & PROD & ROW & _ & _ & _ & E).
  destruct CV as (ND & CVE). rewrite E in EM. destruct (Nat.ltb_spec (tdims ets) (dims dvs)) as [ | LE ]; [ discriminate | ].
  specialize (QC J). destruct (qr (tdims ets) (dims dvs) J) as (Q & U). cbn [fst snd] in QC. cbv zeta in EM.
  destruct (Nat.ltb_spec 0 ntop); [ | lia ].
  destruct (Nat.eqb_spec (tdims ets) (dims dvs)) as [ SQ | ]; [ | discriminate ].
  destruct (Nat.leb_spec ntop (dims dvs)); [ | discriminate ]. cbn [andb] in EM. split; [ assumption | ].
  destruct (make_prior _ _ _ _ _ _); try discriminate. injection EM as _ <-. cbn [res_cov]. eexists. split; [ reflexivity | ].
  rewrite SQ in *. set (n := dims dvs) in *. destruct QC as (O1 & O2 & UT & P). pose proof (conj O1 (conj O2 (conj UT P))) as QC.
  assert (DU : forall c, (c < n)%nat -> agree dvs (disp dvs 0 (identity c)) (unit_displacement dvs c)).
  { intros c Hc. assert (H' : forall l o c', NoDup (map vid l) -> (forall v, In v l -> vscaling v = 1) -> (c' < dims l)%nat ->
      agree l (disp l o (identity (o + c'))) (unit_displacement l c')).
    { clear. induction l as [ | q l IH ]; intros o c N S Hc v Hv j Hj; [ destruct Hv | ]. inversion N as [ | ? ? N1 N2 ]; subst. cbn [disp unit_displacement dims] in *.
      assert (OUT : forall i k, ~ In i (map vid l) -> forall e, unit_displacement l e i k = 0).
      { clear. induction l as [ | u l IH ]; intros i k H e; [ reflexivity | ]. cbn [unit_displacement]. cbn [map In] in H.
        destruct (e <? vdim u)%nat; [ | apply IH; tauto ]. destruct (Nat.eqb_spec (vid u) i); [ tauto | reflexivity ]. }
      destruct (Nat.eqb_spec (vid q) (vid v)) as [ E | NE ].
      - assert (v = q). { destruct Hv as [ <- | Hv ]; [ reflexivity | ]. exfalso. apply N1. rewrite E. apply in_map, Hv. }
        subst v. rewrite (S q (or_introl eq_refl)). unfold identity. destruct (Nat.ltb_spec c (vdim q)).
        + cbn [andb]. destruct (Nat.eqb_spec (o + c) (o + j)), (Nat.eqb_spec j c); try lia; ring.
        + rewrite OUT by exact N1. destruct (Nat.eqb_spec (o + c) (o + j)); [ lia | ring ].
      - destruct Hv as [ <- | Hv ]; [ congruence | ]. destruct (Nat.ltb_spec c (vdim q)) as [ L | L ].
        + cbn [andb]. assert (Z : forall l' o', (o + c < o')%nat -> disp l' o' (identity (o + c)) (vid v) j = 0).
          { clear. induction l' as [ | u l' IH ]; intros o' Ho; [ reflexivity | ]. cbn [disp]. destruct (vid u =? vid v)%nat; [ | apply IH; lia ].
            unfold identity. destruct (Nat.eqb_spec (o + c) (o' + j)); [ lia | ring ]. }
          apply Z. lia.
        + replace (o + c)%nat with (o + vdim q + (c - vdim q))%nat by lia.
          apply (IH (o + vdim q)%nat (c - vdim q)%nat N2); [ intros u Hu; apply S; right; exact Hu | lia | exact Hv | exact Hj ]. }
    apply (H' dvs 0%nat c ND S1 Hc). }
  assert (PE : forall x y x' y', agree dvs x x' -> agree dvs y y' -> moved_product ets x y = moved_product ets x' y').
  { intros x y x' y' A1 A2. clear - A1 A2 CVE. induction ets as [ | t l IH ]; [ reflexivity | ]. cbn [moved_product]. f_equal.
    - change total with bsum. apply bsum_ext. intros i Hi. rewrite (moved_error_ext dvs x x' A1 (tjac t) i (proj2 (CVE t (or_introl eq_refl)))).
      rewrite (moved_error_ext dvs y y' A2 (tjac t) i (proj2 (CVE t (or_introl eq_refl)))). reflexivity.
    - apply IH. intros u Hu. apply CVE. right. exact Hu. }
  assert (NM : forall i j, (i < n)%nat -> (j < n)%nat ->
    moved_product ets (unit_displacement dvs i) (unit_displacement dvs j) = bsum n (fun k => U k i * U k j)).
  { intros i j Hi Hj. rewrite <- (PE _ _ _ _ (DU i Hi) (DU j Hj)), <- PROD.
    assert (COL : forall k c, (c < n)%nat -> bsum n (fun l => J k l * identity c l) = J k c).
    { intros k c Hc. rewrite (bsum_ext n _ (fun l => identity c l * J k l)) by (intros; ring). apply (identity_sum n c (fun l => J k l) Hc). }
    rewrite (bsum_ext n _ (fun k => J k i * J k j)) by (intros k Hk; rewrite !COL by assumption; reflexivity).
    assert (UC : forall k c, (k < n)%nat -> (c < n)%nat -> bsum n (fun l => Q l k * J l c) = U k c).
    { intros k c Hk Hc. pose proof (qr_rows n n J Q U (identity c) k QC Hk) as X.
      rewrite (bsum_ext n (fun j => U k j * identity c j) (fun j => identity c j * U k j)) in X by (intros; ring).
      rewrite (identity_sum n c (fun j => U k j) Hc) in X. rewrite <- X. apply bsum_ext. intros l Hl. rewrite COL by exact Hc. reflexivity. }
    symmetry. rewrite (bsum_ext n _ (fun k => bsum n (fun l => bsum n (fun l' => (Q l k * Q l' k) * (J l i * J l' j))))).
    - rewrite bsum_swap. apply bsum_ext. intros l Hl. rewrite bsum_swap.
      rewrite (bsum_ext n _ (fun l' => identity l l' * (J l i * J l' j))); [ apply (identity_sum n l (fun l' => J l i * J l' j) Hl) | ].
      intros l' Hl'. rewrite bsum_scal_r, bsum_total, O2 by assumption. reflexivity.
    - intros k Hk. rewrite <- (UC k i Hk Hi), <- (UC k j Hk Hj), <- bsum_scal_r. apply bsum_ext. intros l Hl. rewrite <- bsum_scal.
      apply bsum_ext. intros l' Hl'. ring. }
  assert (REG : forall x : vec, (forall i, (i < n)%nat -> total n (fun j => U i j * x j) = 0) -> forall j, (j < n)%nat -> x j = 0).
  { intros x Hx j Hj. change total with bsum in Hx.
    assert (JW : forall k, (k < n)%nat -> bsum n (fun j => J k j * x j) = 0).
    { intros k Hk. rewrite (bsum_ext n _ (fun j => bsum n (fun l => Q k l * (U l j * x j)))).
      - rewrite bsum_swap. apply bsum_zero. intros l Hl. rewrite bsum_scal, Hx by exact Hl. ring.
      - intros i Hi. rewrite P by assumption. change total with bsum. rewrite <- bsum_scal_r. apply bsum_ext. intros l Hl. ring. }
    assert (ZA : agree dvs (disp dvs 0 x) (fun _ _ => 0)).
    { apply DT; [ intros v i Hv; apply disp_out; exact Hv | ]. intros t i Ht Hi. destruct (ROW t i Ht Hi) as (k & K1 & K2). rewrite K2. apply JW. exact K1. }
    assert (ZZ : forall l o, NoDup (map vid l) -> (forall v, In v l -> vscaling v = 1) -> agree l (disp l o x) (fun _ _ => 0) ->
                 forall i, (i < dims l)%nat -> x (o + i)%nat = 0).
    { clear. induction l as [ | q l IH ]; intros o N S AG i Hi; [ cbn [dims] in Hi; lia | ]. cbn [dims] in Hi. inversion N as [ | ? ? N1 N2 ]; subst.
      destruct (Nat.lt_ge_cases i (vdim q)) as [ L | L ].
      - pose proof (AG q (or_introl eq_refl) i L) as X. cbn [disp] in X. rewrite Nat.eqb_refl, (S q (or_introl eq_refl)) in X. lra.
      - replace (o + i)%nat with (o + vdim q + (i - vdim q))%nat by lia. apply IH; [ exact N2 | intros v Hv; apply S; right; exact Hv | | lia ].
        intros v Hv k Hk. rewrite <- (AG v (or_intror Hv) k Hk). cbn [disp].
        destruct (Nat.eqb_spec (vid q) (vid v)) as [ E | _ ]; [ | reflexivity ]. exfalso. apply N1. rewrite E. apply in_map, Hv. }
    apply (ZZ dvs 0%nat ND S1 ZA j Hj). }
  pose proof (IC U REG) as INV. unfold product in INV. change total with bsum in INV. set (V := inverse n U) in *.
  split; [ | intros i j; apply bsum_ext; intros k _; ring ].
  intros i j Hi Hj. unfold product. change total with bsum.
  rewrite (bsum_ext n _ (fun k => bsum n (fun l => bsum n (fun q => V i l * (U q k * V k l) * U q j)))).
  2:{ intros k Hk. rewrite NM, <- bsum_scal_r by assumption. apply bsum_ext. intros l Hl. rewrite <- bsum_scal. apply bsum_ext. intros q Hq. ring. }
  rewrite bsum_swap. rewrite (bsum_ext n _ (fun l => V i l * U l j)); [ exact (proj2 (INV i j Hi Hj)) | ].
  intros l Hl. rewrite bsum_swap. rewrite (bsum_ext n _ (fun q => identity l q * (V i l * U q j))).
  - apply (identity_sum n l (fun q => V i l * U q j) Hl).
  - intros q Hq. rewrite bsum_scal_r, bsum_scal, (proj1 (INV q l Hq Hl)). unfold identity. rewrite Nat.eqb_sym. ring.
Qed.
Print Assumptions C74_covariance.

(** With more error rows than columns asking for the covariance inverts a
    matrix that is not square. *)
Theorem C74_covariance_refuted : forall qr inverse m dvs ets nrem ntop, covers dvs ets -> NoDup (map tid ets) ->
  (dims dvs < tdims ets)%nat -> (0 < ntop)%nat -> snd (marginalize qr inverse m dvs ets nrem ntop) = UB.
Proof.
  intros qr inverse m dvs ets nrem ntop CV NT LT TOP.
  destruct (marginalize_eq qr inverse m dvs ets nrem ntop CV NT) as (J & b & m2 & top & _ & _ & _ & _ & _ & _ & _ & E).
  rewrite E. destruct (Nat.ltb_spec (tdims ets) (dims dvs)); [ lia | ]. destruct (qr (tdims ets) (dims dvs) J) as (Q & U).
  destruct (Nat.ltb_spec 0 ntop); [ | lia ]. destruct (Nat.eqb_spec (tdims ets) (dims dvs)); [ lia | reflexivity ].
Qed.
Print Assumptions C74_covariance_refuted.

(** The list of variables in the covariance: the shortest beginning of the
    input that has enough rows. *)
Theorem C74_top : forall qr inverse m dvs ets nrem ntop m' res, covers dvs ets ->
  marginalize qr inverse m dvs ets nrem ntop = (m', Ok res) ->
  exists a c, dvs = a ++ c /\ res_top res = a /\ (c = [] \/ (ntop <= dims a)%nat) /\
    forall u v, a = u ++ [v] -> (dims u < ntop)%nat.
Proof.
  intros qr inverse m dvs ets nrem ntop m' res CV EM.
  assert (NT : NoDup (map tid ets)).
  { unfold marginalize in EM. destruct (repeated [] (map vid dvs)); [ discriminate | ].
    destruct (repeated [] (map tid ets)) eqn:B; [ discriminate | ]. apply repeated_spec in B. tauto. }
  destruct (marginalize_eq qr inverse m dvs ets nrem ntop CV NT) as (J & b & m2 & top & PT & _ & _ & _ & _ & _ & _ & E).
  assert (RT : res_top res = top).
  { rewrite E in EM. destruct (tdims ets <? dims dvs)%nat; [ discriminate | ]. destruct (qr (tdims ets) (dims dvs) J) as (Q & U).
    cbv zeta in EM. destruct (if (0 <? ntop)%nat then _ else _); try discriminate. destruct (make_prior _ _ _ _ _ _); try discriminate.
    injection EM as _ <-. reflexivity. }
  rewrite RT. clear RT E EM CV.
  assert (G : forall l k before n rest top', partition nrem ntop k before l = (n, rest, top') ->
    exists a c, l = a ++ c /\ top' = a /\ (c = [] \/ (ntop <= before + dims a)%nat) /\ forall u v, a = u ++ [v] -> (before + dims u < ntop)%nat).
  { clear. induction l as [ | v l IH ]; intros k before n rest top' H; cbn [partition] in H.
    - injection H as _ _ <-. exists [], []. split; [ reflexivity | ]. split; [ reflexivity | ]. split; [ left; reflexivity | ]. intros [ | ? ? ] v H; discriminate.
    - destruct (partition nrem ntop (k + 1) (before + vdim v) l) as ((n1, rest1), top1) eqn:P.
      destruct (IH _ _ _ _ _ P) as (a & c & -> & -> & A & B).
      assert (T : top' = if (before <? ntop)%nat then v :: a else a) by (destruct (k <? nrem)%Z; congruence). clear H.
      destruct (Nat.ltb_spec before ntop).
      + exists (v :: a), c. subst top'. split; [ reflexivity | ]. split; [ reflexivity | ]. cbn [dims]. split; [ destruct A; [ left; assumption | right; lia ] | ].
        intros [ | q u ] w Hu; cbn [app] in Hu; injection Hu as E1 E2; subst; cbn [dims]; [ lia | ]. specialize (B u w eq_refl). lia.
      + exists [], (v :: a ++ c). destruct a as [ | q a ].
        * split; [ reflexivity | ]. split; [ subst; reflexivity | ]. split; [ right; lia | ]. intros [ | ? ? ] w Hu; discriminate.
        * exfalso. destruct (exists_last (l := q :: a)) as (u & w & Hu); [ discriminate | ]. specialize (B u w Hu). lia. }
  destruct (G dvs 0%Z 0%nat _ _ _ PT) as (a & c & A1 & A2 & A3 & A4). exists a, c. split; [ exact A1 | ]. split; [ exact A2 | ]. split; [ exact A3 | exact A4 ].
Qed.
Print Assumptions C74_top.

(** The prior's Jacobians give the rate of its error for every motion of its
    variables (inactive ones not moving); right after it is made its error is
    minus d. *)
Theorem C74_prior : forall p x (M : nat -> mat) rate, let vs := pvars p in pcols p = dims vs -> pdrows p = prows p ->
  (forall v a, In v vs -> (a < vdim v)%nat ->
     is_derive (fun s => x s (vid v) a) 0 (total (vdim v) (fun k => M (vid v) a k * rate (vid v) k))) ->
  (forall v k, In v vs -> vactive v = false -> rate (vid v) k = 0) ->
  exists E err, prior_jacobians p 0 vs (map (fun v => (vdim v, M (vid v))) vs) = Ok E /\
    (forall s, prior_error p (displacements vs (x s)) = Ok (err s)) /\
    (forall i, is_derive (fun s => err s i) 0 (moved_error E rate i)) /\
    (agree vs (x 0) (fun _ _ => 0) -> forall i, err 0 i = - pd p i).
Proof.
  intros p x M rate vs PC PR DX IN.
  set (dx := fun id a => Derive (fun s => x s id a) 0).
  assert (DV : forall v a, In v vs -> (a < vdim v)%nat -> dx (vid v) a = bsum (vdim v) (fun k => M (vid v) a k * rate (vid v) k)).
  { intros v a Hv Ha. rewrite bsum_total. apply is_derive_unique, DX; assumption. }
  assert (JE : forall l c, (forall v, In v l -> In v vs) -> (c + dims l <= pcols p)%nat ->
    exists E, prior_jacobians p c l (map (fun v => (vdim v, M (vid v))) l) = Ok E /\
      forall i, moved_error E rate i = bsum (dims l) (fun a => pR p i (c + a)%nat * flat l dx a)).
  { induction l as [ | v l IH ]; intros c H L; cbn [map prior_jacobians dims]; [ exists []; split; reflexivity | ]. cbn [dims] in L.
    rewrite Nat.eqb_refl. destruct (Nat.leb_spec (c + vdim v) (pcols p)); [ | lia ].
    destruct (IH (c + vdim v)%nat) as (E & EE & ME); [ intros u Hu; apply H; right; exact Hu | lia | ]. rewrite EE. cbn [obind].
    eexists. split; [ reflexivity | ]. intros i.
    assert (TL : bsum (dims l) (fun a => pR p i (c + vdim v + a)%nat * flat l dx a) =
                 bsum (dims l) (fun a => pR p i (c + (vdim v + a))%nat * flat (v :: l) dx (vdim v + a)%nat)).
    { apply bsum_ext. intros a Ha. cbn [flat]. destruct (Nat.ltb_spec (vdim v + a) (vdim v)); [ lia | ]. f_equal; f_equal; lia. }
    assert (HDE : bsum (vdim v) (fun a => pR p i (c + a)%nat * flat (v :: l) dx a) =
                  bsum (vdim v) (fun k => bsum (vdim v) (fun a => pR p i (c + a)%nat * M (vid v) a k) * rate (vid v) k)).
    { rewrite (bsum_ext (vdim v) _ (fun a => bsum (vdim v) (fun k => pR p i (c + a)%nat * M (vid v) a k * rate (vid v) k))).
      - rewrite bsum_swap. apply bsum_ext. intros k Hk. apply bsum_scal_r.
      - intros a Ha. cbn [flat]. destruct (Nat.ltb_spec a (vdim v)); [ | lia ]. rewrite DV, <- bsum_scal by (first [ apply H; left; reflexivity | assumption ]).
        apply bsum_ext. intros k Hk. ring. }
    rewrite bsum_app, HDE, <- TL, <- ME. destruct (vactive v) eqn:AC.
    - cbn [moved_error]. change total with bsum. reflexivity.
    - rewrite bsum_zero; [ ring | ]. intros k Hk. rewrite (IN v k) by (first [ apply H; left; reflexivity | assumption ]). ring. }
  destruct (JE vs 0%nat (fun v H => H) ltac:(lia)) as (E & EE & ME). cbn [Nat.add] in ME.
  set (err := fun s => match prior_error p (displacements vs (x s)) with Ok e => e | _ => fun _ => 0 end).
  assert (ER : forall s, prior_error p (displacements vs (x s)) = Ok (err s) /\
            forall i, err s i = - (pd p i - bsum (dims vs) (fun j => pR p i j * flat vs (x s) j))).
  { intros s. destruct (differences_spec (x s) vs (pcols p) 0 (fun _ => 0) ltac:(lia)) as (z & EZ & _ & ZV). cbn [Nat.add] in ZV.
    unfold err, prior_error. rewrite EZ, PR, Nat.eqb_refl. cbn [obind]. split; [ reflexivity | ]. intros i. rewrite PC. f_equal. f_equal.
    apply bsum_ext. intros j Hj. rewrite ZV by exact Hj. reflexivity. }
  exists E, err. split; [ exact EE | ]. split; [ intros s; apply ER | ]. split.
  - intros i. apply (is_derive_ext (fun s => - (pd p i - bsum (dims vs) (fun j => pR p i j * flat vs (x s) j)))); [ intros s; symmetry; apply ER | ].
    rewrite ME.
    assert (FD : forall l j, (forall v, In v l -> In v vs) -> (j < dims l)%nat -> is_derive (fun s => flat l (x s) j) 0 (flat l dx j)).
    { induction l as [ | v l IH ]; intros j H L; cbn [dims] in L; [ lia | ]. cbn [flat]. destruct (Nat.ltb_spec j (vdim v)).
      - rewrite DV, bsum_total by (first [ apply H; left; reflexivity | assumption ]). apply DX; [ apply H; left; reflexivity | assumption ].
      - apply IH; [ intros u Hu; apply H; right; exact Hu | lia ]. }
    assert (BD : is_derive (fun s => bsum (dims vs) (fun j => pR p i j * flat vs (x s) j)) 0 (bsum (dims vs) (fun j => pR p i j * flat vs dx j))).
    { apply (bsum_derive (dims vs) (fun j s => pR p i j * flat vs (x s) j) (fun j => pR p i j * flat vs dx j)). intros j Hj.
      apply is_derive_scal. apply FD; [ trivial | exact Hj ]. }
    set (G := fun s => bsum (dims vs) (fun j => pR p i j * flat vs (x s) j)) in *.
    apply (is_derive_ext (fun s => G s - pd p i)); [ intros s; fold (G s); match goal with |- ?a = ?b => change (@eq R a b) end; ring | ].
    replace (bsum (dims vs) (fun j => pR p i j * flat vs dx j)) with (bsum (dims vs) (fun j => pR p i j * flat vs dx j) - 0) by ring.
    apply (is_derive_minus (V := R_NormedModule)); [ exact BD | apply (is_derive_const (V := R_NormedModule)) ].
  - intros AG i. rewrite (proj2 (ER 0) i). rewrite bsum_zero; [ ring | ]. intros j Hj.
    assert (FZ : forall l, (forall v, In v l -> In v vs) -> forall a, flat l (x 0) a = 0).
    { induction l as [ | v l IH ]; intros H a; [ reflexivity | ]. cbn [flat]. destruct (Nat.ltb_spec a (vdim v)).
      - apply AG; [ apply H; left; reflexivity | assumption ].
      - apply IH. intros u Hu. apply H. right. exact Hu. }
    rewrite FZ by trivial. ring.
Qed.
Print Assumptions C74_prior.

(** ** Known violations *)
(** A QR decomposition for sizes 1 and 2, by one plane rotation. *)
Definition givens (m n : nat) (J : mat) : mat * mat :=
  if (m =? 2)%nat then
    let a := J 0%nat 0%nat in let b := J 1%nat 0%nat in let r := sqrt (a * a + b * b) in
    let c := if Req_EM_T r 0 then 1 else a / r in let s := if Req_EM_T r 0 then 0 else b / r in
    let Q := fun i j => if (i =? j)%nat then c else if (i =? 0)%nat then - s else s in
    (Q, fun i j => if (j <? i)%nat then 0 else Q 0%nat i * J 0%nat j + Q 1%nat i * J 1%nat j)
  else (identity, J).
Definition no_indices : indices := Indices (fun _ => (-1)%Z) (fun _ => (-1)%Z) (fun _ => 0%Z).
Definition scalar (i : nat) (s : R) : dvar := Dv i 1 s true.

Lemma givens_1 : qr_correct givens 1 1.
Proof.
  intros J. unfold givens. cbn [Nat.eqb fst snd]. unfold is_qr, identity.
  split; [ | split; [ | split ] ]; intros [ | i ] [ | j ]; try lia; intros; cbn; ring.
Qed.
Lemma givens_2 : qr_correct givens 2 2.
Proof.
  intros J. unfold givens. cbn [Nat.eqb fst snd]. set (a := J 0%nat 0%nat). set (b := J 1%nat 0%nat). set (r := sqrt (a * a + b * b)).
  assert (RR : r * r = a * a + b * b). { unfold r. apply sqrt_sqrt. pose proof (Rle_0_sqr a). pose proof (Rle_0_sqr b). unfold Rsqr in *. lra. }
  set (c := if Req_EM_T r 0 then 1 else a / r). set (s := if Req_EM_T r 0 then 0 else b / r).
  assert (CS : c * c + s * s = 1).
  { unfold c, s. destruct (Req_EM_T r 0); [ ring | ]. replace (a / r * (a / r) + b / r * (b / r)) with ((a * a + b * b) / (r * r)) by (field; assumption).
    rewrite RR. field. rewrite <- RR. intros Z. apply Rmult_integral in Z. tauto. }
  assert (LZ : - s * a + c * b = 0).
  { unfold c, s. destruct (Req_EM_T r 0) as [ E | E ]; [ | field; exact E ]. rewrite E in RR.
    pose proof (Rle_0_sqr a). pose proof (Rle_0_sqr b). unfold Rsqr in *. assert (b * b = 0) by lra. apply Rmult_integral in H1. destruct H1; lra. }
  clearbody c s. unfold is_qr, identity. split; [ | split; [ | split ] ].
  - intros [ | [ | i ] ] [ | [ | j ] ]; try lia; intros; cbn; lra.
  - intros [ | [ | i ] ] [ | [ | j ] ]; try lia; intros; cbn; lra.
  - intros [ | [ | i ] ] [ | [ | j ] ]; try lia; intros; cbn; try lia; reflexivity.
  - assert (S2 : s * s = 1 - c * c) by lra.
    intros [ | [ | i ] ] [ | [ | j ] ]; try lia; intros _ _; cbn; fold a b.
    + replace (0 + c * (c * a + s * b) + - s * 0) with (a * (c * c + s * s) + s * (- s * a + c * b)) by ring. rewrite CS, LZ. ring.
    + replace (0 + c * (c * J 0%nat 1%nat + s * J 1%nat 1%nat) + - s * (- s * J 0%nat 1%nat + c * J 1%nat 1%nat)) with (J 0%nat 1%nat * (c * c + s * s)) by ring. rewrite CS. ring.
    + replace (0 + s * (c * a + s * b) + c * 0) with (b * (c * c + s * s) - c * (- s * a + c * b)) by ring. rewrite CS, LZ. ring.
    + replace (0 + s * (c * J 0%nat 1%nat + s * J 1%nat 1%nat) + c * (- s * J 0%nat 1%nat + c * J 1%nat 1%nat)) with (J 1%nat 1%nat * (c * c + s * s)) by ring. rewrite CS. ring.
Qed.

(** A throw after the renumbering leaves the indices modified. *)
Theorem C74_throw_refuted : exists m dvs ets nrem, covers dvs ets /\ NoDup (map tid ets) /\
  forall qr inverse, snd (marginalize qr inverse m dvs ets nrem 0) = Throw /\
    blk (fst (marginalize qr inverse m dvs ets nrem 0)) 7%nat <> blk m 7%nat /\
    colb (fst (marginalize qr inverse m dvs ets nrem 0)) 7%nat <> colb m 7%nat.
Proof.
  exists no_indices, [scalar 7 1], [Term 0 1 (fun _ => 1) [(scalar 7 1, fun _ _ => 1)]], 1%Z.
  split. { split; [ repeat constructor; cbn; tauto | ]. intros t [ <- | [] ]. split; [ repeat constructor; cbn; tauto | ].
           intros v M [ E | [] ]. left. congruence. }
  split; [ repeat constructor; cbn; tauto | ]. intros qr inverse. unfold marginalize.
  cbn. destruct (qr 1%nat 1%nat _) as (Q & R). cbn. split; [ reflexivity | ]. split; discriminate.
Qed.
Print Assumptions C74_throw_refuted.

(** A variable of the terms that is not in the list writes over the columns of
    another one. *)
Theorem C74_foreign_refuted : exists m dvs ets, NoDup (map vid dvs) /\ NoDup (map tid ets) /\
  (forall x, linear_cost ets x = (x 0%nat 0%nat + 5 * x 1%nat 0%nat + 1) * (x 0%nat 0%nat + 5 * x 1%nat 0%nat + 1)) /\
  forall inverse, exists m' res, marginalize givens inverse m dvs ets 0 0 = (m', Ok res) /\
    forall x, prior_cost (res_prior res) (displacements dvs x) = Ok ((5 * x 0%nat 0%nat + 1) * (5 * x 0%nat 0%nat + 1)).
Proof.
  exists (Indices (fun _ => 0%Z) (fun _ => 0%Z) (fun _ => 0%Z)), [scalar 0 1],
    [Term 0 1 (fun _ => 1) [(scalar 0 1, fun _ _ => 1); (scalar 1 1, fun _ _ => 5)]].
  split; [ repeat constructor; cbn; tauto | ]. split; [ repeat constructor; cbn; tauto | ].
  split. { intros x. unfold linear_cost, sqr_norm, linear_error. cbn. ring. }
  intros inverse. eexists. eexists. split; [ cbn; reflexivity | ]. intros x. cbn. f_equal. unfold identity. cbn. ring.
Qed.
Print Assumptions C74_foreign_refuted.

(** The scaling of a remaining variable enters the prior although the prior
    multiplies unscaled differences. *)
Theorem C74_scaling_refuted : exists dvs ets, covers dvs ets /\ NoDup (map tid ets) /\
  (forall x, linear_cost ets x = (x 0%nat 0%nat - 1) * (x 0%nat 0%nat - 1)) /\
  forall inverse m, exists m' res, marginalize givens inverse m dvs ets 0 0 = (m', Ok res) /\
    forall x, prior_cost (res_prior res) (displacements dvs x) = Ok ((2 * x 0%nat 0%nat - 1) * (2 * x 0%nat 0%nat - 1)).
Proof.
  exists [scalar 0 2], [Term 0 1 (fun _ => -1) [(scalar 0 2, fun _ _ => 1)]].
  split. { split; [ repeat constructor; cbn; tauto | ]. intros t [ <- | [] ]. split; [ repeat constructor; cbn; tauto | ].
           intros v M [ E | [] ]. left. congruence. }
  split; [ repeat constructor; cbn; tauto | ].
  split. { intros x. unfold linear_cost, sqr_norm, linear_error. cbn. ring. }
  intros inverse m. eexists. eexists. split; [ cbn; reflexivity | ]. intros x. cbn. f_equal. unfold identity. cbn. ring.
Qed.
Print Assumptions C74_scaling_refuted.

(** A removed variable the terms do not determine can take the information on
    the remaining ones with it. *)
Theorem C74_rank_refuted : exists dvs ets, covers dvs ets /\ NoDup (map tid ets) /\ qr_correct givens (tdims ets) (dims dvs) /\
  (forall x, linear_cost ets x = (x 1%nat 0%nat - 1) * (x 1%nat 0%nat - 1)) /\
  forall inverse m, exists m' res, marginalize givens inverse m dvs ets 1 0 = (m', Ok res) /\
    forall x, prior_cost (res_prior res) (displacements (remaining 1 dvs) x) = Ok 0.
Proof.
  exists [scalar 0 1; scalar 1 1],
    [Term 0 2 (fun i => if (i =? 0)%nat then -1 else 0) [(scalar 0 1, fun _ _ => 0); (scalar 1 1, fun i _ => if (i =? 0)%nat then 1 else 0)]].
  split. { split; [ repeat constructor; cbn; try tauto; intros [ E | [] ]; discriminate | ]. intros t [ <- | [] ]. split; [ repeat constructor; cbn; try tauto; intros [ E | [] ]; discriminate | ].
           intros v M [ E | [ E | [] ] ]; [ left | right; left ]; congruence. }
  split; [ repeat constructor; cbn; tauto | ]. split; [ exact givens_2 | ].
  split. { intros x. unfold linear_cost, sqr_norm, linear_error. cbn. ring. }
  intros inverse m. eexists. eexists. split; [ cbn; reflexivity | ]. intros x. cbn.
  replace (0 * 1 * (0 * 1) + 0 * 1 * (0 * 1)) with 0 by ring. rewrite sqrt_0. destruct (Req_EM_T 0 0); [ | contradiction ].
  change (Pos.to_nat 1) with 1%nat. cbn. f_equal. ring.
Qed.
Print Assumptions C74_rank_refuted.

(** Two scalar variables, two coupled error rows: everything above applies; the
    first variable goes. *)
Definition ex_dvs : list dvar := [scalar 0 1; scalar 1 1].
Definition ex_ets : list term :=
  [Term 0 1 (fun _ => 2) [(scalar 0 1, fun _ _ => 3); (scalar 1 1, fun _ _ => 1)];
   Term 1 1 (fun _ => -1) [(scalar 1 1, fun _ _ => 2); (scalar 0 1, fun _ _ => 4)]].
Lemma ex_covers : covers ex_dvs ex_ets.
Proof.
  split; [ repeat constructor; cbn; try tauto; intros [ E | [] ]; discriminate | ].
  intros t [ <- | [ <- | [] ] ]; (split; [ repeat constructor; cbn; try tauto; intros [ E | [] ]; discriminate | ]);
    intros v M [ E | [ E | [] ] ]; injection E as <- _; unfold ex_dvs; cbn; tauto.
Qed.
Lemma ex_determined : determined ex_dvs ex_ets /\ determined (removed 1 ex_dvs) ex_ets.
Proof.
  assert (D : determined ex_dvs ex_ets).
  { intros x _ H.
    assert (A : moved_error (tjac (nth 0 ex_ets (Term 0 0 (fun _ => 0) []))) x 0 = 0) by (apply H; [ left; reflexivity | cbn; lia ]).
    assert (B : moved_error (tjac (nth 1 ex_ets (Term 0 0 (fun _ => 0) []))) x 0 = 0) by (apply H; [ right; left; reflexivity | cbn; lia ]).
    cbn in A, B. intros v [ <- | [ <- | [] ] ] [ | j ] Hj; cbn in *; try lia; lra. }
  split; [ exact D | ]. intros x Z H v Hv. apply D; [ | exact H | ].
  - intros u j Hu. apply Z. intros C. apply Hu. destruct C as [ C | [] ]. left. exact C.
  - destruct Hv as [ <- | [] ]. left. reflexivity.
Qed.
(** The inverse of a regular 2x2 matrix. *)
Definition inverse2 (n : nat) (M : mat) : mat := fun i j =>
  let D := M 0%nat 0%nat * M 1%nat 1%nat - M 0%nat 1%nat * M 1%nat 0%nat in
  (if (i =? j)%nat then M (1 - i)%nat (1 - j)%nat else - M i j) / D.
Lemma inverse2_correct : inverse_correct inverse2 2.
Proof.
  intros M RG. set (a := M 0%nat 0%nat). set (b := M 0%nat 1%nat). set (c := M 1%nat 0%nat). set (d := M 1%nat 1%nat).
  assert (DN : a * d - b * c <> 0).
  { intros Z.
    assert (X1 := RG (fun i => if (i =? 0)%nat then d else - c)). assert (X2 := RG (fun i => if (i =? 0)%nat then - b else a)).
    assert (Y1 : forall i, (i < 2)%nat -> total 2 (fun j => M i j * (if (j =? 0)%nat then d else - c)) = 0).
    { intros [ | [ | i ] ] L; try lia; cbn; fold a b c d; lra. }
    assert (Y2 : forall i, (i < 2)%nat -> total 2 (fun j => M i j * (if (j =? 0)%nat then - b else a)) = 0).
    { intros [ | [ | i ] ] L; try lia; cbn; fold a b c d; lra. }
    assert (d = 0) by (apply (X1 Y1 0%nat); lia). assert (- c = 0) by (apply (X1 Y1 1%nat); lia).
    assert (- b = 0) by (apply (X2 Y2 0%nat); lia). assert (a = 0) by (apply (X2 Y2 1%nat); lia).
    assert (1 = 0); [ | lra ]. apply (RG (fun _ => 1)) with (j := 0%nat); [ | lia ].
    intros [ | [ | i ] ] L; try lia; cbn; fold a b c d; lra. }
  intros [ | [ | i ] ] [ | [ | j ] ] Hi Hj; try lia; unfold product, inverse2, identity; cbn; fold a b c d; split; field; exact DN.
Qed.
Example C74_ex : covers ex_dvs ex_ets /\ NoDup (map tid ex_ets) /\ (dims ex_dvs <= tdims ex_ets)%nat /\ remaining 1 ex_dvs <> [] /\
  qr_correct givens (tdims ex_ets) (dims ex_dvs) /\ inverse_correct inverse2 (dims ex_dvs) /\
  determined ex_dvs ex_ets /\ determined (removed 1 ex_dvs) ex_ets /\ (forall v, In v ex_dvs -> vscaling v = 1) /\
  (forall m, exists m' res, marginalize givens inverse2 m ex_dvs ex_ets 1 1 = (m', Ok res)).
Proof.
  split; [ exact ex_covers | ]. split; [ repeat constructor; cbn; try tauto; intros [ E | [] ]; discriminate | ].
  split; [ cbn; lia | ]. split; [ discriminate | ]. split; [ exact givens_2 | ]. split; [ exact inverse2_correct | ].
  split; [ apply ex_determined | ]. split; [ apply ex_determined | ].
  split; [ intros v [ <- | [ <- | [] ] ]; reflexivity | ]. intros m. eexists. eexists. cbn. reflexivity.
Qed.
(** A one-row prior on a rotation angle with a curved motion. *)
Example C74_prior_ex : let v := scalar 3 1 in let p := Prior [v] 1 1 1 (fun _ _ => 2) (fun _ => 5) in
  exists E err, prior_jacobians p 0 [v] [(1%nat, fun _ _ => 1)] = Ok E /\
    (forall s, prior_error p (displacements [v] (fun _ _ => sin s)) = Ok (err s)) /\
    (forall i, is_derive (fun s => err s i) 0 (moved_error E (fun _ _ => 1) i)) /\
    (agree [v] (fun _ _ => sin 0) (fun _ _ => 0) -> forall i, err 0 i = - 5).
Proof.
  cbv zeta. apply (C74_prior (Prior [scalar 3 1] 1 1 1 (fun _ _ => 2) (fun _ => 5)) (fun s _ _ => sin s) (fun _ _ _ => 1) (fun _ _ => 1)).
  - reflexivity.
  - reflexivity.
  - intros v a [ <- | [] ] _. cbn. auto_derive; [ exact Logic.I | ]. rewrite cos_0. ring.
  - intros v k [ <- | [] ] H. discriminate H.
Qed.
