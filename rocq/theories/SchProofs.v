(** * The elimination is the Schur complement *)
From Coq Require Import Reals List Arith Bool Sorted Lia Lra.
From Verif Require Import BsplModel BsplProofs SchModel SchSpec.
Import ListNotations.
Local Open Scope R_scope.

Lemma entry_at : forall H r c, entry (H c) r = at_ H r c.
Proof.
  intros H r c; unfold at_. induction (H c) as [|[j W] l IH]; [reflexivity |]. simpl.
  rewrite (Nat.eqb_sym r j). destruct (Nat.eqb j r); [reflexivity | exact IH].
Qed.

Lemma entry_low : forall l r p q, (forall j, In j (map fst l) -> (r < j)%nat) -> entry l r p q = 0.
Proof.
  induction l as [|[j W] l IH]; intros r p q H; [reflexivity |]. simpl.
  destruct (Nat.eqb_spec r j) as [E | _].
  - specialize (H j (or_introl eq_refl)). lia.
  - apply IH. intros k K; apply H; right; exact K.
Qed.

Lemma sorted_inv : forall j W (l : col), StronglySorted lt (map fst ((j, W) :: l)) ->
  StronglySorted lt (map fst l) /\ forall k, In k (map fst l) -> (j < k)%nat.
Proof.
  intros j W l S. simpl in S. apply StronglySorted_inv in S. destruct S as [S F].
  split; [exact S |]. rewrite Forall_forall in F. exact F.
Qed.

(** Past the first block that is not eliminated against, nothing matters. *)
Lemma entry_stop : forall j W l c p q na, StronglySorted lt (map fst ((j, W) :: l)) ->
  (na <= j)%nat -> (c < na)%nat -> entry ((j, W) :: l) c p q = 0.
Proof.
  intros j W l c p q na S J C. apply entry_low. intros k [K | K]; [simpl in K; lia |].
  apply sorted_inv in S. destruct S as [_ F]. specialize (F k K). lia.
Qed.

Lemma bsum_null : forall n (f g : nat -> R), (forall v, g v = 0) -> bsum n (fun v => f v * g v) = 0.
Proof. intros n f g H; apply bsum_zero; intros i _; rewrite H; ring. Qed.

Lemma bsum_null_l : forall n (f g : nat -> R), (forall v, f v = 0) -> bsum n (fun v => f v * g v) = 0.
Proof. intros n f g H; apply bsum_zero; intros i _; rewrite H; ring. Qed.

Section Fixed.
Variable na : nat.

Lemma inner_spec : forall j n Y l A r c p q, StronglySorted lt (map fst l) -> (c < na)%nat ->
  inner na j n Y l A r c p q =
  A r c p q - (if Nat.eqb r j then bsum n (fun v => Y p v * entry l c q v) else 0).
Proof.
  intros j n Y l; induction l as [|[k W] l IH]; intros A r c p q S C.
  - simpl. destruct (Nat.eqb r j); [| ring].
    rewrite (bsum_null n (Y p) (fun _ => 0)) by reflexivity. ring.
  - pose proof (sorted_inv _ _ _ S) as [S' F]. cbn [inner].
    destruct (Nat.ltb_spec k na) as [K | K].
    + rewrite (IH _ r c p q S' C). unfold set_block. cbn [entry].
      destruct (Nat.eqb_spec r j) as [-> | R]; simpl.
      * destruct (Nat.eqb_spec c k) as [-> | Q]; [| reflexivity].
        rewrite (bsum_null n (Y p) (entry l k q)) by (intros v; apply entry_low; exact F). ring.
      * reflexivity.
    + destruct (Nat.eqb r j); [| ring].
      rewrite (bsum_null n (Y p) (entry ((k, W) :: l) c q)).
      * ring.
      * intros v; apply (entry_stop k W l c q v na S K C).
Qed.

Definition rowY (n : nat) (inv W : mat) (p v : nat) : R := bsum n (fun u => W p u * inv u v).

Lemma rowY_null : forall n inv (W : mat) p v, (forall u, W p u = 0) -> rowY n inv W p v = 0.
Proof. intros n inv W p v H; unfold rowY. apply bsum_null_l; exact H. Qed.

Lemma outer_A : forall n inv ri l A b r c p q, StronglySorted lt (map fst l) -> (r <= c)%nat -> (c < na)%nat ->
  fst (outer na n inv ri l A b) r c p q =
  A r c p q - bsum n (fun v => rowY n inv (entry l r) p v * entry l c q v).
Proof.
  intros n inv ri l; induction l as [|[j W] l IH]; intros A b r c p q S RC C.
  - simpl. rewrite bsum_null by reflexivity. ring.
  - pose proof (sorted_inv _ _ _ S) as [S' F]. cbn [outer].
    destruct (Nat.ltb_spec j na) as [J | J].
    + rewrite (IH _ _ r c p q S' RC C), (inner_spec j n _ _ A r c p q S C).
      cbn [entry]. destruct (Nat.eqb_spec r j) as [-> | R].
      * rewrite (bsum_null_l n (fun v => rowY n inv (entry l j) p v)).
        -- unfold rowY. ring.
        -- intros v; apply rowY_null; intros u; apply entry_low; exact F.
      * destruct (Nat.eqb_spec c j) as [-> | Q]; [| ring].
        assert (Z : forall v, rowY n inv (entry l r) p v = 0).
        { intros v; apply rowY_null; intros u; apply entry_low. intros k K; specialize (F k K); lia. }
        rewrite !(bsum_null_l n (fun v => rowY n inv (entry l r) p v)) by exact Z. ring.
    + simpl fst. rewrite (bsum_null_l n (fun v => rowY n inv (entry ((j, W) :: l) r) p v)).
      * ring.
      * intros v; apply rowY_null; intros u. apply (entry_stop j W l r p u na S J). lia.
Qed.

Lemma outer_b : forall n inv ri l A b r p, StronglySorted lt (map fst l) -> (r < na)%nat ->
  snd (outer na n inv ri l A b) r p =
  b r p - bsum n (fun v => rowY n inv (entry l r) p v * ri v).
Proof.
  intros n inv ri l; induction l as [|[j W] l IH]; intros A b r p S C.
  - simpl. rewrite bsum_null_l; [ring |]. intros v; apply rowY_null; reflexivity.
  - pose proof (sorted_inv _ _ _ S) as [S' F]. cbn [outer].
    destruct (Nat.ltb_spec j na) as [J | J].
    + rewrite (IH _ _ r p S' C). unfold set_seg. cbn [entry].
      destruct (Nat.eqb_spec r j) as [-> | R]; [| reflexivity].
      rewrite (bsum_null_l n (fun v => rowY n inv (entry l j) p v)).
      * unfold rowY. ring.
      * intros v; apply rowY_null; intros u; apply entry_low; exact F.
    + simpl snd. rewrite (bsum_null_l n (fun v => rowY n inv (entry ((j, W) :: l) r) p v)).
      * ring.
      * intros v; apply rowY_null; intros u. apply (entry_stop j W l r p u na S J C).
Qed.

Lemma back_spec : forall dims l x out u, StronglySorted lt (map fst l) ->
  back dims na l x out u =
  out u - bsum na (fun c => bsum (dims c) (fun p => entry l c p u * x c p)).
Proof.
  intros dims l x; induction l as [|[j W] l IH]; intros out u S.
  - simpl. rewrite bsum_zero; [ring |]. intros c _. apply bsum_null_l; reflexivity.
  - pose proof (sorted_inv _ _ _ S) as [S' F]. cbn [back].
    destruct (Nat.ltb_spec j na) as [J | J].
    + rewrite (IH _ u S').
      assert (E : bsum na (fun c => bsum (dims c) (fun p => entry ((j, W) :: l) c p u * x c p)) =
        bsum na (fun c => if Nat.eqb c j then bsum (dims j) (fun p => W p u * x j p) else 0) +
        bsum na (fun c => bsum (dims c) (fun p => entry l c p u * x c p))).
      { rewrite <- bsum_plus. apply bsum_ext. intros c _. cbn [entry].
        destruct (Nat.eqb_spec c j) as [-> | Q]; [| ring].
        rewrite (bsum_null_l (dims j) (fun p => entry l j p u)); [ring |].
        intros p; apply entry_low; exact F. }
      rewrite E.
      rewrite (bsum_single na j (fun c => if Nat.eqb c j then bsum (dims j) (fun p => W p u * x j p) else 0) J).
      * rewrite Nat.eqb_refl. ring.
      * intros i _ Ne. destruct (Nat.eqb_spec i j); [contradiction | reflexivity].
    + rewrite bsum_zero; [ring |]. intros c C. apply bsum_null_l. intros p.
      apply (entry_stop j W l c p u na S J C).
Qed.
End Fixed.

(** An inverse of a symmetric matrix is symmetric. *)
Lemma bsum_ident : forall n (f : nat -> R) q, (q < n)%nat -> bsum n (fun k => f k * ident k q) = f q.
Proof.
  intros n f q Q. rewrite (bsum_single n q) by
    (first [exact Q | intros i _ Ne; unfold ident; destruct (Nat.eqb_spec i q); [contradiction | ring]]).
  unfold ident; rewrite Nat.eqb_refl; ring.
Qed.

Lemma bsum_ident_l : forall n (f : nat -> R) q, (q < n)%nat -> bsum n (fun k => ident q k * f k) = f q.
Proof.
  intros n f q Q. rewrite (bsum_single n q) by
    (first [exact Q | intros i _ Ne; unfold ident; destruct (Nat.eqb_spec q i); [symmetry in e; contradiction | ring]]).
  unfold ident; rewrite Nat.eqb_refl; ring.
Qed.

Lemma ident_sym : forall p q, ident p q = ident q p.
Proof. intros p q; unfold ident; rewrite Nat.eqb_sym; reflexivity. Qed.

Lemma inverse_symm : forall n M L, are_inverse n M L ->
  (forall p q, (p < n)%nat -> (q < n)%nat -> M p q = M q p) ->
  forall p q, (p < n)%nat -> (q < n)%nat -> L p q = L q p.
Proof.
  intros n M L I S p q P Q.
  (* L p q = sum_k L p k * (sum_m M k m * L q m) because the inner sum is the identity *)
  assert (A : bsum n (fun k => L p k * bsum n (fun m => M k m * L q m)) = L p q).
  { rewrite <- (bsum_ident n (L p) q Q). apply bsum_ext. intros k K. f_equal.
    destruct (I q k Q K) as [_ E]. rewrite ident_sym, <- E. apply bsum_ext. intros m Hm.
    rewrite (S k m K Hm). ring. }
  rewrite <- A.
  rewrite (bsum_ext n _ (fun k => bsum n (fun m => L p k * M k m * L q m)))
    by (intros k _; rewrite <- bsum_scal; apply bsum_ext; intros m _; ring).
  rewrite bsum_swap. rewrite <- (bsum_ident_l n (L q) p P).
  apply bsum_ext. intros m Hm. destruct (I p m P Hm) as [_ E]. rewrite <- E.
  symmetry. rewrite <- bsum_scal_r. reflexivity.
Qed.

Lemma diag_add : forall (lm : bool) lambda na (A : bmat) r c p q, (c < na)%nat ->
  (if lm then
     (fun r c => if Nat.eqb r c && Nat.ltb r na
                 then (fun p q => if Nat.eqb p q then A r c p q + lambda else A r c p q)
                 else A r c)
   else A) r c p q =
  A r c p q + (if Nat.eqb r c then (if lm then lambda else 0) * ident p q else 0).
Proof.
  intros lm lambda na A r c p q C. unfold ident. destruct lm.
  - destruct (Nat.eqb_spec r c) as [-> | Ne]; simpl; [| ring].
    destruct (Nat.ltb_spec c na) as [_ | X]; [| lia]. destruct (Nat.eqb p q); ring.
  - destruct (Nat.eqb r c); ring.
Qed.

Section Main.
Variable inverse : nat -> mat -> mat.
Variable dims : nat -> nat.
Variable H : nat -> col.
Variable rhs : bvec.
Variable lambda : R.
Variables na nm : nat.
Variable lm : bool.
Let mu : R := if lm then lambda else 0.
Hypothesis SY : system inverse dims H mu na nm.

Let inv := invV inverse dims H lambda na lm.
Let W (i r : nat) : mat := at_ H r (na + i).
Let d (i : nat) : nat := dims (na + i).

Lemma inv_ok : forall i, (i < nm)%nat -> exists M,
  (forall p q, M p q = damped mu (at_ H (na + i) (na + i)) p q) /\ are_inverse (d i) M (inv i).
Proof.
  intros i I. eexists; split; cycle 1.
  - unfold inv, invV, d. eapply (s_inv _ _ _ _ _ _ SY); [lia | lia |].
    intros p q. rewrite entry_at. unfold damped, mu, ident. destruct lm.
    + destruct (Nat.eqb p q); ring.
    + ring.
  - intros p q. rewrite entry_at. unfold damped, mu, ident. destruct lm.
    + destruct (Nat.eqb p q); ring.
    + ring.
Qed.

Lemma inv_symm : forall i p q, (i < nm)%nat -> (p < d i)%nat -> (q < d i)%nat -> inv i p q = inv i q p.
Proof.
  intros i p q I P Q. destruct (inv_ok i I) as [M [E J]].
  apply (inverse_symm (d i) M (inv i) J); [| exact P | exact Q].
  intros a b A B. rewrite !E. unfold damped.
  rewrite (s_symm _ _ _ _ _ _ SY (na + i)%nat a b) by (first [lia | assumption]).
  rewrite (ident_sym a b). reflexivity.
Qed.

(** What eliminating block [i] takes away. *)
Definition T (i r c p q : nat) : R :=
  bsum (d i) (fun v => rowY (d i) (inv i) (W i r) p v * W i c q v).

Lemma T_symm : forall i r c p q, (i < nm)%nat -> T i c r q p = T i r c p q.
Proof.
  intros i r c p q I. unfold T, rowY.
  rewrite (bsum_ext (d i) _ (fun v => bsum (d i) (fun u => W i c q u * inv i u v * W i r p v)))
    by (intros v _; symmetry; apply bsum_scal_r).
  rewrite bsum_swap. apply bsum_ext. intros u U.
  rewrite <- bsum_scal_r. apply bsum_ext. intros v V. rewrite (inv_symm i u v I U V). ring.
Qed.

Lemma eliminate_ok : forall m, 
  (forall r c p q, (r <= c)%nat -> (c < na)%nat ->
     fst (eliminate inverse dims H rhs lambda na lm m) r c p q =
     at_ H r c p q - bsum m (fun i => T i r c p q)) /\
  (forall r p, (r < na)%nat ->
     snd (eliminate inverse dims H rhs lambda na lm m) r p =
     rhs r p - bsum m (fun i => bsum (d i) (fun v => rowY (d i) (inv i) (W i r) p v * rhs (na + i)%nat v))).
Proof.
  induction m as [|m [IA IB]]; cbn [eliminate].
  - split.
    + intros r c p q RC C. simpl. unfold slice.
      destruct (Nat.ltb_spec r na) as [A | A]; [| lia].
      destruct (Nat.ltb_spec c na) as [B | B]; [| lia]. simpl. rewrite entry_at. ring.
    + intros r p R. simpl. ring.
  - destruct (eliminate inverse dims H rhs lambda na lm m) as [A b]; simpl fst in *; simpl snd in *.
    split.
    + intros r c p q RC C.
      rewrite (outer_A na _ _ _ _ _ _ r c p q (s_sorted _ _ _ _ _ _ SY _) RC C), (IA r c p q RC C), !entry_at.
      cbn [bsum]. unfold T, W, d, inv. ring.
    + intros r p R.
      rewrite (outer_b na _ _ _ _ _ _ r p (s_sorted _ _ _ _ _ _ SY _) R), (IB r p R), !entry_at.
      cbn [bsum]. unfold W, d, inv. ring.
Qed.

Let A := fst (schur inverse dims H rhs lambda na nm lm).
Let b := snd (schur inverse dims H rhs lambda na nm lm).
Let dsi := buildDsi inverse dims H rhs lambda na lm.

Lemma A_ok : forall r c p q, (r < na)%nat -> (c < na)%nat ->
  symm A r c p q = symm (at_ H) r c p q + (if Nat.eqb r c then mu * ident p q else 0)
                   - bsum nm (fun i => T i r c p q).
Proof.
  assert (U : forall r c p q, (r <= c)%nat -> (c < na)%nat ->
    A r c p q = at_ H r c p q + (if Nat.eqb r c then mu * ident p q else 0) - bsum nm (fun i => T i r c p q)).
  { intros r c p q RC C. unfold A, schur.
    pose proof (proj1 (eliminate_ok nm) r c p q RC C) as E.
    destruct (eliminate inverse dims H rhs lambda na lm nm) as [A0 b0]; simpl fst in *.
    rewrite (diag_add lm lambda na A0 r c p q C), E. unfold mu. ring. }
  intros r c p q R C. unfold symm. destruct (Nat.leb_spec r c) as [RC | RC].
  - apply U; assumption.
  - rewrite U by lia. rewrite (Nat.eqb_sym c r), (ident_sym q p).
    f_equal. apply bsum_ext. intros i I. apply T_symm; exact I.
Qed.

Lemma b_ok : forall r p, (r < na)%nat ->
  b r p = rhs r p - bsum nm (fun i => bsum (d i) (fun v => rowY (d i) (inv i) (W i r) p v * rhs (na + i)%nat v)).
Proof.
  intros r p R. rewrite <- (proj2 (eliminate_ok nm) r p R). unfold b, schur.
  destruct (eliminate inverse dims H rhs lambda na lm nm); reflexivity.
Qed.

(** The coupling of block [i] with the kept variables. *)
Definition pull (x : bvec) (i u : nat) : R := bsum na (fun c => bsum (dims c) (fun p => W i c p u * x c p)).

Lemma dsi_ok : forall x i p, dsi i x p = bsum (d i) (fun u => inv i p u * (rhs (na + i)%nat u - pull x i u)).
Proof.
  intros x i p. unfold dsi, buildDsi, d. apply bsum_ext. intros u _. f_equal.
  rewrite (back_spec na dims _ x _ u (s_sorted _ _ _ _ _ _ SY _)).
  unfold pull, W. f_equal. apply bsum_ext. intros c _. apply bsum_ext. intros k _.
  rewrite entry_at. reflexivity.
Qed.

(** The reduced residual is the full one with the other variables put in. *)
Lemma reduced : forall x r p, (r < na)%nat -> (p < dims r)%nat ->
  times dims na (symm A) x r p - b r p =
  times dims na (symm (at_ H)) x r p + mu * x r p +
  bsum nm (fun i => bsum (d i) (fun u => W i r p u * dsi i x u)) - rhs r p.
Proof.
  intros x r p R P. rewrite (b_ok r p R).
  assert (E1 : times dims na (symm A) x r p =
    times dims na (symm (at_ H)) x r p + mu * x r p
    - bsum nm (fun i => bsum (d i) (fun v => rowY (d i) (inv i) (W i r) p v * pull x i v))).
  { unfold times.
    rewrite (bsum_ext na _ (fun c =>
      (bsum (dims c) (fun q => symm (at_ H) r c p q * x c q) +
       (if Nat.eqb c r then mu * x r p else 0)) -
      bsum nm (fun i => bsum (d i) (fun v => rowY (d i) (inv i) (W i r) p v * bsum (dims c) (fun q => W i c q v * x c q))))).
    - rewrite bsum_minus, bsum_plus.
      rewrite (bsum_single na r (fun c => if Nat.eqb c r then mu * x r p else 0) R)
        by (intros i _ Ne; destruct (Nat.eqb_spec i r); [contradiction | reflexivity]).
      rewrite Nat.eqb_refl. f_equal. rewrite bsum_swap. apply bsum_ext. intros i _.
      rewrite bsum_swap. apply bsum_ext. intros v _. rewrite bsum_scal. reflexivity.
    - intros c C.
      rewrite (bsum_ext (dims c) _ (fun q => symm (at_ H) r c p q * x c q +
        (if Nat.eqb r c then mu * ident p q * x c q else 0) - bsum nm (fun i => T i r c p q * x c q))).
      + rewrite bsum_minus, bsum_plus. f_equal.
        * f_equal. rewrite (Nat.eqb_sym c r). destruct (Nat.eqb_spec r c) as [<- | _].
          -- rewrite (bsum_ext (dims r) _ (fun q => ident p q * (mu * x r q))) by (intros q _; ring).
             rewrite (bsum_ident_l (dims r) (fun q => mu * x r q) p P). reflexivity.
          -- apply bsum_zero; reflexivity.
        * rewrite bsum_swap. apply bsum_ext. intros i _. unfold T.
          rewrite (bsum_ext (dims c) _ (fun q => bsum (d i) (fun v =>
             rowY (d i) (inv i) (W i r) p v * (W i c q v * x c q))))
            by (intros q _; rewrite <- bsum_scal_r; apply bsum_ext; intros v _; ring).
          rewrite bsum_swap. apply bsum_ext. intros v _. apply bsum_scal.
      + intros q Q. rewrite (A_ok r c p q R C). rewrite bsum_scal_r.
        destruct (Nat.eqb r c); ring. }
  rewrite E1.
  assert (E2 : bsum nm (fun i => bsum (d i) (fun u => W i r p u * dsi i x u)) =
    bsum nm (fun i => bsum (d i) (fun v => rowY (d i) (inv i) (W i r) p v * rhs (na + i)%nat v)) -
    bsum nm (fun i => bsum (d i) (fun v => rowY (d i) (inv i) (W i r) p v * pull x i v))).
  { rewrite <- bsum_minus. apply bsum_ext. intros i _. rewrite <- bsum_minus.
    rewrite (bsum_ext (d i) _ (fun u => bsum (d i) (fun v => W i r p u * inv i u v * (rhs (na + i)%nat v - pull x i v))))
      by (intros u _; rewrite dsi_ok, <- bsum_scal; apply bsum_ext; intros v _; ring).
    rewrite bsum_swap. apply bsum_ext. intros v _. unfold rowY.
    rewrite bsum_scal_r. ring. }
  rewrite E2. ring.
Qed.

(** Full rows of the kept variables. *)
Lemma full_kept : forall x r p, (r < na)%nat ->
  times dims (na + nm) (symm (at_ H)) x r p =
  times dims na (symm (at_ H)) x r p + bsum nm (fun i => bsum (d i) (fun u => W i r p u * x (na + i)%nat u)).
Proof.
  intros x r p R. unfold times. rewrite bsum_app. f_equal. apply bsum_ext. intros i _.
  apply bsum_ext. intros q _. unfold symm, W. destruct (Nat.leb_spec r (na + i)); [reflexivity | lia].
Qed.

(** Full rows of the eliminated variables. *)
Lemma full_gone : forall x i p, (i < nm)%nat -> (p < d i)%nat ->
  times dims (na + nm) (symm (at_ H)) x (na + i) p =
  pull x i p + bsum (d i) (fun q => at_ H (na + i) (na + i) p q * x (na + i)%nat q).
Proof.
  intros x i p I P. unfold times. rewrite bsum_app. f_equal.
  - unfold pull. apply bsum_ext. intros c C. apply bsum_ext. intros q _. unfold symm, W.
    destruct (Nat.leb_spec (na + i) c); [lia | reflexivity].
  - rewrite (bsum_single nm i) by (first [exact I |
      intros k K Ne; apply bsum_zero; intros q Q; unfold symm;
      destruct (Nat.leb_spec (na + i) (na + k));
      rewrite (s_free _ _ _ _ _ _ SY) by (first [lia | assumption]); ring]).
    apply bsum_ext. intros q _. unfold symm. rewrite Nat.leb_refl. reflexivity.
Qed.

(** A row system with an invertible matrix. *)
Lemma solve_inverse : forall n M L (y e : vec), are_inverse n M L ->
  ((forall p, (p < n)%nat -> bsum n (fun q => M p q * y q) = e p) <->
   (forall p, (p < n)%nat -> y p = bsum n (fun u => L p u * e u))).
Proof.
  intros n M L y e I; split; intros K p P.
  - rewrite (bsum_ext n _ (fun u => bsum n (fun q => L p u * M u q * y q)))
      by (intros u U; rewrite <- (K u U), <- bsum_scal; apply bsum_ext; intros q _; ring).
    rewrite bsum_swap.
    rewrite (bsum_ext n _ (fun q => ident p q * y q))
      by (intros q Q; rewrite <- (proj2 (I p q P Q)), <- bsum_scal_r; reflexivity).
    rewrite bsum_ident_l by exact P. reflexivity.
  - rewrite (bsum_ext n _ (fun q => bsum n (fun u => M p q * L q u * e u)))
      by (intros q Q; rewrite (K q Q), <- bsum_scal; apply bsum_ext; intros u _; ring).
    rewrite bsum_swap.
    rewrite (bsum_ext n _ (fun u => ident p u * e u))
      by (intros u U; rewrite <- (proj1 (I p u P U)), <- bsum_scal_r; reflexivity).
    rewrite bsum_ident_l by exact P. reflexivity.
Qed.

Lemma gone_iff : forall x i, (i < nm)%nat ->
  ((forall p, (p < d i)%nat ->
      times dims (na + nm) (symm (at_ H)) x (na + i) p + mu * x (na + i)%nat p = rhs (na + i)%nat p) <->
   (forall p, (p < d i)%nat -> x (na + i)%nat p = dsi i x p)).
Proof.
  intros x i I. destruct (inv_ok i I) as [M [E J]].
  pose proof (solve_inverse (d i) M (inv i) (x (na + i)%nat) (fun u => rhs (na + i)%nat u - pull x i u) J) as S.
  assert (L : forall p, (p < d i)%nat -> bsum (d i) (fun q => M p q * x (na + i)%nat q) =
     bsum (d i) (fun q => at_ H (na + i) (na + i) p q * x (na + i)%nat q) + mu * x (na + i)%nat p).
  { intros p P.
    rewrite (bsum_ext (d i) _ (fun q => at_ H (na + i) (na + i) p q * x (na + i)%nat q + ident p q * (mu * x (na + i)%nat q)))
      by (intros q _; rewrite E; unfold damped; ring).
    rewrite bsum_plus. rewrite (bsum_ident_l (d i) (fun q => mu * x (na + i)%nat q) p P). reflexivity. }
  split.
  - intros F p P. rewrite dsi_ok. apply (proj1 S); [| exact P]. intros k K.
    rewrite (L k K). specialize (F k K). rewrite (full_gone x i k I K) in F. lra.
  - intros F p P. rewrite (full_gone x i p I P).
    assert (G : forall k, (k < d i)%nat -> x (na + i)%nat k = bsum (d i) (fun u => inv i k u * (rhs (na + i)%nat u - pull x i u)))
      by (intros k K; rewrite <- dsi_ok; exact (F k K)).
    pose proof (proj2 S G p P) as Q. simpl in Q. rewrite (L p P) in Q. lra.
Qed.

Lemma main : forall x,
  solves_full dims (na + nm) H mu rhs x <->
  solves dims na A b x /\ (forall i p, (i < nm)%nat -> (p < d i)%nat -> x (na + i)%nat p = dsi i x p).
Proof.
  intros x.
  assert (K : (forall i p, (i < nm)%nat -> (p < d i)%nat -> x (na + i)%nat p = dsi i x p) ->
    forall r p, (r < na)%nat -> (p < dims r)%nat ->
      times dims na (symm A) x r p - b r p =
      times dims (na + nm) (symm (at_ H)) x r p + mu * x r p - rhs r p).
  { intros G r p R P. rewrite (reduced x r p R P), (full_kept x r p R).
    assert (E : bsum nm (fun i => bsum (d i) (fun u => W i r p u * dsi i x u)) =
                bsum nm (fun i => bsum (d i) (fun u => W i r p u * x (na + i)%nat u))).
    { apply bsum_ext. intros i I. apply bsum_ext. intros u U. rewrite (G i u I U). reflexivity. }
    rewrite E. ring. }
  split.
  - intros F.
    assert (G : forall i p, (i < nm)%nat -> (p < d i)%nat -> x (na + i)%nat p = dsi i x p).
    { intros i p I P. apply (proj1 (gone_iff x i I)); [| exact P]. intros k Hk. apply F; [lia | exact Hk]. }
    split; [| exact G]. intros r p R P. specialize (K G r p R P).
    specialize (F r p ltac:(lia) P). lra.
  - intros [S G] r p R P. destruct (Nat.lt_ge_cases r na) as [L | L].
    + specialize (K G r p L P). specialize (S r p L P). lra.
    + replace r with (na + (r - na))%nat in * by lia.
      apply (proj2 (gone_iff x (r - na) ltac:(lia))); [| exact P].
      intros k Hk. apply G; [lia | exact Hk].
Qed.
End Main.
