(** * Lemmas about the memory of keypoints *)
From Coq Require Import ZArith Bool List Lia.
From Verif Require Import Base KpModel KpSpec.
Local Open Scope Z_scope.

Lemma upd_eq {A} (f : nat -> A) i x : upd f i x i = x.
Proof. unfold upd. rewrite Nat.eqb_refl. reflexivity. Qed.
Lemma upd_ne {A} (f : nat -> A) i x j : j <> i -> upd f i x j = f j.
Proof. intros N. unfold upd. destruct (Nat.eqb_spec j i); [ contradiction | reflexivity ]. Qed.
Ltac uc j i := destruct (Nat.eq_dec j i) as [ -> | ?];
  [ rewrite ?upd_eq in * | rewrite ?(@upd_ne _ _ i _ j) in * by assumption ].

(** ** Ownership of one kind of object *)
Definition own (ptr : nat -> option nat) (h : heap) : Prop :=
  (forall i p, ptr i = Some p -> at_ h p <> None) /\
  (forall i j p, ptr i = Some p -> ptr j = Some p -> i = j) /\
  (forall p, at_ h p <> None -> exists i, ptr i = Some p) /\
  (forall p, at_ h p <> None -> (p < next h)%nat).
Lemma own_ext ptr ptr' h : (forall i, ptr' i = ptr i) -> own ptr h -> own ptr' h.
Proof.
  intros E (A & B & C & D). split; [ | split; [ | split; [ | exact D ] ] ].
  - intros i p. rewrite E. apply A.
  - intros i j p. rewrite !E. apply B.
  - intros p L. destruct (C p L) as [i I]. exists i. rewrite E. exact I.
Qed.
Lemma alloc_own ptr h i x p h' : own ptr h -> ptr i = None -> alloc h x = (p, h') ->
  own (upd ptr i (Some p)) h' /\ (forall j, target h' (upd ptr i (Some p) j) = upd (fun j => target h (ptr j)) i (Some x) j) /\
  (forall q, at_ h q <> None -> at_ h' q = at_ h q).
Proof.
  intros (A & B & C & D) N E. unfold alloc in E. assert (P : p = next h) by congruence. assert (H : h' = Heap (upd (at_ h) (next h) (Some x)) (S (next h))) by congruence.
  subst p h'. clear E. assert (Z : at_ h (next h) = None) by (destruct (at_ h (next h)) eqn:Q; [ exfalso; assert (at_ h (next h) <> None) by congruence; specialize (D _ H); lia | reflexivity ]).
  assert (K : forall q, at_ h q <> None -> upd (at_ h) (next h) (Some x) q = at_ h q) by (intros q L; apply upd_ne; specialize (D q L); lia).
  split; [ split; [ | split; [ | split ] ] | split ]; cbn [at_ next].
  - intros j q. uc j i; intros J.
    + assert (q = next h) by congruence. subst q. rewrite upd_eq. discriminate.
    + rewrite K; apply (A j); exact J.
  - intros j k q. uc j i; uc k i; intros J J'; [ reflexivity | | | apply (B j k q); assumption ].
    + exfalso. assert (q = next h) by congruence. subst q. apply (A k _ J'). exact Z.
    + exfalso. assert (q = next h) by congruence. subst q. apply (A j _ J). exact Z.
  - intros q. uc q (next h); intros L.
    + exists i. apply upd_eq.
    + destruct (C q L) as [j J]. exists j. rewrite upd_ne; [ exact J | intros ->; congruence ].
  - intros q. uc q (next h); intros L; [ lia | specialize (D q L); lia ].
  - intros j. uc j i; cbn [target at_]; [ apply upd_eq | ]. destruct (ptr j) as [q | ] eqn:J; [ | reflexivity ]. cbn [target at_]. apply K. apply (A j). exact J.
  - exact K.
Qed.
Lemma free_own ptr h i p : own ptr h -> ptr i = Some p -> exists h', free h p = Ok h' /\
  own (upd ptr i None) h' /\ (forall j, target h' (upd ptr i None j) = upd (fun j => target h (ptr j)) i None j) /\
  (forall q, q <> p -> at_ h' q = at_ h q).
Proof.
  intros (A & B & C & D) E. unfold free. destruct (at_ h p) eqn:L; [ | exfalso; apply (A _ _ E); exact L ].
  eexists. split; [ reflexivity | ]. split; [ split; [ | split; [ | split ] ] | split ]; cbn [at_ next].
  - intros j q. uc j i; intros J; [ discriminate | ]. rewrite upd_ne; [ apply (A j); exact J | ]. intros ->. apply n. exact (B _ _ _ J E).
  - intros j k q. uc j i; uc k i; intros J J'; try discriminate. apply (B j k q); assumption.
  - intros q. uc q p; intros M; [ congruence | ]. destruct (C q M) as [j J]. exists j. rewrite upd_ne; [ exact J | intros ->; congruence ].
  - intros q. uc q p; intros M; [ congruence | apply D; exact M ].
  - intros j. uc j i; cbn [target at_]; [ reflexivity | ]. destruct (ptr j) as [q | ] eqn:J; [ | reflexivity ]. cbn [target at_]. apply upd_ne. intros ->. apply n. exact (B _ _ _ J E).
  - intros q N. apply upd_ne. exact N.
Qed.
Lemma release_own ptr h i : own ptr h -> exists h', release h (ptr i) = Ok h' /\
  own (upd ptr i None) h' /\ (forall j, target h' (upd ptr i None j) = upd (fun j => target h (ptr j)) i None j) /\
  (forall q, ptr i <> Some q -> at_ h' q = at_ h q).
Proof.
  intros O. destruct (ptr i) as [p | ] eqn:E.
  - destruct (free_own ptr h i p O E) as (h' & F & O' & T & K). exists h'. split; [ exact F | split; [ exact O' | split; [ exact T | ] ] ].
    intros q N. apply K. congruence.
  - exists h. split; [ reflexivity | ]. split; [ | split; [ | reflexivity ] ].
    + apply (own_ext ptr); [ | exact O ]. intros j. uc j i; congruence.
    + intros j. uc j i; [ reflexivity | reflexivity ].
Qed.
Lemma write_own ptr h i p x : own ptr h -> ptr i = Some p -> exists h', write h p x = Ok h' /\ own ptr h' /\
  (forall j, target h' (ptr j) = upd (fun j => target h (ptr j)) i (Some x) j).
Proof.
  intros (A & B & C & D) E. unfold write. destruct (at_ h p) eqn:L; [ | exfalso; apply (A _ _ E); exact L ].
  eexists. split; [ reflexivity | ]. split; [ split; [ | split; [ exact B | split ] ] | ]; cbn [at_ next].
  - intros j q J. uc q p; [ discriminate | apply (A j); exact J ].
  - intros q. uc q p; intros M; [ exists i; exact E | apply C; exact M ].
  - intros q. uc q p; intros M; [ apply D; congruence | apply D; exact M ].
  - intros j. uc j i; [ rewrite E; cbn [target at_]; apply upd_eq | ]. destruct (ptr j) as [q | ] eqn:J; [ | reflexivity ]. cbn [target at_]. apply upd_ne. intros ->. apply n. exact (B _ _ _ J E).
Qed.
Lemma clone_own ptr h i j : own ptr h -> ptr i = None -> exists r h', clone h (ptr j) = Ok (r, h') /\
  own (upd ptr i r) h' /\ (forall k, target h' (upd ptr i r k) = upd (fun k => target h (ptr k)) i (target h (ptr j)) k).
Proof.
  intros O N. destruct (ptr j) as [p | ] eqn:E; cbn [clone].
  - unfold read. destruct (at_ h p) as [x | ] eqn:L; [ | exfalso; apply (proj1 O _ _ E); exact L ]. cbn [obind].
    destruct (alloc h x) as [q h'] eqn:A. exists (Some q), h'. split; [ reflexivity | ]. cbn [target]. rewrite L.
    destruct (alloc_own ptr h i x q h' O N A) as (O' & T & _). split; assumption.
  - exists None, h. split; [ reflexivity | ]. split.
    + apply (own_ext ptr); [ | exact O ]. intros k. uc k i; congruence.
    + intros k. uc k i; reflexivity.
Qed.
Lemma make_own ptr h i x : own ptr h -> ptr i = None -> exists r h', make h x = (r, h') /\
  own (upd ptr i r) h' /\ (forall k, target h' (upd ptr i r k) = upd (fun k => target h (ptr k)) i x k).
Proof.
  intros O N. destruct x as [x | ]; cbn [make].
  - destruct (alloc h x) as [q h'] eqn:A. exists (Some q), h'. split; [ reflexivity | ].
    destruct (alloc_own ptr h i x q h' O N A) as (O' & T & _). split; assumption.
  - exists None, h. split; [ reflexivity | ]. split.
    + apply (own_ext ptr); [ | exact O ]. intros k. uc k i; congruence.
    + intros k. uc k i; reflexivity.
Qed.
Definition exchange {A} (f : nat -> A) (i j : nat) : nat -> A := upd (upd f i (f j)) j (f i).
Lemma exchange_own ptr h i j : own ptr h -> own (exchange ptr i j) h /\
  (forall k, target h (exchange ptr i j k) = exchange (fun k => target h (ptr k)) i j k).
Proof.
  intros (A & B & C & D). unfold exchange.
  assert (X : forall k, exists k', upd (upd ptr i (ptr j)) j (ptr i) k = ptr k').
  { intros k. uc k j; [ exists i; reflexivity | ]. uc k i; [ exists j; reflexivity | exists k; reflexivity ]. }
  split; [ split; [ | split; [ | split; [ | exact D ] ] ] | ].
  - intros k p. destruct (X k) as (k' & E). rewrite E. apply A.
  - intros k m p K M. uc k j; uc m j; try reflexivity; try (uc k i); try (uc m i); try reflexivity; pose proof (B _ _ _ K M); congruence.
  - intros p L. destruct (C p L) as [k K]. destruct (Nat.eq_dec k i) as [ -> | Ni ]; [ exists j; rewrite upd_eq; exact K | ].
    destruct (Nat.eq_dec k j) as [ -> | Nj ]; [ exists i; rewrite upd_ne by congruence; rewrite upd_eq; exact K | ].
    exists k. rewrite !upd_ne by assumption. exact K.
  - intros k. uc k j; [ reflexivity | ]. uc k i; reflexivity.
Qed.
Lemma same_own ptr h i p : own ptr h -> ptr i = p -> own (upd ptr i p) h /\
  (forall j, target h (upd ptr i p j) = upd (fun j => target h (ptr j)) i (target h p) j).
Proof.
  intros O E. split.
  - apply (own_ext ptr); [ | exact O ]. intros j. uc j i; congruence.
  - intros j. uc j i; reflexivity.
Qed.

(** ** All variables *)
Definition ptr_of (f : kp -> option nat) (s : nat -> option kp) (i : nat) : option nat :=
  match s i with Some k => f k | None => None end.
Lemma ptr_upd f s i k j : ptr_of f (upd s i (Some k)) j = upd (ptr_of f s) i (f k) j.
Proof. unfold ptr_of. uc j i; reflexivity. Qed.
Lemma ptr_upd_none f s i j : ptr_of f (upd s i None) j = upd (ptr_of f s) i None j.
Proof. unfold ptr_of. uc j i; reflexivity. Qed.
Definition dval (s : nat -> option kp) (d : heap) : Prop :=
  (forall i p, ptr_of dsc s i = Some p -> at_ d p <> None) /\ (forall p, at_ d p <> None -> (p < next d)%nat).
Definition inv (w : world) : Prop :=
  own (ptr_of lm (slots w)) (hl w) /\ own (ptr_of bp (slots w)) (hb w) /\ dval (slots w) (hd w).
Definition look (w : world) (i : nat) : option shown :=
  match slots w i with
  | None => None
  | Some k => Some (Shown (meas k) (cov k) (lid k) (target (hl w) (ptr_of lm (slots w) i)) (dsc k)
                          (target (hb w) (ptr_of bp (slots w) i)) (oct k) (trace k))
  end.
Lemma look_show w i : show w i = look w (S i).
Proof. unfold show, look, ptr_of. destruct (slots w (S i)); reflexivity. Qed.
Lemma look_some w i k : slots w i = Some k ->
  look w i = Some (Shown (meas k) (cov k) (lid k) (target (hl w) (lm k)) (dsc k) (target (hb w) (bp k)) (oct k) (trace k)).
Proof. intros E. unfold look, ptr_of. rewrite E. reflexivity. Qed.
Lemma look_inv w i v : look w i = Some v -> exists k, slots w i = Some k /\
  v = Shown (meas k) (cov k) (lid k) (target (hl w) (lm k)) (dsc k) (target (hb w) (bp k)) (oct k) (trace k).
Proof. intros E. destruct (slots w i) as [k | ] eqn:K; [ | unfold look in E; rewrite K in E; discriminate ]. exists k. split; [ reflexivity | ]. rewrite (look_some w i k K) in E. congruence. Qed.
Lemma look_none w i : look w i = None -> slots w i = None.
Proof. unfold look. destruct (slots w i); [ discriminate | reflexivity ]. Qed.

Lemma change w i k a b d tl tb :
  own (upd (ptr_of lm (slots w)) i (lm k)) a ->
  (forall j, target a (upd (ptr_of lm (slots w)) i (lm k) j) = upd (fun j => target (hl w) (ptr_of lm (slots w) j)) i tl j) ->
  own (upd (ptr_of bp (slots w)) i (bp k)) b ->
  (forall j, target b (upd (ptr_of bp (slots w)) i (bp k) j) = upd (fun j => target (hb w) (ptr_of bp (slots w) j)) i tb j) ->
  dval (upd (slots w) i (Some k)) d ->
  let w' := World (upd (slots w) i (Some k)) a b d in
  inv w' /\ (forall j, look w' j = upd (look w) i (Some (Shown (meas k) (cov k) (lid k) tl (dsc k) tb (oct k) (trace k))) j).
Proof.
  intros A TA B TB D. cbv zeta. split.
  - split; [ | split ]; cbn [slots hl hb hd].
    + apply (own_ext _ _ _ (ptr_upd lm (slots w) i k)). exact A.
    + apply (own_ext _ _ _ (ptr_upd bp (slots w) i k)). exact B.
    + exact D.
  - intros j. unfold look at 1. cbn [slots hl hb]. rewrite !ptr_upd, TA, TB. uc j i; [ reflexivity | ]. reflexivity.
Qed.
Lemma kill w i a b :
  own (upd (ptr_of lm (slots w)) i None) a ->
  (forall j, target a (upd (ptr_of lm (slots w)) i None j) = upd (fun j => target (hl w) (ptr_of lm (slots w) j)) i None j) ->
  own (upd (ptr_of bp (slots w)) i None) b ->
  (forall j, target b (upd (ptr_of bp (slots w)) i None j) = upd (fun j => target (hb w) (ptr_of bp (slots w) j)) i None j) ->
  dval (slots w) (hd w) ->
  let w' := World (upd (slots w) i None) a b (hd w) in
  inv w' /\ (forall j, look w' j = upd (look w) i None j).
Proof.
  intros A TA B TB [D E]. cbv zeta. split.
  - split; [ | split ]; cbn [slots hl hb hd].
    + apply (own_ext _ _ _ (ptr_upd_none lm (slots w) i)). exact A.
    + apply (own_ext _ _ _ (ptr_upd_none bp (slots w) i)). exact B.
    + split; [ | exact E ]. intros j p. rewrite ptr_upd_none. uc j i; [ discriminate | apply D ].
  - intros j. unfold look at 1. cbn [slots hl hb]. rewrite !ptr_upd_none, TA, TB. uc j i; reflexivity.
Qed.
Lemma dval_upd s d i k : dval s d -> (forall p, dsc k = Some p -> at_ d p <> None) -> dval (upd s i (Some k)) d.
Proof. intros [A B] C. split; [ | exact B ]. intros j p. rewrite ptr_upd. uc j i; [ apply C | apply A ]. Qed.
Lemma dval_at s d i k p : dval s d -> s i = Some k -> dsc k = Some p -> at_ d p <> None.
Proof. intros [A _] E F. apply (A i). unfold ptr_of. rewrite E. exact F. Qed.
Lemma dval_alloc s d x p d' : dval s d -> alloc d x = (p, d') ->
  dval s d' /\ p = next d /\ next d' = S (next d) /\ at_ d' p <> None /\ forall q, at_ d' q = upd (at_ d) p (Some x) q.
Proof.
  intros [A B] E. unfold alloc in E. assert (P : p = next d) by congruence. assert (H : d' = Heap (upd (at_ d) (next d) (Some x)) (S (next d))) by congruence.
  subst p d'. cbn [at_ next]. split; [ | split; [ reflexivity | split; [ reflexivity | split; [ rewrite upd_eq; discriminate | reflexivity ] ] ] ].
  split; cbn [at_ next].
  - intros i p I. uc p (next d); [ discriminate | apply (A i); exact I ].
  - intros p. uc p (next d); intros L; [ lia | specialize (B p L); lia ].
Qed.

(** ** The operations *)
Lemma construct_ok w i k : inv w -> slots w i = None -> lm k = None -> bp k = None -> dsc k = None ->
  exists w', construct w i k = Ok w' /\ inv w' /\ hd w' = hd w /\
    (forall j, look w' j = upd (look w) i (Some (Shown (meas k) (cov k) (lid k) None None None (oct k) (trace k))) j).
Proof.
  intros (A & B & D) E L M N. unfold construct. rewrite E. eexists. split; [ reflexivity | ]. unfold put.
  destruct (same_own _ _ i None A) as [A1 A2]; [ unfold ptr_of; rewrite E; reflexivity | ].
  destruct (same_own _ _ i None B) as [B1 B2]; [ unfold ptr_of; rewrite E; reflexivity | ].
  destruct (change w i k (hl w) (hb w) (hd w) None None) as [I J]; rewrite ?L, ?M; try assumption.
  { apply dval_upd; [ exact D | congruence ]. }
  split; [ exact I | split; [ reflexivity | ] ]. rewrite N in J. exact J.
Qed.
Lemma copy_ok w i j v : inv w -> slots w i = None -> look w j = Some v ->
  exists w', copy w i j = Ok w' /\ inv w' /\ hd w' = hd w /\ (forall m, look w' m = upd (look w) i (Some v) m).
Proof.
  intros (A & B & D) E V. destruct (look_inv _ _ _ V) as (k & K & ->). unfold copy, get. rewrite K. cbn [obind].
  destruct (clone_own _ _ i j A) as (r & a & C & A1 & A2); [ unfold ptr_of; rewrite E; reflexivity | ]. unfold ptr_of at 1 in C. rewrite K in C. rewrite C. cbn [obind].
  destruct (clone_own _ _ i j B) as (q & b & C' & B1 & B2); [ unfold ptr_of; rewrite E; reflexivity | ]. unfold ptr_of at 1 in C'. rewrite K in C'. rewrite C'. cbn [obind fst snd].
  unfold construct. cbn [slots]. rewrite E. eexists. split; [ reflexivity | ]. unfold put. cbn [slots hl hb hd].
  edestruct (change w i (Kp (meas k) (cov k) (lid k) r (dsc k) q (oct k) (trace k)) a b (hd w)) as [I J]; cbn [lm bp]; try eassumption.
  { apply dval_upd; [ exact D | ]. cbn [dsc]. intros p Q0. exact (dval_at _ _ _ _ p D K Q0). }
  split; [ exact I | split; [ reflexivity | ] ]. intros m. rewrite J. cbn [meas cov lid dsc oct trace].
  unfold ptr_of. rewrite K. reflexivity.
Qed.
Lemma destroy_ok w i v : inv w -> look w i = Some v ->
  exists w', destroy w i = Ok w' /\ inv w' /\ hd w' = hd w /\ (forall m, look w' m = upd (look w) i None m).
Proof.
  intros (A & B & D) V. destruct (look_inv _ _ _ V) as (k & K & ->). unfold destroy, get. rewrite K. cbn [obind].
  destruct (release_own _ _ i A) as (a & C & A1 & A2 & _). unfold ptr_of at 1 in C. rewrite K in C. rewrite C. cbn [obind].
  destruct (release_own _ _ i B) as (b & C' & B1 & B2 & _). unfold ptr_of at 1 in C'. rewrite K in C'. rewrite C'. cbn [obind].
  eexists. split; [ reflexivity | ]. unfold put. cbn [slots hl hb hd].
  edestruct (kill w i a b) as [I J]; try eassumption. split; [ exact I | split; [ reflexivity | exact J ] ].
Qed.
Lemma swap_ok w i j u v : inv w -> look w i = Some u -> look w j = Some v ->
  exists w', swap w i j = Ok w' /\ inv w' /\ hd w' = hd w /\
    (forall m, look w' m = upd (upd (look w) i (Some (take v u))) j (Some (take u v)) m).
Proof.
  intros (A & B & D) U V. destruct (look_inv _ _ _ U) as (k & K & EU). destruct (look_inv _ _ _ V) as (n & N & EV).
  unfold swap, get. rewrite K, N. cbn [obind]. destruct (Nat.eqb_spec i j) as [ E | E ].
  - subst j. exists w. split; [ reflexivity | ]. split; [ split; [ exact A | split; assumption ] | ]. split; [ reflexivity | ].
    intros m. assert (UV : v = u) by congruence. rewrite UV. assert (T : take u u = u) by (clear; destruct u; reflexivity). rewrite T. uc m i; [ exact U | reflexivity ].
  - eexists. split; [ reflexivity | ].
    set (k1 := Kp (meas n) (cov n) (lid n) (lm n) (dsc n) (bp n) (oct k) (trace k)).
    set (n1 := Kp (meas k) (cov k) (lid k) (lm k) (dsc k) (bp k) (oct n) (trace n)).
    assert (P : forall f, f k1 = f n -> f n1 = f k -> forall m, ptr_of f (upd (upd (slots w) i (Some k1)) j (Some n1)) m = exchange (ptr_of f (slots w)) i j m).
    { intros f F G m. rewrite ptr_upd. unfold exchange. uc m j; [ unfold ptr_of; rewrite K; exact G | ]. rewrite ptr_upd. uc m i; [ unfold ptr_of; rewrite N; exact F | reflexivity ]. }
    destruct (exchange_own _ _ i j A) as [A1 A2]. destruct (exchange_own _ _ i j B) as [B1 B2].
    unfold put. cbn [slots hl hb hd]. split; [ | split; [ reflexivity | ] ].
    + split; [ | split ]; cbn [slots hl hb hd].
      * apply (own_ext _ _ _ (P lm eq_refl eq_refl)). exact A1.
      * apply (own_ext _ _ _ (P bp eq_refl eq_refl)). exact B1.
      * apply dval_upd; [ apply dval_upd; [ exact D | ] | ]; cbn [dsc k1 n1]; intros p Q0; [ exact (dval_at _ _ _ _ p D N Q0) | exact (dval_at _ _ _ _ p D K Q0) ].
    + intros m. unfold look at 1. cbn [slots hl hb]. rewrite (P lm eq_refl eq_refl), (P bp eq_refl eq_refl), A2, B2. subst u v. unfold exchange. uc m j.
      * unfold take, ptr_of. rewrite K. reflexivity.
      * uc m i; [ unfold take, ptr_of; rewrite N; reflexivity | ]. reflexivity.
Qed.
Lemma look_slot w i : slots w i = None -> look w i = None.
Proof. intros E. unfold look. rewrite E. reflexivity. Qed.
Lemma assign_ok w i j u v : inv w -> slots w 0 = None -> look w (S i) = Some u -> look w (S j) = Some v ->
  exists w', assign w (S i) (S j) = Ok w' /\ inv w' /\ hd w' = hd w /\ (forall m, look w' m = upd (look w) (S i) (Some (take v u)) m).
Proof.
  intros I Z U V. unfold assign. destruct (copy_ok w 0 (S j) v I Z V) as (w1 & -> & I1 & D1 & L1). cbn [obind].
  destruct (swap_ok w1 (S i) 0 u v I1) as (w2 & -> & I2 & D2 & L2).
  { rewrite L1, upd_ne by lia. exact U. }
  { rewrite L1. apply upd_eq. }
  cbn [obind]. destruct (destroy_ok w2 0 (take u v) I2) as (w3 & -> & I3 & D3 & L3). { rewrite L2. apply upd_eq. }
  exists w3. split; [ reflexivity | split; [ exact I3 | split; [ congruence | ] ] ]. intros m. rewrite L3. uc m 0%nat.
  - rewrite upd_ne by lia. symmetry. apply look_slot. exact Z.
  - rewrite L2, upd_ne by assumption. uc m (S i); [ reflexivity | ]. rewrite L1. apply upd_ne. assumption.
Qed.
(** Changing only fields of a keypoint that own nothing, and the descriptor. *)
Lemma fields_ok w i k k' d : inv w -> slots w i = Some k -> lm k' = lm k -> bp k' = bp k -> dval (upd (slots w) i (Some k')) d ->
  let w' := World (upd (slots w) i (Some k')) (hl w) (hb w) d in
  inv w' /\ (forall j, look w' j = upd (look w) i (Some (Shown (meas k') (cov k') (lid k') (target (hl w) (lm k)) (dsc k') (target (hb w) (bp k)) (oct k') (trace k'))) j).
Proof.
  intros (A & B & _) E L M D. apply change; rewrite ?L, ?M; try exact D.
  - apply same_own; [ exact A | unfold ptr_of; rewrite E; reflexivity ].
  - apply same_own; [ exact A | unfold ptr_of; rewrite E; reflexivity ].
  - apply same_own; [ exact B | unfold ptr_of; rewrite E; reflexivity ].
  - apply same_own; [ exact B | unfold ptr_of; rewrite E; reflexivity ].
Qed.
Lemma set_field_ok w i v f x : inv w -> look w i = Some v ->
  exists w', set_field w i f x = Ok w' /\ inv w' /\ hd w' = hd w /\ (forall m, look w' m = upd (look w) i (Some (with_field v f x)) m).
Proof.
  intros I V. destruct (look_inv _ _ _ V) as (k & K & ->). unfold set_field, get. rewrite K. cbn [obind]. unfold put.
  pose proof I as (_ & _ & D). eexists. split; [ reflexivity | ].
  destruct f; (edestruct (fields_ok w i k) as [X Y]; [ exact I | exact K | | | | split; [ exact X | split; [ reflexivity | exact Y ] ] ]; [ reflexivity | reflexivity | apply dval_upd; [ exact D | cbn [dsc]; intros p Q0; exact (dval_at _ _ _ _ p D K Q0) ] ]).
Qed.
Lemma share_ok w i j u v : inv w -> look w i = Some v -> look w j = Some u ->
  exists w', share_descriptor w i j = Ok w' /\ inv w' /\ hd w' = hd w /\ (forall m, look w' m = upd (look w) i (Some (with_desc v (vdsc u))) m).
Proof.
  intros I V U. destruct (look_inv _ _ _ V) as (k & K & ->). destruct (look_inv _ _ _ U) as (n & N & ->). unfold share_descriptor, get. rewrite K, N. cbn [obind]. unfold put.
  pose proof I as (_ & _ & D). eexists. split; [ reflexivity | ].
  edestruct (fields_ok w i k (with_dsc k (dsc n)) (hd w)) as [X Y]; [ exact I | exact K | reflexivity | reflexivity | | split; [ exact X | split; [ reflexivity | exact Y ] ] ].
  apply dval_upd; [ exact D | ]. cbn [dsc with_dsc]. intros p Q0. exact (dval_at _ _ _ _ p D N Q0).
Qed.
Lemma set_descriptor_ok w i v x : inv w -> look w i = Some v ->
  exists w', set_descriptor w i x = Ok w' /\ inv w' /\ next (hd w') = S (next (hd w)) /\ (forall p, at_ (hd w') p = upd (at_ (hd w)) (next (hd w)) (Some x) p) /\
    (forall m, look w' m = upd (look w) i (Some (with_desc v (Some (next (hd w))))) m).
Proof.
  intros I V. destruct (look_inv _ _ _ V) as (k & K & ->). unfold set_descriptor, get. rewrite K. cbn [obind].
  pose proof I as (_ & _ & D). destruct (alloc (hd w) x) as [p d] eqn:E. destruct (dval_alloc _ _ _ _ _ D E) as (D1 & -> & N & L & H).
  eexists. split; [ reflexivity | ]. unfold put. cbn [slots hl hb hd].
  edestruct (fields_ok w i k (with_dsc k (Some (next (hd w)))) d) as [X Y]; [ exact I | exact K | reflexivity | reflexivity | | ].
  { apply dval_upd; [ exact D1 | ]. cbn [dsc with_dsc]. intros p. intros Q. assert (p = next (hd w)) by congruence. subst p. exact L. }
  split; [ exact X | split; [ exact N | split; [ exact H | exact Y ] ] ].
Qed.
Lemma edit_ok w i v x p : inv w -> look w i = Some v -> vdsc v = Some p ->
  exists w', edit_descriptor w i x = Ok w' /\ inv w' /\ next (hd w') = next (hd w) /\ (forall q, at_ (hd w') q = upd (at_ (hd w)) p (Some x) q) /\
    (forall m, look w' m = look w m).
Proof.
  intros I V P. destruct (look_inv _ _ _ V) as (k & K & ->). cbn [vdsc] in P. unfold edit_descriptor, get. rewrite K. cbn [obind]. rewrite P.
  destruct I as (A & B & D). pose proof (dval_at _ _ i k p D K P) as L. unfold write. destruct (at_ (hd w) p) eqn:Q; [ | contradiction ]. cbn [obind].
  eexists. split; [ reflexivity | ]. split; [ | split; [ reflexivity | split; [ reflexivity | reflexivity ] ] ].
  split; [ exact A | split; [ exact B | ] ]. destruct D as [D1 D2]. split; cbn [slots hd at_ next].
  - intros j q J. uc q p; [ discriminate | apply (D1 j); exact J ].
  - intros q. uc q p; intros M; [ apply D2; congruence | apply D2; exact M ].
Qed.

Lemma eval_ok w part h a x :
  match a with Value y => y = x | Of j => target h (ptr_of part (slots w) (S j)) = Some x end ->
  exists r, deref w part a = Ok r /\ eval h r = Ok x /\ match a with Value y => r = Val y | Of j => exists p, ptr_of part (slots w) (S j) = Some p /\ r = Ref p end.
Proof.
  destruct a as [y | j].
  - intros ->. exists (Val x). split; [ reflexivity | split; reflexivity ].
  - intros T. unfold deref, get. unfold ptr_of in *. destruct (slots w (S j)) as [k | ]; [ | discriminate ]. cbn [obind].
    destruct (part k) as [p | ]; [ | discriminate ]. exists (Ref p). split; [ reflexivity | ]. split; [ | exists p; split; reflexivity ].
    cbn [eval]. unfold read. cbn [target] in T. rewrite T. reflexivity.
Qed.
Lemma ptr_at f s i (k : kp) : s i = Some k -> ptr_of f s i = f k.
Proof. intros E. unfold ptr_of. rewrite E. reflexivity. Qed.
Lemma set_landmark_ok w i v r x : inv w -> look w i = Some v -> eval (hl w) r = Ok x ->
  exists w', set_landmark w i r = Ok w' /\ inv w' /\ hd w' = hd w /\ (forall m, look w' m = upd (look w) i (Some (with_lm v (Some x) (vlid v))) m).
Proof.
  intros (A & B & D) V R. destruct (look_inv _ _ _ V) as (k & K & ->). unfold set_landmark, get. rewrite K. cbn [obind]. rewrite R.
  pose proof (ptr_at lm _ _ _ K) as PL. pose proof (ptr_at bp _ _ _ K) as PB. destruct (lm k) as [p | ] eqn:L; cbn [obind].
  - destruct (write_own _ _ i p x A PL) as (h & -> & A1 & A2). cbn [obind]. eexists. split; [ reflexivity | ].
    split; [ split; [ exact A1 | split; assumption ] | ]. split; [ reflexivity | ]. intros m. unfold look at 1. cbn [slots hl hb]. rewrite A2.
    uc m i; [ rewrite K, PB; reflexivity | reflexivity ].
  - destruct (alloc (hl w) x) as [p h] eqn:E. destruct (alloc_own _ _ i x p h A PL E) as (A1 & A2 & _). eexists. split; [ reflexivity | ]. unfold put. cbn [slots hl hb hd].
    destruct (same_own _ _ i (bp k) B PB) as [B1 B2].
    edestruct (change w i (Kp (meas k) (cov k) (lid k) (Some p) (dsc k) (bp k) (oct k) (trace k)) h (hb w) (hd w)) as [X Y]; cbn [lm bp]; try eassumption.
    { apply dval_upd; [ exact D | ]. cbn [dsc]. intros q Q0. exact (dval_at _ _ _ _ q D K Q0). }
    split; [ exact X | split; [ reflexivity | exact Y ] ].
Qed.
Lemma clear_landmark_ok w i v : inv w -> look w i = Some v ->
  exists w', clear_landmark w i = Ok w' /\ inv w' /\ hd w' = hd w /\ (forall m, look w' m = upd (look w) i (Some (with_lm v None ID_UNSET)) m).
Proof.
  intros (A & B & D) V. destruct (look_inv _ _ _ V) as (k & K & ->). unfold clear_landmark, get. rewrite K. cbn [obind].
  pose proof (ptr_at bp _ _ _ K) as PB. destruct (release_own _ _ i A) as (h & R & A1 & A2 & _). rewrite (ptr_at lm _ _ _ K) in R. rewrite R. cbn [obind].
  eexists. split; [ reflexivity | ]. unfold put. cbn [slots hl hb hd]. destruct (same_own _ _ i (bp k) B PB) as [B1 B2].
  edestruct (change w i (Kp (meas k) (cov k) ID_UNSET None (dsc k) (bp k) (oct k) (trace k)) h (hb w) (hd w)) as [X Y]; cbn [lm bp]; try eassumption.
  { apply dval_upd; [ exact D | ]. cbn [dsc]. intros q Q0. exact (dval_at _ _ _ _ q D K Q0). }
  split; [ exact X | split; [ reflexivity | exact Y ] ].
Qed.
Lemma clear_back_ok w i v : inv w -> look w i = Some v ->
  exists w', clear_back w i = Ok w' /\ inv w' /\ hd w' = hd w /\ (forall m, look w' m = upd (look w) i (Some (with_bp v None)) m).
Proof.
  intros (A & B & D) V. destruct (look_inv _ _ _ V) as (k & K & ->). unfold clear_back, get. rewrite K. cbn [obind].
  pose proof (ptr_at lm _ _ _ K) as PL. destruct (release_own _ _ i B) as (h & R & B1 & B2 & _). rewrite (ptr_at bp _ _ _ K) in R. rewrite R. cbn [obind].
  eexists. split; [ reflexivity | ]. unfold put. cbn [slots hl hb hd]. destruct (same_own _ _ i (lm k) A PL) as [A1 A2].
  edestruct (change w i (Kp (meas k) (cov k) (lid k) (lm k) (dsc k) None (oct k) (trace k)) (hl w) h (hd w)) as [X Y]; cbn [lm bp]; try eassumption.
  { apply dval_upd; [ exact D | ]. cbn [dsc]. intros q Q0. exact (dval_at _ _ _ _ q D K Q0). }
  split; [ exact X | split; [ reflexivity | exact Y ] ].
Qed.
Lemma set_back_ok w i v r x : inv w -> look w i = Some v -> eval (hb w) r = Ok x ->
  (forall p, r = Ref p -> ptr_of bp (slots w) i <> Some p) ->
  exists w', set_back w i r = Ok w' /\ inv w' /\ hd w' = hd w /\ (forall m, look w' m = upd (look w) i (Some (with_bp v (Some x))) m).
Proof.
  intros (A & B & D) V R NE. destruct (look_inv _ _ _ V) as (k & K & ->). unfold set_back, get. rewrite K. cbn [obind].
  pose proof (ptr_at lm _ _ _ K) as PL. destruct (release_own _ _ i B) as (h & F & B1 & B2 & B3).
  assert (R' : eval h r = Ok x). { destruct r as [y | p]; [ exact R | ]. cbn [eval] in *. unfold read in *. rewrite B3; [ exact R | ]. apply NE. reflexivity. }
  rewrite (ptr_at bp _ _ _ K) in F. rewrite F. cbn [obind]. rewrite R'. cbn [obind].
  destruct (alloc h x) as [p h'] eqn:E. destruct (alloc_own _ _ i x p h' B1 (upd_eq _ _ _) E) as (C1 & C2 & _).
  assert (O : forall y j, upd (upd (ptr_of bp (slots w)) i None) i y j = upd (ptr_of bp (slots w)) i y j) by (intros y j; uc j i; reflexivity).
  eexists. split; [ reflexivity | ]. unfold put. cbn [slots hl hb hd]. destruct (same_own _ _ i (lm k) A PL) as [A1 A2].
  edestruct (change w i (Kp (meas k) (cov k) (lid k) (lm k) (dsc k) (Some p) (oct k) (trace k)) (hl w) h' (hd w)) with (tb := Some x) as [X Y]; cbn [lm bp]; try eassumption.
  { apply (own_ext (upd (upd (ptr_of bp (slots w)) i None) i (Some p))); [ intros j; symmetry; apply O | exact C1 ]. }
  { intros j. rewrite <- O, C2. uc j i; [ reflexivity | ]. specialize (B2 j). rewrite !upd_ne in B2 by assumption. exact B2. }
  { apply dval_upd; [ exact D | ]. cbn [dsc]. intros q Q0. exact (dval_at _ _ _ _ q D K Q0). }
  split; [ exact X | split; [ reflexivity | exact Y ] ].
Qed.
Lemma load_ok w i v version s : inv w -> look w i = Some v -> vlm v = None -> vbp v = None -> 0 <= version <= 1 ->
  exists w', load w i version s = Ok w' /\ inv w' /\
    next (hd w') = (match sdsc s with None => next (hd w) | Some _ => S (next (hd w)) end) /\
    (forall p, at_ (hd w') p = match sdsc s with None => at_ (hd w) p | Some x => upd (at_ (hd w)) (next (hd w)) (Some x) p end) /\
    (forall m, look w' m = upd (look w) i (Some (Shown (smeas s) (scov s) (slid s) (slm s)
       (match sdsc s with None => None | Some _ => Some (next (hd w)) end) (sbp s) (if version =? 1 then soct s else voct v) (vtrace v))) m).
Proof.
  intros (A & B & D) V VL VB N. destruct (look_inv _ _ _ V) as (k & K & ->). cbn [vlm vbp voct vtrace] in *. unfold load, get. rewrite K. cbn [obind].
  destruct (version >? 1) eqn:G; [ rewrite Z.gtb_lt in G; lia | ]. clear G.
  assert (LN : lm k = None). { destruct (lm k) as [p | ] eqn:E; [ | reflexivity ]. exfalso. apply (proj1 A i p); [ rewrite (ptr_at lm _ _ _ K); exact E | exact VL ]. }
  assert (BN : bp k = None). { destruct (bp k) as [p | ] eqn:E; [ | reflexivity ]. exfalso. apply (proj1 B i p); [ rewrite (ptr_at bp _ _ _ K); exact E | exact VB ]. }
  destruct (make_own _ _ i (slm s) A) as (l & h1 & -> & A1 & A2). { rewrite (ptr_at lm _ _ _ K). exact LN. }
  destruct (make_own _ _ i (sbp s) B) as (b & h3 & M3 & B1 & B2). { rewrite (ptr_at bp _ _ _ K). exact BN. }
  assert (DD : exists d h2, make (hd w) (sdsc s) = (d, h2) /\ dval (slots w) h2 /\ d = match sdsc s with None => None | Some _ => Some (next (hd w)) end /\
    (forall p, d = Some p -> at_ h2 p <> None) /\ next h2 = (match sdsc s with None => next (hd w) | Some _ => S (next (hd w)) end) /\
    (forall p, at_ h2 p = match sdsc s with None => at_ (hd w) p | Some x => upd (at_ (hd w)) (next (hd w)) (Some x) p end)).
  { destruct (sdsc s) as [x | ]; cbn [make].
    - destruct (alloc (hd w) x) as [p h] eqn:E. destruct (dval_alloc _ _ _ _ _ D E) as (D1 & -> & D2 & D3 & D4). exists (Some (next (hd w))), h.
      split; [ reflexivity | split; [ exact D1 | split; [ reflexivity | split; [ | split; [ exact D2 | exact D4 ] ] ] ] ]. intros q Q. assert (q = next (hd w)) by congruence. subst q. exact D3.
    - exists None, (hd w). split; [ reflexivity | split; [ exact D | split; [ reflexivity | split; [ discriminate | split; reflexivity ] ] ] ]. }
  destruct DD as (d & h2 & -> & D1 & DE & D2 & D3 & D4). rewrite M3.
  eexists. split; [ reflexivity | ]. unfold put. cbn [slots hl hb hd].
  edestruct (change w i (Kp (smeas s) (scov s) (slid s) l d b (if version >? 0 then soct s else oct k) (trace k)) h1 h3 h2) as [X Y]; cbn [lm bp]; try eassumption.
  { apply dval_upd; [ exact D1 | exact D2 ]. }
  split; [ exact X | split; [ exact D3 | split; [ exact D4 | ] ] ]. intros m. rewrite Y. cbn [meas cov lid dsc oct trace]. rewrite <- DE.
  replace (version >? 0) with (version =? 1); [ reflexivity | ]. apply eq_true_iff_eq. rewrite Z.eqb_eq, Z.gtb_lt. lia.
Qed.

(** ** Histories *)
Definition rel (w : world) (s : store) : Prop :=
  inv w /\ slots w 0 = None /\ (forall i, show w i = vars s i) /\ (forall p, at_ (hd w) p = descs s p) /\ next (hd w) = ndesc s.
Lemma rel_init : rel init nothing.
Proof.
  assert (P : forall f i, ptr_of f (slots init) i = None) by reflexivity.
  assert (O : forall f h, h = empty_heap -> own (ptr_of f (slots init)) h).
  { intros f h ->. split; [ | split; [ | split ] ]; cbn [at_ empty_heap].
    - intros i p. rewrite P. discriminate.
    - intros i j p. rewrite P. discriminate.
    - intros p N. contradiction.
    - intros p N. contradiction. }
  split; [ | split; [ reflexivity | split; [ reflexivity | split; reflexivity ] ] ].
  split; [ apply O; reflexivity | split; [ apply O; reflexivity | ] ]. split; [ discriminate | ]. intros p N. contradiction.
Qed.
(** A result that changes one variable and leaves the descriptors alone. *)
Lemma rel_set w s w' i v : rel w s -> inv w' -> hd w' = hd w -> (forall m, look w' m = upd (look w) (S i) v m) -> rel w' (setv s i v).
Proof.
  intros (_ & Z & V & D & N) I H L. split; [ exact I | ]. split.
  - apply look_none. rewrite L, upd_ne by lia. apply look_slot. exact Z.
  - cbn [setv vars descs ndesc]. rewrite H. split; [ | split; [ exact D | exact N ] ].
    intros m. rewrite look_show, L. unfold set, upd. cbn [Nat.eqb]. destruct (Nat.eqb m i); [ reflexivity | ]. rewrite <- V. symmetry. apply look_show.
Qed.
Lemma rel_look w s i v : rel w s -> vars s i = Some v -> look w (S i) = Some v.
Proof. intros (_ & _ & V & _) E. rewrite <- look_show, V. exact E. Qed.
Lemma rel_free w s i : rel w s -> vars s i = None -> slots w (S i) = None.
Proof. intros (_ & _ & V & _) E. apply look_none. rewrite <- look_show, V. exact E. Qed.
Lemma deref_ok w s part vpart h a x : rel w s ->
  (forall k, target h (part k) = vpart (Shown (meas k) (cov k) (lid k) (target (hl w) (lm k)) (dsc k) (target (hb w) (bp k)) (oct k) (trace k))) ->
  source_value s vpart a = Some x ->
  exists r, deref w part a = Ok r /\ eval h r = Ok x /\ match a with Value y => r = Val y | Of j => exists p, ptr_of part (slots w) (S j) = Some p /\ r = Ref p end.
Proof.
  intros R P E. apply eval_ok. destruct a as [y | j]; cbn [source_value] in E; [ congruence | ].
  destruct (vars s j) as [v | ] eqn:V; [ | discriminate ]. destruct (look_inv _ _ _ (rel_look _ _ _ _ R V)) as (k & K & ->). rewrite (ptr_at part _ _ _ K), P. exact E.
Qed.
Lemma step_ok w s o s' : rel w s -> proper s o -> expect s o = Some s' -> exists w', step w o = Ok w' /\ rel w' s'.
Proof.
  intros R P E. pose proof R as (I & Z & V & D & N). destruct o as [i | i j | i j | i j | i | i f x | i a | i | i a | i | i x | i j | i x | i n a]; cbn [expect step] in *.
  - destruct (vars s i) eqn:A; [ discriminate | ]. destruct (construct_ok w (S i) fresh I (rel_free _ _ _ R A) eq_refl eq_refl eq_refl) as (w' & -> & I' & H & L).
    exists w'. split; [ reflexivity | ]. assert (ES : s' = setv s i (Some default)) by congruence. rewrite ES. apply (rel_set w); assumption.
  - destruct (vars s i) eqn:A; [ discriminate | ]. destruct (vars s j) as [v | ] eqn:B; [ | discriminate ].
    destruct (copy_ok w (S i) (S j) v I (rel_free _ _ _ R A) (rel_look _ _ _ _ R B)) as (w' & -> & I' & H & L).
    exists w'. split; [ reflexivity | ]. assert (ES : s' = setv s i (Some v)) by congruence. rewrite ES. apply (rel_set w); assumption.
  - destruct (vars s i) as [u | ] eqn:A; [ | discriminate ]. destruct (vars s j) as [v | ] eqn:B; [ | discriminate ].
    destruct (assign_ok w i j u v I Z (rel_look _ _ _ _ R A) (rel_look _ _ _ _ R B)) as (w' & -> & I' & H & L).
    exists w'. split; [ reflexivity | ]. assert (ES : s' = setv s i (Some (take v u))) by congruence. rewrite ES. apply (rel_set w); assumption.
  - destruct (vars s i) as [u | ] eqn:A; [ | discriminate ]. destruct (vars s j) as [v | ] eqn:B; [ | discriminate ].
    destruct (swap_ok w (S i) (S j) u v I (rel_look _ _ _ _ R A) (rel_look _ _ _ _ R B)) as (w' & -> & I' & H & L).
    exists w'. split; [ reflexivity | ]. assert (ES : s' = setv (setv s i (Some (take v u))) j (Some (take u v))) by congruence. rewrite ES.
    split; [ exact I' | ]. split.
    + apply look_none. rewrite L, !upd_ne by lia. apply look_slot. exact Z.
    + cbn [setv vars descs ndesc]. rewrite H. split; [ | split; [ exact D | exact N ] ].
      intros m. rewrite look_show, L. unfold set, upd. cbn [Nat.eqb]. destruct (Nat.eqb m j); [ reflexivity | ]. destruct (Nat.eqb m i); [ reflexivity | ]. rewrite <- V. symmetry. apply look_show.
  - destruct (vars s i) as [u | ] eqn:A; [ | discriminate ]. destruct (destroy_ok w (S i) u I (rel_look _ _ _ _ R A)) as (w' & -> & I' & H & L).
    exists w'. split; [ reflexivity | ]. assert (ES : s' = setv s i None) by congruence. rewrite ES. apply (rel_set w); assumption.
  - destruct (vars s i) as [u | ] eqn:A; [ | discriminate ]. destruct (set_field_ok w (S i) u f x I (rel_look _ _ _ _ R A)) as (w' & -> & I' & H & L).
    exists w'. split; [ reflexivity | ]. assert (ES : s' = setv s i (Some (with_field u f x))) by congruence. rewrite ES. apply (rel_set w); assumption.
  - destruct (vars s i) as [u | ] eqn:A; [ | discriminate ]. destruct (source_value s vlm a) as [x | ] eqn:B; [ | discriminate ].
    destruct (deref_ok w s lm vlm (hl w) a x R) as (r & -> & F & _); [ reflexivity | exact B | ]. cbn [obind].
    destruct (set_landmark_ok w (S i) u r x I (rel_look _ _ _ _ R A) F) as (w' & -> & I' & H & L).
    exists w'. split; [ reflexivity | ]. assert (ES : s' = setv s i (Some (with_lm u (Some x) (vlid u)))) by congruence. rewrite ES. apply (rel_set w); assumption.
  - destruct (vars s i) as [u | ] eqn:A; [ | discriminate ]. destruct (clear_landmark_ok w (S i) u I (rel_look _ _ _ _ R A)) as (w' & -> & I' & H & L).
    exists w'. split; [ reflexivity | ]. assert (ES : s' = setv s i (Some (with_lm u None ID_UNSET))) by (unfold ID_UNSET; congruence). rewrite ES. apply (rel_set w); assumption.
  - destruct (vars s i) as [u | ] eqn:A; [ | discriminate ]. destruct (source_value s vbp a) as [x | ] eqn:B; [ | discriminate ].
    destruct (deref_ok w s bp vbp (hb w) a x R) as (r & -> & F & G); [ reflexivity | exact B | ]. cbn [obind].
    destruct (set_back_ok w (S i) u r x I (rel_look _ _ _ _ R A) F) as (w' & -> & I' & H & L).
    { intros p Q. destruct a as [y | j]; [ congruence | ]. destruct G as (q & G & G'). assert (q = p) by congruence. subst q.
      intros C. cbn [proper] in P. apply P. destruct I as (_ & (_ & O & _) & _). specialize (O _ _ _ C G). lia. }
    exists w'. split; [ reflexivity | ]. assert (ES : s' = setv s i (Some (with_bp u (Some x)))) by congruence. rewrite ES. apply (rel_set w); assumption.
  - destruct (vars s i) as [u | ] eqn:A; [ | discriminate ]. destruct (clear_back_ok w (S i) u I (rel_look _ _ _ _ R A)) as (w' & -> & I' & H & L).
    exists w'. split; [ reflexivity | ]. assert (ES : s' = setv s i (Some (with_bp u None))) by congruence. rewrite ES. apply (rel_set w); assumption.
  - destruct (vars s i) as [u | ] eqn:A; [ | discriminate ]. destruct (set_descriptor_ok w (S i) u x I (rel_look _ _ _ _ R A)) as (w' & -> & I' & H & H' & L).
    exists w'. split; [ reflexivity | ]. assert (ES : s' = setv (new_desc s x) i (Some (with_desc u (Some (ndesc s))))) by congruence. rewrite ES.
    split; [ exact I' | ]. split; [ apply look_none; rewrite L, upd_ne by lia; apply look_slot; exact Z | ]. cbn [setv new_desc vars descs ndesc]. split; [ | split ].
    + intros m. rewrite look_show, L, N. unfold set, upd. cbn [Nat.eqb]. destruct (Nat.eqb m i); [ reflexivity | ]. rewrite <- V. symmetry. apply look_show.
    + intros p. rewrite H', N. unfold set, upd. destruct (Nat.eqb p (ndesc s)); [ reflexivity | apply D ].
    + rewrite H, N. reflexivity.
  - destruct (vars s i) as [u | ] eqn:A; [ | discriminate ]. destruct (vars s j) as [v | ] eqn:B; [ | discriminate ].
    destruct (share_ok w (S i) (S j) v u I (rel_look _ _ _ _ R A) (rel_look _ _ _ _ R B)) as (w' & -> & I' & H & L).
    exists w'. split; [ reflexivity | ]. assert (ES : s' = setv s i (Some (with_desc u (vdsc v)))) by congruence. rewrite ES. apply (rel_set w); assumption.
  - destruct (vars s i) as [u | ] eqn:A; [ | discriminate ]. destruct (vdsc u) as [d | ] eqn:B; [ | discriminate ].
    destruct (edit_ok w (S i) u x d I (rel_look _ _ _ _ R A) B) as (w' & -> & I' & H & H' & L).
    exists w'. split; [ reflexivity | ]. assert (ES : s' = Store (vars s) (set (descs s) d (Some x)) (ndesc s)) by congruence. rewrite ES.
    split; [ exact I' | ]. split; [ apply look_none; rewrite L; apply look_slot; exact Z | ]. cbn [vars descs ndesc]. split; [ | split ].
    + intros m. rewrite look_show, L, <- V. symmetry. apply look_show.
    + intros p. rewrite H'. unfold set, upd. destruct (Nat.eqb p d); [ reflexivity | apply D ].
    + congruence.
  - destruct (vars s i) as [u | ] eqn:A; [ | discriminate ]. cbn [proper] in P. destruct P as [PV PU]. destruct (PU u A) as [PL PB].
    destruct (load_ok w (S i) u n a I (rel_look _ _ _ _ R A) PL PB PV) as (w' & -> & I' & H & H' & L).
    exists w'. split; [ reflexivity | ]. cbv zeta in E. set (z := Shown (smeas a) (scov a) (slid a) (slm a) (match sdsc a with None => None | Some _ => Some (ndesc s) end) (sbp a) (if n =? 1 then soct a else voct u) (vtrace u)) in *.
    assert (ES : s' = setv (match sdsc a with None => s | Some x => new_desc s x end) i (Some z)) by congruence. rewrite ES.
    split; [ exact I' | ]. split; [ apply look_none; rewrite L, upd_ne by lia; apply look_slot; exact Z | ]. rewrite N in *. fold z in L.
    cbn [setv vars descs ndesc]. destruct (sdsc a) as [x | ] eqn:SD; cbn [new_desc vars descs ndesc]; (split; [ | split ]).
    + intros m. rewrite look_show, L. unfold set, upd. cbn [Nat.eqb]. destruct (Nat.eqb m i); [ reflexivity | ]. rewrite <- V. symmetry. apply look_show.
    + intros p. rewrite H'. unfold set, upd. destruct (Nat.eqb p (ndesc s)); [ reflexivity | apply D ].
    + exact H.
    + intros m. rewrite look_show, L. unfold set, upd. cbn [Nat.eqb]. destruct (Nat.eqb m i); [ reflexivity | ]. rewrite <- V. symmetry. apply look_show.
    + intros p. rewrite H'. apply D.
    + exact H.
Qed.
Lemma run_ok l : forall w s s', rel w s -> runs s l s' -> exists w', run w l = Ok w' /\ rel w' s'.
Proof.
  induction l as [ | o l IH]; intros w s s' R Q; inversion Q; subst.
  - exists w. split; [ reflexivity | exact R ].
  - destruct (step_ok w s o s1 R) as (w1 & E & R1); [ assumption | assumption | ]. cbn [run]. rewrite E. cbn [obind]. apply (IH w1 s1); assumption.
Qed.
Lemma own_owned w part h : own (ptr_of part (slots w)) h -> slots w 0 = None -> owned h part w.
Proof.
  intros (A & B & C & D) Z p L. destruct (C p L) as [i I]. destruct i as [ | i]; [ unfold ptr_of in I; rewrite Z in I; discriminate | ].
  exists i. split.
  - unfold ptr_of in I. destruct (slots w (S i)) as [k | ]; [ | discriminate ]. exists k. split; [ reflexivity | exact I ].
  - intros j (k & K & E). assert (J : ptr_of part (slots w) (S j) = Some p) by (unfold ptr_of; rewrite K; exact E). specialize (B _ _ _ I J). lia.
Qed.
