(** * Lemmas about logging *)
From Coq Require Import ZArith List String Bool Arith Lia.
From Verif Require Import LgModel LgSpec.
Import ListNotations.
Local Open Scope Z_scope.

(** ** Sequential behaviour *)
Lemma check_same w w' l : level w = level w' -> names w = names w' -> check w l = check w' l.
Proof. intros A B. unfold check, named_enabled. rewrite A, B. reflexivity. Qed.
Lemma check_twice w l : check w (check w l) = check w l.
Proof. reflexivity. Qed.
Definition same_but_locs (w w' : world) : Prop :=
  level w' = level w /\ names w' = names w /\ registered w' = registered w /\ hit w' = hit w /\ last_hit w' = last_hit w /\ shutting_down w' = shutting_down w /\ printing w' = printing w.
Lemma same_refl w : same_but_locs w w.
Proof. unfold same_but_locs. auto 10. Qed.
Lemma same_trans a b c : same_but_locs a b -> same_but_locs b c -> same_but_locs a c.
Proof. unfold same_but_locs. intros (A & B & C & D & E & F & G) (A' & B' & C' & D' & E' & F' & G'). repeat split; congruence. Qed.
Lemma notify_list r : forall w, let w' := fold_left (fun w s => match locs w s with Some l => set_loc w s (check w l) | None => w end) r w in
  same_but_locs w w' /\ forall s, (In s r -> locs w' s = option_map (check w) (locs w s)) /\ (~ In s r -> locs w' s = locs w s).
Proof.
  induction r as [ | a r IH]; intros w; cbn [fold_left].
  - split; [ apply same_refl | ]. intros s. split; [ intros [] | reflexivity ].
  - set (w1 := match locs w a with Some l => set_loc w a (check w l) | None => w end).
    assert (S1 : same_but_locs w w1) by (unfold w1; destruct (locs w a); [ unfold same_but_locs, set_loc; cbn; auto 10 | apply same_refl ]).
    assert (L1 : forall s, locs w1 s = if Nat.eqb s a then option_map (check w) (locs w s) else locs w s).
    { intros s. unfold w1. destruct (Nat.eqb_spec s a) as [-> | N].
      - destruct (locs w a) as [l | ] eqn:E; [ cbn [set_loc locs]; unfold upd; rewrite Nat.eqb_refl; reflexivity | rewrite E; reflexivity ].
      - destruct (locs w a) as [l | ] eqn:E; [ cbn [set_loc locs]; unfold upd; destruct (Nat.eqb_spec s a); [ contradiction | reflexivity ] | reflexivity ]. }
    destruct (IH w1) as [S2 L2]. split; [ apply (same_trans w w1); assumption | ].
    assert (CK : forall l, check w1 l = check w l) by (intros l; destruct S1 as (A & B & _); apply check_same; assumption).
    intros s. destruct (L2 s) as [L3 L4]. specialize (L1 s). split.
    + intros I. destruct (in_dec Nat.eq_dec s r) as [J | J].
      * rewrite (L3 J), L1. destruct (Nat.eqb s a); destruct (locs w s) as [l | ]; cbn [option_map]; rewrite ?CK; reflexivity.
      * rewrite (L4 J), L1. destruct I as [-> | I]; [ rewrite Nat.eqb_refl; reflexivity | contradiction ].
    + intros I. assert (J : ~ In s r) by (intros J; apply I; right; exact J). rewrite (L4 J), L1. destruct (Nat.eqb_spec s a) as [E | N]; [ exfalso; apply I; left; symmetry; exact E | reflexivity ].
Qed.
Definition good (nm : nat -> string) (w : world) (c : settings) : Prop :=
  level w = threshold c /\ (forall n, existsb (String.eqb n) (names w) = on c n) /\ (forall s, hit w s = once c s) /\ (forall s, last_hit w s = latest c s) /\
  shutting_down w = down c /\ printing w = None /\
  forall s l, locs w s = Some l -> l_name l = nm s /\ In s (registered w) /\ l_enabled l = wanted c (l_level l) (l_name l).
(** the same before the locations are looked at again *)
Definition pre (nm : nat -> string) (w : world) (c : settings) : Prop :=
  level w = threshold c /\ (forall n, existsb (String.eqb n) (names w) = on c n) /\ (forall s, hit w s = once c s) /\ (forall s, last_hit w s = latest c s) /\
  shutting_down w = down c /\ printing w = None /\ forall s l, locs w s = Some l -> l_name l = nm s /\ In s (registered w).
Lemma check_wanted w c l : level w = threshold c -> (forall n, existsb (String.eqb n) (names w) = on c n) -> l_enabled (check w l) = wanted c (l_level l) (l_name l).
Proof. intros A B. unfold check, wanted, named_enabled. cbn [l_enabled]. rewrite A, B. reflexivity. Qed.
Lemma notify_good nm w c : pre nm w c -> good nm (notify w) c.
Proof.
  intros (A & B & H & L & D & P & LO). destruct (notify_list (registered w) w) as [(S1 & S2 & S3 & S4 & S5 & S6 & S7) LL]. fold (notify w) in *.
  split; [ congruence | ]. split; [ intros n; rewrite S2; apply B | ]. split; [ intros s; rewrite S4; apply H | ]. split; [ intros s; rewrite S5; apply L | ]. split; [ congruence | ]. split; [ congruence | ].
  intros s l E. destruct (LL s) as [LI LN]. destruct (in_dec Nat.eq_dec s (registered w)) as [I | I].
  - rewrite (LI I) in E. destruct (locs w s) as [l0 | ] eqn:E0; [ | discriminate ]. cbn [option_map] in E. assert (l = check w l0) by congruence. subst l. destruct (LO s l0 E0) as [N _].
    split; [ exact N | ]. split; [ rewrite S3; exact I | ]. apply (check_wanted w c l0); assumption.
  - rewrite (LN I) in E. destruct (LO s l E) as [_ J]. contradiction.
Qed.
Lemma existsb_filter n m l : existsb (String.eqb m) (filter (fun x => negb (String.eqb n x)) l) = (negb (String.eqb m n) && existsb (String.eqb m) l)%bool.
Proof.
  induction l as [ | a l IH]; [ cbn; rewrite andb_false_r; reflexivity | ]. cbn [filter existsb]. destruct (String.eqb_spec n a) as [-> | N]; cbn [negb].
  - rewrite IH. destruct (String.eqb_spec m a) as [-> | M]; cbn [negb andb orb]; reflexivity.
  - cbn [existsb]. rewrite IH. destruct (String.eqb_spec m n) as [-> | M]; cbn [negb andb orb]; [ | reflexivity ]. destruct (String.eqb_spec n a); [ contradiction | reflexivity ].
Qed.
Lemma wanted_same a b lvl n : threshold a = threshold b -> (forall m, on a m = on b m) -> wanted a lvl n = wanted b lvl n.
Proof. intros A B. unfold wanted. rewrite A, B. reflexivity. Qed.
Lemma define_good nm w c s lvl : good nm w c -> let w1 := define_location w s lvl (nm s) in
  good nm w1 c /\ exists l, locs w1 s = Some l /\ l_name l = nm s /\ l_level l = lvl /\ l_enabled l = wanted c lvl (nm s).
Proof.
  intros G w1. assert (G1 : good nm (initialize w s (nm s) lvl) c /\ exists l, locs (initialize w s (nm s) lvl) s = Some l).
  { unfold initialize. destruct (locs w s) as [l | ] eqn:E; [ split; [ exact G | exists l; exact E ] | ]. destruct G as (A & B & H & L & D & P & LO). cbv zeta. split.
    - split; [ exact A | ]. split; [ exact B | ]. split; [ exact H | ]. split; [ exact L | ]. split; [ exact D | ]. split; [ exact P | ].
      cbn [set_loc locs registered]. intros x l. unfold upd. destruct (Nat.eqb_spec x s) as [-> | N].
      + intros E1. assert (Q : l = check (World (level w) (names w) (locs w) (registered w ++ [s]) (hit w) (last_hit w) (shutting_down w) (printing w)) (Loc (nm s) lvl false)) by congruence. subst l.
        split; [ reflexivity | ]. split; [ apply in_or_app; right; left; reflexivity | ]. apply (check_wanted (World (level w) (names w) (locs w) (registered w ++ [s]) (hit w) (last_hit w) (shutting_down w) (printing w)) c (Loc (nm s) lvl false)); assumption.
      + intros E1. destruct (LO x l E1) as (Q1 & Q2 & Q3). split; [ exact Q1 | ]. split; [ apply in_or_app; left; exact Q2 | exact Q3 ].
    - eexists. cbn [set_loc locs]. unfold upd. rewrite Nat.eqb_refl. reflexivity. }
  destruct G1 as (G1 & l & E). unfold w1, define_location. cbv zeta. rewrite E. destruct (Z.eqb_spec (l_level l) lvl) as [LE | LN].
  - split; [ exact G1 | ]. exists l. split; [ exact E | ]. destruct G1 as (_ & _ & _ & _ & _ & _ & LO). destruct (LO s l E) as (Q1 & Q2 & Q3). split; [ exact Q1 | ]. split; [ exact LE | ]. rewrite Q3, Q1, LE. reflexivity.
  - set (wi := initialize w s (nm s) lvl) in *. pose proof G1 as (A & B & H & L & D & P & LO). destruct (LO s l E) as (Q1 & Q2 & Q3).
    set (l1 := check wi (Loc (l_name l) lvl (l_enabled l))). assert (EN : l_enabled l1 = wanted c lvl (nm s)) by (unfold l1; rewrite (check_wanted wi c) by assumption; cbn [l_level l_name]; rewrite Q1; reflexivity).
    split.
    + split; [ exact A | ]. split; [ exact B | ]. split; [ exact H | ]. split; [ exact L | ]. split; [ exact D | ]. split; [ exact P | ].
      cbn [set_loc locs registered]. intros x k. unfold upd. destruct (Nat.eqb_spec x s) as [-> | N]; [ | apply LO ].
      intros E1. assert (k = l1) by congruence. subst k. split; [ exact Q1 | ]. split; [ exact Q2 | ]. rewrite EN. unfold l1. cbn [check l_level l_name]. rewrite Q1. reflexivity.
    + exists l1. split; [ cbn [set_loc locs]; unfold upd; rewrite Nat.eqb_refl; reflexivity | ]. split; [ exact Q1 | ]. split; [ reflexivity | exact EN ].
Qed.
Lemma print_good nm w c t e b : good nm w c -> b <> ThrowsOther -> good nm (fst (print w t e b)) c /\ snd (print w t e b) = if down c then None else Some e.
Proof.
  intros (A & B & H & L & D & P & LO) T. unfold print. rewrite D, P. destruct (down c) eqn:DC; cbn [fst snd].
  - split; [ | reflexivity ]. split; [ exact A | ]. split; [ exact B | ]. split; [ exact H | ]. split; [ exact L | ]. split; [ congruence | ]. split; [ exact P | exact LO ].
  - split; [ | reflexivity ]. split; [ exact A | ]. split; [ exact B | ]. split; [ exact H | ]. split; [ exact L | ]. split; [ cbn [shutting_down]; congruence | ]. split; [ cbn [printing]; destruct b; [ reflexivity | reflexivity | contradiction ] | exact LO ].
Qed.
Lemma step_good nm w c o : good nm w c -> one_name nm o -> tame o -> good nm (fst (step w o)) (fst (spec_step c o)) /\ snd (step w o) = snd (spec_step c o).
Proof.
  intros G ON TM. destruct o as [s t lvl name k msg b | l | n | n | ]; cbn [step spec_step one_name tame] in *.
  - subst name. destruct (define_good nm w c s lvl G) as (G1 & l & E & N & LV & EN). set (w1 := define_location w s lvl (nm s)) in *. cbv zeta in *. rewrite E, N, LV, EN.
    pose proof G1 as (A & B & H & L & D & P & LO). destruct k as [b0 | | rate now]; cbn [due note].
    + destruct (wanted c lvl (nm s) && b0)%bool; cbn [fst snd]; [ apply print_good; assumption | split; [ exact G1 | reflexivity ] ].
    + rewrite H. destruct (wanted c lvl (nm s) && negb (once c s))%bool; [ | split; [ exact G1 | reflexivity ] ]. cbn [fst snd].
      match goal with |- good _ (fst (print ?W _ _ _)) ?C /\ _ => assert (G2 : good nm W C) end.
      { split; [ exact A | ]. split; [ exact B | ]. split; [ cbn [hit once]; intros x; unfold upd; destruct (Nat.eqb x s); [ reflexivity | apply H ] | ]. split; [ exact L | ]. split; [ exact D | ]. split; [ exact P | exact LO ]. }
      exact (print_good nm _ _ t (Event (nm s) lvl msg) b G2 TM).
    + rewrite L. destruct (wanted c lvl (nm s) && (latest c s + rate <=? now))%bool; [ | split; [ exact G1 | reflexivity ] ]. cbn [fst snd].
      match goal with |- good _ (fst (print ?W _ _ _)) ?C /\ _ => assert (G2 : good nm W C) end.
      { split; [ exact A | ]. split; [ exact B | ]. split; [ exact H | ]. split; [ cbn [last_hit latest]; intros x; unfold upd; destruct (Nat.eqb x s); [ reflexivity | apply L ] | ]. split; [ exact D | ]. split; [ exact P | exact LO ]. }
      exact (print_good nm _ _ t (Event (nm s) lvl msg) b G2 TM).
  - split; [ | reflexivity ]. destruct G as (A & B & H & L & D & P & LO). unfold set_level. cbn [fst]. destruct (Z.eqb_spec l (level w)) as [E | N].
    + split; [ cbn [threshold]; congruence | ]. split; [ exact B | ]. split; [ exact H | ]. split; [ exact L | ]. split; [ exact D | ]. split; [ exact P | ]. intros x k K. destruct (LO x k K) as (Q1 & Q2 & Q3).
      split; [ exact Q1 | ]. split; [ exact Q2 | ]. rewrite Q3. apply wanted_same; [ cbn [threshold]; congruence | reflexivity ].
    + apply notify_good. split; [ reflexivity | ]. split; [ exact B | ]. split; [ exact H | ]. split; [ exact L | ]. split; [ exact D | ]. split; [ exact P | ]. intros x k K. destruct (LO x k K) as (Q1 & Q2 & _). split; assumption.
  - split; [ | reflexivity ]. destruct G as (A & B & H & L & D & P & LO). unfold enable. cbn [fst]. apply notify_good. split; [ exact A | ]. split.
    { cbn [names on]. intros m. destruct (existsb (String.eqb n) (names w)) eqn:E.
      - rewrite B. destruct (String.eqb_spec m n) as [-> | N]; [ rewrite <- B, E; reflexivity | reflexivity ].
      - cbn [existsb]. rewrite B. reflexivity. }
    split; [ exact H | ]. split; [ exact L | ]. split; [ exact D | ]. split; [ exact P | ]. intros x k K. destruct (LO x k K) as (Q1 & Q2 & _). split; assumption.
  - split; [ | reflexivity ]. destruct G as (A & B & H & L & D & P & LO). unfold disable. cbn [fst]. destruct (existsb (String.eqb n) (names w)) eqn:E.
    + apply notify_good. split; [ exact A | ]. split; [ cbn [names on]; intros m; rewrite existsb_filter, B; reflexivity | ].
      split; [ exact H | ]. split; [ exact L | ]. split; [ exact D | ]. split; [ exact P | ]. intros x k K. destruct (LO x k K) as (Q1 & Q2 & _). split; assumption.
    + assert (OF : forall m, (negb (String.eqb m n) && on c m)%bool = on c m) by (intros m; destruct (String.eqb_spec m n) as [-> | N]; [ rewrite <- B, E; reflexivity | reflexivity ]).
      split; [ exact A | ]. split; [ cbn [on]; intros m; rewrite OF; apply B | ]. split; [ exact H | ]. split; [ exact L | ]. split; [ exact D | ]. split; [ exact P | ]. intros x k K. destruct (LO x k K) as (Q1 & Q2 & Q3).
      split; [ exact Q1 | ]. split; [ exact Q2 | ]. rewrite Q3. apply wanted_same; [ reflexivity | intros m; cbn [on]; symmetry; apply OF ].
  - split; [ | reflexivity ]. destruct G as (A & B & H & L & D & P & LO). cbn [fst]. split; [ exact A | ]. split; [ exact B | ]. split; [ exact H | ]. split; [ exact L | ]. split; [ reflexivity | ]. split; [ exact P | exact LO ].
Qed.
Lemma init_good nm : good nm init defaults.
Proof.
  split; [ reflexivity | ]. split; [ intros n; cbn; rewrite orb_false_r; apply String.eqb_sym | ]. split; [ reflexivity | ]. split; [ reflexivity | ]. split; [ reflexivity | ]. split; [ reflexivity | ]. intros s l E. discriminate.
Qed.
Lemma run_good nm l : forall w c, good nm w c -> Forall (one_name nm) l -> Forall tame l -> snd (run w l) = snd (spec_run c l).
Proof.
  induction l as [ | o l IH]; intros w c G A B; [ reflexivity | ]. cbn [run spec_run]. inversion A as [ | x y A1 A2]. inversion B as [ | x' y' B1 B2]. subst.
  destruct (step_good nm w c o G A1 B1) as [G1 E]. destruct (step w o) as [w1 x], (spec_step c o) as [c1 z]. cbn [fst snd] in *. specialize (IH w1 c1 G1 A2 B2).
  destruct (run w1 l) as [w2 xs], (spec_run c1 l) as [c2 ys]. cbn [fst snd] in *. congruence.
Qed.

(** Once and throttled statements, from the specification *)
Lemma spec_once_kept s o c : once c s = true -> once (fst (spec_step c o)) s = true.
Proof.
  intros O. destruct o as [s' t lvl name k msg b | l | n | n | ]; cbn [spec_step fst once]; try exact O. destruct (wanted c lvl name && due c s' k)%bool; cbn [fst]; [ | exact O ].
  destruct k; cbn [note once]; try exact O. destruct (Nat.eqb s s'); [ reflexivity | exact O ].
Qed.
Lemma nth_run (l : list op) : forall c j e, nth_error (snd (spec_run c l)) j = Some (Some e) ->
  exists o, nth_error l j = Some o /\ snd (spec_step (fst (spec_run c (firstn j l))) o) = Some e.
Proof.
  induction l as [ | o l IH]; intros c j e H; [ destruct j; discriminate | ]. cbn [spec_run] in H. destruct (spec_step c o) as [c1 x] eqn:E. destruct (spec_run c1 l) as [c2 xs] eqn:E2. cbn [snd] in H. destruct j as [ | j].
  - cbn [nth_error] in H. exists o. split; [ reflexivity | ]. cbn [firstn spec_run fst]. rewrite E. cbn [snd]. congruence.
  - cbn [nth_error] in H. destruct (IH c1 j e) as (o' & N & S); [ rewrite E2; exact H | ]. exists o'. split; [ exact N | ]. cbn [firstn spec_run]. rewrite E. destruct (spec_run c1 (firstn j l)) as [c3 ys]. exact S.
Qed.
Lemma run_app a : forall c b, fst (spec_run c (a ++ b)) = fst (spec_run (fst (spec_run c a)) b).
Proof.
  induction a as [ | o a IH]; intros c b; [ reflexivity | ]. cbn [app spec_run]. destruct (spec_step c o) as [c1 x]. specialize (IH c1 b). destruct (spec_run c1 (a ++ b)), (spec_run c1 a). cbn [fst] in *. exact IH.
Qed.
Lemma once_run s l : forall c, once c s = true -> once (fst (spec_run c l)) s = true.
Proof.
  induction l as [ | o l IH]; intros c O; [ exact O | ]. cbn [spec_run]. pose proof (spec_once_kept s o c O) as O1. destruct (spec_step c o) as [c1 x]. specialize (IH c1 O1). destruct (spec_run c1 l). exact IH.
Qed.
Lemma latest_step s o c t : t <= latest c s -> (forall th lvl name rate now msg b, o = Hit s th lvl name (Throttle rate now) msg b -> 0 <= rate) -> t <= latest (fst (spec_step c o)) s.
Proof.
  intros T P. destruct o as [s' th lvl name k msg b | l | n | n | ]; cbn [spec_step fst latest]; try exact T. destruct (wanted c lvl name && due c s' k)%bool eqn:W; cbn [fst]; [ | exact T ].
  destruct k as [ | | rate now]; cbn [note latest]; try exact T. destruct (Nat.eqb_spec s s') as [-> | N]; [ | exact T ]. apply andb_true_iff in W. destruct W as [_ W]. cbn [due] in W. apply Z.leb_le in W.
  pose proof (P th lvl name rate now msg b eq_refl). lia.
Qed.
Lemma latest_run s t l : (forall th lvl name rate now msg b, In (Hit s th lvl name (Throttle rate now) msg b) l -> 0 <= rate) -> forall c, t <= latest c s -> t <= latest (fst (spec_run c l)) s.
Proof.
  induction l as [ | o l IH]; intros P c T; [ exact T | ]. cbn [spec_run].
  assert (T1 : t <= latest (fst (spec_step c o)) s) by (apply latest_step; [ exact T | intros; subst o; eapply P; left; reflexivity ]).
  destruct (spec_step c o) as [c1 x]. assert (T2 : t <= latest (fst (spec_run c1 l)) s) by (apply IH; [ intros; eapply P; right; eassumption | exact T1 ]). destruct (spec_run c1 l). exact T2.
Qed.
Lemma split_at {A} (l : list A) i j x : (i < j)%nat -> nth_error l i = Some x -> exists m, firstn j l = firstn i l ++ [x] ++ m /\ incl m l.
Proof.
  revert i j. induction l as [ | a l IH]; intros i j L N; [ destruct i; discriminate | ]. destruct j as [ | j]; [ lia | ]. destruct i as [ | i].
  - cbn [nth_error] in N. exists (firstn j l). cbn [firstn app]. split; [ congruence | ]. intros y Y. right. clear - Y. revert j Y. induction l as [ | b l IH]; intros j Y; destruct j; cbn [firstn] in Y; try contradiction. destruct Y as [-> | Y]; [ left; reflexivity | right; apply (IH j); exact Y ].
  - cbn [nth_error] in N. destruct (IH i j ltac:(lia) N) as (m & E & I). exists m. cbn [firstn app]. rewrite E. split; [ reflexivity | ]. intros y Y. right. apply I. exact Y.
Qed.
Lemma once_twice l i j ei ej s ti tj li lj ni nj mi mj bi bj : (i < j)%nat -> nth_error l i = Some (Hit s ti li ni Once mi bi) -> nth_error l j = Some (Hit s tj lj nj Once mj bj) ->
  nth_error (snd (spec_run defaults l)) i = Some (Some ei) -> nth_error (snd (spec_run defaults l)) j = Some (Some ej) -> False.
Proof.
  intros L Hi Hj Ei Ej. destruct (nth_run l defaults i ei Ei) as (oi & Ni & Si). destruct (nth_run l defaults j ej Ej) as (oj & Nj & Sj).
  assert (oi = Hit s ti li ni Once mi bi) by congruence. assert (oj = Hit s tj lj nj Once mj bj) by congruence. subst oi oj. clear Ni Nj.
  destruct (split_at l i j _ L Hi) as (m & F & _). rewrite F, run_app in Sj. set (c := fst (spec_run defaults (firstn i l))) in *. rewrite run_app in Sj.
  assert (O1 : once (fst (spec_run c [Hit s ti li ni Once mi bi])) s = true).
  { cbn [spec_run]. cbn [spec_step] in Si |- *. destruct (wanted c li ni && due c s Once)%bool; [ | discriminate ]. cbn [fst note once]. rewrite Nat.eqb_refl. reflexivity. }
  pose proof (once_run s m _ O1) as O2. set (d := fst (spec_run (fst (spec_run c [Hit s ti li ni Once mi bi])) m)) in *. cbn [spec_step due] in Sj. rewrite O2 in Sj. cbn [negb] in Sj. rewrite andb_false_r in Sj. discriminate.
Qed.
Lemma throttle_apart l i j ei ej s ti tj li lj ni nj mi mj bi bj ri rj ai aj : (i < j)%nat -> nth_error l i = Some (Hit s ti li ni (Throttle ri ai) mi bi) -> nth_error l j = Some (Hit s tj lj nj (Throttle rj aj) mj bj) ->
  (forall th lvl name rate now msg b, In (Hit s th lvl name (Throttle rate now) msg b) l -> 0 <= rate) ->
  nth_error (snd (spec_run defaults l)) i = Some (Some ei) -> nth_error (snd (spec_run defaults l)) j = Some (Some ej) -> ai + rj <= aj.
Proof.
  intros L Hi Hj P Ei Ej. destruct (nth_run l defaults i ei Ei) as (oi & Ni & Si). destruct (nth_run l defaults j ej Ej) as (oj & Nj & Sj).
  assert (oi = Hit s ti li ni (Throttle ri ai) mi bi) by congruence. assert (oj = Hit s tj lj nj (Throttle rj aj) mj bj) by congruence. subst oi oj. clear Ni Nj.
  destruct (split_at l i j _ L Hi) as (m & F & IC). rewrite F, run_app in Sj. set (c := fst (spec_run defaults (firstn i l))) in *. rewrite run_app in Sj.
  assert (O1 : ai <= latest (fst (spec_run c [Hit s ti li ni (Throttle ri ai) mi bi])) s).
  { cbn [spec_run]. cbn [spec_step] in Si |- *. destruct (wanted c li ni && due c s (Throttle ri ai))%bool; [ | discriminate ]. cbn [fst note latest]. rewrite Nat.eqb_refl. lia. }
  assert (O2 : ai <= latest (fst (spec_run (fst (spec_run c [Hit s ti li ni (Throttle ri ai) mi bi])) m)) s) by (apply latest_run; [ intros; eapply P; apply IC; eassumption | exact O1 ]).
  set (d := fst (spec_run (fst (spec_run c [Hit s ti li ni (Throttle ri ai) mi bi])) m)) in *. cbn [spec_step due] in Sj. destruct (wanted d lj nj); [ | discriminate ]. cbn [andb] in Sj.
  destruct (Z.leb_spec (latest d s + rj) aj); [ lia | discriminate ].
Qed.

(** ** Locks *)
Local Open Scope nat_scope.
Lemma lock_eqb_eq a b : lock_eqb a b = true <-> a = b.
Proof. destruct a, b; cbn; split; intros H; try reflexivity; try discriminate. Qed.
Lemma holds_in l t : holds l t = true <-> In l (held t).
Proof.
  unfold holds. rewrite existsb_exists. split.
  - intros (x & X & E). apply lock_eqb_eq in E. subst x. exact X.
  - intros X. exists l. split; [ exact X | apply lock_eqb_eq; reflexivity ].
Qed.
Lemma free_for_spec l : forall ts i, i < List.length ts -> (free_for l i ts = true <-> forall j t, nth_error ts j = Some t -> holds l t = true -> j = i /\ recursive l = true).
Proof.
  induction ts as [ | t ts IH]; intros i L; [ cbn in L; lia | ]. destruct i as [ | i]; cbn [free_for].
  - rewrite andb_true_iff, orb_true_iff, negb_true_iff, forallb_forall. split.
    + intros [A B] j u N H. destruct j as [ | j]; [ | cbn [nth_error] in N; specialize (B u (nth_error_In _ _ N)); rewrite H in B; discriminate ].
      cbn [nth_error] in N. assert (u = t) by congruence. subst u. destruct A as [A | A]; [ congruence | split; [ reflexivity | exact A ] ].
    + intros F. split.
      * destruct (holds l t) eqn:H; [ | left; reflexivity ]. right. apply (F 0 t eq_refl H).
      * intros u U. apply negb_true_iff. destruct (holds l u) eqn:H; [ | reflexivity ]. destruct (In_nth_error _ _ U) as [j N]. destruct (F (S j) u N H) as [X _]. discriminate.
  - cbn [List.length] in L. rewrite andb_true_iff, negb_true_iff, IH by lia. split.
    + intros [A B] j u N H. destruct j as [ | j]; [ cbn [nth_error] in N; congruence | ]. destruct (B j u N H) as [-> R]. split; [ reflexivity | exact R ].
    + intros F. split.
      * destruct (holds l t) eqn:H; [ | reflexivity ]. destruct (F 0 t eq_refl H) as [X _]. discriminate.
      * intros j u N H. destruct (F (S j) u N H) as [X R]. split; [ congruence | exact R ].
Qed.
Section Rank.
Variable rank : lock -> nat.
Fixpoint ordered (h : list lock) (a : list act) : Prop :=
  match a with
  | [] => h = []
  | Acq l :: r => ((recursive l = true /\ In l h) \/ (forall m, In m h -> rank m < rank l)) /\ ordered (l :: h) r
  | Rel l :: r => match h with x :: h' => x = l /\ ordered h' r | [] => False end
  end.
Definition exclusive (ts : list thread) : Prop :=
  forall i j t u l, nth_error ts i = Some t -> nth_error ts j = Some u -> holds l t = true -> holds l u = true -> i = j.
Definition fine (ts : list thread) : Prop := exclusive ts /\ forall i t, nth_error ts i = Some t -> ordered (held t) (todo t).
Lemma nth_put {A} (ts : list A) i x k : i < List.length ts -> nth_error (firstn i ts ++ x :: skipn (S i) ts) k = if Nat.eqb k i then Some x else nth_error ts k.
Proof.
  revert i k. induction ts as [ | t ts IH]; intros i k L; [ cbn in L; lia | ]. destruct i as [ | i]; [ destruct k; reflexivity | ]. cbn [List.length] in L. destruct k as [ | k]; [ reflexivity | ].
  change (skipn (S (S i)) (t :: ts)) with (skipn (S i) ts). cbn [firstn app nth_error Nat.eqb]. apply IH. lia.
Qed.
Lemma remove1_in l m h : In m (remove1 l h) -> In m h.
Proof. induction h as [ | x h IH]; cbn [remove1]; [ intros [] | ]. destruct (lock_eqb l x); [ right; assumption | ]. intros [-> | I]; [ left; reflexivity | right; apply IH; exact I ]. Qed.
Lemma fine_step ts i ts' : fine ts -> lock_step ts i = Some ts' -> fine ts'.
Proof.
  intros [EX OR] St. unfold lock_step in St. destruct (nth_error ts i) as [[h a] | ] eqn:N; [ | discriminate ]. assert (L : i < List.length ts) by (apply nth_error_Some; congruence).
  destruct a as [ | [l | l] r]; [ discriminate | | ].
  - destruct (free_for l i ts) eqn:F; [ | discriminate ]. assert (ts' = firstn i ts ++ Thread (l :: h) r :: skipn (S i) ts) by congruence. subst ts'. clear St.
    rewrite free_for_spec in F by exact L. split.
    + intros p q t u m P Q HT HU. rewrite nth_put in P, Q by exact L. destruct (Nat.eqb_spec p i) as [-> | NP], (Nat.eqb_spec q i) as [-> | NQ]; [ reflexivity | | | apply (EX p q t u m P Q HT HU) ].
      * assert (t = Thread (l :: h) r) by congruence. subst t. apply holds_in in HT. cbn [held] in HT. destruct HT as [<- | HT].
        -- destruct (F q u Q HU) as [X _]. congruence.
        -- apply (EX i q (Thread h (Acq l :: r)) u m N Q); [ apply holds_in; exact HT | exact HU ].
      * assert (u = Thread (l :: h) r) by congruence. subst u. apply holds_in in HU. cbn [held] in HU. destruct HU as [<- | HU].
        -- destruct (F p t P HT) as [X _]. congruence.
        -- apply (EX p i t (Thread h (Acq l :: r)) m P N); [ exact HT | apply holds_in; exact HU ].
    + intros p t P. rewrite nth_put in P by exact L. destruct (Nat.eqb_spec p i) as [-> | NP]; [ | apply (OR p t P) ]. assert (t = Thread (l :: h) r) by congruence. subst t. cbn [held todo].
      destruct (OR i _ N) as [_ O]. exact O.
  - destruct (existsb (lock_eqb l) h) eqn:F; [ | discriminate ]. assert (ts' = firstn i ts ++ Thread (remove1 l h) r :: skipn (S i) ts) by congruence. subst ts'. clear St. split.
    + assert (SUB : forall p t m, nth_error (firstn i ts ++ Thread (remove1 l h) r :: skipn (S i) ts) p = Some t -> holds m t = true -> exists t', nth_error ts p = Some t' /\ holds m t' = true).
      { intros p t m P H. rewrite nth_put in P by exact L. destruct (Nat.eqb_spec p i) as [-> | NP]; [ | exists t; split; assumption ]. exists (Thread h (Rel l :: r)). split; [ exact N | ].
        assert (t = Thread (remove1 l h) r) by congruence. subst t. apply holds_in. apply holds_in in H. cbn [held] in *. apply (remove1_in l m h H). }
      intros p q t u m P Q HT HU. destruct (SUB p t m P HT) as (t' & P' & HT'). destruct (SUB q u m Q HU) as (u' & Q' & HU'). apply (EX p q t' u' m P' Q' HT' HU').
    + intros p t P. rewrite nth_put in P by exact L. destruct (Nat.eqb_spec p i) as [-> | NP]; [ | apply (OR p t P) ]. assert (t = Thread (remove1 l h) r) by congruence. subst t. cbn [held todo].
      pose proof (OR i _ N) as O. cbn [held todo ordered] in O. destruct h as [ | x h]; [ contradiction | ]. destruct O as [-> O]. cbn [remove1]. assert (lock_eqb l l = true) as -> by (apply lock_eqb_eq; reflexivity). exact O.
Qed.
Lemma fine_not_stuck ts : fine ts -> ~ stuck ts.
Proof.
  intros [EX OR] [(t0 & I0 & T0) ST].
  set (B := S (Nat.max (rank Locations) (Nat.max (rank Streams) (rank Printer)))).
  assert (RB : forall l, rank l < B) by (intros l; unfold B; destruct l; lia).
  assert (K : forall n i h l r, nth_error ts i = Some (Thread h (Acq l :: r)) -> B - rank l <= n -> False).
  { induction n as [ | n IH]; intros i h l r N LE; [ pose proof (RB l); lia | ]. assert (Li : i < List.length ts) by (apply nth_error_Some; congruence).
    pose proof (ST i) as S1. unfold lock_step in S1. rewrite N in S1. destruct (free_for l i ts) eqn:F; [ discriminate | ]. clear S1.
    destruct (OR i _ N) as [O _]. cbn [held todo] in O.
    assert (D : exists j u, nth_error ts j = Some u /\ holds l u = true /\ ~ (j = i /\ recursive l = true)).
    { destruct (existsb (fun j => match nth_error ts j with Some u => holds l u && negb (Nat.eqb j i && recursive l) | None => false end) (seq 0 (List.length ts))) eqn:X.
      - apply existsb_exists in X. destruct X as (j & _ & X). destruct (nth_error ts j) as [u | ] eqn:J; [ | discriminate ]. exists j, u. apply andb_true_iff in X. destruct X as [X1 X2]. split; [ exact J | ]. split; [ exact X1 | ].
        intros [-> R1]. rewrite Nat.eqb_refl, R1 in X2. discriminate.
      - exfalso. enough (free_for l i ts = true) by congruence. apply free_for_spec; [ exact Li | ]. intros j u J H. assert (Lj : j < List.length ts) by (apply nth_error_Some; congruence).
        assert (Y : match nth_error ts j with Some u => holds l u && negb (Nat.eqb j i && recursive l) | None => false end = false).
        { destruct (match nth_error ts j with Some u => holds l u && negb (Nat.eqb j i && recursive l) | None => false end) eqn:Y; [ | reflexivity ]. rewrite <- X. symmetry. apply existsb_exists. exists j. split; [ apply in_seq; lia | exact Y ]. }
        rewrite J, H in Y. cbn [andb] in Y. apply negb_false_iff, andb_true_iff in Y. destruct Y as [Y1 Y2]. split; [ apply Nat.eqb_eq; exact Y1 | exact Y2 ]. }
    destruct D as (j & u & J & H & ND). pose proof (proj1 (holds_in l u) H) as HI. destruct O as [[RC IN] | LT].
    - apply ND. split; [ | exact RC ]. apply (EX j i u (Thread h (Acq l :: r)) l J N H). apply holds_in. exact IN.
    - destruct (Nat.eq_dec j i) as [-> | NE].
      + assert (u = Thread h (Acq l :: r)) by congruence. subst u. cbn [held] in HI. specialize (LT l HI). lia.
      + destruct u as [hu au]. cbn [held] in HI. pose proof (OR j _ J) as OU. cbn [held todo] in OU. destruct au as [ | [m | m] ru].
        * cbn [ordered] in OU. subst hu. contradiction.
        * cbn [ordered] in OU. destruct OU as [[[RM IM] | LM] _].
          -- pose proof (ST j) as S2. unfold lock_step in S2. rewrite J in S2. assert (FF : free_for m j ts = true).
             { apply free_for_spec; [ apply nth_error_Some; congruence | ]. intros p v P HP. split; [ | exact RM ]. apply (EX p j v (Thread hu (Acq m :: ru)) m P J HP). apply holds_in. exact IM. }
             rewrite FF in S2. discriminate.
          -- specialize (LM l HI). apply (IH j hu m ru J). pose proof (RB m). lia.
        * cbn [ordered] in OU. destruct hu as [ | x hu]; [ contradiction | ]. destruct OU as [-> _]. pose proof (ST j) as S2. unfold lock_step in S2. rewrite J in S2. cbn [existsb] in S2.
          assert (lock_eqb m m = true) as E by (apply lock_eqb_eq; reflexivity). rewrite E in S2. discriminate. }
  destruct (In_nth_error _ _ I0) as [i N]. destruct t0 as [h a]. cbn [todo] in T0. destruct a as [ | [l | l] r]; [ contradiction | apply (K B i h l r N); lia | ].
  pose proof (OR i _ N) as O. cbn [held todo ordered] in O. destruct h as [ | x h]; [ contradiction | ]. destruct O as [-> _]. pose proof (ST i) as S1. unfold lock_step in S1. rewrite N in S1. cbn [existsb] in S1.
  assert (lock_eqb l l = true) as E by (apply lock_eqb_eq; reflexivity). rewrite E in S1. discriminate.
Qed.
Lemma ordered_app a : forall h b, ordered h a -> ordered [] b -> ordered h (a ++ b).
Proof.
  induction a as [ | [l | l] a IH]; intros h b A B; cbn [app ordered] in *.
  - subst h. exact B.
  - destruct A as [A1 A2]. split; [ exact A1 | apply IH; assumption ].
  - destruct h as [ | x h]; [ contradiction | ]. destruct A as [-> A]. split; [ reflexivity | apply IH; assumption ].
Qed.
Lemma ordered_calls cs : (forall c, In c cs -> ordered [] (acts c)) -> ordered [] (flat_map acts cs).
Proof.
  induction cs as [ | c cs IH]; intros H; [ reflexivity | ]. cbn [flat_map]. apply ordered_app; [ apply H; left; reflexivity | apply IH; intros d D; apply H; right; exact D ].
Qed.
Lemma ordered_asks k : forall h r, In Streams h \/ (forall m, In m h -> rank m < rank Streams) -> ordered h r -> ordered h (asks k ++ r).
Proof.
  induction k as [ | k IH]; intros h r C O; [ exact O | ]. cbn [asks is_enabled_acts app ordered]. split; [ destruct C as [C | C]; [ left; split; [ reflexivity | exact C ] | right; exact C ] | ].
  split; [ reflexivity | ]. apply IH; assumption.
Qed.
Lemma start_nth p i t : nth_error (start p) i = Some t -> exists cs, nth_error p i = Some cs /\ t = Thread [] (flat_map acts cs).
Proof. unfold start. rewrite nth_error_map. destruct (nth_error p i) as [cs | ]; cbn [option_map]; intros H; [ | discriminate ]. exists cs. split; [ reflexivity | congruence ]. Qed.
Lemma reach_fine p ts : (forall cs c, In cs p -> In c cs -> ordered [] (acts c)) -> reach p ts -> fine ts.
Proof.
  intros H R. induction R as [ | ts i ts' R IH St]; [ | apply (fine_step ts i ts'); assumption ]. split.
  - intros i j t u l N _ HT _. destruct (start_nth p i t N) as (cs & _ & ->). discriminate.
  - intros i t N. destruct (start_nth p i t N) as (cs & C & ->). cbn [held todo]. apply ordered_calls. intros c I. apply (H cs c); [ apply (nth_error_In _ _ C) | exact I ].
Qed.
End Rank.
Definition rank1 (l : lock) : nat := match l with Locations => 0 | Streams => 1 | Printer => 2 end.
Definition rank2 (l : lock) : nat := match l with Streams => 0 | Locations => 1 | Printer => 2 end.
Lemma loc_then_ask rank k : rank Locations < rank Streams -> ordered rank [] (notify_acts k).
Proof.
  intros R. unfold notify_acts. cbn [app ordered]. split; [ right; intros m [] | ]. apply ordered_asks; [ right; intros m [<- | []]; exact R | ]. cbn [ordered]. split; reflexivity.
Qed.
Lemma none_then r (l : lock) : (forall m, In m [] -> (r m < r l)%nat).
Proof. intros m []. Qed.
Lemma order1 c : changes_streams c = false -> ordered rank1 [] (acts c).
Proof.
  intros H. destruct c as [ | f | | a | k | | k | [k | ]]; cbn [changes_streams] in H; try discriminate; cbn [acts].
  - cbn. split; [ right; intros m [] | split; reflexivity ].
  - destruct f; cbn; (split; [ right; intros m [] | ]); [ split; [ right; intros m [<- | []]; cbn; lia | split; [ reflexivity | split; reflexivity ] ] | split; reflexivity ].
  - cbn. split; [ right; intros m [] | split; reflexivity ].
  - destruct a; cbn; (split; [ right; intros m [] | ]); [ split; [ right; intros m [<- | []]; cbn; lia | split; [ reflexivity | split; reflexivity ] ] | split; reflexivity ].
  - apply loc_then_ask. cbn. lia.
  - cbn. split; [ right; intros m [] | split; reflexivity ].
  - cbn. split; [ right; intros m [] | split; reflexivity ].
Qed.
Lemma inner k : ordered rank2 [] ([Acq Streams] ++ notify_acts k ++ [Rel Streams]).
Proof.
  unfold notify_acts. cbn [app ordered]. split; [ right; intros m [] | ]. split; [ right; intros m [<- | []]; cbn; lia | ]. rewrite <- app_assoc. apply ordered_asks; [ left; right; left; reflexivity | ].
  cbn [app ordered]. split; [ reflexivity | split; reflexivity ].
Qed.
Lemma order2 c : looks_at_locations c = false -> ordered rank2 [] (acts c).
Proof.
  intros H. destruct c as [ | [ | ] | | [ | ] | [ | k] | | k | [k | ]]; cbn [looks_at_locations] in H; try discriminate; cbn [acts]; try apply inner;
  cbn; (split; [ right; intros m [] | split; reflexivity ]).
Qed.
