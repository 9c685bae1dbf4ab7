(** * Lemmas about timers *)
From Flocq Require Import Core.
From Coq Require Import Reals ZArith List String Bool Arith Lra Lia.
From Verif Require Import TmrModel TmrSpec.
Import ListNotations.
Local Open Scope R_scope.

(** ** Statistics *)
Definition acc_of (l : list R) : acc := fold_right (fun x a => acc_add a x) no_samples l.
Lemma acc_fields l : a_count (acc_of l) = List.length l /\ a_sum (acc_of l) = sum l /\ a_squares (acc_of l) = sum (map (fun x => x * x) l) /\
  a_min (acc_of l) = least l /\ a_max (acc_of l) = greatest l /\ a_window (acc_of l) = firstn 50 l.
Proof.
  induction l as [ | x l (A & B & C & D & E & F)].
  - cbn [acc_of fold_right no_samples a_count a_sum a_squares a_min a_max a_window sum map List.length least greatest].
    split; [ reflexivity | ]. split; [ reflexivity | ]. split; [ reflexivity | ]. split; [ reflexivity | ]. split; [ reflexivity | ]. rewrite firstn_nil. reflexivity.
  - change (acc_of (x :: l)) with (acc_add (acc_of l) x). unfold acc_add. cbn [a_count a_sum a_squares a_min a_max a_window]. rewrite A, B, C, D, E, F.
    cbn [sum map fold_right List.length least greatest]. fold (sum l). fold (sum (map (fun x => x * x) l)).
    split; [ reflexivity | ]. split; [ ring | ]. split; [ ring | ]. split; [ reflexivity | ]. split; [ reflexivity | ].
    change (firstn 50 (x :: l)) with (x :: firstn 49 l). change (firstn 50 (x :: firstn 50 l)) with (x :: firstn 49 (firstn 50 l)). f_equal. rewrite firstn_firstn. reflexivity.
Qed.
Lemma quotient_average l : quotient (sum l) (INR (List.length l)) = average l.
Proof.
  unfold quotient, average. destruct l as [ | x l]; [ cbn [List.length]; destruct (Req_EM_T (INR 0) 0) as [_ | N]; [ reflexivity | contradiction N; reflexivity ] | ].
  destruct (Req_EM_T (INR (List.length (x :: l))) 0) as [E | _]; [ | reflexivity ]. exfalso. apply (not_0_INR (List.length (x :: l))) in E; [ exact E | cbn [List.length]; lia ].
Qed.
Lemma sum_scaled l m : sum (map (fun x => (x - m) * (x - m)) l) = sum (map (fun x => x * x) l) - 2 * m * sum l + INR (List.length l) * (m * m).
Proof.
  induction l as [ | x l IH]; [ cbn; ring | ]. cbn [map sum fold_right]. fold (sum l). fold (sum (map (fun x => (x - m) * (x - m)) l)). fold (sum (map (fun x => x * x) l)).
  rewrite IH. change (List.length (x :: l)) with (S (List.length l)). rewrite S_INR. ring.
Qed.
Lemma variance_val l : match average l, quotient (sum (map (fun x => x * x) l)) (INR (List.length l)) with Some m, Some q => Some (q - m * m) | _, _ => None end =
  match average l with Some m => average (map (fun x => (x - m) * (x - m)) l) | None => None end.
Proof.
  replace (List.length l) with (List.length (map (fun x => x * x) l)) by apply map_length. rewrite quotient_average. destruct l as [ | x l]; [ reflexivity | ].
  assert (N : INR (List.length (x :: l)) <> 0) by (apply not_0_INR; cbn [List.length]; lia).
  unfold average at 1 3. cbv beta iota. set (m := sum (x :: l) / INR (List.length (x :: l))).
  transitivity (Some (sum (map (fun y => y * y) (x :: l)) / INR (List.length (map (fun y => y * y) (x :: l))) - m * m)); [ reflexivity | ].
  transitivity (Some (sum (map (fun y => (y - m) * (y - m)) (x :: l)) / INR (List.length (map (fun y => (y - m) * (y - m)) (x :: l))))); [ | reflexivity ].
  rewrite !map_length, sum_scaled. f_equal. assert (M : sum (x :: l) = m * INR (List.length (x :: l))) by (unfold m; field; exact N). rewrite M. field. exact N.
Qed.
Lemma query_summary l : query (acc_of l) = summary l.
Proof.
  destruct (acc_fields l) as (A & B & C & D & E & F). unfold query, summary. rewrite A, B, C, D, E, F. cbv zeta. fold (sum (firstn 50 l)). rewrite !quotient_average.
  f_equal.
  rewrite <- variance_val. destruct (average l), (quotient (sum (map (fun x => x * x) l)) (INR (List.length l))); reflexivity.
Qed.

(** ** The registry *)
Definition rel (w : world) (b : book) : Prop :=
  List.length (timers w) = List.length (order b) /\ NoDup (order b) /\
  (forall tag, find_tag tag (tag_map w) = if known tag b then Some (position tag (order b)) else None) /\
  (forall h, find_handle h (tag_map w) = nth_error (order b) h) /\
  (forall h tag, nth_error (order b) h = Some tag -> nth_error (timers w) h = Some (acc_of (samples b tag))) /\
  (forall tag, known tag b = false -> samples b tag = []) /\
  (forall o, match objects w o, running b o with
             | None, None => True
             | Some x, Some (tag, r) => nth_error (order b) (m_handle x) = Some tag /\ match r with None => m_timing x = false | Some s => m_timing x = true /\ m_time x = s end
             | _, _ => False end).
Lemma rel_init : rel init empty.
Proof.
  split; [ reflexivity | ]. split; [ constructor | ]. split; [ reflexivity | ]. split; [ intros h; destruct h; reflexivity | ]. split; [ intros h tag H; destruct h; discriminate | ].
  split; [ reflexivity | ]. intros o. exact I.
Qed.
Lemma known_in tag b : known tag b = true <-> In tag (order b).
Proof.
  unfold known. rewrite existsb_exists. split.
  - intros (x & X & E). apply String.eqb_eq in E. subst x. exact X.
  - intros X. exists tag. split; [ exact X | apply String.eqb_refl ].
Qed.
Lemma position_nth tag l : In tag l -> nth_error l (position tag l) = Some tag.
Proof.
  induction l as [ | t l IH]; intros X; [ contradiction | ]. cbn [position]. destruct (String.eqb_spec t tag) as [-> | N]; [ reflexivity | ]. cbn [nth_error]. apply IH. destruct X as [E | X]; [ contradiction | exact X ].
Qed.
Lemma position_app_in tag l l' : In tag l -> position tag (l ++ l') = position tag l.
Proof.
  induction l as [ | t l IH]; intros X; [ contradiction | ]. cbn [app position]. destruct (String.eqb_spec t tag) as [-> | N]; [ reflexivity | ]. rewrite IH; [ reflexivity | ]. destruct X as [E | X]; [ contradiction | exact X ].
Qed.
Lemma position_app_new tag l : ~ In tag l -> position tag (l ++ [tag]) = List.length l.
Proof.
  induction l as [ | t l IH]; intros X; cbn [app position List.length].
  - rewrite String.eqb_refl. reflexivity.
  - destruct (String.eqb_spec t tag) as [-> | N]; [ exfalso; apply X; left; reflexivity | ]. rewrite IH; [ reflexivity | ]. intros Y. apply X. right. exact Y.
Qed.
Lemma nth_new {X} (l : list X) x h : nth_error (l ++ [x]) h = if Nat.eqb h (List.length l) then Some x else nth_error l h.
Proof.
  destruct (Nat.eqb_spec h (List.length l)) as [-> | N].
  - rewrite nth_error_app2, Nat.sub_diag by lia. reflexivity.
  - destruct (Nat.lt_ge_cases h (List.length l)) as [L | G]; [ apply nth_error_app1; exact L | ].
    transitivity (@None X); [ | symmetry ]; apply nth_error_None; [ rewrite app_length; cbn [List.length]; lia | exact G ].
Qed.
Lemma get_handle_rel w b tag : rel w b -> let r := get_handle tag w in
  rel (snd r) (mention tag b) /\ fst r = position tag (order (mention tag b)) /\ nth_error (order (mention tag b)) (fst r) = Some tag /\ objects (snd r) = objects w /\
  running (mention tag b) = running b /\ samples (mention tag b) = samples b.
Proof.
  intros Rl. pose proof Rl as (L & ND & FT & FH & TM & UN & OB). unfold get_handle. rewrite FT. unfold mention. destruct (known tag b) eqn:K; cbv zeta; cbn [fst snd order samples running].
  - split; [ exact Rl | ]. split; [ reflexivity | ]. split; [ apply position_nth, known_in; exact K | ]. split; [ reflexivity | ]. split; reflexivity.
  - assert (NI : ~ In tag (order b)) by (intros I; apply known_in in I; congruence).
    split; [ | split; [ rewrite position_app_new by exact NI; exact L | split; [ rewrite L, nth_new, Nat.eqb_refl; reflexivity | split; [ reflexivity | split; reflexivity ] ] ] ].
    split; [ cbn [timers order]; rewrite !app_length, L; reflexivity | ].
    split; [ cbn [order]; rewrite <- (rev_involutive (order b ++ [tag])); apply NoDup_rev; rewrite rev_app_distr; cbn [rev app]; constructor; [ rewrite <- in_rev; exact NI | apply NoDup_rev; exact ND ] | ].
    assert (KN : forall t, known t (Book (order b ++ [tag]) (samples b) (running b)) = (known t b || String.eqb t tag)%bool).
    { intros t. unfold known. cbn [order]. rewrite existsb_app. cbn [existsb]. rewrite orb_false_r. reflexivity. }
    cbn [tag_map timers objects order samples running].
    split; [ | split; [ | split; [ | split ] ] ].
    + intros t. rewrite KN. cbn [find_tag]. rewrite (String.eqb_sym tag t). destruct (String.eqb_spec t tag) as [-> | N].
      * rewrite orb_true_r, position_app_new, L by exact NI. reflexivity.
      * rewrite orb_false_r, FT. destruct (known t b) eqn:Kt; [ | reflexivity ]. rewrite position_app_in by (apply known_in; exact Kt). reflexivity.
    + intros h. cbn [find_handle]. rewrite nth_new, L, (Nat.eqb_sym (List.length (order b))). destruct (Nat.eqb h (List.length (order b))); [ reflexivity | apply FH ].
    + intros h t. rewrite nth_new. rewrite nth_new, L. destruct (Nat.eqb_spec h (List.length (order b))) as [-> | N].
      * intros E. assert (t = tag) by congruence. subst t. rewrite (UN tag K). reflexivity.
      * apply TM.
    + intros t Kt. rewrite KN in Kt. apply orb_false_iff in Kt. apply UN. apply Kt.
    + intros o. specialize (OB o). destruct (objects w o) as [x | ], (running b o) as [[t r] | ]; try exact OB. destruct OB as [O1 O2]. split; [ | exact O2 ].
      rewrite nth_error_app1; [ exact O1 | ]. apply nth_error_Some. congruence.
Qed.
Lemma with_object_rel w b o v v' : rel w b ->
  match v, v' with None, None => True
  | Some x, Some (tag, r) => nth_error (order b) (m_handle x) = Some tag /\ match r with None => m_timing x = false | Some s => m_timing x = true /\ m_time x = s end
  | _, _ => False end -> rel (with_object w o v) (put o v' b).
Proof.
  intros (L & ND & FT & FH & TM & UN & OB) V. split; [ exact L | ]. split; [ exact ND | ]. split; [ exact FT | ]. split; [ exact FH | ]. split; [ exact TM | ]. split; [ exact UN | ].
  intros k. cbn [with_object put objects running order]. unfold set. destruct (Nat.eqb k o); [ exact V | apply OB ].
Qed.
Lemma replace_length {X} (f : X -> X) l : forall n, List.length (replace n f l) = List.length l.
Proof. induction l as [ | x l IH]; intros n; destruct n; cbn [replace List.length]; [ reflexivity | reflexivity | reflexivity | rewrite IH; reflexivity ]. Qed.
Lemma replace_nth {X} (f : X -> X) l : forall n k, nth_error (replace n f l) k = if Nat.eqb k n then option_map f (nth_error l k) else nth_error l k.
Proof.
  induction l as [ | x l IH]; intros n k; destruct n, k; cbn [replace nth_error Nat.eqb option_map]; try reflexivity.
  - destruct (Nat.eqb k n); reflexivity.
  - apply IH.
Qed.
Lemma nodup_nth (l : list string) a b x : NoDup l -> nth_error l a = Some x -> nth_error l b = Some x -> a = b.
Proof. intros N A B. apply (proj1 (NoDup_nth_error l) N); [ apply nth_error_Some; congruence | congruence ]. Qed.
Lemma record_rel w b h tag (f : acc -> acc) (g : list R -> list R) : rel w b -> nth_error (order b) h = Some tag -> (forall l, f (acc_of l) = acc_of (g l)) ->
  rel (World (tag_map w) (replace h f (timers w)) (objects w)) (record tag g b).
Proof.
  intros (L & ND & FT & FH & TM & UN & OB) H FG. cbn [record].
  split; [ cbn [timers order]; rewrite replace_length; exact L | ]. split; [ exact ND | ]. split; [ exact FT | ]. split; [ exact FH | ]. split; [ | split; [ | exact OB ] ].
  - unfold record. cbn [timers order samples]. intros k t K. change (nth_error (order b) k = Some t) in K. rewrite replace_nth. destruct (Nat.eqb_spec k h) as [-> | N].
    + assert (t = tag) by congruence. subst t. rewrite (TM h tag H). cbn [option_map]. rewrite FG, String.eqb_refl. reflexivity.
    + rewrite (TM k t K). destruct (String.eqb_spec t tag) as [-> | NT]; [ | reflexivity ]. exfalso. apply N. apply (nodup_nth (order b) k h tag ND K H).
  - unfold record. intros t K. cbn [samples]. destruct (String.eqb_spec t tag) as [-> | NT]; [ | apply UN; exact K ]. exfalso.
    assert (known tag b = true) by (apply known_in; apply (nth_error_In _ _ H)). unfold known in *. cbn [order] in K. congruence.
Qed.
Lemma step_rel w b c : rel w b -> rel (fst (step w c)) (fst (spec_step b c)) /\ snd (step w c) = snd (spec_step b c).
Proof.
  intros Rl. pose proof Rl as (L & ND & FT & FH & TM & UN & OB). destruct c as [o tag stopped t | o h stopped t | o t | o t | o t | o src | tag | h | tag | h | tag | h]; cbn [step spec_step].
  - pose proof (OB o) as O. destruct (objects w o) as [x | ], (running b o) as [[u r] | ]; try contradiction; [ split; [ exact Rl | reflexivity ] | ].
    destruct (get_handle_rel w b tag Rl) as (R1 & P & NTH & O1 & RU & SA). destruct (get_handle tag w) as [h w1]. cbn [fst snd] in *.
    split; [ | reflexivity ]. apply with_object_rel; [ exact R1 | ]. destruct stopped; cbn [m_handle m_timing m_time]; (split; [ exact NTH | ]); [ reflexivity | split; reflexivity ].
  - pose proof (OB o) as O. destruct (objects w o) as [x | ], (running b o) as [[u r] | ]; try contradiction; [ split; [ exact Rl | reflexivity ] | ].
    rewrite L. destruct (Nat.ltb_spec h (List.length (order b))) as [H | H].
    + destruct (nth_error (order b) h) as [tag | ] eqn:E; [ | apply nth_error_None in E; lia ]. cbn [fst snd]. split; [ | reflexivity ]. apply with_object_rel; [ exact Rl | ].
      destruct stopped; cbn [m_handle m_timing m_time]; (split; [ exact E | ]); [ reflexivity | split; reflexivity ].
    + assert (E : nth_error (order b) h = None) by (apply nth_error_None; exact H). rewrite E. split; [ exact Rl | reflexivity ].
  - pose proof (OB o) as O. destruct (objects w o) as [x | ], (running b o) as [[u r] | ]; try contradiction; [ | split; [ exact Rl | reflexivity ] ].
    destruct O as [O1 O2]. unfold start. destruct r as [s | ].
    + destruct O2 as [O2 _]. rewrite O2. split; [ exact Rl | reflexivity ].
    + rewrite O2. cbn [fst snd]. split; [ | reflexivity ]. apply with_object_rel; [ exact Rl | ]. cbn [m_handle m_timing m_time]. split; [ exact O1 | split; reflexivity ].
  - pose proof (OB o) as O. destruct (objects w o) as [x | ], (running b o) as [[u r] | ]; try contradiction; [ | split; [ exact Rl | reflexivity ] ].
    destruct O as [O1 O2]. unfold stop. destruct r as [s | ].
    + destruct O2 as [O2 O3]. rewrite O2, O3. cbn [fst snd]. split; [ | reflexivity ]. apply with_object_rel; [ apply record_rel; [ exact Rl | exact O1 | reflexivity ] | ].
      cbn [m_handle m_timing record order]. split; [ exact O1 | reflexivity ].
    + rewrite O2. split; [ exact Rl | reflexivity ].
  - pose proof (OB o) as O. destruct (objects w o) as [x | ], (running b o) as [[u r] | ]; try contradiction; [ | split; [ exact Rl | reflexivity ] ].
    destruct O as [O1 O2]. unfold stop. destruct r as [s | ].
    + destruct O2 as [O2 O3]. rewrite O2, O3. cbn [fst snd]. split; [ | reflexivity ]. apply with_object_rel; [ apply record_rel; [ exact Rl | exact O1 | reflexivity ] | exact I ].
    + rewrite O2. cbn [fst snd]. split; [ apply with_object_rel; [ exact Rl | exact I ] | reflexivity ].
  - pose proof (OB o) as O. pose proof (OB src) as O'. destruct (objects w o) as [x | ], (running b o) as [[u r] | ]; try contradiction; [ split; [ exact Rl | reflexivity ] | ].
    destruct (objects w src) as [y | ], (running b src) as [[u' r'] | ]; try contradiction; [ | split; [ exact Rl | reflexivity ] ]. cbn [fst snd]. split; [ | reflexivity ]. apply with_object_rel; [ exact Rl | exact O' ].
  - destruct (get_handle_rel w b tag Rl) as (R1 & P & NTH & O1 & RU & SA). destruct (get_handle tag w) as [h w1]. cbn [fst snd] in *. split; [ | reflexivity ]. apply record_rel; [ exact R1 | exact NTH | reflexivity ].
  - rewrite L. destruct (Nat.ltb_spec h (List.length (order b))) as [H | H].
    + destruct (nth_error (order b) h) as [tag | ] eqn:E; [ | apply nth_error_None in E; lia ]. cbn [fst snd]. split; [ | reflexivity ]. apply record_rel; [ exact Rl | exact E | reflexivity ].
    + assert (E : nth_error (order b) h = None) by (apply nth_error_None; exact H). rewrite E. split; [ exact Rl | reflexivity ].
  - destruct (get_handle_rel w b tag Rl) as (R1 & P & NTH & O1 & RU & SA). destruct (get_handle tag w) as [h w1]. cbn [fst snd] in *. split; [ exact R1 | rewrite P; reflexivity ].
  - cbn [fst snd]. split; [ exact Rl | ]. rewrite FH. reflexivity.
  - destruct (get_handle_rel w b tag Rl) as (R1 & P & NTH & O1 & RU & SA). destruct (get_handle tag w) as [h w1]. cbn [fst snd] in *. split; [ exact R1 | ].
    destruct R1 as (_ & _ & _ & _ & TM1 & _). rewrite (TM1 h tag NTH), query_summary, SA. reflexivity.
  - cbn [fst snd]. split; [ exact Rl | ]. destruct (nth_error (order b) h) as [tag | ] eqn:E.
    + rewrite (TM h tag E), query_summary. reflexivity.
    + assert (E' : nth_error (timers w) h = None) by (apply nth_error_None; rewrite L; apply nth_error_None; exact E). rewrite E'. reflexivity.
Qed.
Lemma run_rel l : forall w b, rel w b -> snd (run w l) = snd (spec_run b l).
Proof.
  induction l as [ | c l IH]; intros w b Rl; [ reflexivity | ]. cbn [run spec_run]. destruct (step_rel w b c Rl) as [R1 E].
  destruct (step w c) as [w1 x], (spec_step b c) as [b1 y]. cbn [fst snd] in *. specialize (IH w1 b1 R1). destruct (run w1 l) as [w2 xs], (spec_run b1 l) as [b2 ys]. cbn [fst snd] in *. congruence.
Qed.

(** ** Least and greatest *)
Lemma least_spec l m : least l = Some m -> In m l /\ forall x, In x l -> m <= x.
Proof.
  revert m. induction l as [ | a l IH]; intros m E; [ discriminate | ]. cbn [least] in E. destruct (least l) as [k | ] eqn:K.
  - assert (m = Rmin k a) by congruence. subst m. destruct (IH k eq_refl) as [I B]. split.
    + unfold Rmin. destruct (Rle_dec k a); [ right; exact I | left; reflexivity ].
    + intros x [<- | X]; [ apply Rmin_r | ]. apply Rle_trans with k; [ apply Rmin_l | apply B; exact X ].
  - assert (m = a) by congruence. subst m. destruct l as [ | b l]; [ | cbn [least] in K; discriminate ]. split; [ left; reflexivity | ]. intros x [<- | []]. lra.
Qed.
Lemma greatest_spec l m : greatest l = Some m -> In m l /\ forall x, In x l -> x <= m.
Proof.
  revert m. induction l as [ | a l IH]; intros m E; [ discriminate | ]. cbn [greatest] in E. destruct (greatest l) as [k | ] eqn:K.
  - assert (m = Rmax k a) by congruence. subst m. destruct (IH k eq_refl) as [I B]. split.
    + unfold Rmax. destruct (Rle_dec k a); [ left; reflexivity | right; exact I ].
    + intros x [<- | X]; [ apply Rmax_r | ]. apply Rle_trans with k; [ apply B; exact X | apply Rmax_l ].
  - assert (m = a) by congruence. subst m. destruct l as [ | b l]; [ | cbn [greatest] in K; discriminate ]. split; [ left; reflexivity | ]. intros x [<- | []]. lra.
Qed.

(** ** Printing *)
Lemma time_string_val s : 0 <= s -> let '(h, m, u) := time_string s in
  (0 <= h)%Z /\ (0 <= m < 60)%Z /\ (0 <= u <= 60000000)%Z /\ Rabs (3600 * IZR h + 60 * IZR m + IZR u / 1000000 - s) <= 1 / 2000000.
Proof.
  intros S. unfold time_string. rewrite !Ztrunc_floor by lra.
  pose proof (Zfloor_lb (s / 60)) as A1. pose proof (Zfloor_ub (s / 60)) as A2. pose proof (Zfloor_lb (s / 3600)) as B1. pose proof (Zfloor_ub (s / 3600)) as B2.
  assert (FH : (0 <= Zfloor (s / 3600))%Z) by (apply Zfloor_lub; lra). set (H := Zfloor (s / 3600)) in *. set (Mn := Zfloor (s / 60)) in *.
  set (secs := s - 60 * IZR Mn). assert (SB : 0 <= secs < 60) by (unfold secs; lra).
  assert (ML : (60 * H <= Mn)%Z) by (unfold Mn; apply Zfloor_lub; rewrite mult_IZR; lra).
  assert (MU : (Mn < 60 * H + 60)%Z). { apply lt_IZR. rewrite plus_IZR, mult_IZR. lra. }
  pose proof (Znearest_half (fun x => negb (Z.even x)) (secs * 1000000)) as N. fold (ZnearestE (secs * 1000000)) in N. set (u := ZnearestE (secs * 1000000)) in *.
  apply Rabs_le_inv in N.
  split; [ exact FH | ]. split; [ lia | ]. split.
  - split.
    + assert (X : (-1 < u)%Z) by (apply lt_IZR; lra). lia.
    + assert (X : (u < 60000001)%Z) by (apply lt_IZR; lra). lia.
  - rewrite minus_IZR, mult_IZR. replace (3600 * IZR H + 60 * (IZR Mn - IZR H * 60) + IZR u / 1000000 - s) with ((IZR u - secs * 1000000) / 1000000) by (unfold secs; field).
    apply Rabs_le. lra.
Qed.
Lemma string_sixty : time_string (599999999 / 10000000) = (0, 0, 60000000)%Z.
Proof.
  unfold time_string. rewrite !Ztrunc_floor by lra.
  assert (A : Zfloor (599999999 / 10000000 / 60) = 0%Z) by (apply Zfloor_imp; cbn; lra). assert (B : Zfloor (599999999 / 10000000 / 3600) = 0%Z) by (apply Zfloor_imp; cbn; lra). rewrite A, B.
  f_equal. apply Znearest_imp. apply Rabs_def1; lra.
Qed.

(** ** Handles over time *)
Lemma step_order w b c : rel w b -> exists b', rel (fst (step w c)) b' /\ exists x, order b' = order b ++ x.
Proof.
  intros Rl. exists (fst (spec_step b c)). split; [ apply (step_rel w b c Rl) | ].
  assert (M : forall tag, exists x, order (mention tag b) = order b ++ x) by (intros tag; unfold mention; destruct (known tag b); cbn [order]; [ exists []; rewrite app_nil_r; reflexivity | exists [tag]; reflexivity ]).
  assert (I : exists x, order b = order b ++ x) by (exists []; rewrite app_nil_r; reflexivity).
  destruct c; cbn [spec_step]; repeat match goal with
  | |- context [match running b ?o with _ => _ end] => destruct (running b o) as [[? [? | ]] | ]
  | |- context [match nth_error (order b) ?h with _ => _ end] => destruct (nth_error (order b) h)
  end; cbn [fst put record order]; auto.
Qed.
Lemma grows l : forall w b, rel w b -> exists b', rel (fst (run w l)) b' /\ exists x, order b' = order b ++ x.
Proof.
  induction l as [ | c l IH]; intros w b Rl; [ exists b; split; [ exact Rl | exists []; rewrite app_nil_r; reflexivity ] | ].
  cbn [run]. destruct (step_order w b c Rl) as (b1 & R1 & x & X). destruct (step w c) as [w1 r]. cbn [fst] in R1. destruct (IH w1 b1 R1) as (b2 & R2 & y & Y).
  exists b2. destruct (run w1 l) as [w2 rs]. cbn [fst] in *. split; [ exact R2 | ]. exists (x ++ y). rewrite Y, X, app_assoc. reflexivity.
Qed.
Lemma reached ops : exists b, rel (fst (run init ops)) b.
Proof. destruct (grows ops init empty rel_init) as (b & Rl & _). exists b. exact Rl. Qed.
Lemma nth_grows {X} (l l' x : list X) h v : l' = l ++ x -> nth_error l h = Some v -> nth_error l' h = Some v.
Proof. intros -> H. rewrite nth_error_app1; [ exact H | apply nth_error_Some; congruence ]. Qed.
Lemma handle_kept w b tag tag' h ops : rel w b -> snd (step w (GetHandle tag)) = Handle h -> let w' := fst (run (fst (step w (GetHandle tag))) ops) in
  snd (step w' (GetHandle tag)) = Handle h /\ snd (step w' (GetTag h)) = Tag tag /\ (snd (step w' (GetHandle tag')) = Handle h -> tag = tag').
Proof.
  intros Rl H w'. unfold w'. clear w'. cbn [step] in H |- *. destruct (get_handle_rel w b tag Rl) as (R1 & P & NTH & _). destruct (get_handle tag w) as [k w1]. cbn [fst snd] in *.
  assert (K : k = h) by congruence. rewrite K in NTH, P. clear K H.
  destruct (grows ops w1 (mention tag b) R1) as (b2 & R2 & x & X). set (w2 := fst (run w1 ops)) in *. pose proof (nth_grows _ _ _ h tag X NTH) as N2.
  pose proof R2 as (_ & ND & _ & FH & _). split; [ | split ].
  - destruct (get_handle_rel w2 b2 tag R2) as (R3 & P3 & NTH3 & _). destruct (get_handle tag w2) as [k3 w3]. cbn [fst snd] in *.
    assert (KN : known tag b2 = true) by (apply known_in; apply (nth_error_In _ _ N2)). unfold mention in NTH3. rewrite KN in NTH3. f_equal. apply (nodup_nth (order b2) k3 h tag ND NTH3 N2).
  - rewrite FH, N2. reflexivity.
  - destruct (get_handle_rel w2 b2 tag' R2) as (R3 & P3 & NTH3 & _). destruct (get_handle tag' w2) as [k3 w3]. cbn [fst snd] in *. intros H. assert (K : k3 = h) by congruence. rewrite K in NTH3.
    assert (Y : exists y, order (mention tag' b2) = order b2 ++ y) by (unfold mention; destruct (known tag' b2); cbn [order]; [ exists []; rewrite app_nil_r; reflexivity | exists [tag']; reflexivity ]).
    destruct Y as [y Y]. pose proof (nth_grows _ _ _ h tag Y N2) as N3. congruence.
Qed.
