(** Lemmas about the job queue. *)
From Coq Require Import ZArith List Lia Bool Permutation.
From Verif Require Import Base JobQueueModel JobQueueSpec.
Import ListNotations.
Open Scope Z_scope.

(** * Lists *)
Lemma split_nth {A} (l : list A) : forall i x, nth_error l i = Some x ->
  exists l1 l2, l = l1 ++ x :: l2 /\ length l1 = i /\ forall y, set l i y = l1 ++ y :: l2.
Proof.
  induction l as [|a l IH]; intros [|i] x H; try discriminate.
  - cbn in H. injection H as ->. exists [], l. auto.
  - cbn in H. destruct (IH i x H) as (l1 & l2 & -> & <- & Hs).
    exists (a :: l1), l2. repeat split. intros y. cbn. now rewrite Hs.
Qed.

Lemma set_map {A} (f : A -> A) l : forall i x, map f (set l i x) = set (map f l) i (f x).
Proof. induction l; intros [|i] x; cbn; congruence. Qed.

Lemma nth_set {A} (l : list A) : forall i j x, nth_error (set l i x) j =
  if Nat.eqb i j then (match nth_error l i with Some _ => Some x | None => None end) else nth_error l j.
Proof.
  induction l as [|a l IH]; intros [|i] [|j] x; cbn; auto.
  destruct (Nat.eqb i j); reflexivity.
Qed.

Lemma length_set {A} (l : list A) : forall i x, length (set l i x) = length l.
Proof. induction l; intros [|i] x; cbn; auto. Qed.

Lemma nth_middle {A} (l1 l2 : list A) x j : nth_error (l1 ++ x :: l2) j = 
  if Nat.eqb (length l1) j then Some x else nth_error (l1 ++ x :: l2) j.
Proof.
  destruct (Nat.eqb_spec (length l1) j) as [<-|]; [|reflexivity].
  rewrite nth_error_app2 by lia. now rewrite Nat.sub_diag.
Qed.

Definition cnt {A} (f : A -> bool) (l : list A) : Z := Z.of_nat (length (filter f l)).
Lemma cnt_app {A} (f : A -> bool) a b : cnt f (a ++ b) = cnt f a + cnt f b.
Proof. unfold cnt. rewrite filter_app, app_length. lia. Qed.
Lemma cnt_cons {A} (f : A -> bool) x b : cnt f (x :: b) = (if f x then 1 else 0) + cnt f b.
Proof. unfold cnt. cbn [filter]. destruct (f x); cbn [length]; lia. Qed.
Lemma cnt_nonneg {A} (f : A -> bool) a : 0 <= cnt f a. Proof. unfold cnt; lia. Qed.
Lemma cnt_map {A} (f : A -> bool) (g : A -> A) l : (forall x, f (g x) = f x) -> cnt f (map g l) = cnt f l.
Proof. intros H. induction l; cbn [map]; [reflexivity|]. rewrite !cnt_cons, H, IHl. reflexivity. Qed.
Lemma cnt_zero {A} (f : A -> bool) l : cnt f l = 0 <-> Forall (fun x => f x = false) l.
Proof.
  induction l as [|a l IH]; [split; [constructor|reflexivity]|].
  rewrite cnt_cons. pose proof (cnt_nonneg f l). destruct (f a) eqn:E; split; intros H'.
  - lia.
  - inversion H'; congruence.
  - constructor; [exact E|apply IH; lia].
  - inversion H'; subst. apply IH in H3. lia.
Qed.
Lemma cnt_repeat {A} (f : A -> bool) x n : f x = false -> cnt f (repeat x n) = 0.
Proof. intros H. apply cnt_zero. apply Forall_forall. intros y Hy. now apply repeat_spec in Hy as ->. Qed.

(** * Classes of program points *)
Definition entered (p : wpc) : bool := match p with WEnter | WExit => false | _ => true end.
Definition busy (p : wpc) : bool := match p with WRun _ | WRelock => true | _ => false end.
Definition holds (p : wpc) : bool := match p with WLoop | WDecided => true | _ => false end.
Definition asleep (p : wpc) : bool := match p with WDecided | WWait => true | _ => false end.
Definition joining (p : cpc) : bool := match p with CJoin2 | CJoin3 => true | _ => false end.

(** * Inversion of a step *)
Ltac break H :=
  repeat match type of H with
  | context [match nth_error ?l ?i with _ => _ end] => let E := fresh "En" in destruct (nth_error l i) as [[]|] eqn:E
  | context [match lock ?s with _ => _ end] => let E := fresh "El" in destruct (lock s) eqn:E
  | context [if kill ?s then _ else _] => let E := fresh "Ek" in destruct (kill s) eqn:E
  | context [match q ?s with _ => _ end] => let E := fresh "Eq" in destruct (q s) eqn:E
  | context [if forallb ?f ?l then _ else _] => let E := fresh "Ef" in destruct (forallb f l) eqn:E
  | context [?a =? ?b] => let E := fresh "Ez" in destruct (Z.eqb_spec a b) as [E|E]
  | context [if created ?s then _ else _] => let E := fresh "Ec" in destruct (created s) eqn:E
  | context [if negb (created ?s) then _ else _] => let E := fresh "Ec" in destruct (created s) eqn:E
  | context [match ?o with OpSchedule _ => _ | _ => _ end] => destruct o
  end; try discriminate H; cbn [negb orb] in H; try discriminate H;
  let H1 := fresh in let H2 := fresh in injection H as H1 H2;
  (match type of H1 with _ = ?v => subst v end); (match type of H2 with _ = ?v => subst v end).

Ltac step_cases H :=
  unfold step, call_step, client_step, worker_step, join_is_ub in H;
  break H;
  cbn [with_w with_c set_w set_c set_lock set_kill set_pool set_active set_q notify notify_work
       kill pool active q lock created workers clients] in *.

(** * The invariants *)
Definition Ilock (s : state) : Prop :=
  forall i, lock s = Some i <-> exists p, nth_error (workers s) i = Some p /\ holds p = true.

Lemma holds_wake p : holds (wake_w p) = holds p. Proof. now destruct p. Qed.
Lemma entered_wake p : entered (wake_w p) = entered p. Proof. now destruct p. Qed.
Lemma busy_wake p : busy (wake_w p) = busy p. Proof. now destruct p. Qed.

Lemma Ilock_set ws w p x i : nth_error ws w = Some x ->
  ((exists r, nth_error (set ws w p) i = Some r /\ holds r = true) <->
   (i = w /\ holds p = true) \/ (i <> w /\ exists r, nth_error ws i = Some r /\ holds r = true)).
Proof.
  intros Hw. setoid_rewrite nth_set. rewrite Hw.
  destruct (Nat.eqb_spec w i) as [->|Hne]; split.
  - intros (r & [= <-] & H). auto.
  - intros [[_ H]|[H _]]; [eauto|congruence].
  - intros (r & H). right. split; [congruence|eauto].
  - intros [[H _]|[_ H]]; [congruence|exact H].
Qed.

Lemma Ilock_map ws i :
  ((exists r, nth_error (map wake_w ws) i = Some r /\ holds r = true) <->
   exists r, nth_error ws i = Some r /\ holds r = true).
Proof.
  rewrite nth_error_map. split.
  - intros (r & H & Hr). destruct (nth_error ws i) as [p|]; [|discriminate].
    injection H as <-. rewrite holds_wake in Hr. eauto.
  - intros (r & -> & Hr). eexists. split; [reflexivity|]. now rewrite holds_wake.
Qed.

Lemma Ilock_step s a s' t : step s a = Some (s', t) ->
  (created s = false -> workers s = []) -> Ilock s -> Ilock s'.
Proof.
  intros H Hc I. unfold Ilock in *. destruct a as [c o|c|w|w|c]; step_cases H; intros i; specialize (I i) as Ii;
    try (rewrite Ilock_map); try (erewrite Ilock_set by eassumption); try exact Ii;
    try (rewrite <- Ii);
    try (match goal with En : nth_error (workers s) ?w = Some ?p |- _ =>
           assert (Hw : (holds p = true) <-> lock s = Some w)
             by (split; [intros Hp; apply (I w); eexists; split; eassumption
                        | intros Hp; apply (I w) in Hp as (r & Hr & Hh); rewrite En in Hr; injection Hr as <-; exact Hh]);
           cbn [holds] in *
         end);
    try (split; [intros|intros [[? ?]|[? ?]]]; try congruence; intuition congruence).
  all: try (rewrite El; tauto).
  all: try (split; [intros Hl; right; split; [intros ->; apply Hw in Hl; discriminate|exact Hl]|intros [[_ ?]|[_ ?]]; [discriminate|assumption]]).
  - (* start *) rewrite Ii, (Hc eq_refl). split.
    + intros (p & Hp & _). destruct i; discriminate.
    + intros (p & Hp & Hh). apply nth_error_In, repeat_spec in Hp. subst p. discriminate.
Qed.

(** * The observable invariant *)
Record Inv (s : state) (t : list event) : Prop := {
  Ifree : created s = false -> workers s = [];
  Ilk : Ilock s;
  Ififo : started t ++ q s = scheduled t;
  Irun : Permutation (started t) (finished t ++ running (workers s));
  Ipool : pool s = cnt entered (workers s);
  Iactive : active s = cnt busy (workers s);
  Isleep : q s <> [] -> cnt asleep (workers s) = 0;
  Iwait : In CWaiting (clients s) -> active s <> 0 \/ q s <> [];
  Idestr : In CDestroying (clients s) -> pool s <> 0;
  Idkill : cnt destroying (clients s) <> 0 -> kill s = true /\ cnt asleep (workers s) = 0;
  Ijkill : cnt joining (clients s) <> 0 -> kill s = true;
  Iexit : cnt exited (workers s) <> 0 -> kill s = true
}.

Lemma Inv_init n : Inv (init n) [].
Proof.
  split; cbn; auto; try (intros H; exfalso; apply H; reflexivity).
  - intros i. split; [discriminate|]. intros (p & H & _). destruct i; discriminate.
  - intros H. apply repeat_spec in H. discriminate.
  - intros H. apply repeat_spec in H. discriminate.
  - intros H. exfalso. apply H. now apply cnt_repeat.
  - intros H. exfalso. apply H. now apply cnt_repeat.
Qed.

Lemma lock_none_no_holder s : Ilock s -> lock s = None -> cnt holds (workers s) = 0.
Proof.
  intros I El. apply cnt_zero. apply Forall_forall. intros p Hp. destruct (holds p) eqn:E; [|reflexivity].
  apply In_nth_error in Hp as (i & Hi). assert (lock s = Some i) by (apply I; eauto). congruence.
Qed.

Lemma asleep_wake ws : cnt holds ws = 0 -> cnt asleep (map wake_w ws) = 0.
Proof.
  rewrite !cnt_zero. intros H. apply Forall_map. eapply Forall_impl; [|exact H].
  intros []; cbn; congruence.
Qed.
Lemma asleep_wake_le ws : cnt asleep (map wake_w ws) <= cnt asleep ws.
Proof. induction ws as [|p ws IH]; [reflexivity|]. cbn [map]. rewrite !cnt_cons. destruct p; cbn [asleep wake_w]; lia. Qed.
Lemma running_wake ws : running (map wake_w ws) = running ws.
Proof. unfold running. induction ws as [|p ws IH]; [reflexivity|]. cbn. rewrite IH. now destruct p. Qed.
Lemma running_app a b : running (a ++ b) = running a ++ running b.
Proof. apply flat_map_app. Qed.
Lemma started_app a b : started (a ++ b) = started a ++ started b. Proof. apply flat_map_app. Qed.
Lemma scheduled_app a b : scheduled (a ++ b) = scheduled a ++ scheduled b. Proof. apply flat_map_app. Qed.
Lemma finished_app a b : finished (a ++ b) = finished a ++ finished b. Proof. apply flat_map_app. Qed.
Lemma exited_wake ws : cnt exited (map wake_w ws) = cnt exited ws.
Proof. apply cnt_map. now intros []. Qed.
Lemma joining_wake_d cs : cnt joining (map wake_d cs) = cnt joining cs.
Proof. apply cnt_map. now intros []. Qed.
Lemma joining_wake_c cs : cnt joining (map wake_c cs) = cnt joining cs.
Proof. apply cnt_map. now intros []. Qed.
Lemma destroying_wake_d cs : cnt destroying (map wake_d cs) = cnt destroying cs.
Proof. apply cnt_map. now intros []. Qed.
Lemma destroying_wake_c cs : cnt destroying (map wake_c cs) = cnt destroying cs.
Proof. apply cnt_map. now intros []. Qed.
Lemma in_wake_d cs : ~ In CDestroying (map wake_d cs).
Proof. intros H. apply in_map_iff in H as ([] & H & _); discriminate. Qed.
Lemma in_wake_d_w cs : In CWaiting (map wake_d cs) -> In CWaiting cs.
Proof. intros H. apply in_map_iff in H as ([] & H & Hi); try discriminate. exact Hi. Qed.
Lemma in_wake_c cs : ~ In CWaiting (map wake_c cs).
Proof. intros H. apply in_map_iff in H as ([] & H & _); discriminate. Qed.
Lemma in_wake_c_d cs : In CDestroying (map wake_c cs) -> In CDestroying cs.
Proof. intros H. apply in_map_iff in H as ([] & H & Hi); try discriminate. exact Hi. Qed.
Lemma in_set {A} (cs : list A) c x y z : nth_error cs c = Some y -> In z (set cs c x) -> z = x \/ In z cs.
Proof.
  intros Hc Hi. apply split_nth in Hc as (l1 & l2 & -> & _ & Hs). rewrite Hs in Hi.
  rewrite in_app_iff in *. cbn in *. intuition congruence.
Qed.
Lemma cnt_set {A} (f : A -> bool) cs c x y : nth_error cs c = Some y ->
  cnt f (set cs c x) = cnt f cs - (if f y then 1 else 0) + (if f x then 1 else 0).
Proof.
  intros Hc. apply split_nth in Hc as (l1 & l2 & -> & _ & Hs). rewrite Hs, !cnt_app, !cnt_cons. lia.
Qed.
Lemma nth_wake_w ws w p : nth_error ws w = Some p -> nth_error (map wake_w ws) w = Some (wake_w p).
Proof. intros H. now rewrite nth_error_map, H. Qed.
Lemma nth_wake_d ws w p : nth_error ws w = Some p -> nth_error (map wake_d ws) w = Some (wake_d p).
Proof. intros H. now rewrite nth_error_map, H. Qed.
Lemma running_set ws w x y : nth_error ws w = Some y ->
  exists a b, running ws = a ++ running [y] ++ b /\ running (set ws w x) = a ++ running [x] ++ b.
Proof.
  intros Hc. apply split_nth in Hc as (l1 & l2 & -> & _ & Hs). rewrite Hs.
  exists (running l1), (running l2). unfold running. rewrite !flat_map_app. cbn. rewrite !app_nil_r. auto.
Qed.
Lemma cnt_pos {A} (f : A -> bool) l x : In x l -> f x = true -> cnt f l <> 0.
Proof. intros Hi Hf H. rewrite cnt_zero, Forall_forall in H. apply H in Hi. congruence. Qed.

Ltac cnts :=
  repeat first
  [ erewrite cnt_set by (first [eassumption | apply nth_wake_w; eassumption | apply nth_wake_d; eassumption])
  | rewrite exited_wake | rewrite joining_wake_d | rewrite joining_wake_c
  | rewrite destroying_wake_c | rewrite destroying_wake_d
  | rewrite (cnt_map entered wake_w) by exact entered_wake
  | rewrite (cnt_map busy wake_w) by exact busy_wake ];
  cbn [entered busy holds asleep exited joining destroying wake_w wake_d wake_c].

Lemma Inv_step s a s' t t1 : Inv s t -> step s a = Some (s', t1) -> Inv s' (t ++ t1).
Proof.
  intros I H. pose proof (Ilock_step _ _ _ _ H (Ifree _ _ I) (Ilk _ _ I)) as HL.
  pose proof (cnt_nonneg busy (workers s)) as Nb. pose proof (cnt_nonneg entered (workers s)) as Ne.
  pose proof (cnt_nonneg asleep (workers s)) as Na.
  pose proof (asleep_wake_le (workers s)) as Naw.
  pose proof (fun El => asleep_wake (workers s) (lock_none_no_holder s (Ilk _ _ I) El)) as Nl.
  destruct I as [I1 I2 I3 I4 I5 I6 I7 I8 I9 I10 I11 I12].
  destruct a as [c o|c|w|w|c]; step_cases H; split; try exact HL;
    cbn [with_w with_c set_w set_c set_lock set_kill set_pool set_active set_q notify notify_work
       kill pool active q lock created workers clients] in *; try assumption;
    repeat match goal with E : q s = _ |- _ => rewrite E in *; clear E | E : kill s = _ |- _ => rewrite E in *; clear E end; try assumption;
  rewrite ?started_app, ?scheduled_app, ?finished_app, ?app_nil_r; cbn [started scheduled finished flat_map app]; rewrite ?app_nil_r; try assumption;
  try (intros Hcr; specialize (I1 Hcr); rewrite I1 in *; destruct w; discriminate);
  (* membership in the clients *)
  try match goal with
    | |- In _ (set (map wake_d _) _ _) -> _ => intros Hi; eapply in_set in Hi; [|apply nth_wake_d; eassumption];
         destruct Hi as [Hi|Hi]; [try discriminate Hi|first [now apply in_wake_d in Hi | apply in_wake_d_w in Hi]]
    | |- In _ (set (clients s) _ _) -> _ => intros Hi; eapply in_set in Hi; [|eassumption]; destruct Hi as [Hi|Hi]; [try discriminate Hi|]
    | |- In _ (map wake_d _) -> _ => intros Hi; first [now apply in_wake_d in Hi | apply in_wake_d_w in Hi]
    | |- In _ (map wake_c _) -> _ => intros Hi; first [now apply in_wake_c in Hi | apply in_wake_c_d in Hi]
    end; try solve [auto | right; destruct (q s); discriminate | left; assumption | right; congruence
                   | specialize (I8 Hi); lia | specialize (I9 Hi); lia | left; specialize (I8 Hi); lia];
  (* the pool being started *)
  try match goal with Ec : created s = false |- context [repeat WEnter ?n] =>
      specialize (I1 Ec); rewrite I1 in *;
      first [ intros Hq; rewrite cnt_repeat; [first [reflexivity|now apply I10]|reflexivity]
            | intros Hq; split; [now apply I10|now apply cnt_repeat]
            | intros Hq; exfalso; apply Hq; now apply cnt_repeat
            | rewrite cnt_repeat; [assumption|reflexivity]
            | replace (running (repeat WEnter n)) with (@nil job); [exact I4|clear; induction n; cbn; auto] ] end;
  try (intros Hcr; rewrite (I1 Hcr); reflexivity);
  (* queue *)
  try (rewrite app_assoc, I3; reflexivity);
  try (rewrite <- I3, <- app_assoc; reflexivity);
  (* running jobs *)
  try match goal with |- Permutation _ (_ ++ running _) =>
      rewrite ?running_wake;
      try match goal with |- context [running (set (workers s) ?w ?x)] =>
        destruct (running_set (workers s) w x _ ltac:(eassumption)) as (ra & rb & Ra & Rb); rewrite Rb; rewrite Ra in I4; cbn [running flat_map app] in * end;
      first [ exact I4
            | (etransitivity; [apply Permutation_app_comm|]); cbn [app]; 
              (etransitivity; [apply perm_skip, I4|]); rewrite !app_assoc; apply Permutation_middle
            | (etransitivity; [exact I4|]); rewrite <- !app_assoc; apply Permutation_app_head;
              cbn [app]; symmetry; apply Permutation_middle ] end;
  (* counters *)
  try match goal with En : nth_error (clients s) _ = Some ?p |- _ =>
      try pose proof (cnt_pos destroying (clients s) p (nth_error_In _ _ En) eq_refl);
      try pose proof (cnt_pos joining (clients s) p (nth_error_In _ _ En) eq_refl) end;
  try match goal with En : nth_error (workers s) _ = Some ?p |- _ =>
      try pose proof (cnt_pos asleep (workers s) p (nth_error_In _ _ En) eq_refl) end;
  try match goal with
    | |- _ = cnt _ _ => cnts; lia
    | |- cnt joining _ <> 0 -> _ => cnts; intros; solve [reflexivity | assumption | apply I11; lia]
    | |- cnt exited _ <> 0 -> _ => cnts; intros; solve [reflexivity | assumption | apply I12; lia]
    end;
  (* sleeping workers *)
  try match goal with
    | |- ?x <> [] -> cnt asleep _ = 0 => intros Hq; rewrite <- ?set_map;
        first [ specialize (I7 Hq) | specialize (I7 ltac:(discriminate)) | idtac ]
    | |- cnt destroying ?l <> 0 -> _ => rewrite <- ?set_map; cnts; intros Hq;
        first [ specialize (I10 ltac:(lia)) as [I10a I10b]; split; [first [reflexivity|assumption|discriminate]|] | split; [reflexivity|] ]
    end;
  try solve [ assumption | congruence | lia | apply Nl; assumption | discriminate
            | cnts; lia | intros; specialize (I9 ltac:(assumption)); lia
            | intros; left; lia ].
  all: try (specialize (I1 eq_refl); rewrite I1 in *; cbn [running flat_map cnt filter length] in * ).
  all: try (rewrite app_nil_r in I3; exact I3).
  all: try (rewrite cnt_repeat by reflexivity; first [assumption | reflexivity | congruence]).
  all: try match goal with |- cnt asleep (map wake_w ?l) = 0 =>
      pose proof (asleep_wake_le l) as L1; pose proof (cnt_nonneg asleep (map wake_w l)) as L2;
      revert L1; cnts; lia end.
  replace (running (repeat WEnter n)) with (@nil job); [exact I4|clear; induction n; cbn; auto].
Qed.

Lemma Inv_run l : forall s t s' t', Inv s t -> run s l = Some (s', t') -> Inv s' (t ++ t').
Proof.
  induction l as [|a l IH]; intros s t s' t' I H; cbn [run] in H.
  - injection H as <- <-. now rewrite app_nil_r.
  - destruct (step s a) as [[s1 t1]|] eqn:E; [|discriminate].
    destruct (run s1 l) as [[s2 t2]|] eqn:R; [|discriminate]. injection H as <- <-.
    rewrite app_assoc. eapply IH; [|exact R]. eapply Inv_step; eauto.
Qed.

Lemma reachable_Inv n l s t : run (init n) l = Some (s, t) -> Inv s t.
Proof. intros H. apply (Inv_run l _ [] _ _ (Inv_init n) H). Qed.

Lemma run_app l1 : forall s l2, run s (l1 ++ l2) =
  match run s l1 with
  | Some (s1, t1) => match run s1 l2 with Some (s2, t2) => Some (s2, t1 ++ t2) | None => None end
  | None => None
  end.
Proof.
  induction l1 as [|a l1 IH]; intros s l2; cbn [run app].
  - destruct (run s l2) as [[? ?]|]; reflexivity.
  - destruct (step s a) as [[s1 t1]|]; [|reflexivity]. rewrite IH.
    destruct (run s1 l1) as [[s2 t2]|]; [|reflexivity].
    destruct (run s2 l2) as [[s3 t3]|]; [|reflexivity]. now rewrite app_assoc.
Qed.

(** * Quiescent states *)
Lemma quiescent_lock s t : Inv s t -> quiescent s -> lock s = None.
Proof.
  intros I Hq. destruct (lock s) as [w|] eqn:El; [exfalso|reflexivity].
  apply (Ilk _ _ I) in El as (p & Hp & Hh). specialize (Hq (AWorker w) eq_refl).
  cbn [step] in Hq. unfold worker_step in Hq. rewrite Hp in Hq.
  destruct p; try discriminate. destruct (kill s); [discriminate|]. destruct (q s); discriminate.
Qed.

Lemma quiescent_workers s t : Inv s t -> quiescent s ->
  Forall (fun p => p = WWait \/ p = WExit) (workers s).
Proof.
  intros I Hq. pose proof (quiescent_lock _ _ I Hq) as El. apply Forall_forall. intros p Hp.
  apply In_nth_error in Hp as (w & Hw). specialize (Hq (AWorker w) eq_refl).
  cbn [step] in Hq. unfold worker_step in Hq. rewrite Hw, El in Hq.
  destruct p; auto; try discriminate.
  destruct (kill s); [discriminate|]. destruct (q s); discriminate.
Qed.

Lemma quiescent_clients s t : Inv s t -> quiescent s ->
  Forall (fun p => p = CIdle \/ p = CWaiting \/ p = CDestroying \/ (p = CJoin3 /\ forallb exited (workers s) = false)) (clients s).
Proof.
  intros I Hq. pose proof (quiescent_lock _ _ I Hq) as El. apply Forall_forall. intros p Hp.
  apply In_nth_error in Hp as (w & Hw). specialize (Hq (AClient w) eq_refl).
  cbn [step] in Hq. unfold client_step in Hq. rewrite Hw, El in Hq.
  destruct p; auto; try discriminate.
  - destruct (forallb exited (workers s)); [discriminate|auto].
  - destruct (negb (active s =? 0) || match q s with [] => false | _ => true end); discriminate.
  - destruct (pool s =? 0); discriminate.
  - destruct (pool s =? 0); discriminate.
Qed.

Lemma waiting_or_exited ws : Forall (fun p => p = WWait \/ p = WExit) ws ->
  cnt asleep ws = 0 -> forallb exited ws = true.
Proof.
  intros H Ha. apply cnt_zero in Ha. apply forallb_forall. intros p Hp. rewrite Forall_forall in *.
  destruct (H p Hp) as [-> | ->]; [|reflexivity]. apply Ha in Hp. discriminate.
Qed.

Lemma exited_pool ws : forallb exited ws = true -> cnt entered ws = 0.
Proof.
  intros H. apply cnt_zero. rewrite forallb_forall in H. apply Forall_forall. intros p Hp.
  apply H in Hp. destruct p; try discriminate. reflexivity.
Qed.

Lemma quiescent_no_destructor s t : Inv s t -> quiescent s ->
  Forall (fun p => p <> CDestroy /\ p <> CDestroying /\ p <> CDestroy2) (clients s).
Proof.
  intros I Hq. pose proof (quiescent_clients _ _ I Hq) as Hc. rewrite Forall_forall in *. intros p Hp.
  destruct (Hc p Hp) as [-> | [-> | [-> | [-> _]]]]; try (repeat split; discriminate). exfalso.
  pose proof (cnt_pos destroying _ _ Hp eq_refl) as Hn.
  destruct (Idkill _ _ I Hn) as [_ Ha].
  apply (Idestr _ _ I Hp). rewrite (Ipool _ _ I). apply exited_pool.
  apply waiting_or_exited; [|exact Ha]. eapply quiescent_workers; eauto.
Qed.

(** * Termination of the threads inside the queue *)
Definition sumn (l : list nat) : nat := fold_right Nat.add O l.
Lemma sumn_app a b : sumn (a ++ b) = (sumn a + sumn b)%nat.
Proof. unfold sumn. induction a; cbn; lia. Qed.

Section Measure.
Variables nw nc : nat.
Let E := (3 * nw + nc)%nat.
Definition wcost (p : wpc) : nat :=
  match p with
  | WExit => 0 | WWait => E | WDecided => 1 + E | WLoop => 2 + E | WEnter | WWake => 3 + E
  | WRelock => 3 + nc + E | WRun _ => 4 + nc + E
  end%nat.
Definition ccost (p : cpc) : nat :=
  match p with
  | CIdle | CWaiting | CDestroying => 0
  | CJoin3 | CWait | CDestroy2 | CEmpty | CStop => 1
  | CJoin2 => 2 + E | CJoin1 => 3 + E | CDestroy => 1 + E | CSched _ => 4 + nc + E
  end%nat.
Definition jcost : nat := (3 + nc)%nat.

Lemma wcost_wake ws : (sumn (map wcost (map wake_w ws)) <= sumn (map wcost ws) + 3 * length ws)%nat.
Proof. unfold sumn. induction ws as [|[] ws IH]; cbn [map fold_right length wake_w wcost]; lia. Qed.
Lemma ccost_wake_d cs : (sumn (map ccost (map wake_d cs)) <= sumn (map ccost cs) + length cs)%nat.
Proof. unfold sumn. induction cs as [|[] ws IH]; cbn [map fold_right length wake_d ccost]; lia. Qed.
Lemma ccost_wake_c cs : (sumn (map ccost (map wake_c cs)) <= sumn (map ccost cs) + length cs)%nat.
Proof. unfold sumn. induction cs as [|[] ws IH]; cbn [map fold_right length wake_c ccost]; lia. Qed.
Lemma cost_set {A} (f : A -> nat) ws w x y : nth_error ws w = Some y ->
  (sumn (map f (set ws w x)) + f y = sumn (map f ws) + f x)%nat.
Proof.
  intros H. apply split_nth in H as (l1 & l2 & -> & _ & Hs). rewrite Hs, !map_app, !sumn_app.
  cbn [map sumn fold_right]. lia.
Qed.
Definition measure (s : state) : nat :=
  (sumn (map wcost (workers s)) + sumn (map ccost (clients s)) + jcost * length (q s))%nat.

Lemma measure_step s a s' t : length (workers s) = nw -> length (clients s) = nc ->
  internal a = true -> step s a = Some (s', t) ->
  (measure s' < measure s)%nat /\ length (workers s') = nw /\ length (clients s') = nc.
Proof.
  intros Hw Hc Hi H.
  pose proof (wcost_wake (workers s)) as Ww. pose proof (ccost_wake_d (clients s)) as Wd.
  pose proof (ccost_wake_c (clients s)) as Wc.
  destruct a as [c o|c|w|w|c]; try discriminate Hi; step_cases H; unfold measure;
    cbn [with_w with_c set_w set_c set_lock set_kill set_pool set_active set_q notify notify_work
       kill pool active q lock created workers clients];
    (split; [|rewrite ?map_length, ?length_set, ?map_length; auto]);
    repeat match goal with
    | |- context [set (clients s) c ?x] => 
        pose proof (cost_set ccost (clients s) c x _ ltac:(eassumption));
        generalize dependent (set (clients s) c x); intros
    | |- context [set (map wake_d (clients s)) c ?x] =>
        pose proof (cost_set ccost (map wake_d (clients s)) c x _ ltac:(apply nth_wake_d; eassumption));
        generalize dependent (set (map wake_d (clients s)) c x); intros
    | |- context [map wake_w (set (workers s) w ?x)] => rewrite set_map;
        pose proof (cost_set wcost (map wake_w (workers s)) w (wake_w x) _ ltac:(apply nth_wake_w; eassumption));
        generalize dependent (set (map wake_w (workers s)) w (wake_w x)); intros
    | |- context [set (workers s) w ?x] =>
        pose proof (cost_set wcost (workers s) w x _ ltac:(eassumption));
        generalize dependent (set (workers s) w x); intros
    end;
    rewrite ?app_length; cbn [length wcost ccost wake_w wake_d] in *; unfold jcost in *;
    try (rewrite Hw in *; rewrite Hc in *; fold E in * ); try lia.
  rewrite Eq. cbn [length]. rewrite Nat.mul_succ_r. lia.
Qed.

Lemma measure_run l : forall s s' t, length (workers s) = nw -> length (clients s) = nc ->
  forallb internal l = true -> run s l = Some (s', t) -> (length l + measure s' <= measure s)%nat.
Proof.
  induction l as [|a l IH]; intros s s' t Hw Hc Hi H; cbn [run] in H.
  - injection H as <- <-. cbn. lia.
  - cbn [forallb] in Hi. apply andb_true_iff in Hi as [Ha Hi].
    destruct (step s a) as [[s1 t1]|] eqn:E1; [|discriminate].
    destruct (run s1 l) as [[s2 t2]|] eqn:R; [|discriminate]. injection H as <- <-.
    destruct (measure_step _ _ _ _ Hw Hc Ha E1) as (M & Hw' & Hc').
    specialize (IH _ _ _ Hw' Hc' Hi R). cbn [length]. lia.
Qed.
End Measure.

Lemma internal_bounded s : exists bound, forall l s' t,
  forallb internal l = true -> run s l = Some (s', t) -> (length l <= bound)%nat.
Proof.
  exists (measure (length (workers s)) (length (clients s)) s). intros l s' t Hi H.
  pose proof (measure_run _ _ l s s' t eq_refl eq_refl Hi H). lia.
Qed.

(** * Without anybody stopping the queue *)
Definition unstopped (s : state) : Prop :=
  kill s = false /\ cnt stopping (clients s) = 0 /\ workers s <> [].

Lemma stopping_wake_d cs : cnt stopping (map wake_d cs) = cnt stopping cs.
Proof. apply cnt_map. now intros []. Qed.
Lemma stopping_wake_c cs : cnt stopping (map wake_c cs) = cnt stopping cs.
Proof. apply cnt_map. now intros []. Qed.

Lemma set_nonempty {A} (l : list A) i x : l <> [] -> set l i x <> [].
Proof. destruct l, i; cbn; congruence. Qed.
Lemma map_nonempty {A B} (f : A -> B) (l : list A) : l <> [] -> map f l <> [].
Proof. destruct l; cbn; congruence. Qed.

Lemma unstopped_step s a s' t : internal a = true -> step s a = Some (s', t) -> unstopped s -> unstopped s'.
Proof.
  intros Hi H (Hk & Hc & Hw). unfold unstopped.
  assert (Hno : forall c p, nth_error (clients s) c = Some p -> stopping p = false).
  { intros c p Hp. rewrite cnt_zero, Forall_forall in Hc. apply Hc. eapply nth_error_In; eauto. }
  destruct a as [c o|c|w|w|c]; try discriminate Hi; step_cases H;
    try (match goal with En : nth_error (clients s) _ = Some _ |- _ => apply Hno in En as E0; discriminate E0 end);
    try congruence;
    (split; [first [reflexivity|assumption]|]);
    (split; [|auto using @set_nonempty, @map_nonempty]);
    try assumption;
    try (erewrite cnt_set by (first [eassumption | apply nth_wake_d; eassumption]));
    rewrite ?stopping_wake_d, ?stopping_wake_c; cbn [stopping wake_d]; lia.
Qed.

Lemma unstopped_run l : forall s s' t, forallb internal l = true -> run s l = Some (s', t) -> unstopped s -> unstopped s'.
Proof.
  induction l as [|a l IH]; intros s s' t Hi H U; cbn [run] in H.
  - injection H as <- <-. exact U.
  - cbn [forallb] in Hi. apply andb_true_iff in Hi as [Ha Hi].
    destruct (step s a) as [[s1 t1]|] eqn:E1; [|discriminate].
    destruct (run s1 l) as [[s2 t2]|] eqn:R; [|discriminate]. injection H as <- <-.
    eapply IH; eauto. eapply unstopped_step; eauto.
Qed.

Lemma all_waiting s t : Inv s t -> quiescent s -> kill s = false ->
  Forall (fun p => p = WWait) (workers s).
Proof.
  intros I Hq Hk. pose proof (quiescent_workers _ _ I Hq) as Hw. rewrite Forall_forall in *.
  intros p Hp. destruct (Hw p Hp) as [-> | ->]; [reflexivity|].
  pose proof (Iexit _ _ I (cnt_pos exited _ _ Hp eq_refl)). congruence.
Qed.

Lemma waiting_none ws : Forall (fun p => p = WWait) ws ->
  running ws = [] /\ cnt busy ws = 0 /\ (ws <> [] -> cnt asleep ws <> 0).
Proof.
  intros H. split; [|split].
  - induction H as [|p ws Hp _ IH]; [reflexivity|]. subst p. exact IH.
  - apply cnt_zero. eapply Forall_impl; [|exact H]. now intros p ->.
  - intros Hne. destruct ws as [|p ws]; [contradiction|]. inversion H; subst.
    apply (cnt_pos _ _ WWait); cbn; auto.
Qed.

Lemma unstopped_quiescent s t : Inv s t -> unstopped s -> quiescent s ->
  q s = [] /\ Forall (fun p => p = CIdle) (clients s) /\ Permutation (finished t) (scheduled t).
Proof.
  intros I (Hk & Hc & Hw) Hq. pose proof (all_waiting _ _ I Hq Hk) as Ha.
  destruct (waiting_none _ Ha) as (Hr & Hb & Has).
  assert (Eq : q s = []).
  { destruct (q s) eqn:E; [reflexivity|]. exfalso. apply (Has Hw). apply (Isleep _ _ I). rewrite E. discriminate. }
  split; [exact Eq|]. split.
  - pose proof (quiescent_clients _ _ I Hq) as Hcl. rewrite cnt_zero in Hc. rewrite Forall_forall in *.
    intros p Hp. destruct (Hcl p Hp) as [-> | [-> | [-> | [-> _]]]]; [reflexivity| | |].
    + exfalso. destruct (Iwait _ _ I Hp) as [H|H]; [rewrite (Iactive _ _ I) in H|]; contradiction.
    + apply Hc in Hp. discriminate.
    + apply Hc in Hp. discriminate.
  - rewrite <- (Ififo _ _ I), Eq, app_nil_r. symmetry. rewrite (Irun _ _ I), Hr, app_nil_r. reflexivity.
Qed.

(** * join *)
Definition deciding (p : wpc) : bool := match p with WDecided => true | _ => false end.
Definition waiting (p : wpc) : bool := match p with WWait => true | _ => false end.
Definition joinok (c : nat) (s : state) : Prop :=
  kill s = true /\ cnt deciding (workers s) = 0 /\
  (nth_error (clients s) c = Some CJoin2 \/
   nth_error (clients s) c = Some CJoin3 /\ cnt waiting (workers s) = 0 \/
   nth_error (clients s) c = Some CIdle).
Definition calls (c : nat) (a : action) : bool := match a with ACall d _ => Nat.eqb c d | _ => false end.

Lemma deciding_wake ws : cnt deciding (map wake_w ws) = cnt deciding ws.
Proof. apply cnt_map. now intros []. Qed.
Lemma waiting_wake ws : cnt waiting (map wake_w ws) = 0.
Proof. apply cnt_zero. apply Forall_map. apply Forall_forall. now intros []. Qed.

Lemma joinok_step c s a s' t : calls c a = false -> (created s = false -> workers s = []) ->
  step s a = Some (s', t) -> joinok c s -> joinok c s'.
Proof.
  intros Hc Hf H (Hk & Hd & Hj). unfold joinok.
  pose proof (cnt_nonneg deciding (workers s)). pose proof (cnt_nonneg waiting (workers s)).
  destruct a as [c' o|c'|w|w|c']; cbn [calls] in Hc; try apply Nat.eqb_neq in Hc; step_cases H; try congruence;
    (split; [first [reflexivity|assumption]|]);
    rewrite <- ?set_map, ?deciding_wake, ?waiting_wake, ?nth_set, ?nth_error_map;
    repeat match goal with En : nth_error (workers s) ?w = Some _ |- context [cnt _ (set (workers s) ?w _)] =>
       rewrite (cnt_set _ _ _ _ _ En) end; cbn [deciding waiting];
    try (match goal with En : nth_error (workers s) _ = Some WDecided |- _ =>
           exfalso; exact (cnt_pos deciding _ _ (nth_error_In _ _ En) eq_refl Hd) end);
    rewrite ?(cnt_repeat deciding), ?(cnt_repeat waiting) by reflexivity;
    (split; [lia|]);
    try (match goal with |- context [Nat.eqb ?d c] => destruct (Nat.eqb_spec d c) end; [subst c'; rewrite En in * |]);
    destruct Hj as [Hj|[[Hj Hj']|Hj]]; try discriminate Hj; try congruence; rewrite ?Hj; cbn [option_map wake_d wake_c];
    auto; try (right; left; split; [reflexivity|lia]).
  exfalso; exact (cnt_pos waiting _ _ (nth_error_In _ _ En) eq_refl Hj').
Qed.

Lemma joinok_run c l : forall s t s' t', Inv s t -> forallb (fun a => negb (calls c a)) l = true ->
  run s l = Some (s', t') -> joinok c s -> joinok c s'.
Proof.
  induction l as [|a l IH]; intros s t s' t' I Hi H J; cbn [run] in H.
  - injection H as <- <-. exact J.
  - cbn [forallb] in Hi. apply andb_true_iff in Hi as [Ha Hi]. apply negb_true_iff in Ha.
    destruct (step s a) as [[s1 t1]|] eqn:E1; [|discriminate].
    destruct (run s1 l) as [[s2 t2]|] eqn:R; [|discriminate]. injection H as <- <-.
    eapply IH; [eapply Inv_step; eauto|exact Hi|exact R|]. eapply joinok_step; eauto. exact (Ifree _ _ I).
Qed.

Lemma joinok_quiescent c s t : Inv s t -> joinok c s -> quiescent s -> nth_error (clients s) c = Some CIdle.
Proof.
  intros I (Hk & Hd & Hj) Hq. destruct Hj as [Hj|[[Hj Hw]|Hj]]; [| |exact Hj]; exfalso.
  - pose proof (quiescent_clients _ _ I Hq) as Hc. rewrite Forall_forall in Hc.
    destruct (Hc _ (nth_error_In _ _ Hj)) as [H|[H|[H|[H _]]]]; discriminate.
  - pose proof (quiescent_clients _ _ I Hq) as Hc. rewrite Forall_forall in Hc.
    destruct (Hc _ (nth_error_In _ _ Hj)) as [H|[H|[H|[_ H]]]]; try discriminate.
    enough (forallb exited (workers s) = true) by congruence.
    apply waiting_or_exited; [eapply quiescent_workers; eauto|].
    rewrite cnt_zero, Forall_forall in *. intros p Hp. specialize (Hw p Hp). specialize (Hd p Hp). destruct p; cbn in *; congruence.
Qed.

Lemma idle_running ws : cnt busy ws = 0 -> running ws = [].
Proof.
  rewrite cnt_zero. unfold running. induction 1 as [|p ws Hp _ IH]; [reflexivity|].
  cbn [flat_map]. rewrite IH. destruct p; cbn in *; congruence.
Qed.
