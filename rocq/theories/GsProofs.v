(** * Proofs about scalar expressions *)
From Coq Require Import Reals List Arith Lra Lia.
From Verif Require Import GsModel GsSpec.
Import ListNotations.
Local Open Scope R_scope.

Lemma applied_app : forall A B d r, applied (A ++ B) d r = applied A d r + applied B d r.
Proof.
  induction A as [|(i, J) A IH]; intros B d r; cbn [applied app]; [lra|].
  rewrite IH. lra.
Qed.

(** The factor in row [r] of what is applied on the left. *)
Definition factor (ch : chain) (r : nat) : R :=
  match ch with Some c => nth r c 0 | None => nth r [1] 0 end.

Lemma factor_times : forall ch x r, factor (Some (times ch x)) r = factor ch r * x.
Proof.
  intros [c|] x r; cbn [factor times].
  - rewrite <- (Rmult_0_l x) at 1. rewrite (map_nth (fun y => y * x)). reflexivity.
  - destruct r as [|[|r]]; cbn [nth]; ring.
Qed.
Lemma nth_opp : forall c r, nth r (map Ropp c) 0 = - nth r c 0.
Proof.
  intros c r. rewrite <- Ropp_0 at 1. rewrite (map_nth Ropp). reflexivity.
Qed.
Definition opp (ch : chain) : list R :=
  match ch with Some c => map Ropp c | None => [-1] end.
Lemma factor_opp : forall ch r, factor (Some (opp ch)) r = - factor ch r.
Proof.
  intros [c|] r; cbn [factor opp]; [apply nth_opp|].
  destruct r as [|[|r]]; cbn [nth]; ring.
Qed.

(** The rate that the blocks give, as a function of the motion. *)
Fixpoint rate (th d : env) (e : gse) : R :=
  match e with
  | Gvar i => d i
  | Gconst _ => 0
  | Gcast a => rate th d a
  | Gneg a => - rate th d a
  | Gmul a b => value th b * rate th d a + value th a * rate th d b
  | Gdiv a b => - value th a / (value th b * value th b) * rate th d a + 1 / value th b * rate th d b
  | Gadd a b => rate th d a + rate th d b
  | Gsub a b => rate th d a - rate th d b
  end.

Lemma jacobians_rate : forall th d e ch r,
  applied (jacobians th e ch) d r = factor ch r * rate th d e.
Proof.
  intros th d. induction e as [i|c|a IHa|a IHa|a IHa b IHb|a IHa b IHb|a IHa b IHb|a IHa b IHb];
    intros ch r; cbn [jacobians rate].
  - cbn [applied]. unfold factor. destruct ch; ring.
  - cbn [applied]. ring.
  - rewrite IHa. destruct ch; reflexivity.
  - change (match ch with Some c => map Ropp c | None => [-1] end) with (opp ch).
    rewrite IHa, factor_opp. ring.
  - rewrite applied_app, IHa, IHb, !factor_times. ring.
  - rewrite applied_app, IHa, IHb, !factor_times. ring.
  - rewrite applied_app, IHa, IHb. ring.
  - change (match ch with Some c => map Ropp c | None => [-1] end) with (opp ch).
    rewrite applied_app, IHa, IHb, factor_opp. ring.
Qed.

Lemma value_at_0 : forall th d e, value (along th d 0) e = value th e.
Proof.
  intros th d. induction e as [i|c|a IHa|a IHa|a IHa b IHb|a IHa b IHb|a IHa b IHb|a IHa b IHb];
    cbn [value]; rewrite ?IHa, ?IHb; try reflexivity.
  unfold along. ring.
Qed.

Lemma rate_derivative : forall th d e, without_quotients e ->
  derivable_pt_lim (fun s => value (along th d s) e) 0 (rate th d e).
Proof.
  intros th d. induction e as [i|c|a IHa|a IHa|a IHa b IHb|a IHa b IHb|a IHa b IHb|a IHa b IHb];
    cbn [without_quotients rate]; intros H.
  - cbn [value]. unfold along.
    intros eps He. exists (mkposreal 1 Rlt_0_1). intros h Hh _.
    replace ((th i + (0 + h) * d i - (th i + 0 * d i)) / h - d i) with 0 by (field; assumption).
    rewrite Rabs_R0. assumption.
  - cbn [value]. apply derivable_pt_lim_const.
  - cbn [value]. apply IHa, H.
  - apply (derivable_pt_lim_opp (fun s => value (along th d s) a)). apply IHa, H.
  - destruct H as [Ha Hb].
    pose proof (derivable_pt_lim_mult _ _ _ _ _ (IHa Ha) (IHb Hb)) as D.
    cbv beta in D. rewrite !value_at_0 in D.
    replace (value th b * rate th d a + value th a * rate th d b)
      with (rate th d a * value th b + value th a * rate th d b) by ring. exact D.
  - destruct H.
  - destruct H as [Ha Hb]. exact (derivable_pt_lim_plus _ _ _ _ _ (IHa Ha) (IHb Hb)).
  - destruct H as [Ha Hb]. exact (derivable_pt_lim_minus _ _ _ _ _ (IHa Ha) (IHb Hb)).
Qed.

Lemma quotient_derivative : forall th d a b, without_quotients a -> without_quotients b ->
  value th b <> 0 ->
  derivable_pt_lim (fun s => value (along th d s) (Gdiv a b)) 0
    (1 / value th b * rate th d a + - value th a / (value th b * value th b) * rate th d b).
Proof.
  intros th d a b Ha Hb N.
  assert (N' : value (along th d 0) b <> 0) by (rewrite value_at_0; exact N).
  pose proof (derivable_pt_lim_div _ _ _ _ _ (rate_derivative th d a Ha) (rate_derivative th d b Hb) N') as D.
  cbv beta in D. rewrite !value_at_0 in D.
  replace (1 / value th b * rate th d a + - value th a / (value th b * value th b) * rate th d b)
    with ((rate th d a * value th b - rate th d b * value th a) / Rsqr (value th b)); [exact D|].
  unfold Rsqr. field. exact N.
Qed.

Lemma variables_occurs : forall i e, In i (variables e) <-> occurs i e.
Proof.
  intros i. induction e as [j|c|a IHa|a IHa|a IHa b IHb|a IHa b IHb|a IHa b IHb|a IHa b IHb];
    cbn [variables occurs]; try (rewrite in_app_iff, IHa, IHb; tauto); try tauto.
  cbn [In]. split; [intros [E|[]]; congruence | intros E; left; congruence].
Qed.

Lemma blocks_occur : forall i th e ch,
  (exists J, In (i, J) (jacobians th e ch)) <-> occurs i e.
Proof.
  intros i th. induction e as [j|c|a IHa|a IHa|a IHa b IHb|a IHa b IHb|a IHa b IHb|a IHa b IHb];
    intros ch; cbn [jacobians occurs]; try apply IHa.
  - cbn [In]. split.
    + intros [J [E|[]]]. congruence.
    + intros E. rewrite E. eexists. left. reflexivity.
  - cbn [In]. firstorder.
  - rewrite <- (IHa (Some (times ch (value th b)))), <- (IHb (Some (times ch (value th a)))).
    split.
    + intros [J H]. apply in_app_iff in H. destruct H as [H|H]; [left|right]; exists J; exact H.
    + intros [[J H]|[J H]]; exists J; apply in_app_iff; [left|right]; exact H.
  - rewrite <- (IHa (Some (times ch (- value th a / (value th b * value th b))))), <- (IHb (Some (times ch (1 / value th b)))).
    split.
    + intros [J H]. apply in_app_iff in H. destruct H as [H|H]; [left|right]; exists J; exact H.
    + intros [[J H]|[J H]]; exists J; apply in_app_iff; [left|right]; exact H.
  - rewrite <- (IHa ch), <- (IHb ch).
    split.
    + intros [J H]. apply in_app_iff in H. destruct H as [H|H]; [left|right]; exists J; exact H.
    + intros [[J H]|[J H]]; exists J; apply in_app_iff; [left|right]; exact H.
  - rewrite <- (IHa ch), <- (IHb (Some (match ch with Some c => map Ropp c | None => [-1] end))).
    split.
    + intros [J H]. apply in_app_iff in H. destruct H as [H|H]; [left|right]; exists J; exact H.
    + intros [[J H]|[J H]]; exists J; apply in_app_iff; [left|right]; exact H.
Qed.

Definition height (ch : chain) : nat := match ch with Some c => length c | None => 1%nat end.
Lemma rows_ok : forall th e ch, rows (height ch) (jacobians th e ch).
Proof.
  intros th. unfold rows.
  assert (T : forall ch x, length (times ch x) = height ch)
    by (intros [c|] x; cbn [times height length]; rewrite ?map_length; reflexivity).
  assert (O : forall ch, length (opp ch) = height ch)
    by (intros [c|]; cbn [opp height length]; rewrite ?map_length; reflexivity).
  induction e as [j|c|a IHa|a IHa|a IHa b IHb|a IHa b IHb|a IHa b IHb|a IHa b IHb];
    intros ch; cbn [jacobians].
  - constructor; [|constructor]. destruct ch; reflexivity.
  - constructor.
  - specialize (IHa (Some (match ch with Some c => c | None => [1] end))).
    destruct ch; exact IHa.
  - specialize (IHa (Some (opp ch))). cbn [height] in IHa. rewrite O in IHa. exact IHa.
  - apply Forall_app. split.
    + specialize (IHa (Some (times ch (value th b)))). cbn [height] in IHa. rewrite T in IHa. exact IHa.
    + specialize (IHb (Some (times ch (value th a)))). cbn [height] in IHb. rewrite T in IHb. exact IHb.
  - apply Forall_app. split.
    + specialize (IHa (Some (times ch (- value th a / (value th b * value th b))))).
      cbn [height] in IHa. rewrite T in IHa. exact IHa.
    + specialize (IHb (Some (times ch (1 / value th b)))). cbn [height] in IHb. rewrite T in IHb. exact IHb.
  - apply Forall_app. split; [apply IHa | apply IHb].
  - apply Forall_app. split; [apply IHa|].
    specialize (IHb (Some (opp ch))). cbn [height] in IHb. rewrite O in IHb. exact IHb.
Qed.
