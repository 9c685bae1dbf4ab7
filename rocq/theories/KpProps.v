(** * C100: keypoints and the memory they own *)
From Coq Require Import ZArith Bool List Lia.
From Verif Require Import Base KpModel KpSpec KpProofs.
Import ListNotations.
Local Open Scope Z_scope.

(** Any history of operations on any number of keypoints behaves as on plain values:
    nothing undefined happens and every getter returns the expected value. *)
Theorem C100_values : forall l s, runs nothing l s ->
  exists w, run init l = Ok w /\ (forall i, show w i = vars s i) /\ (forall d, at_ (hd w) d = descs s d).
Proof.
  intros l s R. destruct (run_ok l init nothing s rel_init R) as (w & E & (_ & _ & V & D & _)).
  exists w. split; [ exact E | split; [ exact V | exact D ] ].
Qed.
Print Assumptions C100_values.

(** Every landmark and every ray alive belongs to exactly one keypoint, and nothing is
    left when the last keypoint is gone. *)
Theorem C100_memory : forall l s, runs nothing l s ->
  exists w, run init l = Ok w /\ owned (hl w) lm w /\ owned (hb w) bp w /\
    ((forall i, vars s i = None) -> forall p, at_ (hl w) p = None /\ at_ (hb w) p = None).
Proof.
  intros l s R. destruct (run_ok l init nothing s rel_init R) as (w & E & ((A & B & _) & Z & V & _ & _)).
  pose proof (own_owned w lm (hl w) A Z) as OL. pose proof (own_owned w bp (hb w) B Z) as OB.
  exists w. split; [ exact E | split; [ exact OL | split; [ exact OB | ] ] ].
  intros N p. split.
  - destruct (at_ (hl w) p) eqn:H; [ | reflexivity ]. exfalso. destruct (OL p) as (i & (k & K & _) & _); [ congruence | ].
    specialize (V i). rewrite N in V. unfold show in V. rewrite K in V. discriminate.
  - destruct (at_ (hb w) p) eqn:H; [ | reflexivity ]. exfalso. destruct (OB p) as (i & (k & K & _) & _); [ congruence | ].
    specialize (V i). rewrite N in V. unfold show in V. rewrite K in V. discriminate.
Qed.
Print Assumptions C100_memory.

Lemma fetch_target h (p : option nat) : (forall q, p = Some q -> at_ h q <> None) -> fetch h p = Ok (target h p).
Proof.
  intros H. destruct p as [q | ]; [ | reflexivity ]. cbn [fetch target]. unfold read. destruct (at_ h q) eqn:E; [ reflexivity | ].
  exfalso. apply (H q); [ reflexivity | exact E ].
Qed.
(** A keypoint written to an archive and read into a new one comes back, with a
    descriptor of its own that has the same contents; the trace id is not kept. *)
Theorem C100_save_load : forall l s i j v, runs nothing l s -> vars s i = Some v -> vars s j = None ->
  exists w a w' u, run init l = Ok w /\ save w (S i) = Ok a /\ run w [New j; Load j 1 a] = Ok w' /\ show w' j = Some u /\
    vmeas u = vmeas v /\ vcov u = vcov v /\ vlid u = vlid v /\ vlm u = vlm v /\ vbp u = vbp v /\ voct u = voct v /\ vtrace u = 0 /\
    target (hd w') (vdsc u) = target (hd w) (vdsc v) /\ (forall d, vdsc u = Some d -> at_ (hd w) d = None) /\
    (forall m, m <> j -> show w' m = show w m).
Proof.
  intros l s i j v R V F. destruct (run_ok l init nothing s rel_init R) as (w & E & RW). pose proof RW as (I & Z & SV & DV & ND).
  destruct (look_inv _ _ _ (rel_look _ _ _ _ RW V)) as (k & K & EV). pose proof I as (A & B & D).
  assert (NF : at_ (hd w) (ndesc s) = None). { rewrite <- ND. destruct (at_ (hd w) (next (hd w))) eqn:H; [ | reflexivity ]. exfalso. destruct D as [_ D2]. specialize (D2 (next (hd w))). rewrite H in D2. specialize (D2 ltac:(discriminate)). lia. }
  set (a := Saved (vmeas v) (vcov v) (vlid v) (vlm v) (target (hd w) (vdsc v)) (vbp v) (voct v)).
  assert (SA : save w (S i) = Ok a).
  { unfold save, get. rewrite K. cbn [obind]. rewrite (fetch_target (hl w) (lm k)). 2: { intros q Q. apply (proj1 A (S i)). rewrite (ptr_at lm _ _ _ K). exact Q. }
    rewrite (fetch_target (hd w) (dsc k)). 2: { intros q Q. exact (dval_at _ _ _ _ q D K Q). }
    rewrite (fetch_target (hb w) (bp k)). 2: { intros q Q. apply (proj1 B (S i)). rewrite (ptr_at bp _ _ _ K). exact Q. }
    cbn [obind]. unfold a. rewrite EV. reflexivity. }
  destruct (step_ok w s (New j) (setv s j (Some default)) RW) as (w1 & E1 & R1). { exact Logic.I. } { cbn [expect]. rewrite F. reflexivity. }
  assert (V1 : vars (setv s j (Some default)) j = Some default). { cbn [vars setv]. unfold set. rewrite Nat.eqb_refl. reflexivity. }
  set (s1 := setv s j (Some default)) in *.
  assert (EX : exists s2, expect s1 (Load j 1 a) = Some s2 /\ s2 = setv (match sdsc a with None => s1 | Some x => new_desc s1 x end) j
     (Some (Shown (smeas a) (scov a) (slid a) (slm a) (match sdsc a with None => None | Some _ => Some (ndesc s1) end) (sbp a) (soct a) 0))).
  { eexists. split; [ cbn [expect]; rewrite V1; reflexivity | reflexivity ]. }
  destruct EX as (s2 & X2 & S2).
  destruct (step_ok w1 s1 (Load j 1 a) s2 R1) as (w2 & E2 & R2).
  { cbn [proper]. split; [ lia | ]. intros v' V'. rewrite V1 in V'. assert (v' = default) by congruence. subst v'. split; reflexivity. }
  { exact X2. }
  subst s2. destruct R2 as (_ & _ & SV2 & DV2 & _). destruct R1 as (_ & _ & SV1 & DV1 & _).
  eexists w, a, w2, _. split; [ exact E | split; [ exact SA | split; [ cbn [run]; rewrite E1; cbn [obind]; rewrite E2; reflexivity | ] ] ].
  split. { rewrite SV2. cbn [vars setv]. unfold set at 1. rewrite Nat.eqb_refl. reflexivity. }
  cbn [vmeas vcov vlid vlm vbp voct vtrace vdsc]. split; [ reflexivity | split; [ reflexivity | split; [ reflexivity | split; [ reflexivity | split; [ reflexivity | split; [ reflexivity | split; [ reflexivity | ] ] ] ] ] ] ].
  cbn [a sdsc]. split; [ | split ].
  - destruct (target (hd w) (vdsc v)) as [x | ] eqn:T; cbn [target]; [ | reflexivity ]. rewrite DV2. cbn [descs setv a sdsc]. try rewrite T. cbn [descs new_desc]. unfold set at 1. rewrite Nat.eqb_refl. reflexivity.
  - intros d. destruct (target (hd w) (vdsc v)) as [x | ] eqn:T; [ | discriminate ]. intros Q. change (Some (ndesc s) = Some d) in Q. assert (d = ndesc s) by congruence. subst d. exact NF.
  - intros m M. rewrite SV2, SV. cbn [vars setv a sdsc]. unfold set at 1. rewrite (proj2 (Nat.eqb_neq m j) M).
    destruct (target (hd w) (vdsc v)); unfold s1; cbn [vars new_desc setv]; unfold set; rewrite (proj2 (Nat.eqb_neq m j) M); reflexivity.
Qed.
Print Assumptions C100_save_load.

(** Running a history and looking at the end. *)
Definition after (l : list op) (P : world -> Prop) : Prop := match run init l with Ok w => P w | _ => False end.
(** Assignment does not make both sides equal: octave and trace id stay behind,
    although copying takes them along. *)
Theorem C100_assign_refuted :
  after [New 0%nat; SetField 0%nat Octave 3; SetField 0%nat TraceId 4; New 1%nat; Assign 1%nat 0%nat]
    (fun w => option_map voct (show w 0) = Some 3 /\ option_map voct (show w 1) = Some 0 /\
              option_map vtrace (show w 0) = Some 4 /\ option_map vtrace (show w 1) = Some 0) /\
  after [New 0%nat; SetField 0%nat Octave 3; SetField 0%nat TraceId 4; Copy 1%nat 0%nat]
    (fun w => option_map voct (show w 1) = Some 3 /\ option_map vtrace (show w 1) = Some 4).
Proof. vm_compute. split; [ split; [ reflexivity | split; [ reflexivity | split; reflexivity ] ] | split; reflexivity ]. Qed.
Print Assumptions C100_assign_refuted.

(** Setting the ray of a keypoint to its own ray reads an object already deleted;
    the landmark can be set to itself. *)
Theorem C100_set_back_refuted : run init [New 0%nat; SetBack 0%nat (Value 7); SetBack 0%nat (Of 0%nat)] = UB /\
  after [New 0%nat; SetLandmark 0%nat (Value 7); SetLandmark 0%nat (Of 0%nat)] (fun w => option_map vlm (show w 0) = Some (Some 7)).
Proof. split; vm_compute; reflexivity. Qed.
Print Assumptions C100_set_back_refuted.

(** A copy is not independent of its source: they share the descriptor. *)
Theorem C100_copy_refuted :
  after [New 0%nat; SetDescriptor 0%nat 5; Copy 1%nat 0%nat]
    (fun w => match show w 1 with Some v => target (hd w) (vdsc v) = Some 5 | None => False end) /\
  after [New 0%nat; SetDescriptor 0%nat 5; Copy 1%nat 0%nat; EditDescriptor 0%nat 6]
    (fun w => match show w 1 with Some v => target (hd w) (vdsc v) = Some 6 | None => False end).
Proof. split; vm_compute; reflexivity. Qed.
Print Assumptions C100_copy_refuted.

(** Reading into a keypoint that has a landmark leaks it. *)
Theorem C100_load_refuted :
  after [New 0%nat; SetLandmark 0%nat (Value 7); Load 0%nat 1 (Saved 1 2 3 None None None 4); Destroy 0%nat]
    (fun w => (forall i, show w i = None) /\ at_ (hl w) 0 = Some 7).
Proof. vm_compute. split; [ intros i; destruct i; reflexivity | reflexivity ]. Qed.
Print Assumptions C100_load_refuted.

Definition story : list op :=
  [ New 0%nat; SetLandmark 0%nat (Value 7); SetBack 0%nat (Value 8); SetDescriptor 0%nat 9; SetField 0%nat Octave 2;
    Copy 1%nat 0%nat; New 2%nat; Assign 2%nat 1%nat; ClearLandmark 1%nat; SetBack 1%nat (Of 2%nat); Swap 1%nat 2%nat; Destroy 0%nat ].
Fixpoint carry (s : store) (l : list op) : option store :=
  match l with nil => Some s | o :: l' => match expect s o with Some s1 => carry s1 l' | None => None end end.
Lemma carry_runs l : forall s, Forall (fun o => match o with SetBack i (Of j) => i <> j | Load _ _ _ => False | _ => True end) l ->
  match carry s l with Some s' => runs s l s' | None => True end.
Proof.
  induction l as [ | o l IH]; intros s F; cbn [carry]; [ apply runs_nil | ]. inversion F as [ | ? ? P FL ]; subst.
  destruct (expect s o) as [s1 | ] eqn:E; [ | exact Logic.I ]. specialize (IH s1 FL). destruct (carry s1 l); [ | exact Logic.I ].
  apply (runs_cons s o s1); [ | exact E | exact IH ]. destruct o; try exact Logic.I; [ exact P | contradiction ].
Qed.
Example C100_ex : (exists s, runs nothing story s) /\
  after story (fun w => show w 0 = None /\ option_map vlm (show w 1) = Some (Some 7) /\ option_map vlm (show w 2) = Some None /\
    option_map vbp (show w 2) = Some (Some 8) /\ option_map voct (show w 1) = Some 2 /\ option_map voct (show w 2) = Some 0).
Proof.
  split.
  - assert (N : (match carry nothing story with Some _ => true | None => false end) = true) by (vm_compute; reflexivity).
    assert (R : match carry nothing story with Some s' => runs nothing story s' | None => True end).
    { apply carry_runs. unfold story. repeat constructor. discriminate. }
    destruct (carry nothing story) as [s | ]; [ exists s; exact R | discriminate N ].
  - vm_compute. split; [ reflexivity | split; [ reflexivity | split; [ reflexivity | split; [ reflexivity | split; reflexivity ] ] ] ].
Qed.
