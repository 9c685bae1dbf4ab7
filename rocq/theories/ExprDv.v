(** * Which design variables an expression touches *)
From Coq Require Import Reals List Arith Lia.
From Verif Require Import KinModel KinSpec TfModel TfSpec BpModel ExprModel ExprSpec.
Import ListNotations.

Section Dv.
Variables (inv3 : m3 -> m3) (inv4 : m4 -> m4) (tc th : env).

Definition fits (L : list dvid) (J : list added) : Prop :=
  forall i row, In (i, row) J -> In i L /\ forall r, length (row r) = dim th i.

Lemma fits_nil L : fits L [].
Proof. intros i row []. Qed.
Lemma fits_app L L' J J' : fits L J -> fits L' J' -> fits (L ++ L') (J ++ J').
Proof.
  intros A B i row H. apply in_app_or in H. destruct H as [H | H].
  - destruct (A i row H). split; [ apply in_or_app; left; assumption | assumption ].
  - destruct (B i row H). split; [ apply in_or_app; right; assumption | assumption ].
Qed.
Lemma fits_app' L L' J J' : fits L J -> fits L' J' -> fits (L ++ L') (J' ++ J).
Proof.
  intros A B i row H. apply in_app_or in H. destruct H as [H | H].
  - destruct (B i row H). split; [ apply in_or_app; right; assumption | assumption ].
  - destruct (A i row H). split; [ apply in_or_app; left; assumption | assumption ].
Qed.
Lemma fits_one i row : (forall r, length (row r) = dim th i) -> fits [i] [(i, row)].
Proof.
  intros H j row' [E | []]. assert (i = j) as <- by congruence. assert (row = row') as <- by congruence.
  split; [ left; reflexivity | exact H ].
Qed.
Lemma agree_app L L' a b : agree (L ++ L') a b -> agree L a b /\ agree L' a b.
Proof.
  intros (S & Z & A & B & C & D & E & F).
  split; (split; [ exact S | split; [ exact Z | ] ]);
    (split; [ intros i Hi; apply A | split; [ intros i Hi; apply B | split; [ intros i Hi; apply C | split;
      [ intros i Hi; apply D | split; [ intros i Hi; apply E | intros i Hi; apply F ] ] ] ] ]); apply in_or_app; auto.
Qed.

Definition dvS (e : sexp) : Prop :=
  (forall M, fits (dvs_s e) (jac_s th e M)) /\ fits (dvs_s e) (jac0_s th e) /\
  forall a b, agree (dvs_s e) a b -> value_s a e = value_s b e.
Definition dvM (e : mexp) : Prop :=
  (forall M, fits (dvs_m th e) (jac_m th e M)) /\
  forall a b, agree (dvs_m a e) a b -> value_m a e = value_m b e.
Definition dvR (e : rexp) : Prop :=
  (forall M, fits (dvs_r th e) (jac_r inv3 inv4 tc th e M)) /\ fits (dvs_r th e) (jac0_r inv3 inv4 tc th e) /\
  forall a b, agree (dvs_r a e) a b -> value_r inv4 a e = value_r inv4 b e.
Definition dvE (e : eexp) : Prop :=
  (forall M, fits (dvs_e th e) (jac_e inv3 inv4 tc th e M)) /\ fits (dvs_e th e) (jac0_e inv3 inv4 tc th e) /\
  forall a b, agree (dvs_e a e) a b -> value_e inv4 a e = value_e inv4 b e.
Definition dvT (e : texp) : Prop :=
  (forall M, fits (dvs_t th e) (jac_t inv3 inv4 tc th e M)) /\ fits (dvs_t th e) (jac0_t inv3 inv4 tc th e) /\
  forall a b, agree (dvs_t a e) a b -> value_t inv4 a e = value_t inv4 b e.
Definition dvH (e : hexp) : Prop :=
  (forall M, fits (dvs_h th e) (jac_h inv3 inv4 tc th e M)) /\ fits (dvs_h th e) (jac0_h inv3 inv4 tc th e) /\
  forall a b, agree (dvs_h a e) a b -> value_h inv4 a e = value_h inv4 b e.

Ltac vals := intros a b G; repeat (apply agree_app in G; destruct G as [? G]).

Lemma dv_s : forall e, dvS e.
Proof.
  induction e as [ i | c | l (Jl & Zl & Vl) r (Jr & Zr & Vr) | l (Jl & Zl & Vl) r (Jr & Zr & Vr) | l (Jl & Zl & Vl) r (Jr & Zr & Vr) c ].
  - split; [ | split ].
    + intros M. apply fits_one. reflexivity.
    + apply fits_one. intros [ | r ]; reflexivity.
    + intros a b (_ & _ & _ & _ & _ & D & _). apply D. left. reflexivity.
  - split; [ intros M; apply fits_nil | split; [ apply fits_nil | reflexivity ] ].
  - split; [ intros M; apply fits_app; auto | split; [ apply fits_app; auto | ] ].
    intros a b G. apply agree_app in G. destruct G as [Gl Gr]. cbn [value_s]. rewrite (Vl _ _ Gl), (Vr _ _ Gr). reflexivity.
  - split; [ intros M; apply fits_app; auto | split; [ apply fits_app; auto | ] ].
    intros a b G. apply agree_app in G. destruct G as [Gl Gr]. cbn [value_s]. rewrite (Vl _ _ Gl), (Vr _ _ Gr). reflexivity.
  - split; [ intros M; apply fits_app; auto | split; [ apply fits_app; auto | ] ].
    intros a b G. apply agree_app in G. destruct G as [Gl Gr]. cbn [value_s]. rewrite (Vl _ _ Gl), (Vr _ _ Gr). reflexivity.
Qed.
Lemma dv_m : forall e, dvM e.
Proof.
  intros [i]. split.
  - intros M. cbn [jac_m dvs_m]. destruct (vsel th i) as [ | p sel ] eqn:E; [ apply fits_nil | ].
    apply fits_one. intros r. cbn [dim]. rewrite E, map_length. reflexivity.
  - intros a b (S & Z & _ & _ & _ & _ & _ & F). cbn [value_m dvs_m] in *. destruct (vsel a i) as [ | p sel ] eqn:E.
    + apply Z. exact E.
    + apply F. left. reflexivity.
Qed.

Theorem dv_all : (forall e, dvR e) /\ (forall e, dvE e) /\ (forall e, dvT e) /\ (forall e, dvH e).
Proof.
  assert (two_e : forall (f : v3 -> v3 -> v3) l r a b, (forall a b, agree (dvs_e a l) a b -> value_e inv4 a l = value_e inv4 b l) ->
    (forall a b, agree (dvs_e a r) a b -> value_e inv4 a r = value_e inv4 b r) ->
    agree (dvs_e a l ++ dvs_e a r) a b -> f (value_e inv4 a l) (value_e inv4 a r) = f (value_e inv4 b l) (value_e inv4 b r)).
  { intros f l r a b Vl Vr G. apply agree_app in G. destruct G as [Gl Gr]. rewrite (Vl _ _ Gl), (Vr _ _ Gr). reflexivity. }
  apply exp_mut.
  - intros i. split; [ intros M; apply fits_one; reflexivity | split; [ apply fits_one; reflexivity | ] ].
    intros a b (_ & _ & A & _). exact (f_equal quat2r (A i (or_introl eq_refl))).
  - intros l (Jl & Zl & Vl) r (Jr & Zr & Vr).
    split; [ intros M; apply fits_app'; auto | split; [ apply fits_app'; auto | ] ].
    intros a b G. apply agree_app in G. destruct G as [Gl Gr]. exact (f_equal2 m3_mul (Vl _ _ Gl) (Vr _ _ Gr)).
  - intros r (Jr & Zr & Vr). split; [ intros M; apply Jr | split; [ apply Jr | ] ].
    intros a b G. exact (f_equal m3_tr (Vr _ _ G)).
  - intros t (Jt & Zt & Vt). split; [ intros M; apply Jt | split; [ apply Jt | ] ].
    intros a b G. exact (f_equal topLeft (Vt _ _ G)).
  - intros i. split; [ intros M; apply fits_one; reflexivity | split; [ apply fits_one; reflexivity | ] ].
    intros a b (_ & _ & _ & A & _). exact (A i (or_introl eq_refl)).
  - intros i. split; [ intros M; apply fits_one; reflexivity | split; [ apply fits_one; reflexivity | ] ].
    intros a b (_ & _ & _ & _ & _ & _ & A & _). exact (f_equal direction_value (A i (or_introl eq_refl))).
  - intros p. split; [ intros M; apply fits_nil | split; [ apply fits_nil | reflexivity ] ].
  - intros l (Jl & Zl & Vl) r (Jr & Zr & Vr).
    split; [ intros M; apply fits_app; auto | split; [ apply fits_app; auto | ] ].
    intros a b G. apply agree_app in G. destruct G as [Gl Gr]. exact (f_equal2 m3_vec (Vl _ _ Gl) (Vr _ _ Gr)).
  - intros l r (Jr & Zr & Vr). destruct (dv_m l) as (Jl & Vl).
    split; [ intros M; apply fits_app; auto | split; [ apply fits_app; auto | ] ].
    intros a b G. apply agree_app in G. destruct G as [Gl Gr]. exact (f_equal2 m3_vec (Vl _ _ Gl) (Vr _ _ Gr)).
  - intros l (Jl & Zl & Vl) r (Jr & Zr & Vr).
    split; [ intros M; apply fits_app; auto | split; [ apply fits_app; auto | ] ].
    intros a b G. exact (two_e (fun x y => m3_vec (crossMx x) y) l r a b Vl Vr G).
  - intros l (Jl & Zl & Vl) r (Jr & Zr & Vr).
    split; [ intros M; apply fits_app; auto | split; [ apply fits_app; auto | ] ].
    intros a b G. exact (two_e v3_add l r a b Vl Vr G).
  - intros l (Jl & Zl & Vl) r (Jr & Zr & Vr).
    split; [ intros M; apply fits_app; auto | split; [ apply fits_app; auto | ] ].
    intros a b G. exact (two_e v3_sub l r a b Vl Vr G).
  - intros l (Jl & Zl & Vl) p. split; [ exact Jl | split; [ exact Zl | ] ].
    intros a b G. exact (f_equal (fun x => v3_sub x p) (Vl _ _ G)).
  - intros l (Jl & Zl & Vl). split; [ intros M; apply Jl | split; [ apply Jl | ] ].
    intros a b G. exact (f_equal v3_neg (Vl _ _ G)).
  - intros p (Jl & Zl & Vl) s. destruct (dv_s s) as (Js & Zs & Vs).
    split; [ intros M; apply fits_app; auto | split; [ apply fits_app; auto | ] ].
    intros a b G. apply agree_app in G. destruct G as [Gl Gr]. exact (f_equal2 v3_scale (Vs _ _ Gr) (Vl _ _ Gl)).
  - intros t (Jt & Zt & Vt). split; [ intros M; apply Jt | split; [ apply Jt | ] ].
    intros a b G. exact (f_equal topRight (Vt _ _ G)).
  - intros K r (Jt & Zt & Vt). split; [ intros M; apply Jt | split; [ apply Jt | ] ].
    intros a b G. exact (f_equal (kP K) (Vt _ _ G)).
  - intros h (Jt & Zt & Vt). split; [ intros M; apply Jt | split; [ apply Jt | ] ].
    intros a b G. exact (f_equal (fun v => fst (fromHomogeneous v)) (Vt _ _ G)).
  - intros l (Jl & Zl & Vl) r (Jr & Zr & Vr).
    split; [ intros M; apply fits_app; auto | split; [ apply fits_app; auto | ] ].
    intros a b G. exact (two_e (fun x y => m3_vec (v3_diag x) y) l r a b Vl Vr G).
  - intros r (Jr & Zr & Vr) t (Jt & Zt & Vt).
    split; [ intros M; apply fits_app; auto | split; [ apply fits_app; auto | ] ].
    intros a b G. apply agree_app in G. destruct G as [Gl Gr]. exact (f_equal2 rt (Vr _ _ Gl) (Vt _ _ Gr)).
  - intros l (Jl & Zl & Vl) r (Jr & Zr & Vr).
    split; [ intros M; apply fits_app'; auto | split; [ apply fits_app'; auto | ] ].
    intros a b G. apply agree_app in G. destruct G as [Gl Gr]. exact (f_equal2 m4_mul (Vl _ _ Gl) (Vr _ _ Gr)).
  - intros t (Jt & Zt & Vt). split; [ intros M; apply Jt | split; [ apply Jt | ] ].
    intros a b G. exact (f_equal inv4 (Vt _ _ G)).
  - intros p. split; [ intros M; apply fits_nil | split; [ apply fits_nil | reflexivity ] ].
  - intros i. split; [ intros M; apply fits_one; reflexivity | split; [ apply fits_one; reflexivity | ] ].
    intros a b (_ & _ & _ & _ & A & _). exact (A i (or_introl eq_refl)).
  - intros p. split; [ intros M; apply fits_nil | split; [ apply fits_nil | reflexivity ] ].
  - intros l (Jl & Zl & Vl) r (Jr & Zr & Vr).
    split; [ intros M; apply fits_app; auto | split; [ apply fits_app; auto | ] ].
    intros a b G. apply agree_app in G. destruct G as [Gl Gr]. exact (f_equal2 m4_vec (Vl _ _ Gl) (Vr _ _ Gr)).
  - intros e (Jt & Zt & Vt). split; [ intros M; apply Jt | split; [ apply Jt | ] ].
    intros a b G. exact (f_equal (fun p => V4 (x0 p) (x1 p) (x2 p) 1) (Vt _ _ G)).
Qed.
End Dv.
