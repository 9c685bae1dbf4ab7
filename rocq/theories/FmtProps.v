(** * C119: format strings of the logger *)
From Coq Require Import Ascii String List Bool Arith ZArith Lia.
From Verif Require Import Base FmtModel FmtSpec FmtProofs.
Import ListNotations.
Local Open Scope nat_scope.

(** A formatter set up with a format prints the format with every field replaced, and that
    text is determined by the format and the values. *)
Theorem C119_print v fmt : expands v fmt (print v (init [] fmt)) /\ forall out, expands v fmt out -> out = print v (init [] fmt).
Proof.
  destruct (init_print v [] fmt) as [out [E X]]. cbn in E. rewrite E. split; [exact X|].
  intros b H. exact (expands_unique v fmt b H out X).
Qed.
Print Assumptions C119_print.
Definition sample : event := Event 8 (lit "hot") (lit "12.5") (lit "0x1") (lit "a.cpp") (lit "7") (lit "f") (lit "cam").
Example C119_print_ex : print (field_value [(lit "host", lit "box")] sample) (init [] (lit "[${severity}] ${host}$ ${ ${x-} {${line}}: ${message}")) =
  lit "[ WARN] box$ ${ ${x-} {7}: hot".
Proof. reflexivity. Qed.

(** Fields that no one defines are printed as they are written, so that a format of such fields
    is printed unchanged. *)
Theorem C119_unknown v fmt : (forall n, v n = written n) -> print v (init [] fmt) = fmt.
Proof. intros V. exact (expands_same v fmt _ V (proj1 (C119_print v fmt))). Qed.
Print Assumptions C119_unknown.
Definition builtin : list text := map lit ["severity"; "message"; "time"; "thread"; "file"; "line"; "function"; "streamname"]%string.
Theorem C119_field e extra n : ~ In n builtin ->
  (forall p, In p extra -> fst p <> n) -> field_value extra e n = written n.
Proof.
  intros B X. unfold field_value, text_eqb.
  repeat match goal with |- context [list_eq_dec ascii_dec n ?t] => destruct (list_eq_dec ascii_dec n t) as [->|_]; [exfalso; apply B; unfold builtin; cbn [map In]; tauto|] end.
  destruct (find _ extra) as [p|] eqn:F; [|reflexivity]. apply find_some in F. destruct F as [I F].
  destruct (list_eq_dec ascii_dec n (fst p)) as [E|E]; [|discriminate]. exfalso. exact (X p I (eq_sym E)).
Qed.
Print Assumptions C119_field.
Example C119_unknown_ex : field_value [] sample (lit "host") = lit "${host}" /\ ~ In (lit "host") builtin.
Proof. split; [reflexivity|]. unfold builtin. cbn. intros H. repeat (destruct H as [H|H]; [discriminate H|]). exact H. Qed.

(** The severity takes five characters at every level, and levels have different ones. *)
Theorem C119_severity l m : length (severity l) = 5 /\ ((0 <= l <= 10)%Z -> (0 <= m)%Z -> severity l = severity m -> l = m).
Proof.
  assert (K : forall l, (0 <= l <= 10)%Z \/ ~ (0 <= l <= 10)%Z) by (intros; lia).
  assert (C : forall l, (0 <= l <= 10)%Z -> l = 0%Z \/ l = 1%Z \/ l = 2%Z \/ l = 3%Z \/ l = 4%Z \/ l = 5%Z \/ l = 6%Z \/ l = 7%Z \/ l = 8%Z \/ l = 9%Z \/ l = 10%Z) by (intros; lia).
  assert (O : forall l, ~ (0 <= l <= 10)%Z -> severity l = lit "UNKNO").
  { intros k H. unfold severity. f_equal. repeat match goal with |- context [(?a =? ?b)%Z] => destruct (Z.eqb_spec a b); [lia|] end. reflexivity. }
  split.
  - destruct (K l) as [H|H]; [|now rewrite (O l H)]. apply C in H. repeat (destruct H as [->|H]; [reflexivity|]). now subst.
  - intros H _ E. destruct (K m) as [M|M].
    + apply C in H, M. repeat (destruct H as [->|H] || subst l); repeat (destruct M as [->|M] || subst m); first [reflexivity | discriminate E].
    + rewrite (O m M) in E. apply C in H. repeat (destruct H as [->|H] || subst l); discriminate E.
Qed.
Print Assumptions C119_severity.

(** Setting another format on a formatter does not replace the first one: both are printed. *)
Theorem C119_again_refuted v old fmt : print v (init (init [] old) fmt) = print v (init [] old) ++ print v (init [] fmt).
Proof.
  destruct (init_print v (init [] old) fmt) as [out [E X]]. rewrite E. f_equal. exact (proj2 (C119_print v fmt) out X).
Qed.
Print Assumptions C119_again_refuted.
Example C119_again_ex : print (field_value [] sample) (init (init [] (lit "[${severity}] [${time}]: ${message}")) (lit "${message}!")) = lit "[ WARN] [12.5]: hothot!".
Proof. reflexivity. Qed.
