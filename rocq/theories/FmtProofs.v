(** * Lemmas on format strings *)
From Coq Require Import Ascii String List Bool Arith Lia.
From Verif Require Import Base FmtModel FmtSpec.
Import ListNotations.
Local Open Scope nat_scope.

Lemma letter_char c : name_char c = true <-> letter c.
Proof.
  split.
  - destruct c as [[] [] [] [] [] [] [] []]; intros H; try discriminate H; unfold letter; cbn [lit list_ascii_of_string]; repeat ((left; reflexivity) || right); fail.
  - unfold letter. cbn [lit list_ascii_of_string In]. intros H.
    repeat match goal with H : _ \/ _ |- _ => destruct H as [H|H]; [subst c; reflexivity|] end. destruct H.
Qed.
Lemma brace_no : name_char "}" = false. Proof. reflexivity. Qed.
Lemma field_rest_some s : forall acc n r, field_rest acc s = Some (n, r) ->
  exists m, n = rev acc ++ m /\ s = m ++ lit "}" ++ r /\ Forall letter m /\ n <> [].
Proof.
  induction s as [|c s IH]; intros acc n r; [discriminate|]. cbn [field_rest]. destruct (name_char c) eqn:C.
  - intros H. apply IH in H. destruct H as [m [-> [-> [F N]]]]. exists (c :: m). cbn [rev]. rewrite <- app_assoc. cbn [app].
    split; [reflexivity|]. split; [reflexivity|]. split; [constructor; [now apply letter_char | exact F]|].
    intros E. apply app_eq_nil in E. destruct E as [_ E]. discriminate.
  - destruct (Ascii.eqb c "}") eqn:B; [|discriminate]. apply Ascii.eqb_eq in B. subst c. destruct acc as [|a acc]; [discriminate|].
    intros [= <- <-]. exists []. rewrite app_nil_r. split; [reflexivity|]. split; [reflexivity|]. split; [constructor|].
    cbn [rev]. intros E. apply app_eq_nil in E. destruct E as [_ E]. discriminate.
Qed.
Lemma field_rest_all m : forall acc r, Forall letter m -> rev acc ++ m <> [] -> field_rest acc (m ++ lit "}" ++ r) = Some (rev acc ++ m, r).
Proof.
  induction m as [|c m IH]; intros acc r F N.
  - cbn. rewrite app_nil_r in *. destruct acc as [|a acc]; [now destruct N | reflexivity].
  - inversion F as [|x l Fc Ft]; subst. cbn [app field_rest]. rewrite (proj2 (letter_char c) Fc).
    rewrite IH; [|exact Ft|].
    + cbn [rev]. now rewrite <- app_assoc.
    + cbn [rev]. rewrite <- app_assoc. exact N.
Qed.
Lemma field_at_some s n r : field_at s = Some (n, r) <-> begins s n r.
Proof.
  split.
  - unfold field_at. destruct s as [|a [|b s]]; try discriminate. destruct (Ascii.eqb a "$") eqn:A; [|discriminate].
    destruct (Ascii.eqb b "{") eqn:B; [|discriminate]. cbn [andb]. apply Ascii.eqb_eq in A, B. subst a b. intros H.
    apply field_rest_some in H. destruct H as [m [-> [-> [F N]]]]. cbn [rev app] in N |- *. split; [split; assumption|].
    unfold written. cbn. now rewrite <- app_assoc.
  - intros [[N F] ->]. unfold written. cbn [lit list_ascii_of_string app field_at]. rewrite <- app_assoc.
    rewrite !Ascii.eqb_refl. cbn [andb]. exact (field_rest_all n [] r F N).
Qed.
Lemma field_at_none s : field_at s = None <-> forall n r, ~ begins s n r.
Proof.
  split.
  - intros E n r H. apply field_at_some in H. congruence.
  - intros H. destruct (field_at s) as [[n r]|] eqn:E; [|reflexivity]. apply field_at_some in E. now apply H in E.
Qed.
Lemma begins_shorter s n r : begins s n r -> length r < length s.
Proof. intros [_ ->]. unfold written. cbn [lit list_ascii_of_string app]. cbn [length]. rewrite !app_length. lia. Qed.

Lemma search_unfold s : search s = match field_at s with
  | Some (n, r) => Some ([], n, r)
  | None => match s with [] => None | c :: s => match search s with Some (p, n, r) => Some (c :: p, n, r) | None => None end end
  end.
Proof. destruct s; reflexivity. Qed.
Lemma search_some s v : forall p n r out, search s = Some (p, n, r) -> expands v r out -> expands v s (p ++ v n ++ out) /\ length r < length s.
Proof.
  induction s as [|c s IH]; intros p n r out; rewrite search_unfold.
  - discriminate.
  - destruct (field_at (c :: s)) as [[m q]|] eqn:E.
    + intros [= <- <- <-] X. apply field_at_some in E. split; [|now apply begins_shorter in E]. destruct E as [N ->]. cbn [app]. now constructor.
    + destruct (search s) as [[[p' n'] r']|] eqn:S1; [|discriminate]. intros [= <- <- <-] X. destruct (IH p' n' r' out eq_refl X) as [Y Z].
      split; [|cbn [length]; lia]. cbn [app]. constructor; [now apply field_at_none | exact Y].
Qed.
Lemma search_none s v : search s = None -> expands v s s.
Proof.
  induction s as [|c s IH]; [constructor|]. rewrite search_unfold. destruct (field_at (c :: s)) as [[m q]|] eqn:E; [discriminate|].
  destruct (search s) as [[[p' n'] r']|]; [discriminate|]. intros _. constructor; [now apply field_at_none | now apply IH].
Qed.
Definition ending (s : text) (e : option text) : text := match e with Some r => r | None => s end.
Lemma tokens_expand v : forall fuel s last l e, length s < fuel -> (last = None \/ last = Some s) -> tokens fuel s last = (l, e) ->
  expands v s (print v (l ++ [Fixed (ending s e)])) /\ (l <> [] -> e <> None) /\ (l = [] -> e = last).
Proof.
  induction fuel as [|fuel IH]; intros s last l e F L; [lia|]. cbn [tokens].
  destruct (search s) as [[[p n] r]|] eqn:S1.
  - destruct (tokens fuel r (Some r)) as [l' e'] eqn:T. intros [= <- <-].
    assert (Q : length r < length s).
    { clear - S1. revert p n r S1. induction s as [|c s IH]; intros p n r; rewrite search_unfold; [discriminate|].
      destruct (field_at (c :: s)) as [[m q]|] eqn:E.
      - intros [= _ _ <-]. apply field_at_some in E. now apply begins_shorter in E.
      - destruct (search s) as [[[p' n'] r']|] eqn:S2; [|discriminate]. intros [= _ _ <-]. specialize (IH _ _ _ eq_refl). cbn [length]. lia. }
    destruct (IH r (Some r) l' e' ltac:(lia) (or_intror eq_refl) T) as [X [Y Z]].
    assert (W : e' <> None) by (destruct l' as [|t l']; [rewrite (Z eq_refl); discriminate | apply Y; discriminate]).
    destruct e' as [q|]; [|now destruct W]. cbn [ending] in *. split; [|split; [discriminate | discriminate]].
    exact (proj1 (search_some s v p n r _ S1 X)).
  - intros [= <- <-]. split; [|split; [intros H; now destruct H | reflexivity]]. cbn [app]. unfold print. cbn [map concat]. rewrite app_nil_r.
    replace (ending s last) with s by (destruct L; subst last; reflexivity). now apply search_none.
Qed.
Lemma print_app v a b : print v (a ++ b) = print v a ++ print v b.
Proof. unfold print. now rewrite map_app, concat_app. Qed.
Lemma init_print v old fmt : exists out, print v (init old fmt) = print v old ++ out /\ expands v fmt out.
Proof.
  unfold init. destruct (tokens (S (length fmt)) fmt None) as [l e] eqn:T.
  destruct (tokens_expand v _ _ _ _ _ (Nat.lt_succ_diag_r _) (or_introl eq_refl) T) as [X _].
  eexists. rewrite print_app. split; [reflexivity | exact X].
Qed.
Lemma expands_inv v s b : expands v s b ->
  (s = [] /\ b = []) \/ (exists n r o, begins s n r /\ expands v r o /\ b = v n ++ o) \/
  (exists c r o, s = c :: r /\ (forall n q, ~ begins s n q) /\ expands v r o /\ b = c :: o).
Proof.
  destruct 1 as [|n s out N X|c s out C X].
  - left. split; reflexivity.
  - right. left. exists n, s, out. split; [split; [exact N | reflexivity]|]. split; [exact X | reflexivity].
  - right. right. exists c, s, out. split; [reflexivity|]. split; [exact C|]. split; [exact X | reflexivity].
Qed.
Lemma begins_nil n r : ~ begins [] n r.
Proof. intros H. apply begins_shorter in H. cbn in H. lia. Qed.
Lemma begins_one s n r n' r' : begins s n r -> begins s n' r' -> n = n' /\ r = r'.
Proof. intros A B. apply field_at_some in A, B. rewrite A in B. injection B as <- <-. split; reflexivity. Qed.
Lemma expands_unique v s a : expands v s a -> forall b, expands v s b -> a = b.
Proof.
  induction 1 as [|n s out N _ IH|c s out C _ IH]; intros b H; apply expands_inv in H; destruct H as [[E ->]|[[n' [r [o [B [X ->]]]]]|[c' [r [o [E [B [X ->]]]]]]]].
  - reflexivity.
  - now apply begins_nil in B.
  - discriminate E.
  - exfalso. assert (B : begins (written n ++ s) n s) by (split; [exact N | reflexivity]). rewrite E in B. now apply begins_nil in B.
  - destruct (begins_one _ n s n' r (conj N eq_refl) B) as [<- <-]. f_equal. now apply IH.
  - exfalso. apply (B n s). split; [exact N | reflexivity].
  - discriminate E.
  - exfalso. exact (C _ _ B).
  - injection E as <- <-. f_equal. now apply IH.
Qed.
Lemma expands_same v s out : (forall n, v n = written n) -> expands v s out -> out = s.
Proof. intros V. induction 1 as [|n s out N _ IH|c s out C _ IH]; [reflexivity | now rewrite V, IH | now rewrite IH]. Qed.
