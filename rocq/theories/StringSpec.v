(** What the string routines, hash ids and property trees should do (C33-C35). *)
From Coq Require Import ZArith List Bool.
From Verif Require Import Base StringModel.
Import ListNotations.
Open Scope Z_scope.

(** Every occurrence of [t] after the first [k] becomes [r]. *)
Fixpoint replaced_after (k : nat) (t r : Z) (s : str) : str :=
  match s with
  | [] => []
  | x :: s' =>
      if Z.eq_dec x t then
        match k with
        | O => r :: replaced_after O t r s'
        | S k' => x :: replaced_after k' t r s'
        end
      else x :: replaced_after k t r s'
  end.
Definition occurrences (t : Z) (s : str) : nat := count_occ Z.eq_dec s t.

(** Expansion of $(NAME): a defined variable becomes its value, everything else stays,
    and values are not expanded again. *)
Inductive expands (env : str -> option str) : str -> str -> Prop :=
| ex_nil : expands env [] []
| ex_defined name rest v out : ~ In c_close name -> env name = Some v -> expands env rest out ->
    expands env ([c_dollar; c_open] ++ name ++ [c_close] ++ rest) (v ++ out)
| ex_undefined name rest out : ~ In c_close name -> env name = None -> expands env rest out ->
    expands env ([c_dollar; c_open] ++ name ++ [c_close] ++ rest) ([c_dollar; c_open] ++ name ++ [c_close] ++ out)
| ex_unclosed rest : ~ In c_close rest -> expands env ([c_dollar; c_open] ++ rest) ([c_dollar; c_open] ++ rest)
| ex_char c rest out : (forall rest', c :: rest <> [c_dollar; c_open] ++ rest') -> expands env rest out ->
    expands env (c :: rest) (c :: out).

(** Hash ids. *)
Definition hash_ok (h : hash) : Prop := length h = 16%nat /\ Forall (fun b => 0 <= b < 256) h.
Definition hex_char (c : Z) : Prop := 48 <= c <= 57 \/ 97 <= c <= 102 \/ 65 <= c <= 70.
Definition lower (c : Z) : Z := if (65 <=? c) && (c <=? 90) then c + 32 else c.

(** A key without empty components, written with single slashes between them. *)
Definition component (c : str) : Prop := c <> [] /\ ~ In c_slash c.
Fixpoint joined (cs : list str) : str :=
  match cs with
  | [] => []
  | [c] => c
  | c :: r => c ++ c_slash :: joined r
  end.
(** A namespace made of components: "/", "/a/", "/a/b/", ... *)
Fixpoint slashed (cs : list str) : str :=
  match cs with
  | [] => []
  | c :: r => c ++ c_slash :: slashed r
  end.
Definition namespace (cs : list str) : str := c_slash :: slashed cs.
