(** What a matrix archive should do (C31, C32). *)
From Coq Require Import ZArith List Bool.
From Verif Require Import Base OMap MatArchiveModel.
Import ListNotations.
Open Scope Z_scope.

(** A legal name: 1 to 32 characters, a letter followed by letters, digits and '_'. *)
Definition letter (c : Z) : Prop := 65 <= c <= 90 \/ 97 <= c <= 122.
Definition digit (c : Z) : Prop := 48 <= c <= 57.
Definition name_ok (n : str) : Prop :=
  1 <= Z.of_nat (length n) <= 32 /\
  exists c r, n = c :: r /\ letter c /\ Forall (fun d => letter d \/ digit d \/ d = 95) r.

(** A matrix whose data take less than 2^32 bytes. *)
Definition matrix_ok (m : matrix) : Prop :=
  0 <= rows m < 2 ^ 32 /\ 0 <= cols m < 2 ^ 32 /\ rows m * cols m * 8 < 2 ^ 32 /\
  Z.of_nat (length (cells m)) = rows m * cols m /\ Forall (fun x => 0 <= x < 2 ^ 64) (cells m).
Definition string_ok (v : str) : Prop := Z.of_nat (length v) < 2 ^ 32.

(** Everything in the archive can be represented in a file. *)
Definition saveable (a : archive) : Prop :=
  (forall n m, In (n, m) (values a) -> name_ok n /\ matrix_ok m) /\
  (forall n v, In (n, v) (strings a) -> name_ok n /\ string_ok v).

(** The entries of an archive in file order, and an archive that holds given entries. *)
Definition entries (a : archive) : list block :=
  map (fun e => BMatrix (fst e) (snd e)) (values a) ++ map (fun e => BString (fst e) (snd e)) (strings a).
Definition holds_exactly (a : archive) (l : list block) : Prop :=
  (forall n m, get_matrix n a = Ok m <-> In (BMatrix n m) l) /\
  (forall n v, get_string n a = Ok v <-> In (BString n v) l).

Definition named (b : block) : str := match b with BMatrix n _ => n | BString n _ => n end.
(** An empty list of names selects everything. *)
Definition wanted (names : list str) (n : str) : Prop := names = [] \/ In n names.

(** ** Meaning of a name after a history, latest operation first. *)
Definition str_eq_dec : forall a b : str, {a = b} + {a <> b} := list_eq_dec Z.eq_dec.
Definition is (n n' : str) : bool := if str_eq_dec n n' then true else false.

Definition no_load (o : op) : bool := match o with OLoad _ _ => false | _ => true end.

Fixpoint matrix_named (latest_first : list op) (n : str) : option matrix :=
  match latest_first with
  | [] => None
  | o :: before =>
      let old := matrix_named before n in
      match o with
      | OClear => None
      | OClearName n' => if is n n' then None else old
      | OSetScalar n' x => if is n n' && valid_name n then Some (Mat 1 1 [x]) else old
      | OSetString n' _ => if is n n' && valid_name n then None else old
      | OSetMatrix n' m => if is n n' && valid_name n then Some m else old
      | OSetVector n' m => if is n n' && valid_name n && (cols m =? 1) then Some m else old
      | OCreate n' r c overwrite fill =>
          if is n n' && (overwrite || match old with None => true | _ => false end) then Some (Mat r c fill) else old
      | OLoad _ _ => old
      end
  end.

(** Clearing a name, or storing a scalar or vector under it, leaves its string. *)
Fixpoint string_named (latest_first : list op) (n : str) : option str :=
  match latest_first with
  | [] => None
  | o :: before =>
      let old := string_named before n in
      match o with
      | OClear => None
      | OSetString n' v => if is n n' && valid_name n then Some v else old
      | OSetMatrix n' _ => if is n n' then None else old
      | _ => old
      end
  end.

Definition or_throw {A} (x : option A) : outcome A := match x with Some v => Ok v | None => Throw end.
