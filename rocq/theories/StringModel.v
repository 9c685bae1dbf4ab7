(** Model of sm_common's string routines and HashId, and of sm_property_tree's keys.
    Paths are relative to /repo/Schweizer-Messer.  Strings are lists of character codes. *)
From Coq Require Import ZArith List Bool.
From Verif Require Import Base.
Import ListNotations.
Open Scope Z_scope.

Definition str := list Z.

(** ** sm_common/include/sm_common/string_routines.hpp *)

Fixpoint set_at (i : nat) (c : Z) (s : str) : str :=
  match i, s with
  | _, [] => []
  | O, _ :: r => c :: r
  | S i', x :: r => x :: set_at i' c r
  end.

(** std::string::find(char, pos): the first index >= pos holding the character. *)
Fixpoint find_char_from (i : nat) (s : str) (c : Z) : option nat :=
  match s with
  | [] => None
  | x :: r => if x =? c then Some i else find_char_from (S i) r c
  end.
Definition find_char (s : str) (c : Z) (pos : nat) : option nat := find_char_from pos (skipn pos s) c.

(** 12-26  replace.  The loop may run forever: [Hang] when [fuel] rounds are not enough. *)
Fixpoint replace (fuel : nat) (s : str) (target replacement : Z) (skip : nat) (pos : nat) : outcome str :=
  match fuel with
  | O => Hang
  | S f =>
      match find_char s target pos with
      | None => Ok s
      | Some p =>
          match skip with
          | S k => replace f s target replacement k (S p)
          | O => replace f (set_at p replacement s) target replacement O p
          end
      end
  end.

(** std::string::rfind(char, pos): the last index <= pos; [None] as pos is npos. *)
Fixpoint rfind_below (s : str) (c : Z) (n : nat) : option nat :=
  match n with
  | O => None
  | S k => if nth k s (c - 1) =? c then Some k else rfind_below s c k
  end.
Definition rfind_char (s : str) (c : Z) (pos : option nat) : option nat :=
  rfind_below s c (match pos with None => length s | Some p => Nat.min (S p) (length s) end).

(** 30-44  replace_reverse; pos-- wraps from 0 to npos *)
Fixpoint replace_reverse (fuel : nat) (s : str) (target replacement : Z) (skip : nat) (pos : option nat) : outcome str :=
  match fuel with
  | O => Hang
  | S f =>
      match rfind_char s target pos with
      | None => Ok s
      | Some p =>
          match skip with
          | S k => replace_reverse f s target replacement k (match p with O => None | S q => Some q end)
          | O => replace_reverse f (set_at p replacement s) target replacement O (Some p)
          end
      end
  end.

(** 46-59  leading_pad *)
Definition leading_pad (s : str) (desired : nat) (c : Z) : str :=
  if (length s <? desired)%nat then repeat c (desired - length s) ++ s else s.

Definition c_dollar : Z := 36.
Definition c_open : Z := 40.
Definition c_close : Z := 41.
Definition c_slash : Z := 47.

(** std::string::find("$(", off) *)
Fixpoint find_open_from (i : nat) (s : str) : option nat :=
  match s with
  | x :: ((y :: _) as r) => if (x =? c_dollar) && (y =? c_open) then Some i else find_open_from (S i) r
  | _ => None
  end.
Definition find_open (s : str) (off : nat) : option nat := find_open_from off (skipn off s).
(** std::string::substr *)
Definition substr (s : str) (pos n : nat) : str := firstn n (skipn pos s).

(** 70-100  substituteEnvVars; [getenv] is the environment (external).  One round of
    the loop per fuel; the loop ends within length s rounds. *)
Fixpoint subst_loop (getenv : str -> option str) (fuel : nat) (s : str) (pidx : nat) (idx : option nat) (out : str) : outcome str :=
  match fuel with
  | O => Hang
  | S f =>
      match idx with
      | None => Ok (out ++ skipn pidx s)
      | Some i =>
          match find_char s c_close i with
          | Some e =>
              let var := substr s (i + 2) (e - i - 2) in
              match getenv var with
              | Some v => subst_loop getenv f s (S e) (find_open s (S e)) (out ++ substr s pidx (i - pidx) ++ v)
              | None => subst_loop getenv f s pidx (find_open s (S e)) out
              end
          | None => subst_loop getenv f s pidx None out
          end
      end
  end.
Definition substitute_env_vars (getenv : str -> option str) (s : str) : outcome str :=
  subst_loop getenv (length s + 3) s 0 (find_open s 0) [].

(** 103-112  ensureTrailingBackslash *)
Definition ensure_trailing (s : str) : str :=
  match s with
  | [] => [c_slash]
  | _ => if last s 0 =? c_slash then s else s ++ [c_slash]
  end.

(** ** sm_common/include/sm_common/hash_id.hpp; a hash is its sixteen bytes. *)
Definition hash := list Z.

Definition hex_digit (d : Z) : Z := if d <? 10 then 48 + d else 87 + d.
(** 47-54  hexString *)
Definition hex_string (h : hash) : str :=
  flat_map (fun b => [hex_digit (b / 16); hex_digit (b mod 16)]) h.

Definition hex_value (c : Z) : option Z :=
  if (48 <=? c) && (c <=? 57) then Some (c - 48)
  else if (97 <=? c) && (c <=? 102) then Some (c - 87)
  else if (65 <=? c) && (c <=? 70) then Some (c - 55)
  else None.
Definition is_space (c : Z) : bool := (c =? 32) || ((9 <=? c) && (c <=? 13)).

(** [ss >> std::hex >> integerValue] on a two-character string (C++11, libstdc++):
    white space is skipped, a sign is accepted, conversion stops at the first other
    character, a failed conversion stores 0; if only white space is found nothing is
    stored and the uninitialised variable is used. *)
Definition parse2 (c1 c2 : Z) : outcome Z :=
  if is_space c1 then
    if is_space c2 then UB
    else Ok (match hex_value c2 with Some v => v | None => 0 end)
  else
    match hex_value c1 with
    | Some v1 => Ok (match hex_value c2 with Some v2 => 16 * v1 + v2 | None => v1 end)
    | None =>
        match hex_value c2 with
        | Some v2 =>
            if c1 =? 43 then Ok v2                       (* "+d" *)
            else if c1 =? 45 then Ok (cast_u32 (- v2))   (* "-d" *)
            else Ok 0
        | None => Ok 0
        end
    end.

Fixpoint parse_bytes (s : str) : outcome (list Z) :=
  match s with
  | c1 :: c2 :: r => do v <- parse2 c1 c2; do l <- parse_bytes r; Ok (v mod 256 :: l)
  | _ => Ok []
  end.
(** 60-72  fromHexString: the object afterwards and the result *)
Definition from_hex_string (s : str) (h : hash) : outcome (hash * bool) :=
  if (length s =? 32)%nat then do l <- parse_bytes s; Ok (l, true) else Ok (h, false).

Fixpoint le_value (b : list Z) : Z := match b with [] => 0 | x :: r => x + 256 * le_value r end.
Definition u64_0 (h : hash) : Z := le_value (firstn 8 h).
Definition u64_1 (h : hash) : Z := le_value (skipn 8 h).
(** 88-106 (the host is little-endian; only the order itself depends on it) *)
Definition hash_lt (a b : hash) : bool :=
  if u64_0 a =? u64_0 b then u64_1 a <? u64_1 b else u64_0 a <? u64_0 b.
Definition hash_gt (a b : hash) : bool :=
  if u64_0 a =? u64_0 b then u64_1 b <? u64_1 a else u64_0 b <? u64_0 a.
Definition hash_eq (a b : hash) : bool := (u64_0 a =? u64_0 b) && (u64_1 a =? u64_1 b).
(** 111-116 *)
Definition hash_invalid : hash := repeat 0 16.
Definition hash_valid (h : hash) : bool := negb (u64_0 h =? 0) || negb (u64_1 h =? 0).

(** ** sm_property_tree *)

(** src/PropertyTree.cpp:7-12, 14-28: the namespace of a tree, and of a child tree *)
Definition absolute (ns : str) : str := match ns with c :: _ => if c =? c_slash then ns else c_slash :: ns | [] => ns end.
Definition base_namespace (ns : str) : str := absolute (ensure_trailing ns).
Definition child_namespace (parent child : str) : str :=
  absolute (match child with
            | c :: _ => if c =? c_slash then ensure_trailing child else ensure_trailing (parent ++ child)
            | [] => ensure_trailing (parent ++ child)
            end).
(** 36-49  buildQualifiedKeyName *)
Definition qualified (ns key : str) : outcome str :=
  match key with
  | [] => Throw
  | c :: r => if c =? c_slash then match r with [] => Throw | _ => Ok key end else Ok (ns ++ key)
  end.

(** boost::property_tree::path(s, '/'): the components (external library; a trailing
    separator adds no component). *)
Fixpoint split_path (cur : str) (s : str) : list str :=
  match s with
  | [] => match cur with [] => [] | _ => [cur] end
  | c :: r => if c =? c_slash then cur :: split_path [] r else split_path (cur ++ [c]) r
  end.
Definition path_of (s : str) : list str := split_path [] s.

Definition path_eq_dec : forall a b : list str, {a = b} + {a <> b} := list_eq_dec (list_eq_dec Z.eq_dec).
Fixpoint prefix (p q : list str) : bool :=
  match p, q with
  | [], _ => true
  | x :: p', y :: q' => if list_eq_dec Z.eq_dec x y then prefix p' q' else false
  | _, [] => false
  end.

(** boost::property_tree::ptree as used here (external library): which nodes exist and
    their data.  put() creates missing nodes on the way with empty data. *)
Definition tree := list str -> option str.
Definition tree_empty : tree := fun p => match p with [] => Some [] | _ => None end.
Definition tree_put (p : list str) (v : str) (t : tree) : tree := fun q =>
  if path_eq_dec q p then Some v
  else match t q with
       | Some w => Some w
       | None => if prefix q p then Some [] else None
       end.

(** include/sm_property_tree/BoostPropertyTreeImplementation.hpp:78-136 for strings;
    [key] is a qualified key: key.substr(1) drops its first character. *)
Definition imp_get (t : tree) (key : str) : outcome str :=
  match t (path_of (tl key)) with Some v => Ok v | None => Throw end.
Definition imp_get_default_const (t : tree) (key dflt : str) : str :=
  match t (path_of (tl key)) with Some v => v | None => dflt end.
Definition imp_set (t : tree) (key v : str) : tree := tree_put (path_of (tl key)) v t.
Definition imp_get_default (t : tree) (key dflt : str) : tree * str :=
  match t (path_of (tl key)) with Some v => (t, v) | None => (imp_set t key dflt, dflt) end.
(** src/BoostPropertyTreeImplementation.cpp:86-91: the whole key is used as the path,
    and a missing node makes get() throw *)
Definition imp_exists (t : tree) (key : str) : outcome bool :=
  match t (path_of key) with Some _ => Ok true | None => Throw end.

(** src/PropertyTree.cpp:109-160: the public calls *)
Definition get_string (t : tree) (ns key : str) : outcome str := do k <- qualified ns key; imp_get t k.
Definition get_string_or (t : tree) (ns key dflt : str) : outcome str :=
  do k <- qualified ns key; Ok (imp_get_default_const t k dflt).
Definition get_string_or_set (t : tree) (ns key dflt : str) : outcome (tree * str) :=
  do k <- qualified ns key; Ok (imp_get_default t k dflt).
Definition set_string (t : tree) (ns key v : str) : outcome tree := do k <- qualified ns key; Ok (imp_set t k v).
Definition key_exists (t : tree) (ns key : str) : outcome bool := do k <- qualified ns key; imp_exists t k.
