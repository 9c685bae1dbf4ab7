(** Model of sm_boost's portable binary archives.

    Paths are relative to /repo/Schweizer-Messer/sm_boost.  Bytes are integers in
    [0,256); a stream is a list of bytes.  Only integers (and the flag byte of the
    header) are modelled; strings, floats, doubles and plain chars are forwarded
    to Boost's primitive archive (external code). *)
From Coq Require Import ZArith List Bool.
From Verif Require Import Base.
Import ListNotations.
Open Scope Z_scope.

(** Little-endian bytes of [n]. *)
Fixpoint le_bytes (k : nat) (n : Z) : list Z :=
  match k with
  | O => []
  | S k' => (n mod 256) :: le_bytes k' (n / 256)
  end.

Fixpoint le_val (bs : list Z) : Z :=
  match bs with
  | [] => 0
  | b :: r => b + 256 * le_val r
  end.

(** Compile-time and host configuration.
    [macro_big] : the preprocessor sees BOOST_ENDIAN_BIG_BYTE as defined
                  (portable_binary_oarchive.cpp:52, portable_binary_iarchive.cpp:42,47);
    [host_big]  : the machine is big-endian. *)
Record config := Cfg { macro_big : bool; host_big : bool }.

(** Memory image of an intmax_t, and its value. *)
Definition mem_of (c : config) (v : Z) : list Z :=
  let le := le_bytes 8 v in if host_big c then rev le else le.
Definition val_of (c : config) (m : list Z) : Z :=
  cast_i64 (le_val (if host_big c then rev m else m)).

Fixpoint set_nth (i : nat) (x : Z) (l : list Z) : list Z :=
  match i, l with
  | _, [] => []
  | O, _ :: r => x :: r
  | S i', y :: r => y :: set_nth i' x r
  end.

(** include/sm_boost/portable_binary_archive.hpp:45-54  reverse_bytes: the loop
    over [first < last]; [i], [j] are the offsets of the two pointers. *)
Fixpoint reverse_loop (fuel i j : nat) (a : list Z) : list Z :=
  match fuel with
  | O => a
  | S f =>
      if Nat.ltb i j then
        let x := nth j a 0 in
        let a1 := set_nth j (nth i a 0) a in
        let a2 := set_nth i x a1 in
        reverse_loop f (S i) (j - 1) a2
      else a
  end.
Definition reverse_bytes (a : list Z) : list Z :=
  reverse_loop (length a) 0 (length a - 1) a.

(** portable_binary_archive.hpp:36-39 *)
Definition endian_big : Z := 16384.    (* 0x4000 *)
Definition endian_little : Z := 32768. (* 0x8000 *)
Definition has (flags f : Z) : bool := negb (Z.land flags f =? 0).

(** src/portable_binary_oarchive.cpp:38-41  size loop (arithmetic shift). *)
Fixpoint size_loop (fuel : nat) (ll : Z) (size : Z) : outcome Z :=
  match fuel with
  | O => Hang
  | S f =>
      let ll' := Z.shiftr ll 8 in
      if ll' =? 0 then Ok (size + 1) else size_loop f ll' (size + 1)
  end.

(** src/portable_binary_oarchive.cpp:19-61  save_impl: the bytes appended. *)
Definition save_impl (c : config) (flags l : Z) : outcome (list Z) :=
  if l =? 0 then Ok [0]
  else
    let negative := l <? 0 in
    do ll <- (if negative then ret_i64 (- l) else Ok l);
    do size <- size_loop 9 ll 0;
    let size_byte := (if negative then - size else size) mod 256 in
    let m := mem_of c ll in
    let n := Z.to_nat size in
    let part :=
      if macro_big c then
        let p := firstn n (skipn (8 - n) m) in
        if has flags endian_little then reverse_bytes p else p
      else
        let p := firstn n m in
        if has flags endian_big then reverse_bytes p else p in
    Ok (size_byte :: part).

(** signed char value of a byte *)
Definition schar (b : Z) : Z := if b <? 128 then b else b - 256.

(** src/portable_binary_iarchive.cpp:22-56  load_impl: value and remaining stream.
    A stream that ends early makes Boost's load_binary throw.  The size byte 0x80
    stays negative after [size = -size]: the pointer adjustment of the big-endian
    branch is then out of bounds ([UB]); without it load_binary is asked for a
    negative amount, which Boost refuses ([Throw]). *)
Definition load_impl (c : config) (flags maxsize : Z) (s : list Z) : outcome (Z * list Z) :=
  match s with
  | [] => Throw
  | b :: rest =>
      let size0 := schar b in
      if size0 =? 0 then Ok (0, rest)
      else
        let negative := size0 <? 0 in
        let size := if negative then schar ((- size0) mod 256) else size0 in
        if size >? maxsize then Throw
        else if size <? 0 then (if macro_big c then UB else Throw)
        else
          let n := Z.to_nat size in
          if Nat.ltb (length rest) n then Throw
          else
            let raw := firstn n rest in
            let swap := if macro_big c then has flags endian_little else has flags endian_big in
            let part := if swap then reverse_bytes raw else raw in
            let m := if macro_big c then repeat 0 (8 - n) ++ part else part ++ repeat 0 (8 - n) in
            let l := val_of c m in
            do r <- (if negative then ret_i64 (- l) else Ok l);
            Ok (r, skipn n rest)
  end.

(** Integer types the archive handles: width in bytes and signedness. *)
Record itype := IT { width : Z; is_signed : bool }.
Definition it_min (t : itype) : Z := if is_signed t then - 2 ^ (8 * width t - 1) else 0.
Definition it_max (t : itype) : Z :=
  if is_signed t then 2 ^ (8 * width t - 1) - 1 else 2 ^ (8 * width t) - 1.
(** conversion of an intmax_t to the type *)
Definition it_cast (t : itype) (l : Z) : Z :=
  (l - it_min t) mod 2 ^ (8 * width t) + it_min t.

(** include/sm_boost/portable_binary_oarchive.hpp:105-108  save(const T&): the
    argument is converted to intmax_t. *)
Definition save_int (c : config) (flags : Z) (t : itype) (v : Z) : outcome (list Z) :=
  save_impl c flags (cast_i64 v).

(** include/sm_boost/portable_binary_iarchive.hpp:119-126  load(T&). *)
Definition load_int (c : config) (flags : Z) (t : itype) (s : list Z) : outcome (Z * list Z) :=
  do '(l, rest) <- load_impl c flags (width t) s;
  Ok (it_cast t l, rest).

(** A whole archive without the signature: the flag byte
    (portable_binary_oarchive.cpp:64-83, 172 and iarchive.cpp:121-123) followed by
    the integers.  The stream constructor keeps the endian flags it is given. *)
Fixpoint save_ints (c : config) (flags : Z) (vs : list (itype * Z)) : outcome (list Z) :=
  match vs with
  | [] => Ok []
  | (t, v) :: r =>
      do b <- save_int c flags t v;
      do bs <- save_ints c flags r;
      Ok (b ++ bs)
  end.

Definition write_archive (c : config) (flags : Z) (vs : list (itype * Z)) : outcome (list Z) :=
  let m_flags := Z.land flags (Z.lor endian_big endian_little) in
  if m_flags =? Z.lor endian_big endian_little then Throw
  else
    do body <- save_ints c m_flags vs;
    Ok (Z.shiftr m_flags 8 :: body).

Fixpoint load_ints (c : config) (flags : Z) (ts : list itype) (s : list Z) : outcome (list Z * list Z) :=
  match ts with
  | [] => Ok ([], s)
  | t :: r =>
      do '(v, s1) <- load_int c flags t s;
      do '(vs, s2) <- load_ints c flags r s1;
      Ok (v :: vs, s2)
  end.

Definition read_archive (c : config) (ts : list itype) (s : list Z) : outcome (list Z * list Z) :=
  match s with
  | [] => Throw
  | x :: r => load_ints c (Z.shiftl x 8) ts r
  end.

(** include/sm_boost/portable_binary_oarchive.hpp:177-192: the streambuf
    constructor stores m_flags(0), whatever flags it is given. *)
Definition write_archive_streambuf (c : config) (flags : Z) (vs : list (itype * Z)) : outcome (list Z) :=
  write_archive c 0 vs.
