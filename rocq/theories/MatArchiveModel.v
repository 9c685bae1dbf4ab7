(** Model of sm::MatrixArchive
    (Schweizer-Messer/sm_matrix_archive/src/MatrixArchive.cpp and
    include/sm_matrix_archive/MatrixArchive.hpp; line numbers refer to the .cpp unless
    the header is named).
    Bytes and characters are integers in [0,256); a file is its list of bytes.
    Simplifications: the host is little-endian (the other case throws "Not
    Implemented"); opening and writing files succeeds; allocation succeeds; output
    streams have default formatting flags; character classes are those of the C locale. *)
From Coq Require Import ZArith List Bool.
From Verif Require Import Base OMap.
Import ListNotations.
Open Scope Z_scope.

Definition str := list Z.

(** Eigen::MatrixXd: rows, columns and the column-major coefficients, each as the
    64 bits of its double. *)
Record matrix := Mat { rows : Z; cols : Z; cells : list Z }.

(** MatrixArchive.hpp:116-117  m_values, m_strings *)
Record archive := Arch { values : list (str * matrix); strings : list (str * str) }.
(** 14-17 *)
Definition empty : archive := Arch [] [].

(** 9-12 *)
Definition fixed_name_size : Z := 32.
Definition magic_matrix : Z := 65.   (* 'A' *)
Definition magic_string : Z := 83.   (* 'S' *)
Definition magic_end : Z := 66.      (* 'B' *)

(** C locale isalpha, isalnum, isspace *)
Definition isalpha (c : Z) : bool := ((65 <=? c) && (c <=? 90)) || ((97 <=? c) && (c <=? 122)).
Definition isalnum (c : Z) : bool := isalpha c || ((48 <=? c) && (c <=? 57)).
Definition isspace (c : Z) : bool := (c =? 32) || ((9 <=? c) && (c <=? 13)).

(** 143-156  validateName: true when it does not throw *)
Definition valid_name (n : str) : bool :=
  negb (fixed_name_size <? Z.of_nat (length n)) && negb (Z.of_nat (length n) =? 0) &&
  match n with
  | [] => false
  | c :: r => isalpha c && forallb (fun d => isalnum d || (d =? 95)) r
  end.

(** ** Operations on the archive; a [false] result means that an exception is thrown. *)

(** 25-29 *)
Definition clear_all (a : archive) : archive := empty.
(** 32-36: m_values.erase twice *)
Definition clear_name (n : str) (a : archive) : archive :=
  Arch (mdel lex n (mdel lex n (values a))) (strings a).

(** 38-44 *)
Definition set_scalar (n : str) (x : Z) (a : archive) : archive * bool :=
  if valid_name n then (Arch (mput lex n (Mat 1 1 [x]) (values a)) (strings a), true) else (a, false).

(** 46-53 *)
Definition set_string (n : str) (v : str) (a : archive) : archive * bool :=
  if valid_name n then (Arch (mdel lex n (values a)) (mput lex n v (strings a)), true) else (a, false).

(** MatrixArchive.hpp:121-129: the string is erased before the name is checked *)
Definition set_matrix (n : str) (m : matrix) (a : archive) : archive * bool :=
  let a1 := Arch (values a) (mdel lex n (strings a)) in
  if valid_name n then (Arch (mput lex n m (values a1)) (strings a1), true) else (a1, false).

(** MatrixArchive.hpp:131-137 *)
Definition set_vector (n : str) (m : matrix) (a : archive) : archive * bool :=
  if cols m =? 1 then
    if valid_name n then (Arch (mput lex n m (values a)) (strings a), true) else (a, false)
  else (a, false).

(** 66-79  createMatrix: the name is not validated.  The coefficients after resize()
    are not specified: [fill] stands for them. *)
Definition create_matrix (n : str) (r c : Z) (overwrite : bool) (fill : list Z) (a : archive) : archive * bool :=
  if negb overwrite && mhas lex n (values a) then (a, false)
  else (Arch (mput lex n (Mat r c fill) (values a)) (strings a), true).

(** 81-90, 92-103, 105-123, 129-140 *)
Definition get_matrix (n : str) (a : archive) : outcome matrix :=
  match mget lex n (values a) with Some m => Ok m | None => Throw end.
Definition get_vector (n : str) (a : archive) : outcome (list Z) :=
  match mget lex n (values a) with
  | Some m => if cols m =? 1 then Ok (cells m) else Throw
  | None => Throw
  end.
Definition get_scalar (n : str) (a : archive) : outcome Z :=
  match mget lex n (values a) with
  | Some m => if (rows m =? 1) && (cols m =? 1) then
                match cells m with x :: _ => Ok x | [] => UB end
              else Throw
  | None => Throw
  end.
Definition get_string (n : str) (a : archive) : outcome str :=
  match mget lex n (strings a) with Some v => Ok v | None => Throw end.

(** 166-177: sizeMatrices() returns the number of strings *)
Definition size_strings (a : archive) : nat := length (strings a).
Definition size_matrices (a : archive) : nat := length (strings a).
Definition size (a : archive) : nat := (size_strings a + size_matrices a)%nat.

(** ** Files *)

Fixpoint bytes_of (k : nat) (n : Z) : list Z :=
  match k with O => [] | S k' => n mod 256 :: bytes_of k' (n / 256) end.
Fixpoint value_of (b : list Z) : Z :=
  match b with [] => 0 | x :: r => x + 256 * value_of r end.

(** 194-201  writeName: setw(32) pads with spaces on the left *)
Definition padded (n : str) : str := repeat 32 (Z.to_nat (fixed_name_size - Z.of_nat (length n))) ++ n.

(** 203-225  writeMatrixBlock: rows * cols is computed in 32 bits, its product with
    sizeof(double) in 64 bits and then stored in 32 bits. *)
Definition write_matrix (n : str) (m : matrix) : list Z :=
  let r := cast_u32 (rows m) in
  let c := cast_u32 (cols m) in
  let size := cast_u32 (cast_u64 (cast_u32 (r * c) * 8)) in
  bytes_of 4 r ++ bytes_of 4 c ++ firstn (Z.to_nat size) (flat_map (bytes_of 8) (cells m)) ++ [magic_end].
(** 251-267  writeStringBlock *)
Definition write_string (n : str) (v : str) : list Z :=
  let size := cast_u32 (Z.of_nat (length v)) in
  bytes_of 4 size ++ firstn (Z.to_nat size) v ++ [magic_end].

(** 203-208, 251-256: the start character is written before writeName validates;
    the result says whether the name was accepted. *)
Definition write_block (magic : Z) (n : str) (body : list Z) : list Z * bool :=
  if valid_name n then (magic :: padded n ++ body, true) else ([magic], false).

Definition selected (names : list str) (n : str) : bool :=
  match names with [] => true | _ => existsb (fun x => match lex n x with Eq => true | _ => false end) names end.

(** 381-414  saveMatrices, saveStrings: the loop stops at the first exception *)
Fixpoint save_loop {V} (magic : Z) (body : str -> V -> list Z) (names : list str) (m : list (str * V)) : list Z * bool :=
  match m with
  | [] => ([], true)
  | (n, v) :: r =>
      if selected names n then
        match write_block magic n (body n v) with
        | (b, true) => let '(b', ok) := save_loop magic body names r in (b ++ b', ok)
        | (b, false) => (b, false)
        end
      else save_loop magic body names r
  end.
(** 375-379  save *)
Definition save (names : list str) (a : archive) : list Z * bool :=
  match save_loop magic_matrix write_matrix names (values a) with
  | (b, true) => let '(b', ok) := save_loop magic_string write_string names (strings a) in (b ++ b', ok)
  | (b, false) => (b, false)
  end.

(** fin.read(buffer, k): when fewer bytes are left, part of the destination stays
    uninitialised, and so does every later destination; it is then used. *)
Definition read (k : Z) (f : list Z) : outcome (list Z * list Z) :=
  if Z.of_nat (length f) <? k then UB
  else Ok (firstn (Z.to_nat k) f, skipn (Z.to_nat k) f).

(** std::string(nameBuffer): stops at a NUL; boost::trim *)
Fixpoint c_str (b : list Z) : str :=
  match b with [] => [] | x :: r => if x =? 0 then [] else x :: c_str r end.
Fixpoint drop_space (b : str) : str :=
  match b with [] => [] | x :: r => if isspace x then drop_space r else b end.
Definition trim (b : str) : str := rev (drop_space (rev (drop_space b))).

(** Eight bytes per coefficient. *)
Fixpoint cells_of (k : nat) (b : list Z) : list Z :=
  match k with O => [] | S k' => value_of (firstn 8 b) :: cells_of k' (skipn 8 b) end.

Inductive block := BMatrix (n : str) (m : matrix) | BString (n : str) (v : str).

(** 232-249  readMatrix: resize(rows, cols), then rows * cols (in 32 bits) times 8
    bytes are read; when the product wrapped, the other coefficients are unspecified
    (not modelled: [UB]). *)
Definition read_matrix (f : list Z) : outcome (matrix * list Z) :=
  do '(br, f1) <- read 4 f;
  do '(bc, f2) <- read 4 f1;
  let r := value_of br in
  let c := value_of bc in
  let k := cast_u32 (r * c) in
  do '(d, f3) <- read (k * 8) f2;
  if k =? r * c then Ok (Mat r c (cells_of (Z.to_nat k) d), f3) else UB.
(** 269-278  readString *)
Definition read_string (f : list Z) : outcome (str * list Z) :=
  do '(bs, f1) <- read 4 f;
  read (value_of bs) f1.

(** 280-316  readBlock *)
Definition read_block (f : list Z) : outcome (block * list Z) :=
  do '(start, f1) <- read 1 f;
  let is_string := value_of start =? magic_string in
  if is_string || (value_of start =? magic_matrix) then
    do '(bn, f2) <- read fixed_name_size f1;
    let n := trim (c_str bn) in
    do '(b, f3) <- (if is_string
                    then do '(v, g) <- read_string f2; Ok (BString n v, g)
                    else do '(m, g) <- read_matrix f2; Ok (BMatrix n m, g));
    do '(e, f4) <- read 1 f3;
    if value_of e =? magic_end then Ok (b, f4) else Throw
  else Throw.

(** 427-445: store a block that was read *)
Definition store (names : list str) (b : block) (a : archive) : archive * bool :=
  let n := match b with BMatrix n _ => n | BString n _ => n end in
  if selected names n then
    if valid_name n then
      (match b with
       | BMatrix _ m => Arch (mput lex n m (values a)) (strings a)
       | BString _ v => Arch (values a) (mput lex n v (strings a))
       end, true)
    else (a, false)
  else (a, true).

(** 416-448  load: the archive afterwards and how the call ended.  Every block is at
    least one byte long, so the length of the file bounds the number of rounds. *)
Inductive ending := Returned | Threw | Undefined.
Fixpoint load_loop (fuel : nat) (names : list str) (f : list Z) (a : archive) : archive * ending :=
  match f with
  | [] => (a, Returned)
  | _ =>
      match fuel with
      | O => (a, Undefined)
      | S fuel' =>
          match read_block f with
          | Ok (b, f') =>
              match store names b a with
              | (a', true) => load_loop fuel' names f' a'
              | (a', false) => (a', Threw)
              end
          | Throw => (a, Threw)
          | _ => (a, Undefined)
          end
      end
  end.
Definition load (names : list str) (f : list Z) (a : archive) : archive * ending :=
  load_loop (length f) names f a.

(** 450-454  append(): opens the file in append mode and writes nothing. *)
Definition append (names : list str) (a : archive) (f : list Z) : list Z := f.

(** ** Histories *)
Inductive op :=
| OClear | OClearName (n : str)
| OSetScalar (n : str) (x : Z) | OSetString (n : str) (v : str)
| OSetMatrix (n : str) (m : matrix) | OSetVector (n : str) (m : matrix)
| OCreate (n : str) (r c : Z) (overwrite : bool) (fill : list Z)
| OLoad (names : list str) (f : list Z).

Definition apply (o : op) (a : archive) : archive * bool :=
  match o with
  | OClear => (clear_all a, true)
  | OClearName n => (clear_name n a, true)
  | OSetScalar n x => set_scalar n x a
  | OSetString n v => set_string n v a
  | OSetMatrix n m => set_matrix n m a
  | OSetVector n m => set_vector n m a
  | OCreate n r c w fl => create_matrix n r c w fl a
  | OLoad names f => let '(a', e) := load names f a in (a', match e with Returned => true | _ => false end)
  end.
Definition run (h : list op) : archive := fold_left (fun a o => fst (apply o a)) h empty.
