(** * Model of tag decoding

    Models /repo/aslam_offline_calibration/aslam_apriltag2/src/TagFamily.cc and
    include/aslam_apriltag2/TagFamily.h, and the reading of the code in
    src/TagDetector.cc lines 456-484.  A word of type unsigned long long is an
    [N] below 2^64; shifts drop the bits above.  Simplifications: the static
    table is taken to be initialised; the square root of the number of bits is
    the exact integer one (bits are at most 64, so the float one agrees); the
    message for a non-square number of bits is left out. *)
From Coq Require Import NArith ZArith List Bool.
From Verif Require Import Base.
Import ListNotations.
Local Open Scope N_scope.

Definition word64 : N := 2 ^ 64.

(** TagFamily.cc lines 45-59: one step of the double loop, then the loops.
    [oneLongLong << b] is undefined for b > 63. *)
Definition rotate_bit (w : N) (b : nat) (wr : N) : outcome N :=
  if (b <? 64)%nat
  then let wr' := N.shiftl wr 1 mod word64 in
       Ok (if N.land w (N.shiftl 1 (N.of_nat b)) =? 0 then wr' else N.lor wr' 1)
  else UB.
Fixpoint rotate_row (w : N) (d r : nat) (c n : nat) (wr : N) : outcome N :=
  match n with
  | O => Ok wr
  | S n' => do wr' <- rotate_bit w (r + d * c) wr; rotate_row w d r (S c) n' wr'
  end.
Fixpoint rotate_rows (w : N) (d : nat) (n : nat) (wr : N) : outcome N :=
  match n with
  | O => Ok wr
  | S r => do wr' <- rotate_row w d r 0 d wr; rotate_rows w d r wr'
  end.
Definition rotate90 (w : N) (d : nat) : outcome N := rotate_rows w d d 0.

(** Lines 65-72: the loop clears the lowest set bit; it runs at most 64 times *)
Fixpoint pop_loop (fuel : nat) (w : N) (cnt : Z) : Z :=
  match fuel with
  | O => cnt
  | S f => if w =? 0 then cnt else pop_loop f (N.land w (w - 1)) (cnt + 1)
  end.
Definition pop_count_real (w : N) : Z := pop_loop 64 w 0.
(** TagFamily.h lines 90-101: the table has 4096 entries *)
Definition pop_table (i : N) : Z := pop_count_real i.
(** Lines 74-81: twelve bits at a time; six times suffice *)
Fixpoint table_loop (fuel : nat) (w : N) (cnt : Z) : Z :=
  match fuel with
  | O => cnt
  | S f => if w =? 0 then cnt else table_loop f (N.shiftr w 12) (cnt + pop_table (N.land w 4095))
  end.
Definition pop_count (w : N) : Z := table_loop 6 w 0.
(** Lines 61-63 *)
Definition hamming_distance (a b : N) : Z := pop_count (N.lxor a b).

(** TagFamily.h lines 15-26, TagFamily.cc lines 28-43 *)
Record family := Family { fbits : Z; fdim : Z; fmin : Z; frecover : Z; fcodes : list N }.
Definition make_family (bits mindist : Z) (codes : list N) : family := Family bits (Z.sqrt bits) mindist 1 codes.
Definition set_recovery_bits (b : Z) (f : family) : family := Family (fbits f) (fdim f) (fmin f) b (fcodes f).

(** Lines 83-112 *)
Definition int_max : Z := 2147483647.
Record decoded := Decoded { d_id : Z; d_hamming : Z; d_rotation : Z; d_good : bool; d_obs : N; d_code : N }.
Record best := Best { b_id : Z; b_hamming : Z; b_rotation : Z; b_code : N }.
Definition try_rotation (code : N) (id : Z) (rot : Z) (r : N) (b : best) : best :=
  let h := hamming_distance r code in
  if (h <? b_hamming b)%Z then Best id h rot code else b.
Fixpoint try_rotations (code : N) (id : Z) (rot : Z) (rs : list N) (b : best) : best :=
  match rs with
  | [] => b
  | r :: rs' => try_rotations code id (rot + 1) rs' (try_rotation code id rot r b)
  end.
Fixpoint try_codes (codes : list N) (id : Z) (rs : list N) (b : best) : best :=
  match codes with
  | [] => b
  | c :: cs => try_codes cs (id + 1) rs (try_rotations c id 0 rs b)
  end.
Definition decode (f : family) (rCode : N) : outcome decoded :=
  let d := Z.to_nat (fdim f) in
  do r1 <- rotate90 rCode d;
  do r2 <- rotate90 r1 d;
  do r3 <- rotate90 r2 d;
  let b := try_codes (fcodes f) 0 [rCode; r1; r2; r3] (Best (-1) int_max 0 0) in
  Ok (Decoded (b_id b) (b_hamming b) (b_rotation b) (b_hamming b <=? frecover f)%Z rCode (b_code b)).

(** TagDetector.cc lines 456-484: the cells are read from the last row to the
    first; [sample iy ix] is whether the cell is brighter than the threshold,
    or None when it lies outside the image. *)
Fixpoint read_row (sample : nat -> nat -> option bool) (iy ix n : nat) (s : N * bool) : N * bool :=
  match n with
  | O => s
  | S n' =>
      read_row sample iy (S ix) n'
        match sample iy ix with
        | None => (fst s, true)
        | Some v => let c := N.shiftl (fst s) 1 mod word64 in (if v then N.lor c 1 else c, snd s)
        end
  end.
Fixpoint read_rows (sample : nat -> nat -> option bool) (d n : nat) (s : N * bool) : N * bool :=
  match n with
  | O => s
  | S iy => read_rows sample d iy (read_row sample iy 0 d s)
  end.
Definition read_code (sample : nat -> nat -> option bool) (d : nat) : option N :=
  let '(c, bad) := read_rows sample d d (0, false) in if bad then None else Some c.
