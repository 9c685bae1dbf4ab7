(** Properties of the portable binary archives (C07-C09). *)
From Coq Require Import ZArith List Lia.
From Verif Require Import Base ArchiveModel ArchiveSpec ArchiveProofs.
Import ListNotations.
Open Scope Z_scope.

(** * C07: round trip. *)

(** A sequence of integers of any types, written and then read back as the same
    types, comes back unchanged and leaves whatever follows in the stream.  The
    reader may be a different machine when an endian flag was requested; without
    a flag it must have the writer's byte order. *)
Theorem C07_integers_roundtrip : forall writer reader flags vs rest,
  consistent writer -> consistent reader ->
  (flags = endian_big \/ flags = endian_little \/
   (flags = 0 /\ host_big writer = host_big reader)) ->
  Forall good_val vs ->
  exists bs, write_archive writer flags vs = Ok bs /\
    read_archive reader (map fst vs) (bs ++ rest) = Ok (map snd vs, rest).
Proof. exact archive_roundtrip. Qed.
Print Assumptions C07_integers_roundtrip.

Example C07_ex :
  let vs := [(IT 4 true, -300); (IT 2 false, 65535); (IT 8 false, 18446744073709551615); (IT 1 true, 0)] in
  Forall good_val vs /\
  write_archive (Cfg false false) endian_big vs = Ok [64; 254; 1; 44; 2; 255; 255; 255; 1; 0] /\
  read_archive (Cfg true true) (map fst vs) ([64; 254; 1; 44; 2; 255; 255; 255; 1; 0] ++ [7; 7]) = Ok (map snd vs, [7; 7]).
Proof.
  cbv zeta. split; [|split; vm_compute; reflexivity].
  repeat apply Forall_cons; try apply Forall_nil; unfold good_val, good_type; cbn [width is_signed];
    repeat match goal with |- context [?a ^ ?b] => let x := eval vm_compute in (a ^ b) in change (a ^ b) with x end;
    conj; lia.
Qed.

(** The one excluded value: negating it overflows. *)
Theorem C07_smallest_integer_refuted : forall c flags,
  save_int c flags (IT 8 true) (- 2 ^ 63) = UB /\ save_int c flags (IT 8 false) (2 ^ 63) = UB.
Proof. intros. split; vm_compute; reflexivity. Qed.
Print Assumptions C07_smallest_integer_refuted.

(** When the byte-order macro does not match the host -- the sources include
    boost/predef/other/endian.h, which defines BOOST_ENDIAN_BIG_BYTE on every host --
    a little-endian machine does not read back what it wrote. *)
Theorem C07_macro_mismatch_refuted : exists c flags v bs,
  c = Cfg true false /\ flags = 0 /\ good_val (IT 4 true, v) /\
  write_archive c flags [(IT 4 true, v)] = Ok bs /\
  read_archive c [IT 4 true] bs <> Ok ([v], []).
Proof.
  exists (Cfg true false), 0, 5, [0; 1; 0].
  unfold good_val, good_type; cbn [width is_signed].
  conj; solve [lia | vm_compute; congruence].
Qed.
Print Assumptions C07_macro_mismatch_refuted.

(** * C08: the bytes. *)

(** With an endian flag, the bytes written for an integer are its sign-and-length
    byte followed by its minimal base-256 digits in the flag's order, on any host. *)
Theorem C08_written_format : forall c flags l,
  consistent c -> - 2 ^ 63 < l < 2 ^ 63 -> (flags = endian_big \/ flags = endian_little) ->
  (l = 0 /\ save_impl c flags l = Ok [0]) \/
  exists ds, digits_big (Z.abs l) ds /\ (1 <= length ds <= 8)%nat /\
    save_impl c flags l =
      Ok ((if l <? 0 then 256 - Z.of_nat (length ds) else Z.of_nat (length ds)) ::
          (if flags =? endian_big then ds else rev ds)).
Proof. exact save_impl_format. Qed.
Print Assumptions C08_written_format.

Theorem C08_bytes_host_independent : forall c1 c2 flags l,
  consistent c1 -> consistent c2 -> (flags = endian_big \/ flags = endian_little) ->
  - 2 ^ 63 < l < 2 ^ 63 -> save_impl c1 flags l = save_impl c2 flags l.
Proof. exact save_host_independent. Qed.
Print Assumptions C08_bytes_host_independent.

Example C08_ex : save_impl (Cfg true true) endian_little (-66051) = Ok [253; 3; 2; 1]
  /\ save_impl (Cfg false false) endian_little (-66051) = Ok [253; 3; 2; 1]
  /\ save_impl (Cfg false false) endian_big (-66051) = Ok [253; 1; 2; 3].
Proof. conj; vm_compute; reflexivity. Qed.

(** Without a flag the bytes are the host's and the archive does not say which:
    another machine reads a different number. *)
Theorem C08_default_flags_not_portable_refuted : exists vs bs,
  Forall good_val vs /\ write_archive (Cfg false false) 0 vs = Ok bs /\
  read_archive (Cfg true true) (map fst vs) bs <> Ok (map snd vs, []).
Proof.
  exists [(IT 4 true, 258)], [0; 2; 2; 1]. split; [|split].
  - apply Forall_cons; [|apply Forall_nil]. unfold good_val, good_type; cbn [width is_signed];
      conj; solve [lia | vm_compute; congruence].
  - vm_compute. reflexivity.
  - vm_compute. congruence.
Qed.
Print Assumptions C08_default_flags_not_portable_refuted.

(** * C09: hostile input. *)

Theorem C09_oversized_integer_throws : forall c flags maxsize b rest,
  1 <= maxsize <= 8 -> maxsize < b <= 127 \/ 129 <= b < 256 - maxsize ->
  load_impl c flags maxsize (b :: rest) = Throw.
Proof. exact load_impl_oversized. Qed.
Print Assumptions C09_oversized_integer_throws.

Theorem C09_truncated_integer_throws : forall c flags maxsize b rest,
  1 <= maxsize <= 8 -> 1 <= b <= maxsize \/ 256 - maxsize <= b <= 255 ->
  Z.of_nat (length rest) < (if b <? 128 then b else 256 - b) ->
  load_impl c flags maxsize (b :: rest) = Throw.
Proof. exact load_impl_truncated. Qed.
Print Assumptions C09_truncated_integer_throws.

(** Every byte string either yields an integer from a prefix no longer than one
    byte plus the requested width, or throws.  The two exceptions are the length
    byte 0x80 on big-endian hosts and eight magnitude bytes with a negative sign. *)
Theorem C09_reader_is_total : forall c flags maxsize s,
  consistent c -> Forall byte s -> 1 <= maxsize <= 8 ->
  match load_impl c flags maxsize s with
  | Ok (l, rest) => - 2 ^ 63 <= l < 2 ^ 63 /\
      exists used, s = used ++ rest /\ (1 <= length used)%nat /\ Z.of_nat (length used) <= 1 + maxsize
  | Throw => True
  | UB => (macro_big c = true /\ exists r, s = 128 :: r) \/
          (maxsize = 8 /\ exists p r, s = 248 :: p ++ r /\ length p = 8%nat)
  | Hang => False
  end.
Proof.
  intros c flags maxsize s Hc Hs Hm. pose proof (load_impl_safe c flags maxsize s Hc Hs Hm) as H.
  destruct (load_impl c flags maxsize s) as [[l r]| | |]; auto.
  unfold in_i64, INT64_MIN, INT64_MAX in H. destruct H as [H1 H2]. split; [lia|exact H2].
Qed.
Print Assumptions C09_reader_is_total.

Example C09_ex : load_impl (Cfg false false) 0 4 [5; 1; 2; 3; 4; 5] = Throw
  /\ load_impl (Cfg false false) 0 4 [252; 1; 2; 3; 4; 5] = Ok (-67305985, [5])
  /\ load_impl (Cfg false false) 0 4 [3; 1; 2] = Throw.
Proof. conj; vm_compute; reflexivity. Qed.

(** Both exceptions occur. *)
Theorem C09_length_byte_0x80_refuted : exists s, Forall byte s /\ load_impl (Cfg true true) 0 4 s = UB.
Proof. exists [128]. split; [|vm_compute; reflexivity]. repeat constructor; unfold byte; lia. Qed.
Print Assumptions C09_length_byte_0x80_refuted.

Theorem C09_negated_magnitude_refuted : exists s, Forall byte s /\ load_impl (Cfg false false) 0 8 s = UB.
Proof.
  exists [248; 0; 0; 0; 0; 0; 0; 0; 128]. split; [|vm_compute; reflexivity].
  repeat constructor; unfold byte; lia.
Qed.
Print Assumptions C09_negated_magnitude_refuted.

(** The width check does not guarantee that the value fits: an out-of-range
    value of the same width is silently wrapped. *)
Theorem C09_value_outside_type_accepted_refuted : exists s v r,
  Forall byte s /\ load_impl (Cfg false false) 0 2 s = Ok (65535, []) /\
  load_int (Cfg false false) 0 (IT 2 true) s = Ok (v, r) /\ v = -1.
Proof.
  exists [2; 255; 255], (-1), []. split; [|vm_compute; auto].
  repeat constructor; unfold byte; lia.
Qed.
Print Assumptions C09_value_outside_type_accepted_refuted.
