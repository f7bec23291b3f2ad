(** Independent description of the fixed part of a document header, and of the document
    types each version defines (sereal_spec.pod, "HEADER FORMAT"). *)
From Verif Require Import Base SpecVarint GoMem Spec Codecs SpecDoc Document.

(** [b] begins with the magic for version [ver], the version/type byte and a varint [l]
    standing for the length [n] of the header suffix; [rest] follows. *)
Definition starts (b : bytes) (ver typ : N) (l : bytes) (n : N) (rest : bytes) : Prop :=
  (1 <= ver <= 4)%N /\ (typ < 16)%N /\
  exists vt, b = magic ver ++ [vt] ++ l ++ rest /\ b2n vt = (ver + 16 * typ)%N /\
    vgroups l n /\ length l <= 10.

(** raw; Snappy in version 1 only; incremental Snappy; zlib from 3; zstd from 4 *)
Definition type_defined (ver typ : N) : Prop :=
  typ = 0%N \/ (typ = 1%N /\ ver = 1%N) \/ typ = 2%N \/ (typ = 3%N /\ (3 <= ver)%N) \/
  (typ = 4%N /\ (4 <= ver)%N).

(** Where the body begins, in 64-bit arithmetic.  (A length field of 2^64-14 makes the
    sum wrap around to 1; the code accepts that.) *)
Definition body_start (l : bytes) (n : N) : N :=
  ((5 + N.of_nat (length l) + n) mod 18446744073709551616)%N.

Definition acceptable (b : bytes) : Prop := exists ver typ l n rest,
  starts b ver typ l n rest /\ type_defined ver typ /\ (body_start l n <= N.of_nat (length b))%N.

(** "=srl" with the high-bit 's' (0xF3) encoded as UTF-8 *)
Definition utf8_magic : bytes := [x3d; xc3; xb3; x72].

(** the uncompressed length announced by a zlib body is negligible *)
Definition zlib_modest (packed : bytes) : Prop := forall l rest n,
  packed = l ++ rest -> vgroups l n -> length l <= 10 ->
  (n mod 18446744073709551616 <= 281474976710656)%N.

(** Byte strings clear of the three run-time errors found in UnmarshalHeaderBody:
    - a header is asked for, and the suffix length is 2^63 or more, or zero in a varint of
      more than one byte;
    - a body is asked for, the suffix length makes the start of the body wrap to 0, and the
      version is not 1;
    - a body is asked for, and a zlib body announces more than 2^48 bytes. *)
Definition harmless (vh vb : target) (b : bytes) : Prop := forall ver typ l n rest,
  starts b ver typ l n rest ->
  (vh <> TgtNone -> (n < 9223372036854775808)%N /\ (n = 0%N -> length l = 1)) /\
  (vb <> TgtNone -> (ver <> 1%N -> body_start l n <> 0%N) /\
     (typ = 3%N -> zlib_modest (skipn (N.to_nat (body_start l n)) b))).
