(** C01, C02: variable-length integers. *)
From Verif Require Import Base BaseFacts SpecVarint Varint VarintFacts.

(** C01.  The bytes written obey the format, and reading them (whatever follows) gives
    the same 64 bits, consuming exactly these bytes. *)
Theorem C01_varint_roundtrip : forall n rest, (n < 18446744073709551616)%N ->
  vgroups (varint n) n /\
  exists z, varintdecode (varint n ++ rest) = VOk z (length (varint n)) /\
            (z mod two64 = Z.of_N n)%Z /\ (- two63 <= z < two63)%Z.
Proof. exact varint_roundtrip_. Qed.
Print Assumptions C01_varint_roundtrip.

Example C01_case : (18446744073709551615 < 18446744073709551616)%N /\
  varintdecode (varint 18446744073709551615 ++ [xff]) = VOk (-1) 10.
Proof. split; vm_compute; reflexivity. Qed.

(** C02.  The reader succeeds exactly on inputs starting with a terminated group of at
    most ten bytes; then it consumes 1 to 10 of the bytes present and its result is
    determined by them. *)
Theorem C02_varint_bounded : forall b,
  (forall z sz, varintdecode b = VOk z sz <->
     exists l rest n, b = l ++ rest /\ sz = length l /\ sz <= 10 /\ vgroups l n /\ z = to_int n) /\
  (forall z sz, varintdecode b = VOk z sz -> 1 <= sz <= 10 /\ sz <= length b /\
     forall rest', varintdecode (firstn sz b ++ rest') = VOk z sz).
Proof. exact varint_bounded_. Qed.
Print Assumptions C02_varint_bounded.

Example C02_case : varintdecode [xac; x02; xff] = VOk 300 2 /\
  varintdecode (repeat xff 11) = VBad 10 /\ varintdecode [x80] = VBad 1.
Proof. repeat split; vm_compute; reflexivity. Qed.
