(** Independent description of the variable-length integer format
    (sereal_spec.pod, "VARINT": little-endian groups of 7 bits, high bit set on
    every byte but the last). *)
From Verif Require Import Base.

Inductive vgroups : bytes -> N -> Prop :=
| vg_last b : (b2n b < 128)%N -> vgroups [b] (b2n b)
| vg_more b l n : (128 <= b2n b)%N -> vgroups l n ->
    vgroups (b :: l) (b2n b - 128 + 128 * n).
