(** When the encoder compresses, and what it refuses to compress. *)
From Verif Require Import Base Codecs Encode SpecOptions.

(** A body of [n] bytes is left as it is. *)
Definition below (e : econfig) (n : nat) : Prop :=
  e_threshold e <> 0%Z /\ (Z.of_nat n < e_threshold e)%Z.

(** What makes compression fail: a combination of version and compressor that the encoder does
    not know, a body too large for Snappy, or a failure of the zlib library (level 0 stands for
    its default, -1). *)
Definition refused (k : codecs) (ver : N) (c : compressor) (body : bytes) : Prop :=
  match c with
  | CSnappy inc => (4294967295 <= Z.of_nat (length body))%Z \/ ((2 <= ver)%N /\ inc = false)
  | CZlib l => (ver < 3)%N \/ zlib_enc k (if (l =? 0)%Z then (-1)%Z else l) body = None
  | CZstd _ => True
  end.
