(** The compression libraries the code calls (not part of the model: outside world). *)
From Verif Require Import Base.

(** The compression libraries, as arbitrary functions.
    [zlib_open]: does zlib.NewReader accept the stream header;
    [zlib_dec]: all bytes read from the stream; None stands for the library's error.
    [zstd_*]: None for every input in a pure-Go build (zstd_purego.go). *)
Record codecs := mkCodecs {
  snappy_enc : bytes -> bytes;
  snappy_dec : bytes -> option bytes;
  zlib_enc : Z -> bytes -> option bytes;
  zlib_open : bytes -> bool;
  zlib_dec : bytes -> option bytes;
  zstd_enc : Z -> bytes -> option bytes;
  zstd_dec : bytes -> option bytes
}.

(** decompression undoes compression *)
Definition lossless (k : codecs) : Prop :=
  (forall b, snappy_dec k (snappy_enc k b) = Some b) /\
  (forall l b z, zlib_enc k l b = Some z -> zlib_open k z = true /\ zlib_dec k z = Some b) /\
  (forall l b z, zstd_enc k l b = Some z -> zstd_dec k z = Some b).
