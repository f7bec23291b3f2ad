(** Independent specification of whole documents (sereal_spec.pod, sections "HEADER
    FORMAT" and "ENCODING TYPES").  Nothing here refers to the encoder or decoder. *)
From Verif Require Import Base SpecVarint GoMem Spec Codecs.

(** "=srl" for versions 1 and 2, "=\xF3rl" from version 3 on *)
Definition magic (ver : N) : bytes :=
  if (ver <? 3)%N then [x3d; x73; x72; x6c] else [x3d; xf3; x72; x6c].

(** everything before the body: magic, version and type, length of the suffix, suffix *)
Definition preamble (ver typ : N) (suffix pre : bytes) : Prop :=
  (1 <= ver <= 4)%N /\ (typ < 16)%N /\
  exists vt len, pre = magic ver ++ [vt] ++ len ++ suffix /\
    b2n vt = (ver + 16 * typ)%N /\
    vgroups len (N.of_nat (length suffix)) /\ length len <= 10.

(** a length and that many bytes, at most [lim]; [rest] follows *)
Definition counted (lim : N) (packed z rest : bytes) : Prop :=
  exists len, packed = len ++ z ++ rest /\ vgroups len (N.of_nat (length z)) /\
    length len <= 10 /\ (N.of_nat (length z) <= lim)%N.

(** how a body is packed; [lim] bounds the length of compressed data *)
Inductive packing (k : codecs) (lim ver : N) : N -> bytes -> bytes -> Prop :=
| pk_raw body : packing k lim ver 0 body body
| pk_snappy z body : ver = 1%N -> snappy_dec k z = Some body -> packing k lim ver 1 z body
| pk_snappy_inc packed z rest body : counted lim packed z rest ->
    snappy_dec k z = Some body -> packing k lim ver 2 packed body
| pk_zlib ulen packed z rest body : (3 <= ver)%N ->
    vgroups ulen (N.of_nat (length body)) -> length ulen <= 10 ->
    counted lim packed z rest -> zlib_open k z = true -> zlib_dec k z = Some body ->
    packing k lim ver 3 (ulen ++ packed) body
| pk_zstd packed z rest body : (4 <= ver)%N -> counted lim packed z rest ->
    zstd_dec k z = Some body -> packing k lim ver 4 packed body.

(** The body is one item; [g start] is the dialect whose smallest back reference is
    [start].  In version 1 offsets count from the start of the document, in later
    versions from 1 at the first byte of the body.  [m]: where COPY tags may occur. *)
Definition body_item (m : cmode) (g : nat -> dialect) (ver : N) (pre body : bytes) (d : data)
  (e : nat) : Prop :=
  if (ver =? 1)%N
  then item (g (length pre)) (pre ++ body) m (length pre) d (length pre + e)
  else item (g 1) (x00 :: body) m 1 d (1 + e).

(** What an implementation can read: its dialect, the longest compressed data, and the
    largest memory object. *)
Record reader := mkReader { r_dialect : nat -> dialect; r_packed : N; r_memory : N }.

(** [document_in m rd k b ver typ suffix d body e]: [b] is a document of this version and
    type, with this header suffix, whose body unpacks to [body]; the first [e] bytes of it
    are an item describing [d], with COPY tags only where [m] allows them. *)
Definition document_in (m : cmode) (rd : reader) (k : codecs) (b : bytes) (ver typ : N)
  (suffix : bytes) (d : data) (body : bytes) (e : nat) : Prop :=
  exists pre packed, b = pre ++ packed /\ preamble ver typ suffix pre /\
    packing k (r_packed rd) ver typ packed body /\
    (N.of_nat (length b) <= r_memory rd)%N /\
    (N.of_nat (length pre + length body) <= r_memory rd)%N /\
    body_item m (r_dialect rd) ver pre body d e.
Definition document := document_in CAny.

(** the published format: every 64-bit length *)
Definition standard : reader :=
  mkReader published 18446744073709551615 18446744073709551615.
