(** The compression wrappers: snappy.go, zlib.go, zlib_purego.go, zstd.go. *)
From Verif Require Import Base Varint Codecs Encode.

Section Compress.
Variable k : codecs.

(** SnappyCompressor.compress, snappy.go 14-36 *)
Definition snappy_compress (incremental : bool) (b : bytes) : res bytes :=
  if (maxUint32 <=? Z.of_nat (length b))%Z then Err ETooLarge
  else let z := snappy_enc k b in
       Ok (if incremental then varint (ulen z) ++ z else z).

(** ZlibCompressor.compress, zlib.go 20-44; zlibEncode, zlib_purego.go 25-47 *)
Definition zlib_compress (level : Z) (b : bytes) : res bytes :=
  let level := if (level =? 0)%Z then (-1)%Z else level in
  match zlib_enc k level b with
  | None => Err ECodec
  | Some tail => Ok (varint (ulen b) ++ varint (ulen tail) ++ tail)
  end.

(** ZstdCompressor.compress, zstd.go 19-42 *)
Definition zstd_compress (level : Z) (b : bytes) : res bytes :=
  let level := if (level =? 0)%Z then 3%Z else level in
  match zstd_enc k level b with
  | None => Err ECodec
  | Some tail => Ok (varint (ulen tail) ++ tail)
  end.

Definition compress (c : compressor) (b : bytes) : res bytes :=
  match c with
  | CSnappy inc => snappy_compress inc b
  | CZlib l => zlib_compress l b
  | CZstd l => zstd_compress l b
  end.

(** The common step "ln, sz := varintdecode(b); check; b = b[sz:sz+ln]":
    snappy.go 40-48, zlib.go 54-64, zstd.go 46-55. *)
Definition framed (b : bytes) : res bytes :=
  match varintdecode b with
  | VBad _ => Err EBadVarint
  | VOk ln sz =>
      if ((ln <? 0) || (maxInt32 <? ln) || (Z.of_nat (length b) <? Z.of_nat sz + ln))%Z
      then Err EBadOffset
      else match slice_range b sz (sz + Z.to_nat ln) with
           | Some s => Ok s
           | None => Crash
           end
  end.

Definition lib (r : option bytes) : res bytes :=
  match r with Some b => Ok b | None => Err ECodec end.

(** SnappyCompressor.decompress, snappy.go 38-57 (ignoring the destination hint) *)
Definition snappy_decompress (incremental : bool) (b : bytes) : res bytes :=
  if incremental then bind (framed b) (fun b => lib (snappy_dec k b))
  else lib (snappy_dec k b).

(** zlibDecode, zlib_purego.go 49-64.  make([]byte, 0, uln) panics with a runtime error
    when uln is negative or beyond the address space (2^48 on amd64). *)
Definition zlibDecode (uln : Z) (b : bytes) : res bytes :=
  if negb (zlib_open k b) then Err ECodec
  else if ((uln <? 0) || (281474976710656 <? uln))%Z then Crash
  else lib (zlib_dec k b).

(** ZlibCompressor.decompress, zlib.go 46-69 *)
Definition zlib_decompress (b : bytes) : res bytes :=
  match varintdecode b with
  | VBad _ => Err EBadVarint
  | VOk uln usz =>
      match slice_from b usz with
      | None => Crash
      | Some b => bind (framed b) (zlibDecode uln)
      end
  end.

(** ZstdCompressor.decompress, zstd.go 44-58 *)
Definition zstd_decompress (b : bytes) : res bytes :=
  bind (framed b) (fun b => lib (zstd_dec k b)).

(** a decompressor chosen by documentDecompressor *)
Inductive decompressor := DSnappy (incremental : bool) | DZlib | DZstd.

Definition decompress (d : decompressor) (b : bytes) : res bytes :=
  match d with
  | DSnappy inc => snappy_decompress inc b
  | DZlib => zlib_decompress b
  | DZstd => zstd_decompress b
  end.
End Compress.
