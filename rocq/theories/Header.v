(** Document headers: decode.go 14-74 and 114-169. *)
From Verif Require Import Base Varint Tags Codecs Compress.

(** serealHeader, decode.go 14-20 (suffixFlags is read later) *)
Record serealHeader := mkHeader {
  h_doctype : N; h_version : N; h_suffixStart : nat; h_suffixSize : Z
}.

(** binary.LittleEndian.Uint32(b[:4]) *)
Definition le32 (b : bytes) : N :=
  match b with
  | b0 :: b1 :: b2 :: b3 :: _ =>
      (b2n b0 + 256 * b2n b1 + 65536 * b2n b2 + 16777216 * b2n b3)%N
  | _ => 0%N
  end.

(** readHeader, decode.go 22-63.  suffixSize = ln + sz is Go int arithmetic. *)
Definition readHeader (b : bytes) : res serealHeader :=
  if Nat.leb (length b) headerSize then Err EBadHeader else
  let first4 := le32 b in
  let b4 := b2n (nth 4 b x00) in
  let doctype := N.shiftr b4 4 in
  let version := N.land b4 15 in
  let rest :=
    match varintdecode (skipn 5 b) with
    | VBad _ => Err EBadVarint
    | VOk ln sz => Ok (mkHeader doctype version (headerSize + sz) (wrap64 (ln + Z.of_nat sz)))
    end in
  if (first4 =? magicHeaderBytes)%N then
    if ((1 <=? version) && (version <=? 2))%N then rest else Err EBadHeader
  else if (first4 =? magicHeaderBytesHighBit)%N then
    if (3 <=? version)%N then rest else Err EBadHeader
  else if (first4 =? magicHeaderBytesHighBitUTF8)%N then Err EBadHeaderUTF8
  else Err EBadHeader.

(** LooksLikeSereal, decode.go 66-74 *)
Definition LooksLikeSereal (b : bytes) : bool :=
  if Nat.ltb (length b) 7 then false
  else match readHeader b with Ok _ => true | _ => false end.

(** checkHeader, decode.go 114-134 *)
Definition checkHeader (b : bytes) : res serealHeader :=
  bind (readHeader b) (fun h =>
    if ((1 <=? h_version h) && (h_version h <=? 4))%N then Ok h
    else Err (EVersion (h_version h))).

(** documentDecompressor, decode.go 136-169 (None: not compressed) *)
Definition documentDecompressor (version doctype : N) : res (option decompressor) :=
  if (doctype =? serealRaw)%N then Ok None
  else if (doctype =? serealSnappy)%N then
    if (version =? 1)%N then Ok (Some (DSnappy false)) else Err EBadSnappy
  else if (doctype =? serealSnappyIncremental)%N then Ok (Some (DSnappy true))
  else if (doctype =? serealZlib)%N then
    if (version <? 3)%N then Err EBadZlibV3 else Ok (Some DZlib)
  else if (doctype =? serealZstd)%N then
    if (version <? 4)%N then Err EBadZstdV4 else Ok (Some DZstd)
  else Err (EDocType doctype).
