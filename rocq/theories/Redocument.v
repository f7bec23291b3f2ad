(** DecompressDocument and hasSameBuffer: decode.go 1320-1377. *)
From Verif Require Import Base Varint Tags Codecs Compress Header GoSlice.

(** Where the libraries put their output.  snappy.Decode(d, src) uses d when the output is
    no longer than d, and otherwise allocates exactly the length of the output; for an empty
    output and a nil d that is the nil slice.  zlibDecode (zlib_purego.go 49-64) always
    allocates, with a capacity of at least 512 (bytes.Buffer).  zstd.Decompress uses the
    capacity of d or allocates, at its own choice ([zstd_in_place d cap]). *)
Record placing := mkPlacing { zstd_in_place : bytes -> nat -> bool; p_grow : nat -> nat }.

Section Redocument.
Variable k : codecs.
Variable p : placing.

(** write [d] to the start of [into], using its capacity *)
Definition put_in (m : arrays) (into : slice) (d : bytes) : slice * arrays :=
  (mkSlice (sl_arr into) (sl_off into) (length d) (sl_cap into),
   upd m (sl_arr into) (overwrite (array m (sl_arr into)) (sl_off into) d)).

(** decomp.decompress(into, z) with a destination: snappy.go 38-57, zlib.go 46-69,
    zstd.go 44-58.  The destination's contents after an error are not modelled. *)
Definition decompress_into (dk : decompressor) (m : arrays) (into : slice) (z : bytes)
  : res (slice * arrays) :=
  bind (decompress k dk z) (fun d =>
    Ok match dk with
       | DSnappy _ => if Nat.leb (length d) (sl_len into) then put_in m into d
                      else make_with m d (length d)
       | DZlib => make_with m d (Nat.max 512 (p_grow p (length d)))
       | DZstd => if Nat.leb (length d) (sl_cap into) && zstd_in_place p d (sl_cap into)
                  then put_in m into d else make_with m d (length d)
       end).

(** hasSameBuffer, decode.go 1371-1377; aExt[aCap-1] panics when the capacity is 0 *)
Definition hasSameBuffer (a b : slice) : res bool :=
  if Nat.eqb (sl_cap a) 0 || Nat.eqb (sl_cap b) 0 then Crash
  else Ok (Nat.eqb (sl_arr a) (sl_arr b) &&
           Nat.eqb (sl_off a + sl_cap a - 1) (sl_off b + sl_cap b - 1)).

(** dst[4] &= 0x0f, decode.go 1362 *)
Definition clear_type (m : arrays) (s : slice) : res arrays :=
  if Nat.ltb 4 (sl_len s) then
    let a := array m (sl_arr s) in
    Ok (upd m (sl_arr s) (upd a (sl_off s + 4) (n2b (N.land (b2n (nth (sl_off s + 4) a x00)) 15))))
  else Crash.

(** DecompressDocument, decode.go 1323-1369.  The document [b] is not part of the arrays:
    dst and b do not overlap.  (dst != nil holds whenever len(dst) >= len(b).) *)
Definition DecompressDocument (m : arrays) (dst : slice) (b : bytes) : res (slice * arrays) :=
  bind (checkHeader b) (fun h =>
  bind (documentDecompressor (h_version h) (h_doctype h)) (fun dec =>
  let bodyStart := wrap64 (Z.of_nat headerSize + h_suffixSize h) in
  if ((Z.of_nat (length b) <? bodyStart) || (bodyStart <? 0))%Z then Err EBadOffset else
  let bs := Z.to_nat bodyStart in
  match dec with
  | None => Ok (append_slice (p_grow p) m (mkSlice (sl_arr dst) (sl_off dst) 0 (sl_cap dst)) b)
  | Some dk =>
      match (if Nat.leb (length b) (sl_len dst) then reslice dst bs (sl_len dst) else Some nil_slice),
            slice_from b bs with
      | Some into, Some z =>
          bind (decompress_into dk m into z) (fun '(body, m) =>
          bind (if Nat.ltb 0 (sl_len dst) then hasSameBuffer body dst else Ok false) (fun same =>
          bind (if same then
                  match reslice dst 0 bs, reslice dst 0 (bs + sl_len body) with
                  | Some pre, Some out => Ok (out, copy_into m pre (firstn bs b))
                  | _, _ => Crash
                  end
                else
                  let '(s, m) := make_with m [] (bs + sl_len body) in
                  let '(s, m) := append_slice (p_grow p) m s (firstn bs b) in
                  Ok (append_slice (p_grow p) m s (contents m body)))
               (fun '(out, m) =>
          bind (clear_type m out) (fun m => Ok (out, m)))))
      | _, _ => Crash
      end
  end)).
End Redocument.
