(** C17, C18: DecompressDocument.

    [DecompressDocument k p m dst b] (Redocument.v) runs in a memory [m] of byte arrays, with
    a destination slice [dst] lying in it ([slice_ok], GoSlice.v), and returns a slice and the
    memory; [contents m' out] are the bytes of that slice.  [p]: choices left to the run-time
    and to the zstd library.  [starts b ver typ ln n rest]: magic, version, type, and a header
    suffix of [n] bytes (SpecHeader.v).  Documents announcing a header of 2^63 bytes or more
    are left out. *)
From Verif Require Import Base SpecVarint Tags GoMem Codecs Compress Header Decode Document Spec SpecDoc
  SpecHeader SpecObserve DecodeSpec DocFacts Roundtrip HeaderFacts ApiFacts HeaderRound GoSlice Redocument RedocFacts RedocProps Cases.

(** C17.  The type is in byte 4, and clearing it changes what a COPY of that byte stands for:
    in a header, and in a version 1 body. *)
Definition header_copies_type : bytes := [x3d;x73;x72;x6c;x11;x03;x01;x2f;x04;xaa;x25].
Definition body_copies_type : bytes := [x3d;x73;x72;x6c;x11;x00;xaa;x2f;x04].
Definition p0 : placing := mkPlacing (fun _ _ => false) (fun n => n).

Theorem C17_decompress_document_refuted :
  ~ (forall k c p m dst b out m', slice_ok m dst -> DecompressDocument k p m dst b = Ok (out, m') ->
       same_outcome (unmarshal_header_fresh k c b) (unmarshal_header_fresh k c (contents m' out))) /\
  ~ (forall k c p m dst b out m', slice_ok m dst -> DecompressDocument k p m dst b = Ok (out, m') ->
       same_outcome (unmarshal_fresh k c b) (unmarshal_fresh k c (contents m' out))).
Proof.
  split; intros H.
  - specialize (H k0 c0 p0 [] nil_slice header_copies_type). specialize (H _ _ ltac:(split; cbn; auto) eq_refl 1).
    vm_compute in H. discriminate.
  - specialize (H k0 c0 p0 [] nil_slice body_copies_type). specialize (H _ _ ltac:(split; cbn; auto) eq_refl 1).
    vm_compute in H. discriminate.
Qed.
Print Assumptions C17_decompress_document_refuted.

(** The result has the same magic, version and header bytes and is marked raw; a raw document
    is returned byte for byte. *)
Theorem C17_same_start : forall k p m dst b ver typ ln n rest out m',
  slice_ok m dst -> starts b ver typ ln n rest -> (Z.of_N n < two63)%Z ->
  DecompressDocument k p m dst b = Ok (out, m') ->
  (typ = 0%N -> contents m' out = b) /\
  exists rest', starts (contents m' out) ver 0 ln n rest' /\
    N.to_nat n <= length rest /\ firstn (N.to_nat n) rest' = firstn (N.to_nat n) rest.
Proof. intros k. exact (redoc_shape k c0). Qed.
Print Assumptions C17_same_start.

(** Applying it to its result gives the result again, whatever the second destination. *)
Theorem C17_idempotent : forall k p m dst b ver typ ln n rest out m',
  slice_ok m dst -> starts b ver typ ln n rest -> (Z.of_N n < two63)%Z ->
  DecompressDocument k p m dst b = Ok (out, m') ->
  forall m2 dst2, slice_ok m2 dst2 ->
  exists out2 m2', DecompressDocument k p m2 dst2 (contents m' out) = Ok (out2, m2') /\
    contents m2' out2 = contents m' out.
Proof. intros k. exact (redoc_twice k c0). Qed.
Print Assumptions C17_idempotent.

(** Every document that Unmarshal accepts can be decompressed, into any destination. *)
Theorem C17_accepted : forall k c p m dst b ver typ ln n rest h v,
  slice_ok m dst -> starts b ver typ ln n rest -> (Z.of_N n < two63)%Z ->
  unmarshal_fresh k c b = Ok (h, v) ->
  exists out m', DecompressDocument k p m dst b = Ok (out, m').
Proof. exact redoc_accepted. Qed.
Print Assumptions C17_accepted.

(** Bodies: except in version 1, the same value or the same error is read from the result,
    whatever the bytes.  (The original is in cell 0 of the memory, the result in cell 3.) *)
Theorem C17_same_body_partial : forall k c p m dst b ver typ ln n rest out m',
  slice_ok m dst -> starts b ver typ ln n rest -> (Z.of_N n < two63)%Z ->
  DecompressDocument k p m dst b = Ok (out, m') -> typ <> 0%N -> ver <> 1%N ->
  same_outcome (unmarshal_fresh k c b)
    (unmarshal_at k c [CBuf b; CV GNil; CV GNil; CBuf (contents m' out)] (contents m' out) 3 2).
Proof. exact redoc_body. Qed.
Print Assumptions C17_same_body_partial.

(** Documents following the specification, of every version: the result describes the same
    data, and both are read as that data. *)
Theorem C17_same_data_partial : forall k c p m dst b ver typ suffix d body e out m',
  slice_ok m dst -> document (go_reader c) k b ver typ suffix d body e ->
  DecompressDocument k p m dst b = Ok (out, m') ->
  document (go_reader c) k (contents m' out) ver 0 suffix d body e /\
  reads k c b d /\ reads k c (contents m' out) d.
Proof.
  intros k c p m dst b ver typ suffix d body e out m' Hd D E.
  pose proof (redoc_described k c p m dst b ver typ suffix d body e out m' Hd D E) as D2.
  split; [exact D2|]. split; eapply document_reads; eassumption.
Qed.
Print Assumptions C17_same_data_partial.

(** Headers (a flag byte [fl] with bit 0 set, then an item) that follow the specification and
    refer back to nothing before byte 5. *)
Theorem C17_same_header_partial : forall k c p m dst b ver typ ln fl tail y d e out m',
  slice_ok m dst -> starts b ver typ ln (N.of_nat (S (length tail))) (fl :: tail ++ y) ->
  N.odd (b2n fl) = true -> (N.of_nat (length b) <= 281474976710656)%N ->
  item (go_dialect c 5) (firstn (5 + length ln + S (length tail)) b) CAny (5 + length ln + 1) d e ->
  DecompressDocument k p m dst b = Ok (out, m') ->
  reads_header k c b d /\ reads_header k c (contents m' out) d.
Proof. exact redoc_header. Qed.
Print Assumptions C17_same_header_partial.

(** A version 3 zlib document with a header, into destinations that are missing, too short,
    long enough, and with spare capacity. *)
Definition packed_doc : bytes :=
  [x3d;xf3;x72;x6c;x33;x02;x01;x07; x04;x05;x78;x2b;x02;x05;x06].
Definition unpacked_doc : bytes :=
  [x3d;xf3;x72;x6c;x03;x02;x01;x07; x2b;x02;x05;x06].
Definition mem0 : arrays := [repeat xff 40].
Definition destinations : list slice :=
  [nil_slice; mkSlice 0 0 3 3; mkSlice 0 2 20 30; mkSlice 0 2 15 15; mkSlice 0 0 4 40].
Definition result_bytes (r : res (slice * arrays)) : option bytes :=
  match r with Ok (s, m) => Some (contents m s) | _ => None end.
Lemma tag_here by_ q b : nth_error by_ q = Some b -> (b2n b < 128)%N -> b2n b <> 63%N -> tag_at by_ q q (b2n b).
Proof.
  intros H L N. split; [lia|]. split; [intros i Hi; lia|]. exists b. split; [exact H|].
  rewrite N.mod_small by lia. auto.
Qed.
Example C17_case :
  (forall dst, In dst destinations ->
     slice_ok mem0 dst /\ result_bytes (DecompressDocument k0 p0 mem0 dst packed_doc) = Some unpacked_doc) /\
  starts packed_doc 3 3 [x02] 2 (skipn 6 packed_doc) /\
  (exists h v, unmarshal_fresh k0 c0 packed_doc = Ok (h, v) /\
     observe 2 h v = OSlice [OInt KInt false 5; OInt KInt false 6]) /\
  document (go_reader c0) k0 packed_doc 3 3 [x01; x07] (DArr [DInt 5; DInt 6]) [x2b; x02; x05; x06] 4 /\
  item (go_dialect c0 5) (firstn 8 packed_doc) CAny 7 (DInt 7) 8.
Proof.
  split; [|split; [|split; [|split]]].
  - intros dst [<-|[<-|[<-|[<-|[<-|[]]]]]]; (split; [split; cbn; lia|vm_compute; reflexivity]).
  - split; [lia|]. split; [lia|]. exists x33. repeat split; try (vm_compute; reflexivity).
    + apply (vg_last x02). reflexivity.
    + cbn. lia.
  - eexists _, _. split; vm_compute; reflexivity.
  - exists [x3d;xf3;x72;x6c;x33;x02;x01;x07], [x04;x05;x78;x2b;x02;x05;x06].
    split; [reflexivity|]. split.
    { split; [lia|]. split; [lia|]. exists x33, [x02]. repeat split; [apply (vg_last x02); reflexivity|cbn; lia]. }
    split.
    { apply (pk_zlib k0 _ 3 [x04] [x05;x78;x2b;x02;x05;x06] [x78;x2b;x02;x05;x06] []); try reflexivity.
      - apply (vg_last x04). reflexivity.
      - cbn [length]. lia.
      - exists [x05]. split; [reflexivity|]. split; [apply (vg_last x05); reflexivity|]. cbn. lia. }
    split; [cbn; lia|]. split; [cbn; lia|].
    cbn [body_item]. change (3 =? 1)%N with false. cbv iota.
    apply i_array with (q := 1) (n := 2%N) (r := 3).
    + apply (tag_here _ 1 x2b); [reflexivity|cbn; lia|cbn; lia].
    + exists [x02]. split; [exists [x00; x2b], [x05; x06]; auto|]. split; [apply (vg_last x02); reflexivity|].
      cbn. lia.
    + cbn. lia.
    + reflexivity.
    + eapply is_cons; [apply (i_pos _ _ _ 3 3 (b2n x05)); [apply tag_here; [reflexivity|cbn; lia|cbn; lia]|cbn; lia]|].
      eapply is_cons; [apply (i_pos _ _ _ 4 4 (b2n x06)); [apply tag_here; [reflexivity|cbn; lia|cbn; lia]|cbn; lia]|].
      constructor.
  - apply (i_pos _ _ CAny 7 7 (b2n x07)); [apply tag_here; [reflexivity|cbn; lia|cbn; lia]|cbn; lia].
Qed.

(** C18.  A Snappy document with an empty body and a destination of length 1: the code looks
    at the last element of the empty body's capacity. *)
Definition empty_body_doc : bytes := [x3d;xf3;x72;x6c;x23;x00;x01;xaa].
Theorem C18_no_crash_refuted :
  ~ (forall k p m dst b, slice_ok m dst -> DecompressDocument k p m dst b <> Crash).
Proof.
  intros H. apply (H k0 p0 mem0 (mkSlice 0 0 1 1) empty_body_doc); [split; cbn; lia|vm_compute; reflexivity].
Qed.
Print Assumptions C18_no_crash_refuted.

(** Apart from this, from documents announcing a header of 2^63 bytes or more, and from zlib
    bodies announcing more than 2^48 bytes, every call returns a document or an error. *)
Theorem C18_no_crash_partial : forall k p m dst b, slice_ok m dst ->
  (forall ver typ ln n rest, starts b ver typ ln n rest -> (Z.of_N n < two63)%Z /\
     (typ = 3%N -> zlib_modest (skipn (5 + length ln + N.to_nat n) b)) /\
     (sl_len dst = 0 \/ forall dk, documentDecompressor ver typ = Ok (Some dk) ->
        decompress k dk (skipn (5 + length ln + N.to_nat n) b) <> Ok [])) ->
  (exists out m', DecompressDocument k p m dst b = Ok (out, m')) \/
  exists e, DecompressDocument k p m dst b = Err e.
Proof.
  intros k p m dst b Hd H. apply (redoc_total k c0 p m dst b Hd).
  intros ver typ ln n rest S. destruct (H _ _ _ _ _ S) as (Hn & Hz & [E|E]); (split; [exact Hn|]; split; [exact Hz|]).
  - auto.
  - intros dk D X. now apply E in X.
Qed.
Print Assumptions C18_no_crash_partial.

(** No document at all, a cut-off document, and the empty body with no destination. *)
Example C18_case :
  slice_ok mem0 (mkSlice 0 0 1 1) /\
  DecompressDocument k0 p0 mem0 (mkSlice 0 0 1 1) [x3d; xf3] = Err EBadHeader /\
  DecompressDocument k0 p0 mem0 (mkSlice 0 0 1 1) (firstn 10 packed_doc) = Err EBadOffset /\
  result_bytes (DecompressDocument k0 p0 mem0 nil_slice empty_body_doc) = Some [x3d;xf3;x72;x6c;x03;x00].
Proof. split; [split; cbn; lia|]. repeat split; vm_compute; reflexivity. Qed.
