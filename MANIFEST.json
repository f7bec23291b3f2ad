{
 "claims": [
  {
   "property": "C01",
   "status": "proved",
   "theorems": [
    "C01_varint_roundtrip"
   ],
   "note": ""
  },
  {
   "property": "C02",
   "status": "proved",
   "theorems": [
    "C02_varint_bounded"
   ],
   "note": ""
  },
  {
   "property": "C03",
   "status": "proved",
   "theorems": [
    "C03_integers"
   ],
   "note": ""
  },
  {
   "property": "C04",
   "status": "partial",
   "theorems": [
    "C04_named_integers_refuted",
    "C04_named_integers_partial"
   ],
   "note": "False as stated: negative named int8/16/32/64 values come back as large uints and named unsigned values are refused. Proved for named int and for non-negative named signed kinds."
  },
  {
   "property": "C05",
   "status": "proved",
   "theorems": [
    "C05_roundtrip"
   ],
   "note": "Trees whose strings and containers have fewer than 2^31 elements and whose document has at most 2^48 bytes (the decoder's own limits)."
  },
  {
   "property": "C06",
   "status": "proved",
   "theorems": [
    "C06_published_format"
   ],
   "note": "For documents shorter than 2^63-1 bytes."
  },
  {
   "property": "C07",
   "status": "partial",
   "theorems": [
    "C07_reads_published_refuted",
    "C07_reads_published_partial"
   ],
   "note": "False as stated: nested COPY, even zigzag numbers, frozen objects in Perl mode. Proved for every other document within the decoder's length limits."
  },
  {
   "property": "C08",
   "status": "partial",
   "theorems": [
    "C08_no_crash_refuted",
    "C08_no_crash_partial"
   ],
   "note": "False of the code for three families of documents (suffix length wrapping bodyStart to 0, a padded zero suffix length when the header is asked for, a zlib length above 2^48); proved for all other byte strings, any Decoder state and any codecs. Go stack exhaustion by deep nesting is not modelled."
  },
  {
   "property": "C09",
   "status": "proved",
   "theorems": [
    "C09_recursion_depth"
   ],
   "note": "Depth bound 2n+4 for n bytes decoded."
  },
  {
   "property": "C10",
   "status": "proved",
   "theorems": [
    "C10_truncation",
    "C10_exact"
   ],
   "note": "Every document type except plain Snappy of version 1, where the cut is seen by the Snappy library only."
  },
  {
   "property": "C11",
   "status": "proved",
   "theorems": [
    "C11_trailing_bytes"
   ],
   "note": "Every document type except plain Snappy of version 1, whose compressed block has no length of its own."
  },
  {
   "property": "C12",
   "status": "partial",
   "theorems": [
    "C12_header_independent_refuted",
    "C12_header_independent_partial"
   ],
   "note": "Fails only when a zero suffix length is written in more than one byte."
  },
  {
   "property": "C13",
   "status": "partial",
   "theorems": [
    "C13_header_roundtrip_refuted",
    "C13_header_roundtrip_partial"
   ],
   "note": "COPY offsets in the header are relative to the suffix when written and to the document when read; proved for headers written without COPY tags."
  },
  {
   "property": "C14",
   "status": "proved",
   "theorems": [
    "C14_header_check"
   ],
   "note": ""
  },
  {
   "property": "C15",
   "status": "proved",
   "theorems": [
    "C15_compression_transparent"
   ],
   "note": "Compressed document at most 2^31-1 bytes, plain one at most 2^48."
  },
  {
   "property": "C16",
   "status": "partial",
   "theorems": [
    "C16_compressed_readable_refuted",
    "C16_compressed_readable_partial"
   ],
   "note": "False as stated: protocol 1 with incremental Snappy. Proved for every other combination."
  },
  {
   "property": "C17",
   "status": "partial",
   "theorems": [
    "C17_decompress_document_refuted",
    "C17_same_start",
    "C17_idempotent",
    "C17_accepted",
    "C17_same_body_partial",
    "C17_same_data_partial",
    "C17_same_header_partial"
   ],
   "note": "False for a COPY of the version/type byte (offset 4) in a header or in a version 1 body, since that byte is changed. Otherwise proved for every destination not overlapping the document: same start, raw documents unchanged, idempotent, accepted documents are decompressed, same body for arbitrary bytes except version 1, same data for described documents of every version, same header for described headers that do not refer to bytes 0-4."
  },
  {
   "property": "C18",
   "status": "partial",
   "theorems": [
    "C18_no_crash_refuted",
    "C18_no_crash_partial"
   ],
   "note": "False for an empty decompressed body and a short non-empty destination (hasSameBuffer indexes -1); proved otherwise, leaving out header lengths of 2^63 or more and zlib bodies announcing more than 2^48 bytes."
  },
  {
   "property": "C19",
   "status": "proved",
   "theorems": [
    "C19_limit_exact"
   ],
   "note": ""
  },
  {
   "property": "C20",
   "status": "proved",
   "theorems": [
    "C20_marshal_terminates"
   ],
   "note": "Also for the default limit."
  },
  {
   "property": "C21",
   "status": "proved",
   "theorems": [
    "C21_looks_like_sereal"
   ],
   "note": "Assumes the compression libraries are lossless and Snappy rejects the empty string."
  },
  {
   "property": "C22",
   "status": "partial",
   "theorems": [
    "C22_references",
    "C22_no_conflation_refuted",
    "C22_first_field_refuted",
    "C22_no_conflation_partial"
   ],
   "note": "False as stated: s and s[:1] start at the same address, so pointers to them are written as the same item (C22_no_conflation_refuted); a struct is at the address of its first field, so a pointer to the field is written as one to the struct (C22_first_field_refuted). C22_references: exactly which item each reference refers to, for every value without cycles. C22_no_conflation_partial: whenever each recorded address stands for one value, values written alike stand for the same data up to references. Cyclic values: C54."
  },
  {
   "property": "C23",
   "status": "partial",
   "theorems": [
    "C23_shared_pointers_refuted",
    "C23_default_mode_refuted",
    "C23_shared_pointers_partial",
    "C23_any_options_partial"
   ],
   "note": "False for pointers to nil occurring twice (unreadable) and, without DisableReferentialIntegrity, for the types of the occurrences. Proved for every other value without cycles and with unambiguous addresses. Cyclic values: C54."
  },
  {
   "property": "C24",
   "status": "partial",
   "theorems": [
    "C24_reuse_refuted",
    "C24_reuse_partial"
   ],
   "note": "A reflect panic inside a COPY leaves copyDepth at 1; proved for histories without recovered panics."
  },
  {
   "property": "C25",
   "status": "partial",
   "theorems": [
    "C25_no_alias_refuted",
    "C25_no_alias_partial"
   ],
   "note": "PerlRegexp values of uncompressed documents alias the input."
  },
  {
   "property": "C26",
   "status": "proved",
   "theorems": [
    "C26_allocation"
   ],
   "note": "Containers and strings of the body. The zlib reader's buffer is sized by the announced length instead (see C08_no_crash_refuted)."
  },
  {
   "property": "C27",
   "status": "partial",
   "theorems": [
    "C27_merge_decodes_partial",
    "C27_merge_decodes_refuted"
   ],
   "note": "The full statement is refuted: COPY tags for whole items, padding before shared strings and version 1 documents are merged into documents that do not decode or decode to other data. Proved for documents whose COPY tags stand for keys, class names and regexp strings only, without DedupeStrings; the result can be merged again."
  },
  {
   "property": "C28",
   "status": "partial",
   "theorems": [
    "C28_merged_count_partial",
    "C28_merged_count_refuted"
   ],
   "note": "Refuted for totals of 2^35 and more, which do not fit the five reserved bytes; proved for every history with a smaller total."
  },
  {
   "property": "C29",
   "status": "partial",
   "theorems": [
    "C29_finish_final_partial",
    "C29_finish_final_refuted"
   ],
   "note": "Refuted when the first Finish fails: the second returns a document and no error. Proved after a Finish that succeeded."
  },
  {
   "property": "C30",
   "status": "partial",
   "theorems": [
    "C30_failed_append_partial",
    "C30_failed_append_refuted"
   ],
   "note": "Refuted: strings and class names of a rejected document stay registered and later documents refer to them. Proved for all rejected bytes, compressed or not, in which no tags of hashes, objects with class names, REFP or ALIAS are read before the error (SpecCut.v), without compression in Finish."
  },
  {
   "property": "C31",
   "status": "partial",
   "theorems": [
    "C31_appended_only_partial",
    "C31_appended_only_refuted"
   ],
   "note": "Refuted: the track flag is set five bytes before the target, in the header, the count or another document. Proved for all bytes in which no REFP and ALIAS tags are read (SpecCut.v); C27 covers COPY, OBJECTV and OBJECTV_FREEZE."
  },
  {
   "property": "C32",
   "status": "partial",
   "theorems": [
    "C32_finish_compressed_partial",
    "C32_compressed_merge_partial",
    "C32_finish_compressed_refuted"
   ],
   "note": "Refuted: compressor output longer than its input is cut off, or Finish panics. Proved when it is not longer, and for Snappy."
  },
  {
   "property": "C33",
   "status": "partial",
   "theorems": [
    "C33_append_safe_partial",
    "C33_append_safe_refuted",
    "C33_after_failure_refuted"
   ],
   "note": "Refuted: panics, and bytes beyond the slice end up in the merged document; and after a failed Append, a panic on a well-formed document. Proved for all bytes, compressed or not, clear of four listed hazards (SpecCut.v: the body begins beyond the end; a zlib body announces more than 2^48 bytes; with KeepFlat a body of less than two bytes; a tag that is met has its number, class name, pattern or flags cut off by the end), after Append calls that succeeded."
  },
  {
   "property": "C34",
   "status": "proved",
   "theorems": [
    "C34_tag_cache_transparent",
    "C34_interleaved"
   ],
   "note": "Every lookup history; also every interleaving of goroutines if each access takes effect atomically."
  },
  {
   "property": "C35",
   "status": "partial",
   "theorems": [
    "C35_concurrent_marshal_refuted",
    "C35_concurrent_marshal_partial"
   ],
   "note": "False: two goroutines marshalling a struct type not seen before race on the cache of the package-level encoder (shown for every type and history). Proved when all struct types used were marshalled before."
  },
  {
   "property": "C36",
   "status": "proved",
   "theorems": [
    "C36_typed_roundtrip",
    "C36_scalar_pointers_refuted"
   ],
   "note": "For the types named in the quantifier. Pointers to scalars, strings or slices are outside: Marshal writes a *int that Unmarshal cannot read into a *int (C36_scalar_pointers_refuted)."
  },
  {
   "property": "C37",
   "status": "partial",
   "theorems": [
    "C37_overflow_reported_refuted",
    "C37_overflow_reported_partial"
   ],
   "note": "False: 300 read into an int8 gives 44 without an error. Proved: numbers that fit are stored, others leave their low bits."
  },
  {
   "property": "C38",
   "status": "partial",
   "theorems": [
    "C38_map_update_refuted",
    "C38_map_update_partial"
   ],
   "note": "False: a key the map already has makes Unmarshal fail, as map elements cannot be set. Proved: new keys are added, existing entries stay."
  },
  {
   "property": "C39",
   "status": "partial",
   "theorems": [
    "C39_zigzag_refuted",
    "C39_zigzag_partial"
   ],
   "note": "False for even numbers, proved for odd ones."
  },
  {
   "property": "C40",
   "status": "proved",
   "theorems": [
    "C40_json_numbers"
   ],
   "note": ""
  },
  {
   "property": "C41",
   "status": "partial",
   "theorems": [
    "C41_frozen_objects_refuted",
    "C41_frozen_objects_partial"
   ],
   "note": "False in Perl-compatible mode, proved in default mode."
  },
  {
   "property": "C42",
   "status": "partial",
   "theorems": [
    "C42_nested_copy_refuted",
    "C07_reads_published_partial"
   ],
   "note": "False as stated. C07_reads_published_partial says which COPY tags are accepted."
  },
  {
   "property": "C43",
   "status": "partial",
   "theorems": [
    "C43_back_references_refuted",
    "C43_back_references_partial"
   ],
   "note": "Refuted in full: in default mode a reference to undef fails. Every document without references to nil is read as described. References to an item from within that item (cycles) are the subject of C53."
  },
  {
   "property": "C44",
   "status": "proved",
   "theorems": [
    "C44_typed_unmarshal"
   ],
   "note": "Default mode; documents whose data fits the type ([into], SpecTyped.v)."
  },
  {
   "property": "C45",
   "status": "proved",
   "theorems": [
    "C45_written_alike"
   ],
   "note": ""
  },
  {
   "property": "C46",
   "status": "partial",
   "theorems": [
    "C46_accepts_documents_refuted",
    "C46_accepts_documents_partial",
    "C46_accepts_headers_partial",
    "C46_any_decoder_partial",
    "C46_typed_partial",
    "C46_typed_memory_partial"
   ],
   "note": "False as stated: the reader accepts, for example, an OBJECTV whose class name comes later. Proved: everything accepted, into untyped and typed variables, has the shape of a document, as lenient as the published format except for the points listed in SpecShape.v. REFP and ALIAS into typed variables are included (C46_typed_memory_partial)."
  },
  {
   "property": "C47",
   "status": "partial",
   "theorems": [
    "C47_rewrite_refuted",
    "C47_rewrite_partial",
    "C47_sharing_partial"
   ],
   "note": "False for frozen objects of unregistered classes: they are read as *PerlFreeze and written as ordinary objects of class PerlFreeze. Proved for every other document without REFP and ALIAS in default mode; with them, for any accepted bytes, when no pointer read leads to another pointer and Marshal succeeds. Perl-compatible mode: C66, C67. Missing: REFP to REFP, regexps and frozen objects by default."
  },
  {
   "property": "C48",
   "status": "partial",
   "theorems": [
    "C48_typed_no_crash_refuted",
    "C48_typed_safe_partial",
    "C48_typed_memory_partial"
   ],
   "note": "False as stated: the two kinds of document that crash Unmarshal into an interface{} (C08) also crash it for every type. Proved for all other byte slices, whatever the type, content and sharing of the variable, including documents with back references and frozen objects: Unmarshal returns nil or an error within 2n+4 nested calls, no over-allocation, no change to what interface{} parts refer to."
  },
  {
   "property": "C49",
   "status": "partial",
   "theorems": [
    "C49_linear_allocation_refuted",
    "C49_quadratic_allocation_partial",
    "C49_accepted_allocation_partial"
   ],
   "note": "False as stated: arrays nested in each other may each claim all the bytes left, so a rejected document of 12n+6 bytes makes Unmarshal ask for n^2 elements (shown for every n up to 2^31-1). Proved instead: at most 20n^2+48n+4 for every call whatever its outcome, and at most 6n+4 for accepted documents without COPY tags. Conversions of text to string are not counted."
  },
  {
   "property": "C50",
   "status": "proved",
   "theorems": [
    "C50_unseen_has_no_influence",
    "C50_hidden_field"
   ],
   "note": "For the same map iteration order, the same addresses of string data and the same user-defined MarshalBinary results."
  },
  {
   "property": "C51",
   "status": "partial",
   "theorems": [
    "C51_append_accepts_refuted",
    "C51_append_accepts_partial",
    "C51_merge_total_partial"
   ],
   "note": "As stated for every document Marshal writes it is false (refuted with a document of two structs of one type, which Append rejects although Unmarshal reads it). Proved for documents laid out as in SpecAccept, without compression of the result; combined with C27 the merged document is shown to exist and to read as all elements. Missing: back references to class names, or to the byte just before the reference, which the program rejects."
  },
  {
   "property": "C52",
   "status": "partial",
   "theorems": [
    "C52_marshal_merge_refuted",
    "C52_marshalled_accepted_partial",
    "C52_marshal_merge_unmarshal_partial"
   ],
   "note": "As stated for all values it is false (refuted: two empty byte slices at one address). Proved for plain values as defined in SpecPlain.v: acceptance with any sharing and cycles, and the whole way round for finite values. Missing: objects and structs with deduplicated class names (C51 shows those are rejected), KeepFlat, DedupeStrings in the round trip."
  },
  {
   "property": "C53",
   "status": "partial",
   "theorems": [
    "C53_cycles_refuted",
    "C53_cycles_partial"
   ],
   "note": "False as stated: by default an object containing a reference to itself cannot be decoded (witness), nor a reference to nil. Proved for every other document, cycles included, in both modes."
  },
  {
   "property": "C54",
   "status": "partial",
   "theorems": [
    "C54_graph_written",
    "C54_round_trip_refuted",
    "C54_round_trip_partial"
   ],
   "note": "C54_graph_written holds for every value, cyclic or not. The round trip is false as stated: by default a ring of structs is written but cannot be read (witness). Proved in the Perl-compatible mode for every value, and in both modes for values made of scalars, slices, maps, frozen objects and pointers to these. Missing by default: cycles through structs and objects, shared pointers to nil, pointers to pointers (C23 covers them without cycles)."
  },
  {
   "property": "C55",
   "status": "proved",
   "theorems": [
    "C55_memory_of_its_own",
    "C55_typed_roundtrip_memory"
   ],
   "note": ""
  },
  {
   "property": "C56",
   "status": "proved",
   "theorems": [
    "C56_only_what_is_within_reach"
   ],
   "note": ""
  },
  {
   "property": "C57",
   "status": "proved",
   "theorems": [
    "C57_typed_graph",
    "C57_struct_ring_refuted"
   ],
   "note": "Not covered: interface{} parts (C53, for interface{} variables), frozen objects, and variables that are not new. C57_struct_ring_refuted shows that the condition on the types of references is needed: a ring of *T is refused for a variable of type T."
  },
  {
   "property": "C58",
   "status": "proved",
   "theorems": [
    "C58_typed_graph_round_trip",
    "C58_map_pointers_refuted"
   ],
   "note": "For typed memories with pointers to structs; the second theorem shows that pointers to maps are excluded for a reason. Beside it C58_case."
  },
  {
   "property": "C59",
   "status": "proved",
   "theorems": [
    "C59_types_are_kept"
   ],
   "note": ""
  },
  {
   "property": "C60",
   "status": "partial",
   "theorems": [
    "C60_behind_unexported_fields",
    "C60_unexported_fields_partial",
    "C60_unexported_fields_refuted"
   ],
   "note": "False as stated: REFP and ALIAS to a struct copy its unexported fields (C60_unexported_fields_refuted). What only unexported fields lead to is proved unchanged for all documents (C60_behind_unexported_fields); the fields themselves for documents in which no byte looks like a REFP or ALIAS tag (C60_unexported_fields_partial)."
  },
  {
   "property": "C61",
   "status": "partial",
   "theorems": [
    "C61_layout_partial",
    "C61_only_documents_refuted"
   ],
   "note": "False as stated: Append accepts a document cut off between two tags (Props_MergeShape.v). Proved: the layout of everything Append accepts (SpecTaken.v), in any state and with any settings; missing: that nothing is cut off, that hash keys are strings, and numbers of elements of 2^31 and more."
  },
  {
   "property": "C62",
   "status": "proved",
   "theorems": [
    "C62_stores_only",
    "C62_wrong_type"
   ],
   "note": "For documents without back references. The relation stores (SpecStore.v) says what each piece of data may do to each variable; whether it can be read at all is C44. Frozen data for an interface{} part that already holds a value are outside the model."
  },
  {
   "property": "C63",
   "status": "proved",
   "theorems": [
    "C63_header_then_body"
   ],
   "note": "For all byte strings, options and codecs: relocation of a run to another memory."
  },
  {
   "property": "C64",
   "status": "proved",
   "theorems": [
    "C64_calls_do_not_disturb"
   ],
   "note": "For all sequences of calls without recovered panics and all initial memories; the program itself changes nothing between the calls."
  },
  {
   "property": "C65",
   "status": "partial",
   "theorems": [
    "C65_map_keys_refuted",
    "C65_as_text_partial",
    "C65_map_keys_partial"
   ],
   "note": "False as stated: two witnesses. Proved for keys of type json.Number with PerlCompat: the document equals that of the map keyed by their texts (all options, memories and iteration orders), and it is read back under those texts (reading without PerlCompat)."
  },
  {
   "property": "C66",
   "status": "partial",
   "theorems": [
    "C66_perl_rewrite_refuted",
    "C66_perl_rewrite_partial",
    "C66_read_apart_partial",
    "C66_documents_partial"
   ],
   "note": "False as stated: two witnesses. Proved for every document without REFP and ALIAS, in memory where different things have different addresses, unless a pointer of type *interface{} in the value leads to a string or more than one reference leads to a thing Go need not keep apart (empty arrays and byte strings, strings of at most one byte, the canonical undef): the cases of the refutations. Missing: REFP and ALIAS."
  },
  {
   "property": "C67",
   "status": "proved",
   "theorems": [
    "C67_rewritten_is_published",
    "C67_rewritten_is_read"
   ],
   "note": "For any accepted bytes. That the published format is met holds whatever the mode; reading back by default: C47_sharing_partial."
  },
  {
   "property": "C68",
   "status": "proved",
   "theorems": [
    "C68_marshal_answers"
   ],
   "note": "for every recursion depth; Go stack exhaustion is outside the model"
  },
  {
   "property": "C69",
   "status": "partial",
   "theorems": [
    "C69_replaces_refuted",
    "C69_documents_partial",
    "C69_any_bytes_partial"
   ],
   "note": "The full claim is refuted with undef read into a variable holding 7.  Proved without PerlCompat, for all bytes what may become of the variable, and for all documents without back references which are accepted."
  },
  {
   "property": "C70",
   "status": "proved",
   "theorems": [
    "C70_threshold",
    "C70_merger"
   ],
   "note": "For every value, header, memory, threshold, compressor and version 1 to 3; for Finish what a success means from the threshold on is that the compressor took the body, the rest being C32."
  },
  {
   "property": "C71",
   "status": "proved",
   "theorems": [
    "C71_addresses"
   ],
   "note": "Iteration orders of maps are the same in both runs."
  },
  {
   "property": "C72",
   "status": "proved",
   "theorems": [
    "C72_copies"
   ],
   "note": "The correspondence of the two memories is given part by part (SpecAlike.v); maps are iterated over in the same order."
  },
  {
   "property": "C73",
   "status": "proved",
   "theorems": [
    "C73_same_data"
   ],
   "note": "For values without sharing (go_tree, as in C05); documents within the size limits of the decoder."
  },
  {
   "property": "C74",
   "status": "partial",
   "theorems": [
    "C74_size_refuted",
    "C74_size_partial",
    "C74_compressed_partial"
   ],
   "note": "Refuted: when an Append fails after a REFP, the track flag set at a wrong place (C31) is left in an earlier document if the buffer had room and is lost if it had been reallocated. Proved for every sequence of calls in which no rejected document has REFP or ALIAS tags read before the error, for any ExpectedSize and any growth of slices; with compression, if Finish succeeds in both cases and the compressor does not make the body longer (or is Snappy)."
  },
  {
   "property": "C75",
   "status": "partial",
   "theorems": [
    "C75_answer_refuted",
    "C75_answer_partial",
    "C75_after_success"
   ],
   "note": "Refuted: after a failed Append, whose offsets stay in the tables, a document that a new Merger accepts makes Append panic (C33). Proved for all histories and all bytes whenever neither call panics; and without that proviso after calls that succeeded, for all bytes clear of the hazards of C33."
  },
  {
   "property": "C76",
   "status": "partial",
   "theorems": [
    "C76_remerge",
    "C76_remerge_safe",
    "C76_refused_partial",
    "C76_refused_refuted"
   ],
   "note": "C76_remerge holds for every Merger state and document; C76_remerge_safe removes the dependence on the bytes beyond the end for documents clear of the hazards of C33. The last sentence is false of the code for document types that are not defined (C76_refused_refuted: Append ignores the error of documentDecompressor and merges the body as it is); C76_refused_partial proves it for all defined types and complete headers. Documents announcing a header of 2^63 bytes or more are left out."
  }
 ]
}
