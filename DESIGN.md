# Formal model of the Go Sereal library (`/repo/Go/sereal`)

## Layout

All Coq files are in `rocq/theories` (logical name `Verif`), built with Coq 8.16.1 and its
standard library only.

* **Model files**: computable total functions, one per Go function, each with a comment citing
  the Go lines. `Base`, `Varint`, `Tags`, `GoMem`, `Encode`, `Decode`, `Codecs`, `Compress`,
  `Header`, `Document`, `GoSlice`, `Redocument`, `Merge`, `TagsCache`, `Cache`, `GoTypes`, `Typed`.
* **Specifications** (`Spec*.v`): the wire format written from `sereal_spec.pod`, and what the
  data, values and properties are. They do not mention the model of the code.
* **Proofs** (`*Facts`, `*Spec`, `*Safe`, `*Run`, `*Items`, `*Api`, `*Props`, `*Shape`, ...).
* **`Props_*.v`**: only the named theorems, a concrete case (`Cxx_case`) beside each, and
  `Print Assumptions` beneath.

A property that is false of the code is stated in full, refuted by a concrete witness
(`..._refuted`), and its strongest true part proved (`..._partial`). `properties.jsonl` has the
properties, `MANIFEST.json` the theorems of each and what is missing, `seeded/LOG.jsonl` the
wrong programs the theorems were tried against.

## Conventions of the model

* **Bytes** are `Coq.Init.Byte.byte`, a `[]byte` argument a `list byte`. Go `int`/`uint` are
  `Z`/`N` with explicit wrap-around at 64 bits (a 64-bit platform is assumed).
* **Outcomes**: `Ok`; `Err` (returned error); `Panic` (a Go panic whose value is not a
  `runtime.Error`; the API recovers it and returns an error); `Crash` (a `runtime.Error`: index or
  slice bounds, bad `make` size, nil map write; the API re-raises it); `NoFuel` (the model's bound
  on nested calls is used up, or the typed decoder is asked for something outside the model).
  Theorems about a call either prove `NoFuel` impossible or quantify over sufficient bounds
  (`outcome`, SpecOutcome.v).
* **Memory** is a list of cells; slices, maps, pointers and byte views are positions in it, so
  sharing, aliasing and cycles can be expressed, and decoding into `*interface{}` writes to cells
  as the Go code does. Where `append` and re-slicing matter (DecompressDocument, Merger), byte
  slices carry array, offset, length and capacity (GoSlice.v).
* **Outside world**, universally quantified in every theorem: the compression libraries
  (`codecs`; the theorems needing it assume `lossless`), the iteration order of every Go map
  (`e_shuffle`, assumed to permute), the addresses of everything in memory (`layout`, GoMem.v;
  nothing is assumed, so a struct may be where its first field is, and zero-length slices at one
  place), `strconv.ParseFloat`, conversion between float32 and float64 bits, title case of field names, growth of slices on `append`,
  where zstd puts its output.

Two hub theorems carry most of the round-trip results: the encoder's output satisfies the wire
grammar (EncodeSpec, ShareEncode), and the decoder implements the wire grammar (DecodeSpec,
ShareDecode, CycleDecode, TypedSpec).

## Which code is modelled

| Go code | model |
|---|---|
| const.go, errors.go | Tags.v, `err` in Base.v (one constructor per error) |
| encode.go 39-195 Marshal, MarshalWithHeader, constructors | Document.v |
| encode.go 197-714 encode, encodeViaReflection and helpers | Encode.v |
| decode.go 14-169 header, LooksLikeSereal, document types | Header.v |
| decode.go 171-263 UnmarshalHeaderBody, Unmarshal, UnmarshalHeader; reuse of a Decoder; calls in one memory | Document.v, Session.v |
| decode.go 265-685, 1020-1204 untyped decoder, REFP/ALIAS, objects, frozen objects | Decode.v |
| decode.go 690-1071, 1106-1237 decoding into typed variables | Typed.v (trees), TypedMem.v (memory), GoTypes.v |
| decode.go 1240-1258 varintdecode; encode.go 675 varint | Varint.v |
| decode.go 1282-1320 registered names | `d_um`, `d_unmarshal` in Decode.v |
| decode.go 1320-1377 DecompressDocument, hasSameBuffer | Redocument.v |
| snappy.go, zlib.go, zlib_purego.go, zstd.go | Compress.v |
| tagscache.go, alone and under goroutines | TagsCache.v, Cache.v |
| merge.go (all) | Merge.v |
| perl.go | constructors of `gval` |

## What is not modelled

* Go's type system beyond `gval` and `gtype`: user-defined types other than structs, integers and
  types with `MarshalBinary`/`UnmarshalBinary`; user-defined float, string, slice and map types;
  type names other than those of structs; typed map keys other than strings. For types with
  methods what the methods return is arbitrary but fixed per value.
* Typed variables (TypedMem.v; Typed.v without sharing): pointers into the middle of a variable,
  slices that cover part of an array, registered unmarshalers other than in interface{} parts.
  Typed variables and what interface{} parts refer to are separate memories: a back reference
  from one to the other stores a copy or an opaque value.
* Go's stack limit: unbounded nesting kills a Go program by stack exhaustion. The model shows the
  depth of nested calls to be linear in the input (C09, C48), not that it fits the stack.
* Memory exhaustion. zlib's preallocation is modelled only as the crash for sizes over 2^48.
* What a variable holds after Unmarshal into an `interface{}` returned an error, and the buffer
  `dst` after DecompressDocument returned one. `dst` and `b` are assumed not to overlap.
* The libraries: reflect is modelled by the cases the code distinguishes; snappy, zlib, zstd are
  arbitrary functions (zstd_cgo.go and zstd_purego.go: failing on every input is one of them).
  `cmd`, fuzz.go and the tests are not modelled.
* Concurrency other than the struct tag cache (C34, C35): other sharing of one Encoder, Decoder or
  Merger between goroutines is outside the library's contract.

## Proof methods

| id | property | how |
|---|---|---|
| C01 | Variable-length integers survive the wire | induction on the groups of seven bits |
| C02 | Reading a variable-length integer is bounded | induction on the bytes read |
| C03 | Integers round-trip exactly | bit arithmetic on every tag range, then the grammar |
| C04 | Values of user-defined integer types round-trip | refuted by a named int8; the sound kinds as in C03 |
| C05 | Whole-value round-trip | encoder obeys the grammar, decoder implements it, one data per document; map orders by permutation |
| C06 | Encoder output obeys the wire format | induction on the nesting of the value; string table invariant |
| C07 | Decoder accepts every well-formed document of the tree format | induction on derivations of the grammar; refuted by three conforming documents |
| C08 | Unmarshal never crashes on hostile bytes | weakest preconditions over every tag; refuted by three header families |
| C09 | Body decoding terminates within a linear recursion depth | measure (COPY depth, bytes left) bounds nested calls by 2n+4 |
| C10 | Truncated documents are rejected | simulation of a run on a prefix by a run on the extension |
| C11 | Bytes after the body item do not matter | the same simulation |
| C12 | Header data can be read without touching the body | the header part reads only the header |
| C13 | User header round-trip | refuted for COPY in headers; otherwise as C05 |
| C14 | Only the published magic/version/type combinations are accepted | case analysis over all first bytes |
| C15 | Compression is transparent | framing lemmas over arbitrary lossless codecs |
| C16 | Every successfully marshalled compressed document can be read back | refuted for version 1 with incremental Snappy; otherwise as C15 |
| C17 | DecompressDocument preserves the document | slices with arrays and capacities; case analysis on where the output is put |
| C18 | DecompressDocument never crashes | the same; refuted for an empty body |
| C19 | The recursion limit is exact | induction on nesting: success exactly within the limit |
| C20 | Marshal terminates on cyclic data when a limit is set | fuel monotonicity and existence on arbitrary (cyclic) memories |
| C21 | LooksLikeSereal agrees with Marshal and Unmarshal | from C06 and C14 |
| C22 | Distinct objects are never conflated | traversal with a pointer table, invariant relating table and document; refuted by a sub-slice |
| C23 | Shared pointers round-trip to shared values | C22 composed with C43 |
| C24 | A Decoder can be reused | invariant of the COPY counter over histories; refuted after a recovered panic |
| C25 | Decoded values do not alias the input buffer | invariant: no view into the input in any reachable value; refuted for regexps |
| C26 | Length fields cannot cause over-allocation | allocation log in the decoder state |
| C27 | Merging preserves the documents | relocation simulation against the grammar; refutations by witness |
| C28 | The merged length is the sum of what Append reported | length invariant over histories of calls |
| C29 | Finish is final and idempotent | case analysis over Finish |
| C30 | A failed Append leaves the Merger as it was | simulation of two Mergers with equal bytes; invariant on the places where tags are read |
| C31 | Merging keeps cross references intact | the merged bytes as a function of the appended ones; refuted for REFP |
| C32 | Finish with compression yields a readable document | framing as in C15; refuted when compression expands |
| C33 | Append never crashes on hostile bytes | simulation of two memories behind the document, and an invariant of the scan of tags; refuted by short documents and after failures |
| C34 | The struct tag cache is transparent | cache invariant over histories of lookups |
| C35 | Concurrent Marshal calls do not interfere | interleavings of map accesses; refuted by a schedule for every type |
| C36 | Typed round-trip | induction on Go types against the data |
| C37 | Unmarshal reports numbers that do not fit | refuted; otherwise arithmetic modulo the width of the kind |
| C38 | Unmarshal into a populated map updates it | refuted for existing keys; otherwise induction on pairs |
| C39 | Positive zigzag integers are read according to the format | bit arithmetic |
| C40 | JSON numbers keep their value | induction on digits |
| C41 | Custom-marshalled objects round-trip | frozen object tags in both directions; refuted in Perl mode |
| C42 | COPY may refer to a hash whose keys are COPY tags | refuted by a conforming document |
| C43 | References to earlier items decode to the item referred to | invariant relating the table of tracked items to memory |
| C44 | Unmarshal into typed variables stores the document's data | typed decoder implements the relation `into` on data |
| C45 | Different data is written differently | documents have one meaning; different data gives different documents |
| C46 | Unmarshal accepts nothing but well-formed documents | from a successful run, a derivation of the lenient shape |
| C47 | Reading a document and writing it again keeps its data | C07, then values built by the decoder are finite trees, then C05 |
| C48 | Unmarshal into typed variables never crashes on hostile bytes | weakest preconditions over the fuel of the decoder, for trees and for memory with any sharing |
| C49 | The memory Unmarshal asks for is in proportion to the document | a potential function over the bytes read, for success and for errors; an explicit family of documents for the refutation |
| C50 | What is not serialised does not influence the document | noninterference: induction over the encoder with an inductive account of the memory that is seen |
| C51 | Append accepts mergeable documents | two simulations (the scan for tracked tags, the merging loop) over an inductive account of the layout, with an invariant for the tables and the room left |
| C52 | What Marshal writes can be merged | induction over the encoder's fuel with a relation between encoder states that says which tags stand where and that later track flags do not matter (MarshalLaid.v), then C51 and C27 |
| C53 | Cyclic documents are decoded to cyclic values | induction over the derivation that a document is well formed, with an invariant relating the decoder's table of tracked variables to the numbering of the marked items and to the variables already written; the value of a marked item is defined by the memory, so cycles need no unfolding |
| C54 | Values with any sharing and cycles survive Marshal and Unmarshal as the same graph | induction on the fuel of the encoder, with an invariant relating its pointer table to the addresses recorded by the traversal (partial correctness, so that no measure on the cyclic memory is needed); the document is first described with offsets as labels and then renumbered, injectively, to the numbers of the marked items; the round trip composes this with C53 |
| C55 | Unmarshal fills a typed variable with memory of its own | simulation between the memory model and the tree model over the fuel of the decoder, with disjoint footprints |
| C56 | Unmarshal changes nothing but what its variable can reach, even when it fails | invariant over the decoder: cells outside the reach of the variable are unchanged and the rest is closed under references |
| C57 | Documents with sharing and cycles are read into typed variables as the same graph | mutual induction over the grammar of documents with cycles, for all types and variables; invariants: the table of tracked items refers to valid variables of the right types, items that are still being read contain the variable at hand and all others are apart from it, so their contents stay |
| C58 | Graphs of structs linked by pointers survive Marshal and Unmarshal into typed variables | mutual induction over the written traversal and the graph read from it, with a correspondence of structs that grows with the traversal |
| C59 | Unmarshal keeps Go's types, whatever the document | invariant over the decoder: a typing of all cells that grows with allocation, under which every reference in use (also those in the table of tracked items) points to a part of its type |
| C60 | Unexported fields are left alone | the invariant of C59 with the set of cells reachable without unexported fields, closed under references; for the fields themselves: writes go to paths without unexported steps and, without back references, only values without fields are written |
| C61 | A Merger accepts nothing but documents | Invariant of the merge loop: what is left on the stack of counters is laid out in the rest of the bytes (MergeShape.v) |
| C62 | Unmarshal stores in a typed variable nothing but the document's data | mutual induction over the grammar: every successful run of the typed decoder follows a rule of the relation |
| C63 | UnmarshalHeaderBody is UnmarshalHeader followed by Unmarshal | relational simulation: the body's run after the header's is the run alone, moved to other places of memory; the header's value refers to nothing the body's run changes |
| C64 | Calls of a Decoder do not disturb one another or the program's memory | relational simulation between a run alone and the same run in a larger memory, with a frame; induction over the sequence of calls |
| C65 | Maps keyed by something other than strings | relational induction over the encoder between a memory and the same memory with JSON-number keys replaced by strings |
| C66 | With PerlCompat, reading a document and writing it again keeps its data | induction over the decoder in separation style (each value read owns its cells), giving distinct addresses; then induction over the addresses of the value and over its data: writing and reading give a deeply equal value |
| C67 | Whatever Unmarshal accepts and Marshal writes again is a document, and PerlCompat reads it back with its sharing and cycles | invariant of the decoder over all bytes: what it leaves in memory fits the limits of the format and maps have different keys that only grow while they are read; then C54 |
| C68 | Marshal always answers with a document or an error | invariant of the encoder: every offset noted for a pointer lies within the bytes written so far; field tables hold only indices of fields |
| C69 | Reading into an interface{} variable that already holds a value | a postcondition on the memory for every function of the typed decoder entered with a used interface{} variable, by case analysis on the tag and induction on the fuel; for tree documents induction on the relation of C62 |
| C70 | Compression starts exactly at the threshold and changes nothing else | relating two runs of MarshalWithHeader with and without compression at the same fuel, then case analysis on threshold, compressor and version |
| C71 | The document does not depend on where things lie in memory | simulation between two runs of the encoder whose pointer tables hold corresponding addresses, by induction on the fuel |
| C72 | A deep copy is written as the same document as the original | simulation between the encodings of two corresponding values in two memories, by induction on the fuel; the pointer tables hold corresponding addresses |
| C73 | Settings that are not about content do not change what is read | C05 for each side, and the data of a Go value are determined up to the order of entries, by mutual induction on the relation between values and data |
| C74 | ExpectedSize and slice growth do not change what a Merger does | simulation between two Mergers with the same bytes in buffers of different capacities, step by step through mergeItems; a computed counterexample |
| C75 | What Append answers depends on the document alone | simulation between two runs of mergeItems that keeps the position, the stack and which tracked tags have been met; C33 excludes panics |
| C76 | Merging a compressed document is merging its decompressed form | both take the same body out of the document (RemergeFacts.v), and Append looks at nothing else; C33 for the bytes beyond the end |

## Trusted base

* The Coq 8.16.1 kernel (`vm_compute` is used for concrete cases and refutations).
* The reading of the Go code that the model embodies, within the limits above.
* The specifications, as readings of `sereal_spec.pod`.

`Print Assumptions` answers "Closed under the global context" for every theorem, that is, none
depends on an axiom, from the standard library or elsewhere:

* C01 (proved): `C01_varint_roundtrip`
* C02 (proved): `C02_varint_bounded`
* C03 (proved): `C03_integers`
* C04 (partial): `C04_named_integers_refuted`, `C04_named_integers_partial`
* C05 (proved): `C05_roundtrip`
* C06 (proved): `C06_published_format`
* C07 (partial): `C07_reads_published_refuted`, `C07_reads_published_partial`
* C08 (partial): `C08_no_crash_refuted`, `C08_no_crash_partial`
* C09 (proved): `C09_recursion_depth`
* C10 (proved): `C10_truncation`, `C10_exact`
* C11 (proved): `C11_trailing_bytes`
* C12 (partial): `C12_header_independent_refuted`, `C12_header_independent_partial`
* C13 (partial): `C13_header_roundtrip_refuted`, `C13_header_roundtrip_partial`
* C14 (proved): `C14_header_check`
* C15 (proved): `C15_compression_transparent`
* C16 (partial): `C16_compressed_readable_refuted`, `C16_compressed_readable_partial`
* C17 (partial): `C17_decompress_document_refuted`, `C17_same_start`, `C17_idempotent`, `C17_accepted`, `C17_same_body_partial`, `C17_same_data_partial`, `C17_same_header_partial`
* C18 (partial): `C18_no_crash_refuted`, `C18_no_crash_partial`
* C19 (proved): `C19_limit_exact`
* C20 (proved): `C20_marshal_terminates`
* C21 (proved): `C21_looks_like_sereal`
* C22 (partial): `C22_references`, `C22_no_conflation_refuted`, `C22_first_field_refuted`, `C22_no_conflation_partial`
* C23 (partial): `C23_shared_pointers_refuted`, `C23_default_mode_refuted`, `C23_shared_pointers_partial`, `C23_any_options_partial`
* C24 (partial): `C24_reuse_refuted`, `C24_reuse_partial`
* C25 (partial): `C25_no_alias_refuted`, `C25_no_alias_partial`
* C26 (proved): `C26_allocation`
* C27 (partial): `C27_merge_decodes_partial`, `C27_merge_decodes_refuted`
* C28 (partial): `C28_merged_count_partial`, `C28_merged_count_refuted`
* C29 (partial): `C29_finish_final_partial`, `C29_finish_final_refuted`
* C30 (partial): `C30_failed_append_partial`, `C30_failed_append_refuted`
* C31 (partial): `C31_appended_only_partial`, `C31_appended_only_refuted`
* C32 (partial): `C32_finish_compressed_partial`, `C32_compressed_merge_partial`, `C32_finish_compressed_refuted`
* C33 (partial): `C33_append_safe_partial`, `C33_append_safe_refuted`, `C33_after_failure_refuted`
* C34 (proved): `C34_tag_cache_transparent`, `C34_interleaved`
* C35 (partial): `C35_concurrent_marshal_refuted`, `C35_concurrent_marshal_partial`
* C36 (proved): `C36_typed_roundtrip`, `C36_scalar_pointers_refuted`
* C37 (partial): `C37_overflow_reported_refuted`, `C37_overflow_reported_partial`
* C38 (partial): `C38_map_update_refuted`, `C38_map_update_partial`
* C39 (partial): `C39_zigzag_refuted`, `C39_zigzag_partial`
* C40 (proved): `C40_json_numbers`
* C41 (partial): `C41_frozen_objects_refuted`, `C41_frozen_objects_partial`
* C42 (partial): `C42_nested_copy_refuted`, `C07_reads_published_partial`
* C43 (partial): `C43_back_references_refuted`, `C43_back_references_partial`
* C44 (proved): `C44_typed_unmarshal`
* C45 (proved): `C45_written_alike`
* C46 (partial): `C46_accepts_documents_refuted`, `C46_accepts_documents_partial`, `C46_accepts_headers_partial`, `C46_any_decoder_partial`, `C46_typed_partial`, `C46_typed_memory_partial`
* C47 (partial): `C47_rewrite_refuted`, `C47_rewrite_partial`, `C47_sharing_partial`
* C48 (partial): `C48_typed_no_crash_refuted`, `C48_typed_safe_partial`, `C48_typed_memory_partial`
* C49 (partial): `C49_linear_allocation_refuted`, `C49_quadratic_allocation_partial`, `C49_accepted_allocation_partial`
* C50 (proved): `C50_unseen_has_no_influence`, `C50_hidden_field`
* C51 (partial): `C51_append_accepts_refuted`, `C51_append_accepts_partial`, `C51_merge_total_partial`
* C52 (partial): `C52_marshal_merge_refuted`, `C52_marshalled_accepted_partial`, `C52_marshal_merge_unmarshal_partial`
* C53 (partial): `C53_cycles_refuted`, `C53_cycles_partial`
* C54 (partial): `C54_graph_written`, `C54_round_trip_refuted`, `C54_round_trip_partial`
* C55 (proved): `C55_memory_of_its_own`, `C55_typed_roundtrip_memory`
* C56 (proved): `C56_only_what_is_within_reach`
* C57 (proved): `C57_typed_graph`, `C57_struct_ring_refuted`
* C58 (proved): `C58_typed_graph_round_trip`, `C58_map_pointers_refuted`
* C59 (proved): `C59_types_are_kept`
* C60 (partial): `C60_behind_unexported_fields`, `C60_unexported_fields_partial`, `C60_unexported_fields_refuted`
* C61 (partial): `C61_layout_partial`, `C61_only_documents_refuted`
* C62 (proved): `C62_stores_only`, `C62_wrong_type`
* C63 (proved): `C63_header_then_body`
* C64 (proved): `C64_calls_do_not_disturb`
* C65 (partial): `C65_map_keys_refuted`, `C65_as_text_partial`, `C65_map_keys_partial`
* C66 (partial): `C66_perl_rewrite_refuted`, `C66_perl_rewrite_partial`, `C66_read_apart_partial`, `C66_documents_partial`
* C67 (proved): `C67_rewritten_is_published`, `C67_rewritten_is_read`
* C68 (proved): `C68_marshal_answers`
* C69 (partial): `C69_replaces_refuted`, `C69_documents_partial`, `C69_any_bytes_partial`
* C70 (proved): `C70_threshold`, `C70_merger`
* C71 (proved): `C71_addresses`
* C72 (proved): `C72_copies`
* C73 (proved): `C73_same_data`
* C74 (partial): `C74_size_refuted`, `C74_size_partial`, `C74_compressed_partial`
* C75 (partial): `C75_answer_refuted`, `C75_answer_partial`, `C75_after_success`
* C76 (partial): `C76_remerge`, `C76_remerge_safe`, `C76_refused_partial`, `C76_refused_refuted`
