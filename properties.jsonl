{"id": "C01", "title": "Variable-length integers survive the wire", "statement": "Any unsigned 64-bit number written by the encoder in variable-length form is read back by the decoder as the same 64-bit number, consuming exactly the bytes written, whatever bytes follow.", "quantifier": "every n in [0,2^64) and every byte string following it", "why_tests_cant": "2^64 numbers times every continuation", "anchors": ["Go/sereal/encode.go: varint", "Go/sereal/decode.go: varintdecode"]}
{"id": "C02", "title": "Reading a variable-length integer is bounded", "statement": "On any bytes the varint reader either reports corruption or consumes between 1 and 10 bytes, all of them present, the last one without a continuation bit; its result depends only on the bytes consumed.", "quantifier": "every byte string", "why_tests_cant": "infinitely many inputs, including over-long and unterminated ones", "anchors": ["Go/sereal/decode.go: varintdecode"]}
{"id": "C03", "title": "Integers round-trip exactly", "statement": "Marshalling a value of any built-in signed or unsigned integer type and unmarshalling into an empty interface gives the same mathematical integer: as an int when it fits in 63 bits plus sign, otherwise as a uint. No integer is truncated, sign-flipped or turned into a different number.", "quantifier": "every value of every built-in integer type, every protocol version", "why_tests_cant": "2^64 values per type", "anchors": ["Go/sereal/encode.go: encode, encodeInt", "Go/sereal/decode.go: decode, decodeInt, decodeVarint, decodeZigzag"]}
{"id": "C04", "title": "Values of user-defined integer types round-trip", "statement": "The same holds for values whose type is a user-defined (named) integer type, such as time.Duration.", "quantifier": "every value of every named integer type", "why_tests_cant": "the failing cases are particular type/sign combinations", "anchors": ["Go/sereal/encode.go: encodeViaReflection, encodeInt"]}
{"id": "C05", "title": "Whole-value round-trip", "statement": "Unmarshal(Marshal(v)) into an empty interface reproduces v: same scalars, same strings and byte strings, same slices in the same order, same map entries, at every nesting depth; for every protocol version, with and without key deduplication, with and without Perl-compatible encoding, and whatever order Go iterates maps in.", "quantifier": "every finite tree of nil/bool/int/float/string/bytes/slice/map values of any size and depth, every encoder option, every map iteration order", "why_tests_cant": "unbounded trees and unbounded iteration orders", "anchors": ["Go/sereal/encode.go: MarshalWithHeader, encode, encodeStrMap, encodeIntfArray, encodeString, encodeBytes", "Go/sereal/decode.go: UnmarshalHeaderBody, decode, decodeHash, decodeArray"]}
{"id": "C06", "title": "Encoder output obeys the wire format", "statement": "Every document the encoder produces for such a value is a well-formed Sereal document of the published format: correct magic and version for the chosen protocol, one body item, lengths that match contents, and every back-reference offset pointing at the start of a complete earlier string.", "quantifier": "every value, option and iteration order", "why_tests_cant": "offset correctness depends on everything emitted earlier", "anchors": ["Go/sereal/encode.go: MarshalWithHeader, encode, encodeString, encodeBytes", "sereal_spec.pod"]}
{"id": "C07", "title": "Decoder accepts every well-formed document of the tree format", "statement": "Any document (from any encoder in any language) whose body is well-formed in the published format without cross references decodes without error into exactly the tree it describes, padding and track bits included, in both default and Perl-compatible mode.", "quantifier": "every well-formed document", "why_tests_cant": "documents by foreign encoders use tags the Go encoder never emits", "anchors": ["Go/sereal/decode.go: decode, decodeHash, decodeArray, decodeStringish, decodeBinary, decodeRegexp"]}
{"id": "C08", "title": "Unmarshal never crashes on hostile bytes", "statement": "For any byte string whatsoever, Unmarshal/UnmarshalHeaderBody into an empty interface returns a value or an error and never raises a Go run-time panic.", "quantifier": "every byte string", "why_tests_cant": "the fuzzers sample; the crash needs a particular 10-byte length field", "anchors": ["Go/sereal/decode.go: readHeader, UnmarshalHeaderBody, decode"]}
{"id": "C09", "title": "Body decoding terminates within a linear recursion depth", "statement": "Decoding the body of any document terminates, with recursion never deeper than a fixed linear function of the document length, whatever COPY tags it contains.", "quantifier": "every byte string", "why_tests_cant": "non-termination cannot be observed by a test", "anchors": ["Go/sereal/decode.go: decode (typeCOPY, copyDepth), decodeStringish"]}
{"id": "C10", "title": "Truncated documents are rejected", "statement": "If a body decodes successfully using n bytes, then the document cut anywhere before those n bytes is rejected with an error and never decodes to some other value.", "quantifier": "every accepted document and every cut point", "why_tests_cant": "every prefix of every document", "anchors": ["Go/sereal/decode.go: decode, decodeBinary, decodeHash, decodeArray, varintdecode"]}
{"id": "C11", "title": "Bytes after the body item do not matter", "statement": "The value obtained from a document does not change when arbitrary bytes are appended after the body item.", "quantifier": "every accepted document and every appended byte string", "why_tests_cant": "unbounded suffixes", "anchors": ["Go/sereal/decode.go: decode"]}
{"id": "C12", "title": "Header data can be read without touching the body", "statement": "What UnmarshalHeader returns depends only on the header part of the document (magic, version and type byte, suffix): replacing or corrupting the body changes nothing.", "quantifier": "every document and every replacement body", "why_tests_cant": "all pairs of bodies", "anchors": ["Go/sereal/decode.go: UnmarshalHeader, UnmarshalHeaderBody"]}
{"id": "C13", "title": "User header round-trip", "statement": "For protocol 2 and 3, the header value given to MarshalWithHeader is what UnmarshalHeader returns, and the body is unaffected by the presence of a header.", "quantifier": "every header value and body value", "why_tests_cant": "needs header values with repeated hash keys at depth", "anchors": ["Go/sereal/encode.go: MarshalWithHeader", "Go/sereal/decode.go: UnmarshalHeaderBody"]}
{"id": "C14", "title": "Only the published magic/version/type combinations are accepted", "statement": "A document is accepted by the header check exactly when it is at least 6 bytes long, starts with the old magic and version 1 or 2 or the new magic and version 3 or 4 and has a readable suffix length; a document type is accepted only with the versions that define it; the accidentally UTF-8 encoded magic gets its own error.", "quantifier": "every byte string", "why_tests_cant": "256^6 headers", "anchors": ["Go/sereal/decode.go: readHeader, checkHeader, documentDecompressor"]}
{"id": "C15", "title": "Compression is transparent", "statement": "For every supported combination of protocol version and compressor and every threshold, a document marshalled with compression unmarshals to the same result as the same value marshalled without it.", "quantifier": "every body, version, threshold and every lossless codec", "why_tests_cant": "every body length around the threshold and varint boundaries", "anchors": ["Go/sereal/encode.go: MarshalWithHeader", "Go/sereal/snappy.go: compress, decompress", "Go/sereal/zlib.go: compress, decompress", "Go/sereal/decode.go: UnmarshalHeaderBody, documentDecompressor"]}
{"id": "C16", "title": "Every successfully marshalled compressed document can be read back", "statement": "If MarshalWithHeader succeeds with a compressor set, Unmarshal can decompress the result, also for protocol 1 with the incremental Snappy option.", "quantifier": "every version/compressor option combination", "why_tests_cant": "a specific option pair", "anchors": ["Go/sereal/encode.go: MarshalWithHeader", "Go/sereal/snappy.go"]}
{"id": "C17", "title": "DecompressDocument preserves the document", "statement": "DecompressDocument returns a document with the same magic, version and header, marked uncompressed, that unmarshals to the same header and body as the original; an already raw document is returned byte for byte, and applying it twice equals applying it once - whatever destination buffer is passed.", "quantifier": "every document, every destination buffer, every codec", "why_tests_cant": "aliasing between destination and result depends on lengths and capacities", "anchors": ["Go/sereal/decode.go: DecompressDocument, hasSameBuffer"]}
{"id": "C18", "title": "DecompressDocument never crashes", "statement": "On any bytes and any destination buffer, DecompressDocument returns a document or an error.", "quantifier": "every document and destination buffer", "why_tests_cant": "needs an empty decompressed body and a short non-empty destination", "anchors": ["Go/sereal/decode.go: DecompressDocument, hasSameBuffer"]}
{"id": "C19", "title": "The recursion limit is exact", "statement": "With MaxRecursionDepth n > 0 (or the default 2147483647), Marshal of a value whose containers and pointers nest d levels succeeds exactly when d < limit, and otherwise returns the recursion-limit error and no document.", "quantifier": "every value and every limit", "why_tests_cant": "every depth/limit pair", "anchors": ["Go/sereal/encode.go: remainingRecursion, encodeIntfArray, encodeStrMap, encodeArray, encodeMap, encodeStruct, encodePointer"]}
{"id": "C20", "title": "Marshal terminates on cyclic data when a limit is set", "statement": "For any object graph, including cyclic ones, Marshal with a positive MaxRecursionDepth terminates.", "quantifier": "every heap, including cyclic", "why_tests_cant": "non-termination cannot be observed", "anchors": ["Go/sereal/encode.go: encode, encodePointer"]}
{"id": "C21", "title": "LooksLikeSereal agrees with Marshal and Unmarshal", "statement": "Every document Marshal produces satisfies LooksLikeSereal, and every byte string that does not satisfy it is rejected by Unmarshal.", "quantifier": "every value; every byte string", "why_tests_cant": "infinite domains", "anchors": ["Go/sereal/decode.go: LooksLikeSereal, readHeader, UnmarshalHeaderBody", "Go/sereal/encode.go: MarshalWithHeader"]}
{"id": "C22", "title": "Distinct objects are never conflated", "statement": "Two pointers to different data are marshalled as different data: the second is written as a back-reference only if it refers to the very same value as the first.", "quantifier": "every object graph", "why_tests_cant": "depends on address coincidences such as a sub-slice sharing its parent's first element", "anchors": ["Go/sereal/encode.go: encodePointer, getPointer"]}
{"id": "C23", "title": "Shared pointers round-trip to shared values", "statement": "A pointer occurring twice in a value is written once and unmarshals, with referential integrity disabled, to two copies of the same value; both occurrences decode to the same type.", "quantifier": "every value with shared pointers", "why_tests_cant": "graph-shaped inputs", "anchors": ["Go/sereal/encode.go: encodePointer", "Go/sereal/decode.go: decodeREFP_ALIAS"]}
{"id": "C24", "title": "A Decoder can be reused", "statement": "The outcome of an Unmarshal call on a Decoder depends only on its arguments and options, not on the documents it processed before, including ones that failed.", "quantifier": "every history of Unmarshal calls, successful or not", "why_tests_cant": "histories are unbounded and the leak needs a crafted failing document", "anchors": ["Go/sereal/decode.go: Decoder.copyDepth, Decoder.tracked, UnmarshalHeaderBody"]}
{"id": "C25", "title": "Decoded values do not alias the input buffer", "statement": "Overwriting the input buffer after Unmarshal returns does not change the decoded value.", "quantifier": "every document and every later content of the buffer", "why_tests_cant": "aliasing is invisible to value comparison", "anchors": ["Go/sereal/decode.go: decodeBinary, decodeStringish, decodeRegexp"]}
{"id": "C26", "title": "Length fields cannot cause over-allocation", "statement": "Every container or string the decoder allocates for a length field is no larger than the number of input bytes that remain.", "quantifier": "every byte string", "why_tests_cant": "attack inputs", "anchors": ["Go/sereal/decode.go: decodeHash, decodeArray, decodeBinary, decodeStringish"]}
{"id": "C27", "title": "Merging preserves the documents", "statement": "The document produced by a Merger from a sequence of well-formed documents decodes to the array of the values of those documents, in order (flattened when KeepFlat is set and they are arrays).", "quantifier": "every sequence of documents of any size", "why_tests_cant": "offset relocation depends on all earlier documents", "anchors": ["Go/sereal/merge.go: Append, Finish, buildTrackTable, mergeItems, expectedElements"]}
{"id": "C28", "title": "The merged length is the sum of what Append reported", "statement": "The element count written in the merged document is the sum of the counts returned by the successful Append calls.", "quantifier": "every history of Append calls, failing ones included", "why_tests_cant": "histories", "anchors": ["Go/sereal/merge.go: Append, Finish"]}
{"id": "C29", "title": "Finish is final and idempotent", "statement": "After Finish every Append is refused without changing the result, and calling Finish again returns the same document and the same error status.", "quantifier": "every history", "why_tests_cant": "histories", "anchors": ["Go/sereal/merge.go: Append, Finish"]}
{"id": "C30", "title": "A failed Append leaves the Merger as it was", "statement": "If Append returns an error, the Merger behaves afterwards as if that call had not been made.", "quantifier": "every state and every rejected document", "why_tests_cant": "needs a failure in the middle of a document that already registered strings", "anchors": ["Go/sereal/merge.go: Append, mergeItems (strTable, objTable)"]}
{"id": "C31", "title": "Merging keeps cross references intact", "statement": "References and aliases inside an appended document still refer to the same item after merging, and no other byte of the result is altered.", "quantifier": "every document with REFP or ALIAS tags", "why_tests_cant": "needs offset arithmetic across documents", "anchors": ["Go/sereal/merge.go: mergeItems (trackFlag), buildTrackTable"]}
{"id": "C32", "title": "Finish with compression yields a readable document", "statement": "If Finish succeeds with a compressor set, the returned bytes are the header followed by exactly the compressor's output.", "quantifier": "every merged content, every codec, every buffer capacity", "why_tests_cant": "needs incompressible content and particular capacities", "anchors": ["Go/sereal/merge.go: Finish"]}
{"id": "C33", "title": "Append never crashes on hostile bytes", "statement": "Append on any bytes returns a count or an error and never raises a run-time panic or reads beyond the slice it was given.", "quantifier": "every byte string and capacity", "why_tests_cant": "fuzzing samples", "anchors": ["Go/sereal/merge.go: Append, mergeItems, expectedElements, readString"]}
{"id": "C34", "title": "The struct tag cache is transparent", "statement": "Field names used for a struct type are those determined by its declaration (skip '-', skip unexported untagged, tag overrides name), no matter which types were looked up before.", "quantifier": "every struct type and every lookup history", "why_tests_cant": "histories", "anchors": ["Go/sereal/tagscache.go: tagsCache.Get"]}
{"id": "C35", "title": "Concurrent Marshal calls do not interfere", "statement": "Calls of the package-level Marshal from several goroutines never access the shared tag cache map in a conflicting way.", "quantifier": "every interleaving", "why_tests_cant": "interleavings", "anchors": ["Go/sereal/encode.go: defaultEncoder, Marshal", "Go/sereal/tagscache.go"]}
{"id": "C36", "title": "Typed round-trip", "statement": "Marshalling a value of a struct, slice, array, map or scalar type (or a pointer to a struct or map), built from these and interface{}, and unmarshalling into a zero variable of the same type reproduces the value, up to nil versus empty containers and fields that are not serialised.", "quantifier": "every type built from integer, float, bool, string, []byte, interface{}, slice, array, map[string]T, struct (recursive too) and pointer to struct or map, and every finite value of it without shared pointers", "why_tests_cant": "types and values are unbounded", "anchors": ["Go/sereal/encode.go: encodeStruct, encodeArray, encodeMap", "Go/sereal/decode.go: decodeViaReflection, decodeHashViaReflection, decodeArrayViaReflection, setInt, setBinary"]}
{"id": "C37", "title": "Unmarshal reports numbers that do not fit", "statement": "Unmarshalling an integer into a smaller integer variable stores the same number or reports an error.", "quantifier": "every integer and every target kind", "why_tests_cant": "boundary values of each kind", "anchors": ["Go/sereal/decode.go: setInt"]}
{"id": "C38", "title": "Unmarshal into a populated map updates it", "statement": "Unmarshalling a hash into a non-empty map of scalars sets every key of the document and keeps the others.", "quantifier": "every map content and document", "why_tests_cant": "needs key overlap", "anchors": ["Go/sereal/decode.go: decodeHashViaReflection"]}
{"id": "C39", "title": "Positive zigzag integers are read according to the format", "statement": "An integer written by any encoder with the ZIGZAG tag is decoded to the integer the format assigns to it.", "quantifier": "every 64-bit zigzag value", "why_tests_cant": "the Go encoder never emits the failing half", "anchors": ["Go/sereal/decode.go: decodeZigzag", "sereal_spec.pod"]}
{"id": "C40", "title": "JSON numbers keep their value", "statement": "A json.Number holding a decimal integer is marshalled as that exact integer when it fits in int64, and otherwise as the exact digit string.", "quantifier": "every digit string", "why_tests_cant": "every length", "anchors": ["Go/sereal/encode.go: encodeJsonNumber"]}
{"id": "C41", "title": "Custom-marshalled objects round-trip", "statement": "A value with MarshalBinary unmarshals into an empty interface as a PerlFreeze with the same class name and data (or through the registered unmarshaler), in default and in Perl-compatible mode.", "quantifier": "every class name and data", "why_tests_cant": "content dependent framing", "anchors": ["Go/sereal/encode.go: encodeViaReflection", "Go/sereal/decode.go: decodeObjectFreezeViaReflection"]}
{"id": "C42", "title": "COPY may refer to a hash whose keys are COPY tags", "statement": "As the format allows, a COPY used as a value may refer to an item that uses COPY for hash keys or class names.", "quantifier": "every such document", "why_tests_cant": "not emitted by the Go encoder", "anchors": ["Go/sereal/decode.go: decode, decodeStringish (copyDepth)", "sereal_spec.pod"]}
{"id": "C43", "title": "References to earlier items decode to the item referred to", "statement": "In a document with REFP and ALIAS tags, a reference to an earlier complete item decodes to a pointer to that item's value (with DisableReferentialIntegrity to the value itself), an alias to the value itself, and the rest of the document as if there were none.", "quantifier": "every such document of versions 1 to 4, all compressions, paddings and decoder options", "why_tests_cant": "the tracked-offset table depends on the whole document before the reference", "anchors": ["Go/sereal/decode.go: decodeREFP_ALIAS, decode (tracked), decodeViaReflection", "sereal_spec.pod: REFP, ALIAS, the track bit"]}
{"id": "C44", "title": "Unmarshal into typed variables stores the document's data", "statement": "Whenever the data of a readable document can be put into a variable of its type, Unmarshal succeeds and stores exactly that: each known key in its field, each element in its place, undef as nil, references and class names dropped, unknown keys and surplus elements ignored, fields the document does not mention kept; other memory is unchanged.", "quantifier": "every document in default mode, every type of the fragment of C36 and every content of the variable", "why_tests_cant": "combinations of document layout, type and earlier content are unbounded", "anchors": ["Go/sereal/decode.go: decodeViaReflection, decodeArrayViaReflection, decodeHashViaReflection, decodeObjectFreezeViaReflection, setInt, setBinary"]}
{"id": "C45", "title": "Different data is written differently", "statement": "If Marshal returns the same bytes for two values, possibly with different encoder options, both values stand for the same data: nothing of a value is lost beyond what its data leaves out (integer widths, Go type names).", "quantifier": "all pairs of finite values without shared pointers, all encoder options, all lossless codecs", "why_tests_cant": "quantifies over pairs of values", "anchors": ["Go/sereal/encode.go: MarshalWithHeader, encode", "sereal_spec.pod"]}
{"id": "C46", "title": "Unmarshal accepts nothing but well-formed documents", "statement": "When Unmarshal or UnmarshalHeader returns no error, the bytes are a document: the header is valid, a compressed body unpacks, and the body begins with a complete item in which every tag is known, every length and element is present, COPY refers back to an item and is not nested, REFP and ALIAS refer to a tag already met that carries the track flag, and a class name or hash key is a string.", "quantifier": "every byte string, every decoder option and every codec", "why_tests_cant": "the set of malformed inputs is infinite; fuzzing shows absence of crashes, not that only documents are accepted", "anchors": ["Go/sereal/decode.go: UnmarshalHeaderBody, decode, decodeStringish, decodeREFP_ALIAS, decodeObjectViaReflection", "Go/sereal/snappy.go, zlib.go, zstd.go: decompress", "sereal_spec.pod"]}
{"id": "C47", "title": "Reading a document and writing it again keeps its data", "statement": "When a document is read with Unmarshal, the value is written with Marshal, and the result is read again, the second value is deeply equal to the first, with the same Go types; Marshal does not fail on what Unmarshal returned unless it is nested deeper than the recursion limit.", "quantifier": "every document (any version, compression, padding, number and string formats, COPY tags) and every encoder option", "why_tests_cant": "documents come from other implementations with encodings that the Go encoder never produces", "anchors": ["Go/sereal/decode.go: Unmarshal, decode", "Go/sereal/encode.go: Marshal, encode", "Go/sereal/perl.go"]}
{"id": "C48", "title": "Unmarshal into typed variables never crashes on hostile bytes", "statement": "Unmarshal(b, &x), for a variable x of a struct, slice, array, map, pointer or scalar type with any content, returns nil or an error for every byte slice b; it never lets a runtime panic (index out of range, slice bounds, makeslice) escape. It needs at most 2*len(b)+4 nested calls on the bytes of an uncompressed document, asks make for no slice longer than the number of bytes left, and changes no memory that x reaches through its interface{} parts.", "quantifier": "for all byte slices, Go types built from scalars, slices, arrays, maps, pointers, structs and interface{}, contents of the variable, codec libraries, decoder options and memory contents", "why_tests_cant": "The reflection path is a second decoder with its own bounds checks, chosen by the product of the variable's type and the document's tags. Fuzzing covers a handful of target types; the claim is about every type, every prior content and every byte string.", "anchors": ["Go/sereal/decode.go:172-263", "Go/sereal/decode.go:690-1071", "Go/sereal/decode.go:1106-1237"]}
{"id": "C49", "title": "The memory Unmarshal asks for is in proportion to the document", "statement": "Over a whole Unmarshal call, accepted or rejected, the number of slice and map elements, binary string bytes and variables allocated is at most a constant times the length of the document (unpacked, if it is compressed).", "quantifier": "for all byte slices, codec libraries, decoder options, decoder states and kinds of call", "why_tests_cant": "Each make() is checked against the bytes left, but nothing bounds their sum: nested length fields may claim the same bytes again and COPY reads them again. The bound is a statement about all nestings and all inputs; a test shows the memory used by the inputs it thought of.", "anchors": ["Go/sereal/decode.go:268-466", "Go/sereal/decode.go:503-590", "Go/sereal/decode.go:172-263"]}
{"id": "C50", "title": "What is not serialised does not influence the document", "statement": "The result of Marshal or MarshalWithHeader (the bytes, or the error) depends only on the serialised part of the value: fields tagged \"-\", unexported untagged fields, fields shadowed by a later field of the same name, bytes of a buffer outside the slice, the fields of a BinaryMarshaler written through its method, and all other memory may hold anything without changing a byte of the document.", "quantifier": "for all values and memories (shared and cyclic ones included), encoder options, map iteration orders, codec libraries and header values", "why_tests_cant": "It is a noninterference claim about pairs of memories: a test compares two programs' states for a few structs, while a leak needs the one type, sharing or buffer layout through which hidden data gets out.", "anchors": ["Go/sereal/encode.go:78-195", "Go/sereal/encode.go:200-304", "Go/sereal/encode.go:454-673", "Go/sereal/tagscache.go:16-50"]}
{"id": "C51", "title": "Append accepts mergeable documents", "statement": "A Merger takes every document it should: Append succeeds and returns the number of elements added, Finish succeeds, and the outcome does not depend on what was appended before, on ExpectedSize or on how append grows memory. (As stated for everything Marshal writes this is false: a document with two objects of one class is rejected.)", "quantifier": "for all sequences of documents whose back references point at item tags that the Merger visits and not at the byte just before the reference, and whose class names and regexp parts are literal, all settings of TopLevelElement, KeepFlat, DedupeStrings and ExpectedSize, and all growth policies", "why_tests_cant": "Acceptance depends on two independent passes over the bytes agreeing about where tags stand, on tables that persist across calls, and on in-place rewriting of a shared buffer; tests try a few documents and never notice the ones that are needlessly rejected.", "anchors": ["Go/sereal/merge.go:98-202", "Go/sereal/merge.go:205-248", "Go/sereal/merge.go:250-352", "Go/sereal/merge.go:354-668"]}
{"id": "C52", "title": "What Marshal writes can be merged", "statement": "Marshalling values one by one, merging the documents and unmarshalling the result never fails and yields the array of the values; shared and cyclic values are accepted as well. (As stated for all values this is false: pointers to two empty byte slices at one address give a document that Unmarshal reads and Append rejects.)", "quantifier": "for all lists of values made of the types the package supports (class names only with DisableDedup, pointers not to themselves, not to one-byte values that have an address), all memories with any sharing and cycles among them, encoders of version 2 or 3 with any supported compression, all growth policies and merger versions", "why_tests_cant": "It composes the encoder, the compressors, the two passes of the Merger and the decoder over unboundedly many values; tests merge a handful of documents written by hand and do not meet the layouts the encoder produces for shared, cyclic or empty values.", "anchors": ["Go/sereal/encode.go:200-304", "Go/sereal/encode.go:613-673", "Go/sereal/merge.go:98-202", "Go/sereal/merge.go:354-668"]}
{"id": "C53", "title": "Cyclic documents are decoded to cyclic values", "statement": "Unmarshal of a document in which REFP and ALIAS tags refer to any marked items met before, also to ones they are inside of, succeeds, and in the value every marked item is one Go value: slices, maps and pointers are shared and form cycles exactly as in the document. (As stated for all such documents this is false: by default, an object, or a frozen object, that contains a reference to itself makes Unmarshal fail, as does a reference to nil.)", "quantifier": "for all documents of the wire grammar with arbitrary references, all versions, compressions, padding, COPY tags and decoder options, with all references followable: not to nil, and by default not to an object from inside of it", "why_tests_cant": "The reference structure is unbounded: nesting, sharing, marking of tags and the moment at which a variable gets its value interact (a marked tag is recorded before its contents are read), and tests only try one or two cyclic literals.", "anchors": ["Go/sereal/decode.go:267-480", "Go/sereal/decode.go:503-640", "Go/sereal/decode.go:1020-1071"]}
{"id": "C54", "title": "Values with any sharing and cycles survive Marshal and Unmarshal as the same graph", "statement": "Whatever sharing and cycles a value has (a map holding a pointer to itself, two slices that point at each other, a struct that contains a pointer to itself), if Marshal succeeds then the document describes exactly the graph of the value: a pointer met for the first time is a reference with its target, a pointer met before is a reference back to the item of that pointer or of its target, and nothing else refers back. Unmarshal then rebuilds that graph, one Go value per shared item: always in the Perl-compatible mode, and by default for everything made of slices, maps and pointers to them. Refuted as a claim about all values by default: a ring of structs is written without complaint and then rejected by Unmarshal.", "quantifier": "for all memories whose variables are each representable (lengths that fit, different keys) with pointers leading anywhere, all values, encoder options, protocol versions 1 to 3, map iteration orders, lossless codecs and decoder options", "why_tests_cant": "Tests marshal a handful of acyclic values; the shapes of object graphs are unbounded, and offsets, pointer tables and the decoder's table of tracked items must agree on every one of them, including references to items that are still open.", "anchors": ["Go/sereal/encode.go:613-720", "Go/sereal/decode.go:267-480", "Go/sereal/decode.go:1020-1071"]}
{"id": "C55", "title": "Unmarshal fills a typed variable with memory of its own", "statement": "Let x be a variable whose pointers, maps and slices do not share memory, among any other variables. For a document without back references, Unmarshal(b, &x) stores the value the document describes (a new variable gets back the marshalled value of its type), every pointer, map and slice inside x refers to memory that nothing else inside x or any older variable refers to, and every other variable keeps its content.", "quantifier": "for all memories, types built from scalars, slices, arrays, maps, pointers, structs and interface{}, contents of the variable without sharing, byte slices, options and codec libraries", "why_tests_cant": "Aliasing shows only when one part is changed later and another part changes with it; a test would have to mutate every pair of parts for every type and document, whereas the claim is about all of them at once.", "anchors": ["Go/sereal/decode.go:690-1018"]}
{"id": "C56", "title": "Unmarshal changes nothing but what its variable can reach, even when it fails", "statement": "Whatever Unmarshal(b, &x) returns, and whatever sharing and cycles the memory has, a variable that cannot be reached from x through pointers, maps and slices keeps its content. Afterwards x reaches only what it reached before and newly allocated memory: no document can make x refer to other existing variables.", "quantifier": "for all memories with any sharing and cycles, types, documents (well formed or not), options, codec libraries and outcomes (success, error or recovered panic)", "why_tests_cant": "It is a negative claim about all other memory of the program and all hostile documents, including the state left behind by errors at any byte and by back references into half-filled structures.", "anchors": ["Go/sereal/decode.go:690-1237"]}
{"id": "C57", "title": "Documents with sharing and cycles are read into typed variables as the same graph", "statement": "Let a valid document, in which tracked items are referred back to by REFP and ALIAS, have the shape of a Go type (hashes for maps, structs and pointers to them, arrays for slices and arrays, scalars for scalars), each reference having the type of the item it refers to and coming after that item's pointer, map or slice exists. Unmarshal(b, &x) for a new variable x of that type then succeeds, and x is exactly the graph the document describes: every reference back is the same pointer, map or slice as the item it refers to, so shared parts are shared and cycles are closed, and parts that are not referred back to are never shared by accident. The graph consists of newly allocated memory only and no other variable is changed.", "quantifier": "for all documents of versions 1 to 4 with any nesting, sharing and cycles, compressed or not, all Go types without interface{} parts, codec libraries, memories and decoder options other than PerlCompat", "why_tests_cant": "The number of shapes of graphs is unbounded, and the result depends on when each pointer, map or slice comes into existence relative to each reference to it; a copy of a shared part looks the same to an equality test on values.", "anchors": ["Go/sereal/decode.go:690-1071", "Go/sereal/decode.go:1106-1237"]}
{"id": "C58", "title": "Graphs of structs linked by pointers survive Marshal and Unmarshal into typed variables", "statement": "Let x be a Go value of a type built from integers, bools, floats, strings, []byte, slices, arrays, string-keyed maps, structs and pointers to structs, where the structs may point to each other in any way: shared, in rings, to themselves. If Marshal(x) returns a document, Unmarshal of it into a new variable of the same type, with default options, succeeds and gives the same graph: the structs reached by pointers correspond one to one, equal pointers stay equal and different pointers stay different, and corresponding structs have the same contents. Slices and maps are copied, each to memory of its own; fields that are not serialised are zero; everything is in new memory and no other variable changes. Assumed: different structs that are pointed to have different addresses (a struct and its own first field do not, see C22). It is false for pointers to maps: pointers to two variables holding the same map become equal.", "quantifier": "for all typed memories and values in them, layouts of memory, codec libraries, encoder options with protocol versions 1 to 3 (compressed or not), decoder options other than PerlCompat, and memories in which the new variable stands", "why_tests_cant": "There are unboundedly many graphs; whether pointers are equal after the round trip depends on the order of traversal, on the numbering of tracked items by the encoder and on when the decoder creates each pointer. Equality tests on values follow pointers and do not terminate on rings or miss lost sharing.", "anchors": ["Go/sereal/encode.go:613-720", "Go/sereal/decode.go:690-1071", "Go/sereal/decode.go:1106-1237"]}
{"id": "C59", "title": "Unmarshal keeps Go's types, whatever the document", "statement": "Let all variables in memory hold values of their Go types: integers within their kind's range, arrays of their lengths, pointers, maps and slices leading to variables of their element types. After Unmarshal(b, &x) of any bytes b into a variable x of any type, whether it succeeds, returns an error or is recovered from a panic, this still holds of all variables, including those it created. Integers that do not fit are wrapped to the variable's kind and never stored as they are; a back reference never makes a pointer, map or slice lead to a variable of another type.", "quantifier": "for all byte strings, options, codec libraries, Go types and struct declarations, memories with any sharing and cycles, and all outcomes", "why_tests_cant": "decode.go stores through unsafe pointers and reflection; a violated type is not seen by Go's checker and may only corrupt memory later. The documents that could break it (back references between items of different types, integers out of range, arrays too long) combine without bound.", "anchors": ["Go/sereal/decode.go:690-1237"]}
{"id": "C60", "title": "Unexported fields are left alone", "statement": "Unmarshal into a typed variable does not change what can be reached from it only through unexported struct fields, whatever the document, and does not make it reachable otherwise. Unexported fields of all structs, including those nested in the variable or shared with it, keep their values. (False of the code for documents with REFP or ALIAS: a reference back to a struct copies the whole struct, its unexported fields included, over another one.)", "quantifier": "for all byte strings, options, codec libraries, Go types and struct declarations, memories with any sharing and cycles, and all outcomes", "why_tests_cant": "It quantifies over all documents and all shapes of memory; a key may name an unexported field by its case variants or tag, and variables may be shared between exported and unexported fields.", "anchors": ["Go/sereal/decode.go:840-846", "Go/sereal/decode.go:1020-1237", "Go/sereal/tagscache.go:20-70"]}
{"id": "C61", "title": "A Merger accepts nothing but documents", "statement": "When Append returns no error, the bytes were a document: a valid header, a body that unpacks and consists of complete items with known tags, strings and class names in place and references to tags met before, and as many elements as Append reports; so that what Finish returns can be read. (As stated this is false: Append accepts a document cut off between two tags, and what Finish returns then cannot be read.)", "quantifier": "for all byte strings shorter than 2^63, all states and settings of the Merger, all codecs and growth policies", "why_tests_cant": "the set of malformed inputs is infinite, and Append checks the bytes in two passes of which neither checks everything; tests append documents that are well-formed", "anchors": ["Go/sereal/merge.go:151-202", "Go/sereal/merge.go:250-352", "Go/sereal/merge.go:354-668"]}
{"id": "C62", "title": "Unmarshal stores in a typed variable nothing but the document's data", "statement": "When Unmarshal into a pointer to a struct, map, slice, array, string, number or bool returns no error, the document's data were of the variable's shape and the variable holds exactly what they make of it: integers go into integer variables only (keeping the low bits), floats into floats, booleans into bools, text into strings, byte strings into strings, []byte and byte arrays, frozen data into nil []byte only, arrays into slices and arrays element by element, hashes into maps and structs key by key, undef makes pointers, maps and slices nil and changes nothing else; elements and fields the data do not mention, and what is behind unexported fields, are as before; interface{} parts that were nil hold values representing their data. Data of any other shape make Unmarshal return an error.", "quantifier": "for all documents without back references (REFP, ALIAS), all their data, all variable types of the model and all previous contents of the variable, all registries and codecs, in the default decoding mode", "why_tests_cant": "the pairs of data and variable contents are infinite and nested; tests read a handful of matching documents into fresh variables and a few mismatches, and say nothing about a mismatch deep inside a partly filled variable", "anchors": ["Go/sereal/decode.go:690-887", "Go/sereal/decode.go:889-1018", "Go/sereal/decode.go:1106-1237"]}
{"id": "C63", "title": "UnmarshalHeaderBody is UnmarshalHeader followed by Unmarshal", "statement": "UnmarshalHeaderBody on a document behaves as UnmarshalHeader and Unmarshal called separately on it: if the header part is refused, it returns that error; otherwise, if the body is refused, it returns the body's error; otherwise both variables look, to any depth, as after the separate calls. Reading the header first leaves nothing behind that the body's references, copies or values could pick up, and reading the body changes nothing of the header's value.", "quantifier": "for all byte strings, options and codec libraries", "why_tests_cant": "The two parts share one Decoder (COPY counter, table of tracked references), one input buffer and one memory; a leak needs a crafted header and a crafted body, and their combinations are unbounded.", "anchors": ["Go/sereal/decode.go: UnmarshalHeaderBody, UnmarshalHeader, Unmarshal", "Go/sereal/decode.go:204-263"]}
{"id": "C64", "title": "Calls of a Decoder do not disturb one another or the program's memory", "statement": "A program that uses one Decoder for any sequence of Unmarshal, UnmarshalHeader and UnmarshalHeaderBody calls, none of which ends in a panic recovered by the API (see C24), with all values kept in one memory: after the last call, the variables of every call still look as after the same call made alone by a new Decoder, the calls that fail return the same errors, and nothing that was in the program's memory before has changed.", "quantifier": "for all sequences of calls and documents, successful or failing, all initial memories, options and codec libraries", "why_tests_cant": "Sequences are unbounded, and the damage one call does to the result of another is visible only by looking at every earlier value again after every later call.", "anchors": ["Go/sereal/decode.go: Decoder, UnmarshalHeaderBody, decode, decodeREFP_ALIAS, decodeRegexp"]}
{"id": "C65", "title": "Maps keyed by something other than strings", "statement": "When Marshal accepts a map, whatever the type of its keys, Unmarshal gives back a map with the same number of entries, each value under the text of its key.  (False: by default integer keys are written as integers and the document is refused by Unmarshal; with PerlCompat every integer key becomes the text \"<int Value>\", so that entries are lost.  True with PerlCompat of keys of type json.Number: the document is byte for byte that of the map keyed by their texts.)", "quantifier": "for all values and memories holding such maps anywhere in them, all encoder options and iteration orders, all Decoder options", "why_tests_cant": "The values containing such maps are unbounded in shape and the bytes depend on the order of iteration and on where maps occur in the value; a test with a single integer key does not notice the collision.", "anchors": ["Go/sereal/encode.go: encodeMap, encodeString", "Go/sereal/decode.go: decodeHash"]}
{"id": "C66", "title": "With PerlCompat, reading a document and writing it again keeps its data", "statement": "What Unmarshal with PerlCompat makes of a document can be given to Marshal, and Unmarshal of the result gives a deeply equal value: references, objects, weak references and undefs are kept.  (False: a reference carrying the track flag to a string is read as an *interface{}, on which Marshal fails; references to an empty array and to an empty string are written as two references to the same item when Go puts both at the same address.  True of documents without REFP and ALIAS in which no reference with the track flag leads to a string and at most one reference leads to something empty, a string of one byte or the canonical undef.)", "quantifier": "for all documents of any version and compression, all data and nestings, all options of both sides, all layouts of memory and iteration orders", "why_tests_cant": "Documents are unbounded; the failure needs a flag that most writers set only on shared items, and the conflation depends on the addresses the allocator gives to things of size zero.", "anchors": ["Go/sereal/decode.go: decode, decodeArray, decodeHash", "Go/sereal/encode.go: encodePointer, getPointer"]}
{"id": "C67", "title": "Whatever Unmarshal accepts and Marshal writes again is a document, and PerlCompat reads it back with its sharing and cycles", "statement": "For any bytes Unmarshal accepts, well-formed or not and with back references and cycles of any kind: if Marshal writes the resulting value, the output is a document of the published format describing that value, and Unmarshal with PerlCompat accepts it and gives a value with the same data, the same sharing and the same cycles.", "quantifier": "for all byte strings accepted, in either mode of reading, all options of the encoder, versions and compressions, memory layouts and iteration orders", "why_tests_cant": "It ranges over everything the decoder accepts, including what no encoder writes, and over cyclic values; a generated test only covers documents its generator knows.", "anchors": ["Go/sereal/decode.go: Unmarshal, decode, decodeREFP_ALIAS, decodeHash", "Go/sereal/encode.go: encode, encodePointer, encodeMap"]}
{"id": "C68", "title": "Marshal always answers with a document or an error", "statement": "For any value, header and options, on any memory (cyclic, shared, with pointers to variables that hold nothing), Marshal and MarshalWithHeader return a document or an error and never let a panic escape, in particular no run-time error from going back in the output to flag the target of a second pointer, or from a field index of a struct type. (Stack and memory are taken to suffice for the recursion limit asked for.)", "quantifier": "for all memories, values, headers, options (versions, compressions, limits, PerlCompat), memory layouts and iteration orders of maps", "why_tests_cant": "The offsets that are written back to come from the sharing in the value and from where each pointer was first met; a test only meets a few shapes of sharing, and the claim is about all graphs, including cyclic ones.", "anchors": ["Go/sereal/encode.go: Marshal, MarshalWithHeader, encode, encodePointer, encodeStruct", "Go/sereal/tagscache.go: Get"]}
{"id": "C69", "title": "Reading into an interface{} variable that already holds a value", "statement": "Unmarshal(b, &x) without an error leaves in x what b describes, also when the interface{} variable x held something before.  (False: undef leaves x as it was, so a caller reusing a variable sees the previous document's value.  What holds by default: a used variable never gets mixed content; on an error nothing the program holds is changed; without an error x is as it was, or holds a new regexp, or, if it held an object of a registered class, such an object with other content.  Of documents without back references only undef and regexps, behind references or in objects, are accepted at all.)", "quantifier": "for all byte strings, well-formed or not, all values the variable may hold, all memories, versions, compressions and registered classes, without PerlCompat", "why_tests_cant": "A test that reuses a variable meets one pair of values; the claim is about every pair of an old value and a document, also malformed ones, and about what is left unchanged.", "anchors": ["Go/sereal/decode.go: UnmarshalHeaderBody, decodeViaReflection, decodeObjectViaReflection, decodeObjectFreezeViaReflection"]}
{"id": "C70", "title": "Compression starts exactly at the threshold and changes nothing else", "statement": "A value whose encoded body is shorter than CompressionThreshold is written byte for byte as by an encoder without compression, whatever compressor is set.  From the threshold on (always, when it is 0 or negative) the output has the same magic, version and user header, another document type and the packed body; or Marshal returns an error, which happens exactly when the compressor and the protocol version do not go together (zstd, zlib before version 3, plain Snappy after version 1), the body is too large for Snappy or the compression library fails.  A value that cannot be encoded gives the same error with and without compression.  Finish of a Merger does the same, except that it compares the threshold with the length of the whole document.", "quantifier": "for all values, headers and memories, cyclic ones included, all compressors, levels, thresholds and protocol versions 1 to 3, all codecs; for Finish all sequences of Append calls, successful or not, merging fewer than 2^35 items", "why_tests_cant": "It compares two runs for every value and every threshold; the boundary is a length that depends on the value, and the configurations that fail only above the threshold pass every test with small values.", "anchors": ["Go/sereal/encode.go: MarshalWithHeader", "Go/sereal/snappy.go: compress", "Go/sereal/zlib.go: compress", "Go/sereal/merge.go: Finish"]}
{"id": "C71", "title": "The document does not depend on where things lie in memory", "statement": "Marshal of the same value in two runs of a program in which everything lies at other addresses gives the same bytes or the same error, provided the same things share an address in both (as two pointers to one variable, or a struct and its first field).  No address, order or distance of addresses influences the document.", "quantifier": "for all values, headers and memories, cyclic ones included, all options, and all pairs of placements with the same overlaps", "why_tests_cant": "A test runs with the addresses the allocator happens to give; a dependence on, say, the order of addresses or on a stale address shows only under another allocator, garbage collector or load.", "anchors": ["Go/sereal/encode.go: encodePointer, getPointer"]}
{"id": "C72", "title": "A deep copy is written as the same document as the original", "statement": "Two values with the same content and the same sharing (pointers to one thing in one correspond to pointers to one thing in the other), cyclic or not, in the same or in different programs, are written by Marshal with the same options as the same bytes, or fail with the same error.", "quantifier": "for all pairs of memories and values related part by part, all headers and options, and all iteration orders of maps that are the same for both", "why_tests_cant": "The claim is a relation between all pairs of corresponding graphs, including cyclic ones; tests compare documents of a few values, and a dependence on identity instead of structure would only show for particular graphs.", "anchors": ["Go/sereal/encode.go: encode, encodePointer, getPointer, encodeMap, encodeStruct"]}
{"id": "C73", "title": "Settings that are not about content do not change what is read", "statement": "One value marshalled by two encoders that differ in protocol version, compressor, threshold, deduplication of strings (DisableDedup), recursion limit, the random iteration orders of maps and the placement in memory, and read by two decoders with any options, gives the same data, up to the order of map entries and to whether a JSON number is a text or the float it stands for.", "quantifier": "for all finite values without shared pointers, all pairs of encoders with supported combinations of version and compressor and the same PerlCompat and DisableFREEZE, all pairs of decoders, all lossless codecs and all iteration orders", "why_tests_cant": "The claim is about all pairs of settings and all values; the interplay of deduplication offsets with the version (offsets count from elsewhere) and with the iteration order is different for each value.", "anchors": ["Go/sereal/encode.go: MarshalWithHeader, encodeString, encodeBytes, encodeStrMap, encodeMap", "Go/sereal/decode.go: UnmarshalHeaderBody, decode"]}
{"id": "C74", "title": "ExpectedSize and slice growth do not change what a Merger does", "statement": "The results of the Append calls on a Merger and the document returned by Finish do not depend on ExpectedSize (0, or at least 5) nor on the capacities that append chooses when it grows slices.", "quantifier": "for all sequences of Append calls with any documents and settings, all pairs of ExpectedSize values for each call and all growth strategies of the run-time", "why_tests_cant": "A difference needs a reallocation between two particular writes to the buffer; where these fall depends on the Go version, the earlier documents and the offsets in the current one.", "anchors": ["Go/sereal/merge.go: initMerger, Append, mergeItems, Finish"]}
{"id": "C75", "title": "What Append answers depends on the document alone", "statement": "Whether a Merger accepts a document, the count it returns and the error it reports depend on the document, TopLevelElement and KeepFlat only: not on what was merged before, on DedupeStrings, ExpectedSize, compression and the version of the Merger.", "quantifier": "for all pairs of Mergers with any histories of Append calls, successful or not, all documents, well-formed or not, and all growth strategies of the run-time", "why_tests_cant": "Which strings and class names are in the Merger's tables selects different branches for each tag of the document; a difference would need a particular history together with a particular document.", "anchors": ["Go/sereal/merge.go: Append, mergeItems, buildTrackTable, expectedElements"]}
{"id": "C76", "title": "Merging a compressed document is merging its decompressed form", "statement": "Append of a document has the same result, and leaves the Merger in the same state, as Append of what DecompressDocument returns for that document.  When tags of the document are cut short, this needs the same bytes between length and capacity of the decompressed body; otherwise it holds whatever these are, and both calls answer.  A document that DecompressDocument refuses is refused by Append, with the same error, and does not change the Merger.", "quantifier": "for all documents, raw or compressed with any method, of any version the reader takes, and any destination given to DecompressDocument; all Mergers, whatever was merged before, and all their options", "why_tests_cant": "Append and DecompressDocument find, check and decompress the body in separate code; agreement would have to be tested for every document, compression method, header, destination buffer and Merger state.", "anchors": ["Go/sereal/merge.go: Append", "Go/sereal/decode.go: DecompressDocument, documentDecompressor"]}
