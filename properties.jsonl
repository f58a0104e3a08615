{"id": "C01", "title": "Binary writer emits the Thrift binary encoding", "statement": "Writing any Thrift value through the thriftbinary writer (bools, integers, doubles, strings, UUIDs, structs, maps, sets and lists nested to any depth) produces exactly the bytes the Thrift binary protocol prescribes for it, and no call reports an error. Strings may be written with WriteString or WriteBytes alike.", "quantifier": "every Thrift value tree, whatever its depth and size", "why_tests_cant": "A suite samples a few literal values; the encoding must be right for every value and nesting.", "anchors": ["encoding/thriftbinary/thriftbinary.go: writer.Write*"]}
{"id": "C02", "title": "Binary round trip", "statement": "Reading, through the thriftbinary reader, bytes that the thriftbinary writer produced returns the value written and consumes exactly those bytes: whatever follows on the stream is left unread. Strings may be read with ReadString or ReadBytes alike.", "quantifier": "every Thrift value tree, every following byte sequence, every end-of-stream condition", "why_tests_cant": "Infinite value space and arbitrary following data.", "anchors": ["encoding/thriftbinary/thriftbinary.go: reader.Read*, writer.Write*"]}
{"id": "C03", "title": "Compact writer emits the Thrift compact encoding", "statement": "Writing any Thrift value through the thriftcompact writer produces exactly the bytes the Thrift compact protocol prescribes (zigzag varints, field-id deltas, bools folded into field headers, short and long collection headers), and no call reports an error.", "quantifier": "every Thrift value tree, whatever its depth and size", "why_tests_cant": "Delta encoding depends on the whole history of field ids; tests see a handful of histories.", "anchors": ["encoding/thriftcompact/thriftcompact.go: writer.Write*, appendFieldHeader, AppendMapHeader, AppendSetHeader", "encoding/thriftcompact/types.go: typeCompact"]}
{"id": "C04", "title": "Compact round trip", "statement": "Reading, through the thriftcompact reader, bytes that the thriftcompact writer produced returns the value written (an empty map loses its key and value types) and consumes exactly those bytes, and the reader's nesting state is back where it was.", "quantifier": "every Thrift value tree, every following byte sequence, every enclosing nesting state", "why_tests_cant": "Infinite value space; state carried across nested structs.", "anchors": ["encoding/thriftcompact/thriftcompact.go: reader, writer", "encoding/thriftcompact/types.go: typeCompact, compactType.wire"]}
{"id": "C05", "title": "Message headers survive the round trip, and strictness is enforced", "statement": "A message header (name, type byte, sequence id) written by the strict or the non-strict binary writer is read back unchanged by the non-strict reader (so JoinProtocol(ProtocolNonStrict, Protocol) works); the strict reader reads back strict headers and rejects every non-strict header; both reject every versioned header whose version is not 1.", "quantifier": "every name, every one of the 256 type bytes, every int32 id, every 4-byte version word", "why_tests_cant": "Names and ids are unbounded or 2^32-sized.", "anchors": ["encoding/thriftbinary/thriftbinary.go: reader.ReadMessageBegin, writer.WriteMessageBegin", "encoding/thriftwire/protocol.go: JoinProtocol"]}
{"id": "C06", "title": "Compact message headers", "statement": "A message header written by the compact writer is read back unchanged when its type fits in 3 bits, for every name and every int32 id including negative ones; a larger type is read back modulo 8; a header with a wrong protocol id or version is rejected.", "quantifier": "every name, type byte and int32 id; every first two header bytes", "why_tests_cant": "2^32 ids and unbounded names.", "anchors": ["encoding/thriftcompact/thriftcompact.go: reader.ReadMessageBegin, writer.WriteMessageBegin"]}
{"id": "C07", "title": "Skip consumes exactly one value", "statement": "Skip(r, t) on the encoding of a value of type t returns nil, consumes exactly that value's bytes under either protocol, and leaves the reader's nesting state unchanged, so the value after it can be read.", "quantifier": "every Thrift value tree, every following byte sequence, both protocols", "why_tests_cant": "Unknown fields can hold any nested value.", "anchors": ["encoding/thriftwire/skip.go: Skip", "encoding/thriftbinary/thriftbinary.go: reader.SkipString, reader.SkipUUID", "encoding/thriftcompact/thriftcompact.go: reader.SkipString, reader.SkipUUID"]}
{"id": "C08", "title": "Truncated input is always reported", "statement": "If the stream ends anywhere strictly inside a value's encoding, reading or skipping that value returns a non-nil error; it never succeeds and never panics.", "quantifier": "every value tree and every strict prefix of its encoding, both protocols", "why_tests_cant": "Every crash point of every message.", "anchors": ["encoding/thriftbinary/thriftbinary.go", "encoding/thriftcompact/thriftcompact.go", "encoding/thriftwire/bufio.go: Next, ReadString", "encoding/thriftwire/skip.go: Skip"]}
{"id": "C09", "title": "Malformed input cannot crash or hang a reader", "statement": "On any byte sequence whatsoever, every Reader method and Skip terminate with a value or an error: no panic, no out-of-range access, and work bounded by the number of bytes consumed.", "quantifier": "every finite byte sequence, every type tag, both protocols", "why_tests_cant": "All byte sequences cannot be enumerated.", "anchors": ["encoding/thriftbinary/thriftbinary.go: reader", "encoding/thriftcompact/thriftcompact.go: reader", "encoding/thriftwire/skip.go: Skip", "encoding/thriftwire/bufio.go", "encoding/thriftwire/varint.go"]}
{"id": "C10", "title": "Skipping agrees with reading on every input", "statement": "On any byte sequence, well-formed or not, skipping a value of a given type succeeds exactly when reading it through the Reader methods succeeds, and then consumes the same number of bytes.", "quantifier": "every byte sequence and type tag, both protocols", "why_tests_cant": "Unbounded inputs, including malformed ones.", "anchors": ["encoding/thriftwire/skip.go: Skip", "encoding/thriftbinary/thriftbinary.go: reader.SkipString", "encoding/thriftcompact/thriftcompact.go: reader.SkipString"]}
{"id": "C11", "title": "Results do not depend on how the transport fragments data", "statement": "The result of any sequence of Reader calls depends only on the bytes the underlying io.Reader delivers, not on how it splits them across Read calls (including empty reads, and data returned together with the final error), nor on the bufio buffer size.", "quantifier": "every client program, every byte sequence, every fragmentation, every buffer size of at least 16", "why_tests_cant": "Fragmentations are exponential in the stream length.", "anchors": ["encoding/thriftwire/bufio.go", "encoding/thriftwire/varint.go", "encoding/thriftbinary/thriftbinary.go: reader", "encoding/thriftcompact/thriftcompact.go: reader"]}
{"id": "C12", "title": "A reader never waits for bytes beyond the value it is reading", "statement": "When all bytes of a value (or message) have arrived and the peer is now silent, reading it completes; it never blocks waiting for bytes after it. This is what request/response over a live connection relies on.", "quantifier": "every value tree, every point at which the transport goes silent, both protocols", "why_tests_cant": "Needs every split between delivered and undelivered bytes; in-memory tests always see EOF.", "anchors": ["encoding/thriftwire/varint.go: ReadUvarint", "encoding/thriftbinary/thriftbinary.go: reader", "encoding/thriftcompact/thriftcompact.go: reader.readUvarint"]}
{"id": "C13", "title": "ReadUvarint and ReadVarint are drop-in replacements", "statement": "thriftwire.ReadUvarint and ReadVarint return the same value and error and leave the stream at the same place as encoding/binary's ReadUvarint and ReadVarint.", "quantifier": "every byte stream (ended by any error that persists)", "why_tests_cant": "All byte sequences, including overlong and overflowing ones.", "anchors": ["encoding/thriftwire/varint.go: ReadUvarint, ReadVarint"]}
{"id": "C14", "title": "ReadString and ReadBytes deliver exactly n bytes or a precise error", "statement": "thriftwire.ReadString/ReadBytes return exactly the next n bytes (ReadBytes after the caller's unchanged prefix) and advance by n; if the stream is short they return everything available with io.ErrUnexpectedEOF, or io.EOF when nothing was available; a negative n is an error consuming nothing. Memory used is bounded by the bytes received, not by n.", "quantifier": "every n, stream, buffer size and prefix", "why_tests_cant": "n and stream lengths are unbounded, and there are two code paths split at the buffer size.", "anchors": ["encoding/thriftwire/bufio.go: Next, ReadString, ReadBytes"]}
{"id": "C15", "title": "Varint and zigzag codecs are exact", "statement": "Every uint64 and int64 survives the varint round trip, takes between 1 and 10 bytes, and an encoding that exceeds 64 bits is rejected.", "quantifier": "every 64-bit integer; every byte sequence", "why_tests_cant": "2^64 values.", "anchors": ["encoding/thriftwire/varint.go", "encoding/thriftcompact/thriftcompact.go: writer.WriteI64, reader.ReadI64"]}
{"id": "C16", "title": "Declared maximum header sizes are real bounds", "statement": "AppendFieldHeader, AppendMapHeader, AppendSetHeader and AppendListHeader preserve the caller's prefix and append at most MaxFieldHeaderSize, MaxMapHeaderSize, MaxSetHeaderSize and MaxListHeaderSize bytes.", "quantifier": "every header, every last field id, every prefix", "why_tests_cant": "Header space is 2^64-sized.", "anchors": ["encoding/thriftcompact/thriftcompact.go: AppendFieldHeader, AppendMapHeader, AppendSetHeader, AppendListHeader, Max*HeaderSize"]}
{"id": "C17", "title": "Compact field ids are decoded to what was encoded", "statement": "For every pair (previous field id, field id) the header appended by AppendFieldHeader decodes to the same id and type (and bool value), using the one-byte form exactly when the 16-bit difference is 1..15.", "quantifier": "every pair of int16 ids (2^32 pairs), every field type, both bool values", "why_tests_cant": "2^32 pairs, including wrap-around.", "anchors": ["encoding/thriftcompact/thriftcompact.go: appendFieldHeader, reader.ReadFieldBegin, boolField.set"]}
{"id": "C18", "title": "Compact nesting state is a stack", "statement": "After reading or writing a nested struct the previous field id of the enclosing struct is back in force; StructEnd without a matching StructBegin is an error that changes nothing.", "quantifier": "every nesting history", "why_tests_cant": "Unbounded call histories.", "anchors": ["encoding/thriftcompact/thriftcompact.go: ReadStructBegin, ReadStructEnd, WriteStructBegin, WriteStructEnd"]}
{"id": "C19", "title": "Flush delivers every written byte, in order", "statement": "When Flush returns nil, the underlying io.Writer has received exactly the bytes of all writes so far, in order; if the underlying writer fails, it has received a prefix of them and every later call keeps reporting an error; Flush also flushes an underlying Flusher. The call during which the underlying writer first fails is itself one that reports an error.", "quantifier": "every sequence of Writer calls, every underlying writer obeying the io.Writer contract, every buffer size", "why_tests_cant": "Write histories and failure points are unbounded.", "anchors": ["encoding/thriftbinary/thriftbinary.go: writer.Flush", "encoding/thriftcompact/thriftcompact.go: writer.Flush, appendWrite, ensureAvailable", "encoding/thriftwire/protocol.go: Flush"]}
{"id": "C20", "title": "Reset makes a Reader or Writer as good as new", "statement": "After Reset(w) (Reset(r)), a Writer (Reader) behaves exactly like a freshly created one on w (r), whatever was done with it before, including after errors and half-written structs.", "quantifier": "every history of calls before Reset, every program after it, both protocols", "why_tests_cant": "Unbounded histories.", "anchors": ["encoding/thriftbinary/thriftbinary.go: writer.Reset, reader.Reset", "encoding/thriftcompact/thriftcompact.go: writer.Reset, reader.Reset"]}
{"id": "C21", "title": "Encodings are unambiguous", "statement": "Two different values of the same type never have encodings one of which is a prefix of the other, so concatenated values can be split again.", "quantifier": "every pair of values", "why_tests_cant": "Pairs of unbounded values.", "anchors": ["encoding/thriftbinary/thriftbinary.go", "encoding/thriftcompact/thriftcompact.go"]}
{"id": "C22", "title": "Unknown wire types are rejected", "statement": "The compact writer refuses every type that is not a Thrift type and the compact reader refuses every type nibble that is not one; Skip and Unmarshal refuse invalid types under either protocol. A collection header of size zero with element type Stop, which the API documents as allowed, is accepted.", "quantifier": "every type byte, every header", "why_tests_cant": "Needs all bytes in all positions.", "anchors": ["encoding/thriftcompact/types.go", "encoding/thriftwire/skip.go", "encoding/thriftwire/types.go"]}
{"id": "C23", "title": "Marshal then Unmarshal restores the Go value", "statement": "For every supported Go type, Unmarshal of what Marshal wrote into a zero value yields the original value, up to the documented representation changes (nil vs empty containers, nil pointers written as zero values, map order), under both protocols, and consumes exactly what was written.", "quantifier": "every supported Go type (any nesting, recursive structs), every value, both protocols", "why_tests_cant": "Type and value spaces are both infinite.", "anchors": ["thrift/arshal.go: Marshal, Unmarshal", "thrift/arshal_default.go"]}
{"id": "C24", "title": "Unknown fields are ignored and field order is irrelevant", "statement": "When Unmarshal meets a field whose id the Go struct lacks, the field is skipped and the other fields come out as if it were absent; known fields may come in any order.", "quantifier": "every struct type, every field sequence on the wire, every unknown value", "why_tests_cant": "Schema-evolution combinations are unbounded.", "anchors": ["thrift/arshal_default.go: makeStructArshaler", "encoding/thriftwire/skip.go: Skip"]}
{"id": "C25", "title": "Type mismatches are rejected without touching the destination", "statement": "If the wire type of a field or value differs from what the Go type requires, Unmarshal returns a SemanticError naming the wire type and the Go type, reads nothing more and leaves that destination unchanged.", "quantifier": "every Go type, every wire type, every prior destination value", "why_tests_cant": "Type pairs times values.", "anchors": ["thrift/arshal_default.go: make*Arshaler unmarshal"]}
{"id": "C26", "title": "Unmarshalling a list or set ignores the old contents", "statement": "Unmarshalling into a slice yields exactly the elements on the wire, whatever the slice's previous elements, length, spare capacity contents and growth policy; unmarshalling into a map keeps entries whose keys are absent from the wire and sets the others.", "quantifier": "every previous destination, every element count, every growth policy", "why_tests_cant": "Depends on stale memory beyond len(), which tests rarely populate.", "anchors": ["thrift/arshal_default.go: makeSetListArshaler, makeMapArshaler"]}
{"id": "C27", "title": "Struct fields are written in id order, omitting exactly the zero non-required ones", "statement": "Marshal writes a struct's fields in ascending id order; a field is omitted exactly when it is not required and is zero (by its IsZero method when it has one).", "quantifier": "every struct type and value", "why_tests_cant": "Infinite struct types.", "anchors": ["thrift/arshal_default.go: makeStructArshaler", "thrift/fields.go: makeStructFields"]}
{"id": "C28", "title": "Struct tags are parsed by the documented rules", "statement": "A field is ignored iff tagged '-' or unexported without a tag; otherwise the tag must start with a decimal int16 id followed by distinct well-formed options; malformed tags, ids out of range, mutants of 'required' and duplicate options are errors.", "quantifier": "every tag string", "why_tests_cant": "All strings.", "anchors": ["thrift/fields.go: parseFieldOptions, consumeTagOption, makeStructFields"]}
{"id": "C29", "title": "Two fields never share an id", "statement": "A struct type with two fields of the same id cannot be marshalled into data that Unmarshal would then mix up: it is rejected.", "quantifier": "every struct type", "why_tests_cant": "Infinite struct types.", "anchors": ["thrift/fields.go: makeStructFields"]}
{"id": "C30", "title": "Every failure is reported as a SemanticError carrying its cause", "statement": "Whatever error the Writer (Reader) returns at whatever call, Marshal (Unmarshal) stops at that call and returns a *SemanticError with the right action from which errors.Is/As can reach that error.", "quantifier": "every Go type and value, every Writer or Reader behaviour, every failing call", "why_tests_cant": "Failure points times values; test writers fail only at chosen steps.", "anchors": ["thrift/arshal_default.go", "thrift/errors.go"]}
{"id": "C31", "title": "Marshal and Unmarshal terminate for every Go type", "statement": "Building the codec for a Go type terminates for every type, including recursive ones, and Marshal of any acyclic value terminates.", "quantifier": "every Go type, every acyclic value", "why_tests_cant": "Recursive type shapes are unbounded.", "anchors": ["thrift/arshal.go: lookupArshaler", "thrift/arshal_default.go: makePointerArshaler, makeMapArshaler, makeSetListArshaler"]}
{"id": "C32", "title": "Concurrent use sees one codec per type", "statement": "Under any interleaving of goroutines calling Marshal/Unmarshal, all lookups of a type return the same codec, once cached it never changes, and a struct's field table is computed exactly once and never observed half-built.", "quantifier": "every number of goroutines and every schedule", "why_tests_cant": "Schedules cannot be enumerated by tests.", "anchors": ["thrift/arshal.go: lookupArshaler", "thrift/arshal_default.go: makeStructArshaler (sync.Once)"]}
{"id": "C33", "title": "A Memo replays what was recorded", "statement": "Reading from a Memo the sequence of steps written to it returns the written values in order; a breakpoint at n lets exactly n-1 steps through and then yields ErrBreak; Reset makes a used Memo as good as a new one.", "quantifier": "every sequence of steps, every breakpoint", "why_tests_cant": "Unbounded sequences.", "anchors": ["internal/thriftmemo/memo.go", "internal/thriftmemo/zmemo.go"]}
{"id": "C34", "title": "Integers of every width round-trip", "statement": "Every int8..int64 and uint8..uint64 value survives Marshal/Unmarshal although the wire type is signed and of the same width.", "quantifier": "every value of every width", "why_tests_cant": "2^64 values and sign-extension corner cases.", "anchors": ["thrift/arshal_default.go: makeIntArshaler2"]}
{"id": "C35", "title": "float32 survives the trip through double", "statement": "Every float32 (other than a signalling NaN's quiet bit) survives being written as a Thrift double and read back, and every float64 survives bit for bit.", "quantifier": "all 2^32 float32 bit patterns, all 2^64 float64 bit patterns", "why_tests_cant": "2^64 patterns.", "anchors": ["thrift/arshal_default.go: makeDoubleArshaler", "encoding/thriftbinary/thriftbinary.go: WriteDouble, ReadDouble", "encoding/thriftcompact/thriftcompact.go: WriteDouble, ReadDouble"]}
{"id": "C36", "title": "The scanner accounts for every source byte", "statement": "Scanning any file terminates; tokens come in order without overlap; the text between tokens is only whitespace or characters reported as errors; each token's text is a contiguous piece of the source; every call makes progress until EOF.", "quantifier": "every byte sequence, including invalid UTF-8", "why_tests_cant": "All byte sequences.", "anchors": ["tools/thriftfile/scanner.go: scanner.next, nextch"]}
{"id": "C37", "title": "The scanner's token rules", "statement": "Identifiers, integers, floats, strings, comments and punctuation are recognised by longest match; a full comment ends at the first */; a line comment at the first newline; a reported error is never swallowed.", "quantifier": "every byte sequence", "why_tests_cant": "All byte sequences.", "anchors": ["tools/thriftfile/scanner.go", "tools/thriftfile/tokens.go"]}
{"id": "C38", "title": "Only Thrift keywords are keywords", "statement": "An identifier is scanned as a keyword iff it is one of the documented Thrift keywords.", "quantifier": "every identifier", "why_tests_cant": "All identifiers.", "anchors": ["tools/thriftfile/tokens.go: init, keywords", "tools/thriftfile/scanner.go: scanner.ident"]}
{"id": "C39", "title": "A token's kind is determined by its text", "statement": "The kind reported for a token depends only on the source text at its position, never on what was scanned before.", "quantifier": "every source, every token", "why_tests_cant": "Needs arbitrary preceding context.", "anchors": ["tools/thriftfile/scanner.go: scanner.string, scanner.escape"]}
{"id": "C40", "title": "Parse terminates and returns a file for every input", "statement": "Parse returns a non-nil File on every input, without panicking or looping, however broken the input.", "quantifier": "every byte sequence", "why_tests_cant": "All inputs, including error-recovery loops.", "anchors": ["tools/thriftfile/parser.go: Parse, file_, def, list"]}
{"id": "C41", "title": "Parse succeeds exactly on the grammar, with the right tree", "statement": "Parse returns a nil error iff the token sequence belongs to the Thrift IDL grammar it implements, and then the File is the tree of that derivation.", "quantifier": "every source file, every syntax tree", "why_tests_cant": "Infinite language.", "anchors": ["tools/thriftfile/parser.go"]}
{"id": "C42", "title": "Errors are never lost", "statement": "If the tree contains a BadDef, or the scanner or parser met anything outside the grammar, Parse's error is non-nil; the reported errors are sorted by position.", "quantifier": "every byte sequence", "why_tests_cant": "All inputs.", "anchors": ["tools/thriftfile/parser.go: Parse, errors_, def"]}
{"id": "C43", "title": "Negative and oversized collection counts are harmless", "statement": "A negative element count on the wire is treated as an empty collection by Skip and Unmarshal, and a huge count cannot make Skip or Unmarshal allocate or loop beyond the bytes actually present.", "quantifier": "every count, every remaining input", "why_tests_cant": "2^64 counts times inputs.", "anchors": ["encoding/thriftwire/skip.go", "thrift/arshal_default.go: makeSetListArshaler, makeMapArshaler"]}
{"id": "C44", "title": "Names of types and tokens are total and distinct", "statement": "String() of every Type, MessageType, compact type and token value returns without an out-of-range slice, and distinct values have distinct names.", "quantifier": "all byte values", "why_tests_cant": "Finite (256), proved by exhaustive computation in the kernel.", "anchors": ["encoding/thriftwire/type_string.go", "encoding/thriftwire/messagetype_string.go", "encoding/thriftcompact/compacttype_string.go", "tools/thriftfile/token_string.go"]}
{"id": "C45", "title": "Error messages identify the failure", "statement": "SemanticError.Error() names the action, the Thrift type, the Go type and the underlying error, whichever phrase the randomisation picks, and Unwrap returns the underlying error.", "quantifier": "every SemanticError value, both random phrases", "why_tests_cant": "All error contents.", "anchors": ["thrift/errors.go"]}
{"id": "C46", "title": "Reading depth is bounded", "statement": "The recursion depth of Skip (and so its stack use) is bounded independently of the input, so hostile nesting cannot exhaust the stack.", "quantifier": "every input", "why_tests_cant": "All nesting depths.", "anchors": ["encoding/thriftwire/skip.go: Skip"]}
{"id": "C47", "title": "Any byte is readable as a bool", "statement": "Where a bool is read from a byte of its own (anywhere in the binary protocol, in collection elements in the compact protocol) ReadBool consumes exactly that byte and returns false for 0 and true for every other byte; a compact bool field takes its value from the field header and consumes nothing.", "quantifier": "every byte, stream, fragmentation, buffer size and nesting state", "why_tests_cant": "Round-trip tests only ever produce 0 and 1; the other 254 bytes come from foreign writers, and the pending-header state from any history.", "anchors": ["encoding/thriftbinary/thriftbinary.go: reader.ReadBool", "encoding/thriftcompact/thriftcompact.go: reader.ReadBool, boolField"]}
{"id": "C48", "title": "Error positions are right", "statement": "Every error Parse reports carries an offset inside the file (or its end) together with the line and column of exactly that offset, and the errors are listed in the order of their offsets.", "quantifier": "every byte sequence given to Parse, with any mix of newlines, broken characters and syntax errors", "why_tests_cant": "Lines are recorded while characters are read ahead of the token being reported; only all combinations of look-ahead, newlines and error places show that the table is complete when a position is computed.", "anchors": ["tools/thriftfile/scanner.go: nextch, error", "tools/thriftfile/parser.go: Parse, errors_"]}
{"id": "C49", "title": "Broken definitions are marked exactly", "statement": "Each BadDef of the tree covers a non-empty piece of the file, the pieces are disjoint and in order, and at least one reported error lies in each of them, so recovery always makes progress and never hides a broken piece.", "quantifier": "every byte sequence given to Parse", "why_tests_cant": "Recovery starts from any point inside any production; tests try a few.", "anchors": ["tools/thriftfile/parser.go: def", "tools/thriftfile/nodes.go: BadDef"]}
{"id": "C50", "title": "Recovery does not disturb what follows", "statement": "After a broken definition the rest of the file is parsed exactly as if it stood in a file of its own: the same definitions, and the same errors with their offsets moved by the place where it starts.", "quantifier": "every byte sequence given to Parse and every BadDef of its tree, except one whose end is the quotation mark of a broken string literal", "why_tests_cant": "It compares two whole parses for every text, every broken prefix and every place where recovery can stop.", "anchors": ["tools/thriftfile/parser.go: Parse, def", "tools/thriftfile/scanner.go: next"]}
{"id": "C51", "title": "A leading byte order mark is transparent", "statement": "Putting a UTF-8 byte order mark before a file changes nothing in its headers and definitions and reports the same errors, three bytes further on.", "quantifier": "every byte sequence that does not itself begin with a byte order mark", "why_tests_cant": "It compares two whole parses for every text, well formed or not.", "anchors": ["tools/thriftfile/scanner.go: init, nextch"]}
{"id": "C52", "title": "Marshal sends the Thrift value the Go value stands for", "statement": "What Marshal sends is the published encoding of the Thrift value that the documented mapping assigns to the Go value: integers by width with the same bits, floats as doubles, strings and byte slices as strings, [16]byte as a UUID, thrift.Set as a set, other slices as lists, maps, structs as the fields to be sent in the order of their ids, and nil pointers as zero values. With the compact protocol, too, it is always the published encoding. A value stands for one Thrift value only.", "quantifier": "every type of supported kinds, every value of it, both protocols, every transport that accepts the bytes", "why_tests_cant": "A round trip through the same library cannot show a mapping error made on both sides; the mapping must hold for every type and value.", "anchors": ["thrift/arshal_default.go: makeDefaultArshaler and make*Arshaler", "thrift/fields.go: makeStructFields", "thrift/doc.go"]}
{"id": "C53", "title": "Unmarshal stores what was sent, and accepts exactly what fits", "statement": "Unmarshal of a Thrift value into a variable returns nil exactly if the value fits the variable's type: types agree everywhere except in struct fields the type does not declare. It then has stored the value by the documented rules: numbers with the same bits, slices replaced, map entries added to or merged into the old map, pointers followed or allocated when nil, struct fields set one by one in the order received and all others left alone. These rules determine the result up to the unused capacity of slices.", "quantifier": "every type of supported kinds, every old value of the variable, every Thrift value, both protocols, every fragmentation", "why_tests_cant": "A round trip into a fresh variable shows neither what happens to old contents nor what is refused; both range over all pairs of old value and incoming value.", "anchors": ["thrift/arshal.go: Unmarshal", "thrift/arshal_default.go: makeDefaultArshaler and make*Arshaler", "thrift/fields.go: structFields"]}
{"id": "C54", "title": "Versions of a type that agree on their shared fields understand each other", "statement": "Take two Go types that are the same Thrift type apart from struct fields only one of them declares, at any depth and also through recursive types. Whatever value of the first is marshalled, Unmarshal into any variable of the second returns nil, consumes exactly the bytes sent, gives shared fields what was sent and leaves the others alone. The same holds with the roles exchanged.", "quantifier": "every pair of compatible types, every value, every old value of the destination, both protocols, every transport and fragmentation", "why_tests_cant": "Interoperation of versions must hold for all values of all compatible pairs of types; tests can only try a few versions.", "anchors": ["thrift/arshal.go: Marshal, Unmarshal", "thrift/arshal_default.go: makeStructArshaler", "thrift/fields.go: makeStructFields"]}
{"id": "C55", "title": "Messages sent through one Writer arrive in order, each intact", "statement": "A sender writes any sequence of messages through one Writer: a header, a marshalled Go value, the end, flushing after whichever messages it likes and after the last. A receiver with one Reader handles each in turn, unmarshalling it into a variable of a compatible type or skipping it. Every header and value arrives in order and without error, and the Reader is left exactly behind the last message.", "quantifier": "every sequence of messages, every choice of flushing, skipping and destinations, both protocols, every transport and fragmentation", "why_tests_cant": "A Reader and a Writer carry state from one message to the next; tests start from a fresh one and send one value.", "anchors": ["thrift/arshal.go: Marshal, Unmarshal", "encoding/thriftbinary/thriftbinary.go: reader, writer", "encoding/thriftcompact/thriftcompact.go: reader, writer", "encoding/thriftwire/skip.go"]}
{"id": "C56", "title": "Marshalling what was unmarshalled sends the same again", "statement": "Marshal a value, unmarshal it into a zero variable, and marshal that: the same Thrift value is sent again, up to the order of map entries, and the same bytes if no map has two entries. The exception is a field that is not required and comes back zero although it was not, such as an empty slice that is not nil: it is left out the second time. From then on nothing changes.", "quantifier": "every program without IsZero methods, every value of a supported type, both protocols, every order of iteration over the maps", "why_tests_cant": "The library's own tests compare the bytes of a second Marshal for a few values; whether they agree depends on every combination of optional fields, nil and empty values and NaNs.", "anchors": ["thrift/arshal.go: Marshal, Unmarshal", "thrift/arshal_default.go", "testing/thrifttest/protocol.go: TestProtocol"]}
{"id": "C57", "title": "Unmarshal writes only to the destination's own memory, and what it stores shares nothing", "statement": "Unmarshal into a variable no part of which is shared (a new one, for instance, or one unmarshalled into before) writes only to memory the variable already had or that is newly allocated. Afterwards the variable holds what the rest of this list says it does, and again no part of it is shared: two elements of a slice, two map entries or two pointers never refer to the same memory. So no other variable changes, and none can be changed later through the destination. After an error the same is true, except that the bytes within a []byte it had may have been overwritten.", "quantifier": "every type, every layout of the destination in memory, every old content including spare capacity, every Reader and every error, every growth policy of slices", "why_tests_cant": "Unmarshal reuses arrays, maps and pointees, and its temporaries, across iterations; that no two places ever end up with the same memory is about all shapes and histories, and a test that compares values cannot see sharing at all.", "anchors": ["thrift/arshal.go: Unmarshal", "thrift/arshal_default.go: makeBytesArshaler, makeMapArshaler, makeSetArshaler, makeListArshaler, makePointerArshaler, makeStructArshaler", "encoding/thriftwire/bufio.go: ReadBytes"]}
{"id": "C58", "title": "Marshal changes no memory, and sharing cannot be seen in what it writes", "statement": "Marshal leaves all memory of its caller as it was, whatever the Writer does. What it writes depends on the value only: pointers, slices or maps that share memory are written as if each had its own copy.", "quantifier": "every type, every value laid out in memory with any sharing, every Writer and every error", "why_tests_cant": "Marshal sets temporaries and allocates values for nil pointers; that none of that reaches the caller's memory, for all ways memory can be shared, cannot be tried out.", "anchors": ["thrift/arshal.go: Marshal", "thrift/arshal_default.go"]}
{"id": "C59", "title": "Unmarshal asks for what Marshal wrote, step for step, and a failure at any step comes out", "statement": "With any Writer, Marshal makes a fixed sequence of calls that depends on the value alone; with any Reader that plays back those calls, Unmarshal into a variable of the same type makes exactly the matching calls, no more and no fewer, and stores the value. If any one of the calls fails, on either side, it is the last one made, and the error is a SemanticError that wraps the name of the method and its error. In particular a value can be marshalled into a Memo and unmarshalled out of it, and with a breakpoint at any step Marshal records exactly the steps before it, Unmarshal repeats exactly those, and both return ErrBreak wrapped with the step's name.", "quantifier": "every supported type, every value and destination of it, every Writer and Reader, every step at which they fail", "why_tests_cant": "thrift/arshal_test.go walks through the steps of three values; that the two directions agree at every step of every value, and that no step's error is dropped, is about all types and all positions.", "anchors": ["thrift/arshal.go: Marshal, Unmarshal", "thrift/arshal_default.go", "thrift/arshal_test.go: TestArshaler", "internal/thriftmemo/memo.go: Memo"]}
{"id": "C60", "title": "Both protocols pass the package's conformance test on every table of cases", "statement": "Run thrifttest.TestProtocol with the Binary protocol (strict or not, or a non-strict Reader joined with a strict Writer) or with the Compact protocol, on any list of cases whose values Marshal supports: no failure is reported. That is, with one Writer, one Reader and one buffer reused for all messages, every message is read back with its header and leaves nothing unread; the value read is marshalled to the same bytes each time (if no map in it has two entries, and no field is sent and comes back as one that is not sent); and a Reader that is in use goes on with bytes that come after it has found the buffer empty. In particular the test passes as it is in the repository, whatever the orders in which maps are iterated over. Conversely, for any protocol whatever, a case that is passed is one in which the message was read back with an equal header from just the bytes written, the value read was written as the same bytes three times (unless the case has a map), and the message was skipped three times.", "quantifier": "every list of cases, every type environment and value, every buffer size, every order of map iteration", "why_tests_cant": "The test runs on sixteen fixed values; that state left over from one message never shows in the next is about all values and sequences of them.", "anchors": ["testing/thrifttest/protocol.go: TestProtocol, marshal", "encoding/thriftwire/protocol.go: JoinProtocol", "encoding/thriftbinary/thriftbinary.go: Protocol, ProtocolNonStrict", "encoding/thriftcompact/thriftcompact.go: Protocol, reader.Reset, writer.Reset"]}
{"id": "C61", "title": "The memory Unmarshal uses is bounded by the input it consumes", "statement": "For each program there is a constant K such that Unmarshal into a variable, given any bytes at all, enlarges the variable by at most K for each byte it consumes, plus K, whether it returns an error or not. Lengths and element counts announced by the input but not backed by bytes cost nothing.", "quantifier": "every set of Go types (recursive ones included), every destination value, every input, valid or hostile, every fragmentation, both protocols", "why_tests_cant": "The bound is about all inputs: a count is 32 or 64 bits wide, may stand at any depth, and may be combined with others.", "anchors": ["thrift/arshal_default.go: makeSetListArshaler, makeMapArshaler, makePointerArshaler, makeStructArshaler", "encoding/thriftwire/bufio.go: ReadString, ReadBytes"]}
{"id": "C62", "title": "The error of a parse is determined by the source and names its leftmost problem", "statement": "Which errors Parse reports, and in which order, is determined by the source: it does not depend on the algorithm of sort.Sort, which is not stable. If there are any, the text of the returned error is the file name, line and column of the error furthest to the left in the source, in decimal, then what it is, then how many more there are. The line and column can be read off the text. An illegal character is named by its code point in hexadecimal and, if it can be printed, shown as it stands in the source.", "quantifier": "every source, every sorting algorithm, every file name", "why_tests_cant": "Several errors may share a place, and a test runs only one version of the sorting algorithm.", "anchors": ["tools/thriftfile/parser.go: Parse, error_.Error, errors_.Less, errors_.Error, errors_.err"]}
{"id": "C63", "title": "Readers and Writers on the caller's own bufio objects share them", "statement": "NewReader on a *bufio.Reader of at least 4096 bytes reads from just that one and takes from it exactly the bytes of what is unmarshalled: Readers of any protocols on one *bufio.Reader, and the caller itself, may take turns in any order, each gets its own value or bytes, and what follows is still there for the next. Likewise Writers of any protocols and the caller on one *bufio.Writer: what each writes follows what was written before, and after a Flush by the caller or by any of the Writers all of it has reached the io.Writer. Nothing else is touched. Reset is different: it redirects the caller's bufio object itself, dropping what it held, and from then on nothing the Writer does, Flush included, reaches the io.Writer it was on before; afterwards a compact Reader shares the *bufio.Reader it was given, but a binary Reader, and a Writer, have a buffer in front of it.", "quantifier": "every number of Readers (Writers) of either protocol, every sequence of turns, every type and value, every fragmentation of the input and any size of the buffer from 10 bytes on", "why_tests_cant": "The interleavings are unbounded, and that no byte is read ahead depends on where the buffer happens to end.", "anchors": ["encoding/thriftbinary/thriftbinary.go: newReader, newWriter, reader.Reset, writer.Reset", "encoding/thriftcompact/thriftcompact.go: NewReader, NewWriter, reader.Reset, writer.Reset, writer.Flush", "encoding/thriftwire/protocol.go: Flush"]}
{"id": "C64", "title": "Protocols are told apart; JoinProtocol reads as one and writes as the other", "statement": "A Reader of JoinProtocol(r, w) reads as one of r, and a Writer writes as one of w, however deeply joined. A message header written by a Writer of any protocol is read unchanged by Readers of the protocols that understand it (binary strict by both binary Readers, binary non-strict by the non-strict one, compact by compact) and refused with an error by all others: it is never taken for a different header. Messages arrive between any that understand each other. TestProtocol on any protocol passes if and only if the protocol it reads understands the one it writes. What String returns tells which protocol it is, however joined.", "quantifier": "every protocol made of the three given ones with JoinProtocol, on either side; every header with a type of three bits, every id and name; every sequence of messages; every table of cases", "why_tests_cant": "Headers, names and joined protocols are unbounded; a test sees that some header of another protocol is refused, not that all are.", "anchors": ["encoding/thriftwire/protocol.go: JoinProtocol, joinedProtocol", "encoding/thriftbinary/thriftbinary.go: protocol, protocolNonStrict, reader.ReadMessageBegin, writer.WriteMessageBegin", "encoding/thriftcompact/thriftcompact.go: protocol, reader.ReadMessageBegin, writer.WriteMessageBegin", "testing/thrifttest/protocol.go: TestProtocol"]}
{"id": "C65", "title": "Doubles are rounded to the nearest float32, and floats compared as numbers", "statement": "Unmarshalling a Thrift double into a float32 stores the nearest float32, ties to even, with the same sign; doubles from halfway between the largest float32 and 2^128 on become infinities, NaNs stay NaNs, and there is never an error. As keys of maps floats are compared as numbers: the two zeros are one key, every NaN is a key of its own.", "quantifier": "all 2^64 doubles, all pairs of keys, every old content, every fragmentation of the input, both protocols", "why_tests_cant": "2^64 doubles, 2^128 pairs of keys; the interesting ones are a few ties and the boundary to infinity.", "anchors": ["thrift/arshal_default.go: makeDoubleArshaler, makeMapArshaler"]}
{"id": "C66", "title": "The end of the data and malformed data are told apart", "statement": "A call on a Reader either has its result settled by the bytes received - it returns the same on every transport that begins with those bytes, whatever follows them and whatever error it ends with - and then its error is neither io.EOF nor io.ErrUnexpectedEOF; or it has read all the bytes and returns the transport's own error, with io.ErrUnexpectedEOF possibly in place of io.EOF. Skip returns that error itself; Unmarshal returns it inside its SemanticError, or bare if it was skipping an unknown field.", "quantifier": "all bytes, all final errors, all continuations and fragmentations, all Reader methods and states, both protocols, all Go types and targets", "why_tests_cant": "It compares a run with the runs on all continuations of its input, for every input and every point where it can be cut.", "anchors": ["encoding/thriftwire/bufio.go: ReadString, ReadBytes", "encoding/thriftwire/varint.go: ReadUvarint", "encoding/thriftbinary/thriftbinary.go: reader", "encoding/thriftcompact/thriftcompact.go: reader", "encoding/thriftwire/skip.go: Skip", "thrift/arshal.go: Unmarshal"]}
{"id": "C67", "title": "What a whole struct tag means", "statement": "A field takes part in Marshal and Unmarshal with id n just if it is exported and the first pair named thrift in its tag - pairs name:\"string\" after any spaces, the strings being Go string literals with all their escapes - has a well-formed text with the id n; it is required just if one of the options is required. Pairs with other names before it and anything after it change nothing. A field is left out silently just if that text is - or the field is unexported and has no such pair; everything else, a tag that is not of the format before the thrift pair on an exported field included, is an error.", "quantifier": "all tags (any bytes), all field names, exported or not, all types", "why_tests_cant": "Tags are arbitrary strings with a grammar of their own, escapes, UTF-8 and two scanning rules that must agree; tests try a few.", "anchors": ["thrift/fields.go: parseFieldOptions, makeStructFields", "reflect: StructTag.Lookup", "strconv: Unquote, UnquoteChar"]}
{"id": "C68", "title": "Positions resolve to the right file, line and column however many files share a FileSet", "statement": "After Parse(fset, filename, src), every offset of src, its end included, has a position in fset of its own. fset.Position of it - of both ends of every BadDef in particular - is filename, that offset, and the line and column the offset has in src, whatever files were in the set before or came later, whatever lines others add to theirs, whatever was looked up in between and however these calls interleave with those of Parse. Positions of different files never coincide. NoPos and positions not given out resolve to nothing. Parse panics in AddFile only if the set runs out of positions. In a new set the position of an offset is one more than the offset.", "quantifier": "all sources, file names and histories of calls of AddFile, AddLine and Position by any number of goroutines", "why_tests_cant": "Every test parses one file in a new FileSet, where the base is always 1 and the cache of the last file is always right.", "anchors": ["tools/thriftfile/parser.go: Parse, init, def", "tools/thriftfile/scanner.go: init, nextch, next", "tools/thriftfile/nodes.go: BadDef", "go/token: FileSet.AddFile, FileSet.Position, File.AddLine"]}
{"id": "C69", "title": "The layout of a .thrift file does not matter, and files can be put together", "statement": "Two sources whose tokens agree apart from comments either both parse without error, to the same tree, or neither does. Writing semicolons as commas, doubling them or leaving them out keeps the tree. Two valid files with a newline between them are a valid file whose headers and definitions are those of the first followed by those of the second, provided no header then stands after a definition and the second does not begin with a byte order mark; so for any number of files without headers.", "quantifier": "all sources (byte sequences), all token sequences, any number of files", "why_tests_cant": "Tests parse a few files written in one style each; they do not compare two layouts, nor two files with their concatenation.", "anchors": ["tools/thriftfile/parser.go: Parse, file_, header, def, list, next", "tools/thriftfile/scanner.go: next, nextch, lineComment, fullComment"]}
{"id": "C70", "title": "Every byte a field header can begin with has the meaning the protocol gives it", "statement": "ReadFieldBegin of the binary Reader: a byte 0 is Stop with no name and the ID 0, and nothing more is consumed; any other byte is the type, and the ID is the big-endian number in the next two bytes. Of the compact Reader: a byte whose low nibble is 0 is Stop, whatever its high nibble; low nibbles 1 to 13 are the types in the table of the protocol, where 1 and 2 leave the value of the bool to ReadBool; a high nibble from 1 on is the difference to the ID of the field before in this struct, modulo 2^16; a high nibble 0 means that the ID follows as a zigzag varint; low nibbles 14 and 15 are an error. Exactly the bytes of the header are consumed, however they are delivered.", "quantifier": "every first byte, every ID, every state of the Reader and every fragmentation of the input", "why_tests_cant": "Tests read what the Writer of the package wrote, which never uses most of these bytes (a long form where the short one would do, a high nibble on Stop).", "anchors": ["encoding/thriftbinary/thriftbinary.go: reader.ReadFieldBegin", "encoding/thriftcompact/thriftcompact.go: reader.ReadFieldBegin, compactType.wire, boolField.set"]}
{"id": "C71", "title": "Every header of a map, a set, a list or a message has the meaning the protocol gives it", "statement": "Binary: ReadMapBegin takes two bytes as the types, whatever they are, and four as the signed size, which may be negative; ReadSetBegin and ReadListBegin one byte and four; ReadMessageBegin, after the bytes 0x80 and 0x01, does not look at the third byte and takes the fourth as the message type. Compact: ReadSetBegin and ReadListBegin take the low nibble of the first byte as the type (0 is Stop and not an error, 1 and 2 both bool, 14 and 15 an error) and the high one as the size, unless it is 15, when the size follows as a varint of up to 64 bits, taken as signed; ReadMapBegin reads a size, which may be a redundant varint, and then nothing if it is 0 and a byte with the two types otherwise; ReadMessageBegin takes the message type from the high three bits of the second byte, and keeps the low 32 bits of the sequence ID. Exactly the bytes of the header are consumed, however they are delivered.", "quantifier": "every header, every varint, canonical or not, every state of the Reader and every fragmentation of the input", "why_tests_cant": "Tests read what the Writer of the package wrote, which never writes a redundant varint, a negative size, an element type Stop or an unknown one.", "anchors": ["encoding/thriftbinary/thriftbinary.go: reader.ReadMapBegin, ReadSetBegin, ReadListBegin, ReadMessageBegin", "encoding/thriftcompact/thriftcompact.go: ReadMapHeader, ReadSetHeader, reader.ReadListBegin, reader.ReadMessageBegin, compactType.wire"]}
{"id": "C72", "title": "Every Writer is told the same about a Go value: the calls Marshal makes are determined by the value", "statement": "The Writer is an interface, and Marshal uses it in one way. For every supported type and value: a scalar is one call of the method of its Thrift type (a byte slice WriteBytes, a string WriteString, an unsigned integer the signed one with the same bits); a list or set is WriteListBegin or WriteSetBegin with the element's Thrift type and the length, the elements, and the End; a map has its key and value types and length, and then each key followed by its value; a pointer is what it points to, and a nil pointer the zero value; a struct is WriteStructBegin with the name of the Go type, for each exported tagged field that is required or not zero, in the order of IDs, WriteFieldBegin with the Go field's name, the Thrift type and the ID, the value and WriteFieldEnd, and then WriteStructEnd. With any Writer, Marshal makes these calls in order and returns nil; if one fails it is the last, and Marshal returns a SemanticError wrapping the method's name and its error.", "quantifier": "every supported Go type, every value of it, every Writer (any implementation of the interface, failing at any call)", "why_tests_cant": "Tests use two protocols, which ignore the names and do not tell WriteBytes from WriteString; a third-party Writer (a JSON protocol, say) depends on all of it.", "anchors": ["thrift/arshal.go: Marshal", "thrift/arshal_default.go: all makeXxxArshaler, marshal closures", "thrift/fields.go: structField"]}
{"id": "C73", "title": "Where the data is cut off decides between io.EOF and io.ErrUnexpectedEOF, and how", "statement": "Suppose the transport gives only a strict prefix of the encoding of a value or of a message header and then fails with an error e. The encoding is a sequence of parts (each header, fixed-size number, varint and type byte is one; a string is its length and its contents). Reading the value or header returns e itself if the prefix ends between two parts, and if it ends inside one returns e again, but with io.ErrUnexpectedEOF in place of io.EOF. Skipping says the same, but inside the contents of a string or UUID it returns e itself, so io.EOF there too. For ReadMessageBegin of a strict binary message: a connection closed with io.EOF gives io.EOF exactly when 0, 4, 8 or 8+len(name) bytes have come, and io.ErrUnexpectedEOF otherwise.", "quantifier": "every value in range and every message header, both protocols (every compact encoding of the value, binary strict and old headers), every cut position, every transport error, every chunking of the transport, every buffer size from 10", "why_tests_cant": "There is a cut position for every byte of every value and the answer depends on the method that is reading there, on whether the value is read or skipped, and on how the bytes arrived.", "anchors": ["encoding/thriftwire/bufio.go: Next, ReadString, ReadBytes", "encoding/thriftwire/varint.go: ReadUvarint", "encoding/thriftbinary/thriftbinary.go: reader", "encoding/thriftcompact/thriftcompact.go: reader", "encoding/thriftwire/skip.go: Skip"]}
{"id": "C74", "title": "What a variable holds after an Unmarshal whose data was cut off", "statement": "Suppose the transport gives only a strict prefix of the encoding of a value that suits the variable and then fails. Unmarshal returns an error, and the variable holds what it held before changed by exactly what had come: the fields that came whole are stored, and so is what had come of the field that was broken off, while the others are as they were. A scalar or string that did not come whole is not stored; of a UUID the bytes that came are; a byte slice keeps its length, though its bytes may have been overwritten. A slice holds the elements that came whole and one more, made of what had come of the next. A map has the entries that came whole, and if the next key came whole also an entry for that key, made of what had come of its value, the zero value if that is nothing and the key is new. A nil pointer has been set. If the collection's own header did not come whole, nothing of it has changed.", "quantifier": "every Go type the library supports, every value of it in the variable, every Thrift value that suits it, both protocols (every compact encoding of the value), every cut position, every transport error, every chunking of the transport, every buffer size from 10", "why_tests_cant": "There is a cut position for every byte of every value of every type, and what is left depends on what each of the nested codecs stored before it failed.", "anchors": ["thrift/arshal.go: Unmarshal", "thrift/arshal_default.go: unmarshal functions of makeStructArshaler, makeMapArshaler, makeSetListArshaler, makePointerArshaler, makeBytesArshaler, makeUUIDArshaler", "encoding/thriftbinary/thriftbinary.go: reader", "encoding/thriftcompact/thriftcompact.go: reader"]}
{"id": "C75", "title": "Whatever fails, whole messages arrive and no other", "statement": "A sender writes any sequence of messages through one Writer, stopping at the first error; its io.Writer may fail in any way at any Write or Flush. The io.Writer then has received a beginning of the bytes of the messages, and all of them if no error was returned. Whatever beginning of them reaches a receiver, which stops at the first error, before its io.Reader fails: every message that came whole arrives, in order, with its header and value and without error; if there is a next message it is reported with an error, which is the io.Reader's own if nothing of it came; if its header came whole it is the header sent, and the variable then holds what had come of the value (C74). Nothing else is reported as received.", "quantifier": "every sequence of messages of values of all supported types, flushed after whichever messages, every failure of the io.Writer and io.Reader at every point, every chunking, every buffer size (from 10 for reading), unmarshalled into variables of compatible types or skipped, both protocols", "why_tests_cant": "The crash point is any byte of any sequence of messages, on either side, and buffers on both sides move the point at which a failure is seen.", "anchors": ["thrift/arshal.go: Marshal, Unmarshal", "encoding/thriftbinary/thriftbinary.go: Writer, Reader", "encoding/thriftcompact/thriftcompact.go: Writer, Reader", "encoding/thriftwire/bufio.go", "encoding/thriftwire/skip.go: Skip"]}
{"id": "C76", "title": "Unmarshal into shared or cyclic memory", "statement": "The destination of Unmarshal may share memory in any way: two pointers in it to one variable, slices of one array, a pointer cycle back to itself, memory other variables also refer to. If Unmarshal into a new variable would return, then so does Unmarshal into it: it takes the same from the Reader and returns the same error, also when the destination is cyclic. Every variable holds a value of its type afterwards. Only memory is written to whose type occurs in the destination's type, and of it none the destination does not reach. The exception is a type with a slice (or map) whose elements can again contain such a slice (map): there Unmarshal may panic when a slice lies inside its own array.", "quantifier": "every type, every well-typed memory, however shared and cyclic, every destination in it, every Reader whose ReadUUID does not depend on what it overwrites (both protocols' do not), every state of the Reader", "why_tests_cant": "Tests unmarshal into new variables; the ways to share memory are unbounded, and with cycles what is being read into changes under the reader.", "anchors": ["thrift/arshal.go: Unmarshal", "thrift/arshal_default.go: makeStructArshaler, makeMapArshaler, makeSetArshaler, makeListArshaler, makePointerArshaler", "thrift/arshal_default.go:447-466", "thrift/arshal_default.go:538-556"]}
{"id": "C77", "title": "Marshal of shared or cyclic memory", "statement": "The value given to Marshal may share memory in any way, and it may contain itself (through pointers, slices or maps). Marshal does not panic on it, unless the Writer does. When Marshal returns, all memory there was is unchanged. Marshal never returns nil for a value in which one can go on for ever from a part to a part of that part that is to be written, as in one that contains itself: it can only end with an error of the Writer, or by using up the stack. For every other value it returns if the Writer's calls do, however the value shares memory.", "quantifier": "every type (for the last sentence: whose codec can be built), every well-typed memory, however shared and cyclic, every value in it, every Writer and every state of it, IsZero methods that depend on the value and what it refers to only", "why_tests_cant": "The ways to share memory are unbounded, and a test cannot wait for a call that goes on for ever, much less for every Writer.", "anchors": ["thrift/arshal.go: Marshal", "thrift/arshal_default.go: makeStructArshaler, makeMapArshaler, makeSetArshaler, makeListArshaler, makePointerArshaler", "thrift/fields.go: structFields"]}
{"id": "C78", "title": "Marshalling shared values at the same time", "statement": "Goroutines may call Marshal at the same time on values that share memory, even on the same value, each with its own Writer. However their steps interleave: all memory there was stays unchanged at every moment; a goroutine that has returned has returned the error, and left its Writer in the state, that Marshal of its value alone would have; no goroutine waits for another, and every execution ends if the Writers' calls do; and no two goroutines are ever about to access the same address with one of them writing to it (no data race). If a value contains itself, then still memory stays unchanged, there is no data race, and no goroutine panics unless its Writer does. A call that goes on while the others wait does exactly what Marshal called on its own does, for any value.", "quantifier": "every type, every number of goroutines, every memory with finite values shared in any way (for the last sentence: every well-typed memory, however cyclic), every Writer and state of each, every interleaving of single memory accesses and Writer calls, every moment of it, IsZero methods that depend on the value only", "why_tests_cant": "The interleavings are too many to run, and the race detector only reports races in the schedule it happens to see.", "anchors": ["thrift/arshal.go: Marshal", "thrift/arshal_default.go: makeBoolArshaler, makeIntArshaler, makeBytesArshaler, makeStructArshaler, makeMapArshaler, makeSetArshaler, makeListArshaler, makePointerArshaler"]}
{"id": "C79", "title": "Unmarshalling into separate variables at the same time", "statement": "Goroutines may call Unmarshal at the same time, each with its own Reader, into variables that have no memory in common (the memory of one may be shared within it in any way, and be cyclic). However their steps interleave: a goroutine that has returned has returned the error, and left its Reader in the state, that Unmarshal of that input into a new variable would have, and it has not panicked, unless some slice or map type in its type is reached again from its elements or keys (C76); memory of no goroutine stays unchanged, and no step changes the memory of another goroutine; at every moment all memory is well typed; no two goroutines are ever about to access the same address with one of them writing to it (no data race); and every execution ends if the Readers' calls do. A call that goes on while the others wait leaves in memory exactly what Unmarshal called on its own does.", "quantifier": "every type, every number of goroutines, every well-typed memory in which the variables have no memory in common, every Reader and state of each (whose ReadUUID does not depend on what was in the array), every interleaving of single memory accesses and Reader calls, every moment of it", "why_tests_cant": "The interleavings are too many to run, and the race detector only reports races in the schedule it happens to see.", "anchors": ["thrift/arshal.go: Unmarshal", "thrift/arshal_default.go: makeBoolArshaler, makeIntArshaler, makeBytesArshaler, makeUUIDArshaler, makeStructArshaler, makeMapArshaler, makeSetArshaler, makeListArshaler, makePointerArshaler"]}
