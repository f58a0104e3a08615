# Formal model of itstarsun/go-thrift in Rocq (Coq 8.16.1)

The code is read as text only.  The model lives in `rocq/theories/`; every
definition of the model cites the file and lines in `/repo` it models and says
where it simplifies.

## 1. Shape of the model

The Go code is layered, and so is the model.

| Layer | Go | Model | Specification | Proofs |
|---|---|---|---|---|
| bytes, fixed-width ints, errors | `byte`, `int16`, ... | `Base.v`: `Byte.byte`, `Z` with explicit wrap functions | | `BaseLemmas.v` |
| programs | functions calling an interface | `Prog.v`: a free monad `prog` over a signature of calls, `run`, and `over` (an implementation of one interface on another) | | `Layers.v`, `Fuel.v` |
| `encoding/binary` | big/little endian, varints | `GoBinary.v` | `Spec.v` | `GoBinaryProof.v`, `Codec.v` |
| `bufio.Reader` | over an arbitrary `io.Reader` | `Bufio.v`: the buffer and a scripted source (any fragmentation, empty reads, errors with data, silence), and the abstract stream it refines | | `BufioProof.v`, `Fragment.v` |
| `bufio.Writer` | over an arbitrary `io.Writer` | `BufioW.v`: the buffer and an arbitrary sink | `Ideal.v` | `BufioWProof.v`, `Faults.v`, `Loud.v` |
| `thriftwire` | `Reader`/`Writer`, `Skip`, `Next`, `ReadString`, `ReadUvarint` | `Wire.v`; `Clients.v` are the programs a user writes | `Spec.v`, `Reads.v` | `WireProof.v`, `Robust*.v`, `Safety.v`, `WireThms.v` |
| `thriftbinary`, `thriftcompact` | methods | `Binary.v`, `Compact.v`: each method a program over bufio calls; `Objects.v`: the objects with Reset | `Spec.v` | `BinaryProof.v`, `CompactProof.v`, `Messages.v`, `RoundTrip.v`, `EndToEnd.v`, `ObjectsProof.v`, `Choices.v` |
| protocols | JoinProtocol, String, which reads what | `Protocols.v` | `ProtocolsSpec.v` | `ProtocolsProof.v`, `ProtocolsTest.v` |
| sharing | several Readers or Writers on one bufio object | `Shared.v`, `SharedW.v` | `SharedTurns.v` | `SharedProof.v`, `SharedWProof.v` |
| `thriftmemo` | recorder | `Memo.v` | | `MemoProof.v`, `Mirror.v`, `MirrorRun.v` |
| `thrift` | tags, codecs, errors, cache | `GoType.v`, `GoFloat.v`, `StructTag.v`, `Fields.v`, `Arshal.v`, `Heap.v`, `HeapStep.v`, `UnmStep.v`, `Names.v`, `Cache.v` | `ArshalSpec.v`, `MapSpec.v`, `StoreSpec.v`, `Pipeline.v`, `RemarshalSpec.v`, `HeapSpec.v`, `AnySpec.v`, `CycleSpec.v`, `MemorySpec.v`, `FloatSpec.v`, `ZeroSpec.v`, `TagProof.v` and `StructTagSpec.v` (tag grammar) | `Arshal*.v`, `FieldsProof.v`, `StructTagProof.v`, `FloatProof.v`, `FloatNearest.v`, `ZeroProof.v`, `CacheProof.v`, `MapProof.v`, `StoreProof.v`, `PipelineProof.v`, `RemarshalProof.v`, `HeapProof.v`, `HeapUnmarshal.v`, `HeapMarshal.v`, `AnyProof.v`, `CycleProof.v`, `CycleEnds.v`, `StepProof.v`, `StepRun.v`, `StepSafe.v`, `MemoryProof.v` |
| `thriftfile` | scanner, parser | `Tokens.v`, `Utf8.v`, `Scan.v`, `Parse.v`, `ParseText.v`, `FileSet.v` | `LexSpec.v`, `GrammarSpec.v`, `PosSpec.v`, `LayoutSpec.v` | `LexProof.v`, `ScanProof.v`, `ScanRun.v`, `ParseProof.v`, `ParseComplete.v`, `PosProof.v`, `BadDefs.v`, `Shift.v`, `Recover.v`, `FileSetProof.v`, `LayoutProof.v` |
| `thrifttest`, `JoinProtocol` | the conformance test | `ThriftTest.v`, `ThriftTestTable.v` | `ThriftTestSpec.v` | `ThriftCalm.v`, `ThriftTestProof.v` |

Property theorems are in `Properties_*.v`, which contain the statements, short
proofs that call the lemmas above, concrete cases that meet the hypotheses, and
`Print Assumptions` for every theorem.  `MANIFEST.json` maps each property to
its theorems.  A theorem whose name ends in `_partial` proves the part of the
property that holds; one that ends in `_refuted` proves that the rest is false
of the code.

Loops and recursions that Go does not bound carry a fuel argument in the model.
Running out of fuel is a separate outcome, never confused with a result; the
theorems either show that a stated fuel is enough for every input (`C09`, `C31`,
`C40`) or hold for every fuel for which the program returns, together with
`Fuel.v`, which shows that more fuel changes nothing.

## 2. How each property is proved

C01, C03  Conformance: `run writer (write v)` produces the encoding of `Spec.v`; induction on value trees. Where field ids wrap the compact writer does something else; `Wraps.v` shows by the unambiguity of the encoding that it is then never the published one.
C02, C04  Round trip on `encode v ++ rest` through buffered reader and writer; induction on value trees.
C05, C06  Message headers: computation lemmas on the header programs.
C07  Skip on `encode v ++ rest`; induction on value trees.
C08  Truncation: on every strict prefix; induction on value trees.
C09  Totality: for every byte list every method and `Skip` return, with fuel bounded by the input.
C10  Skip against structured read on arbitrary input: joint induction.
C11  Refinement of the concrete bufio.Reader to the abstract stream, once for all programs.
C12  Abstract stream with a silent end: proved for binary; refuted for compact (varints peek ahead).
C13, C15  Varints: induction on the 10-step loop.
C14  ReadString/ReadBytes: induction on the chunk loop.
C16, C17, C18  Compact headers and nesting: arithmetic with int16 wrap, stack of field ids.
C19, C20  Writer invariant over all call histories and all sinks; Reset as equality of observable behaviour (refuted for the compact writer: the Flusher is forgotten).
C21  Consequence of C02/C04.
C22  Case analysis over all bytes.
C23-C30, C34, C35, C43  `Arshal.v`: marshal/unmarshal as programs over the Writer/Reader interface; an image of the Go value as a Thrift value, then both protocols.
C31  Codec construction, marshal and unmarshal end for struct-guarded types; refuted for struct-free cycles and for required nil recursive pointers. Exactly: lookup ends iff `eager` is accessible; Marshal ends iff the value stands for a Thrift value (`MarshalEnds.v`).
C32  Interleaving state machine, invariant by induction over schedules.
C33  Memo state machine, induction over histories.
C36-C39  Scanner against the lexical grammar of `LexSpec.v`.
C40-C42  Parser against the grammar of `GrammarSpec.v`; soundness and completeness by induction.
C44, C45  Names computed for every value; message texts.
C46  Refuted: for every depth there is an input reaching it. `Depth.v` has Skip with separate room for nested calls and for fields; on the encoding of a value, by induction on the value, it needs just as much as the value has levels.
C47  Bool bytes: case analysis for both readers.
C48  Invariant on the line table kept by every scanner and parser step.
C49  Invariant on the tree under construction.
C50, C51  Lock-step simulation of two parses whose sources differ by a prefix.
C52  The mapping of `MapSpec.v`, stated without the codecs, contains the image Marshal writes; it is functional. Induction on codecs and on the mapping.
C53  `StoreSpec.v` states, without the codecs, which Thrift values fit a type and what is stored. Induction on the fuel of `decode` (ArshalDec.v) in both directions; the relation is functional up to spare capacity.
C54  Two types are compatible if some relation on types is closed under taking parts (so recursive types are covered). Every value of one stands for a Thrift value that conforms to the other (induction on `stands_for`); then C52 and C53.
C55  `Pipeline.v` has the two programs. Induction on the list of messages; between messages the state of the compact Writer has no pending bool field, and the Reader's state is unchanged. Each step is C05 or C06, then C54 or C07.
C56  `RemarshalSpec.v` says when a field that is sent comes back as one that is not, and what the order of map entries may change. By induction on `stands_for` (C52) a value that makes the trip of C23 stands for the same Thrift value; by induction on the value that came back, its fields are zero after a second trip exactly if they were before. Then C52 twice and C53.
C57  `Heap.v` has Unmarshal once more, on memory: cells at addresses, with append, Grow, SetLen and SetMapIndex. `HeapSpec.v` says which value a variable holds and which addresses it refers to. A simulation between the two models, by induction on the depth: each closure keeps the variable's addresses without repetition and writes nowhere else.
C58  Marshal on memory in `Heap.v`; the same simulation, with sharing allowed, and memory below the first free address unchanged.
C59  the codec's Writer calls and Reader calls side by side, by induction on the value (`Mirror.v`); then any handlers, and the Memo's.
C60  `TestProtocol` as a function on its variables (`ThriftTest.v`); an invariant between cases, with C23, C56 and the uniqueness of the Compact encoding; a Reader on a bytes.Buffer keeps no pending error (`ThriftCalm.v`); its table in `ThriftTestTable.v`.
C61  `MemorySpec.v` says how large a value is. Induction on the depth of Unmarshal with a potential: what is in the destination plus K for every byte left never grows; each successful read of a value puts aside what the next zero value, or the next growth of a slice, costs.
C62  `ParseText.v` models the texts. Errors that `Less` cannot tell apart have the same place (C48), hence the same offset, hence are equal; so the sorted list is unique. Decimal notation is specified apart from the model.
C63  `Shared.v` and `SharedW.v` have a world of bufio objects on io.Readers (io.Writers) or on each other, with NewReader(Size), NewWriter(Size) and Reset as in Go. One that sits on an io.Reader is simulated by `Bufio.v` (`BufioW.v`), so each turn is C53 (C01) and the rest an invariant over turns (`SharedTurns.v` says what the turns are). `SharedReach.v` bounds what the calls on a Writer can reach: an invariant over every set of io.Writers closed under what they write to.
C64  `Protocols.v` has the values of type Protocol and their names; `ProtocolsSpec.v` says which understand each other. A joined one equals the join of two basic ones (induction), so there are nine pairs; the first four bytes of a message tell them apart. C55 and C60 do the rest.
C65  `FloatSpec.v` says what a bit pattern stands for and what rounding is. The magnitudes of float32s are numbered in ascending order, so the two neighbours of a double are a number and the next, and which is taken is what `rne` decides (`FloatNearest.v`).
C66  `EndSpec.v` says what it is for bytes to settle a result. Each method is followed on all continuations of its input at once (`Ends.v`), then any client, with the log of its calls (`EndClients.v`); Skip hands on the error of the call that failed (`Relay.v`).
C67  `StructTagSpec.v` is the grammar of tags and of Go string literals. The scanner and Unquote are shown sound and complete for it, by induction on the literal and on the fuel; the fast path of Unquote agrees since the slow one is deterministic. C28 does the rest.
C68  `FileSet.v` models go/token's FileSet with its binary search and its cache as a machine with the steps AddFile, AddLine and Position. Invariant: the ranges of the files are disjoint and ascending, line tables ascend from 0; so the search finds the one file and the one line. C48's line starts do the rest.
C69  From C41 (Parse returns a tree without errors iff the tokens derive it): the joined text has the joined tokens (`LayoutProof.source_join`: UTF-8 decoding composes on valid text, no token can be extended by a newline), and every production of the grammar is closed under replacing semicolons by separators (`st_file`).
C70  Each case by running `ReadFieldBegin` on the abstract stream, then refinement to bufio (`layer_refines`); the table of types is stated in `Properties_Headers.v` and not taken from the code.
C71  As C70, for the headers of collections and messages (`Properties_Collections.v`), with varints as in C15 (`leb_value`, canonical or not).
C72  A relation `says` from Go values to lists of Writer calls (`TraceSpec.v`), stated on Go types and struct tags and not with the codecs; induction on the model's fuel that Marshal `plays` such a list (`TraceProof.v`); what `plays` means on an arbitrary Writer is C30's lemma. That the list is unique: a nested induction on `says`.
C73  The encodings cut into parts and what a cut means (`PartsSpec.v`; `C73_parts` shows they are the encodings of `Spec.v`); an inductive description of a read or skip that fails at one call (`PartsRun.v`), induction on values over all strict prefixes (`PartsProof.v`, `PartsCmp.v`), headers (`PartsMsg.v`), and bufio by refinement.
C74  Places in a value, which bytes have come at a place and what a variable holds there (`LeftSpec.v`); a call-by-call description of a read that breaks off there, from which Unmarshal's result follows by induction on the value (`LeftProof.v`); every strict prefix has a place and breaks off there (`LeftBin.v`, `LeftCmp.v`); bufio by refinement.
C75  Messages, what the receiver must get of each beginning of them (`CrashSpec.v`). The sender: programs that stop at errors either do what they do without faults or report an error, with a beginning of the bytes sent (`loud_mem`, `halts_faulty` in `CrashProof.v`; Marshal is one by C72). The receiver: induction on the messages; whole ones by C55, broken ones by C73 and C74.
C76  What each cell of memory is for, as a typing of addresses that allows all sharing and cycles (`AnySpec.v`). Unmarshal on memory is compared with a copy of it that has no values, just the calls (`ghost` in `AnyProof.v`), by induction on the depth: the same calls until a panic, the typing kept, only cells of kinds the type reaches written to, which is also why a slice header or map is still there when its element has been read. Any destination and a new variable (C57) are both compared with the copy.
C77  Which values lie within which and are to be written, and `endless`: an infinite path among them (`CycleSpec.v`). On the memory and typing of C76: by induction on the depth Marshal only adds memory, does not panic, and where it returns nil every value within the one it was given is accessible (`CycleProof.v`); an accessible value has no infinite path. Conversely, by induction on accessibility, with enough depth Marshal does not run out of it (`CycleEnds.v`).
C78  Marshal with each access to memory an event (`HeapStep.v`), and a transition system in which any goroutine does its next event. A relation between such a program and Marshal on values says that it only reads memory it knows (the shared part and its own), only writes its own, and makes the same Writer calls whatever happens to other memory; by induction on the depth Marshal is so related (`StepProof.v`). Invariant of the system: every goroutine is so related, and what they own is disjoint; executions end because programs are well-founded trees (`StepRun.v`). For cyclic values the same with the typing of C76 in place of the values (`StepSafe.v`). By a simulation (`MarAlone.v`) a goroutine that goes on while the others wait does what the Marshal of `Heap.v` does, for any memory, so the two models of Marshal are the same code.
C79  Unmarshal with each access to memory an event (`UnmStep.v`), and the transition system of C78. A relation between such a program and what Unmarshal asks a Reader (`ghost` of C76) says that it only reads and writes memory it owns, with values of the right kind, and asks the same whatever happens to other memory; by induction on the depth Unmarshal is so related (`UnmSafe.v`). Invariant of the system: every goroutine is so related, and what they own is disjoint (`UnmRun.v`). What the variables hold in the end is only said to be well typed, not to be what Unmarshal alone leaves there. By a simulation (`UnmAlone.v`) a goroutine that goes on while the others wait leaves cell by cell what the Unmarshal of `Heap.v` leaves, so the two models of Unmarshal are the same code.

## 3. Trusted base

* Coq 8.16.1's kernel, its `vm_compute` machine (used in Examples and in a few
  finite case analyses), and the reading of the Go sources in the comments.
* `Print Assumptions` says "Closed under the global context" for every theorem
  listed in MANIFEST.json: no axioms, neither the standard library's nor others.
  (A list of all axioms in loaded files also shows `Coq.ssr.ssrunder.Under_rel`
  and its companions: they are parameters of a module the standard library loads
  for the `under` tactic; no theorem here depends on them.)
* No functor, module type, section-less variable, plugin or changed kernel flag
  is used.

### What is modelled

All methods of `thriftbinary` and `thriftcompact` readers and writers,
`thriftwire` (types, headers, Skip, Next, ReadString/ReadBytes, varints),
`thriftmemo` (memo.go, zmemo.go), `thrift` (arshal.go, arshal_default.go,
fields.go, errors.go), `thriftfile` (scanner.go, parser.go, tokens.go, nodes.go),
the generated String methods, and from Go's standard library the parts of
`bufio`, `encoding/binary`, `unicode/utf8`, `strconv`, `math` and `reflect`
(`StructTag.Lookup` with `strconv.Unquote` in `StructTag.v`) that they use.  `go/token` (`FileSet.v`).

### What is a parameter of the theorems

* The unicode tables above ASCII (`unicode`); `sort.Sort`/`sort.Slice` (any
  function whose result is sorted and a permutation); the growth policy of
  slices; whether reflect's IsZero holds of -0.0 (it differs between Go
  releases); the IsZero methods of user types (assumed to return and to have no
  effects); reflect.Type.String and the texts of errors from outside (`Names.v`).
* The transport: any script of reads, any sink.

### What is not modelled

* `Protocol` values of other packages, `thrift/client.go` (an interface), the
  generator `memogen.go`, example and test files.
* `bufio.NewReader(r)` returning `r` itself when it is already a large enough
  `*bufio.Reader`, except in C63; bufio objects that read from (write to) themselves through others.
* Aliasing: Go values are trees, except in C57 and C58.  These show that Marshal and
  Unmarshal on memory (`Heap.v`) do what they do on trees, provided the value is a finite tree (cyclic
  values make Marshal recurse for ever) and, for Unmarshal, that no two parts of the destination share
  memory; C76 drops the last condition and says what remains, C77 says what Marshal does to any value, also a cyclic one, and C78 what several calls of it do at once, C79 several calls of Unmarshal.  There a byte of a `[]byte` and a variable of type
  uint8 are different memory, as are an array and its elements.  A Memo keeps the slices it is given.
* In `Heap.v` reading bytes is one step: the Reader returns the bytes, which are then appended (in the
  Go code a Reader appends them piece by piece; which part of the old array is overwritten before a new one
  is made is an arbitrary choice).  Garbage collection.
* In `HeapStep.v` and `UnmStep.v` memory is sequentially consistent (C78 and C79 show there is no race, for which Go promises that),
  the entries of a map are read in one step and the bytes of a `[]byte` before the Writer is called, calling an IsZero method
  is one step, and the Writers and Readers share nothing with the values or each other.  The codec cache is C32's (`Cache.v`).
* In the scanner, `lineOffset` and a nil error handler.  The parser model works with offsets; the bases
  that `go/token.FileSet` gives to files are in `FileSet.v` (C68).
* Memory limits and stack overflow: the model has no bound on either (C46 is
  about the recursion depth itself).
* In `Cache.v`, `sync.Map` operations and `sync.Once` are atomic steps of a
  sequentially consistent machine; C32_no_race shows that the other shared
  accesses are ordered.
* Wording of errors other than `SemanticError`, those in `Names.v` and those of Parse (`ParseText.v`; messages of the parser in `Parse.v`).

## 4. Findings

Deviations from what a user may expect, each proved or shown by an Example:

* C03: the compact writer's int16 subtraction wraps: field -32768 after field
  32767 is written in the one-byte form.
* C12: a compact reader can wait for bytes after the value (varints peek at ten): it does just if fewer than ten bytes
  have arrived from the start of some string in it (`Waits.v`: both ends of the stream are followed in lock-step).
* C66: a message cut off between two parts of its header gives plain io.EOF, as does a connection closed between messages
  (`C66_header_eof`), so a caller cannot tell the two apart by the error.
* C73: Skip of a string or UUID cut off inside its contents returns io.EOF, where reading it returns
  io.ErrUnexpectedEOF: Skip uses bufio's Discard and does not translate its error.
* C74: a failed Unmarshal leaves the variable half changed. A map whose new key came but not its value
  has an entry for that key with the zero value; a slice ends with an element that did not come whole; half a UUID is stored.
* C76: Unmarshal panics if a slice of the destination lies in its own array (`C76_panic_refuted`): the element is set to zero
  before it is read into, and with it the slice that is being read.
* C77: Marshal does not notice that a value contains itself. It writes without end: it returns only if the Writer fails (`C77_ring_runs`),
  else the stack overflows, which Go cannot recover from.
* C67: a tag that departs from the format before its `thrift` pair (a space after a colon, say) is an error on an exported
  field, but on an unexported one it goes unnoticed, though a `thrift` pair that can be read is an error there (`C67_sample`).
* C19, C20: after Reset the compact writer's Flush no longer reaches an
  underlying Flusher: it behaves just as a new one on the same io.Writer without its Flush method
  (`C20_compact_writer_reset_exact`).
* C63 (and C20): after Reset on a `*bufio.Reader` a binary Reader reads ahead of what it is asked for, unlike a new one
  (`C63_reset_binary_refuted`); Reset redirects and empties the `*bufio.Reader` or `*bufio.Writer` the caller made the
  Reader or Writer on (`C63_reset_takes_over`, `C63_reset_writer_takes_over`).
* C22: an empty compact set or list with element type Stop is refused, although
  documented as allowed.
* C25: a nil pointer is allocated although the types do not match.
* C29: two fields with one id are accepted, and a value is lost. Unmarshal treats such structs as if all but one of these fields
  were tagged "-" (`C29_partial`; `Duplicates.v` leaves these fields out of the types and compares the two runs).
* C30: errors while skipping unknown fields come out without a SemanticError.
* C31: the codec of `type T []T` is never finished; a nil required pointer to
  the struct itself is marshalled without end.
* C33: a Memo tells `WriteBytes` from `WriteString`: Skip panics on bytes, so a Memo cannot stand in for a protocol
  where a `[]byte` field is unknown to the reader (`C33_bytes_are_no_strings`).
* C38: `definition_beg` and `definition_end` are scanned as keywords.
* C39: a string broken off by a newline or an unknown escape keeps the kind of
  the token before it; C49, C50: a BadDef can therefore end at such a string.
* C46: the input decides Skip's recursion depth (up to one level per byte, `C46_depth_*_partial`).
* C47: in compact collections byte 2 is read as true, although other
  implementations write it for false (`C47_two_is_true`).
* Empty non-nil slices and maps come back nil; "required" is not checked by
  Unmarshal; -0.0 in an optional field comes back +0.0 when IsZero holds of it.
* C60: `TestProtocol` never compares the value it read with the value it wrote;
  with a map in the case nothing at all is asked of it (`C60_demands`). Its
  "fully consumed" check looks at the buffer behind the bufio.Reader only.
