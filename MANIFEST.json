{
 "claims": [
  {
   "property": "C01",
   "status": "proved",
   "theorems": [
    "C01_binary_writer_conforms"
   ],
   "note": ""
  },
  {
   "property": "C02",
   "status": "proved",
   "theorems": [
    "C02_binary_round_trip"
   ],
   "note": "Reader buffer of at least 8 bytes (Go's minimum is 16)."
  },
  {
   "property": "C03",
   "status": "partial",
   "theorems": [
    "C03_compact_writer_conforms_partial",
    "C03_compact_writer_conforms_refuted",
    "C03_compact_writer_exact"
   ],
   "note": "Full statement is false: a field id that follows another one 65521 or more above it wraps the int16 subtraction and is written in the one-byte form (witness: 32767 then -32768). Proved for every value without such a pair. C03_compact_writer_exact says what is written for every value, and that it is the published encoding just for those without such a pair."
  },
  {
   "property": "C04",
   "status": "proved",
   "theorems": [
    "C04_compact_round_trip"
   ],
   "note": "Transport ends with an error; the silent case is C12."
  },
  {
   "property": "C05",
   "status": "proved",
   "theorems": [
    "C05_message_round_trip",
    "C05_strict_rejects_old",
    "C05_bad_version_rejected"
   ],
   "note": ""
  },
  {
   "property": "C06",
   "status": "proved",
   "theorems": [
    "C06_message_round_trip",
    "C06_bad_header_rejected",
    "C06_negative_id_layout"
   ],
   "note": "The last theorem notes that a negative id, although read back, is not laid out as published."
  },
  {
   "property": "C07",
   "status": "proved",
   "theorems": [
    "C07_skip_binary",
    "C07_skip_compact",
    "C07_skip_compact_written"
   ],
   "note": ""
  },
  {
   "property": "C08",
   "status": "proved",
   "theorems": [
    "C08_truncated_binary",
    "C08_truncated_compact"
   ],
   "note": "Stream that ends with an error (e.g. io.EOF); every buffer size from 10 and every state of the buffered reader."
  },
  {
   "property": "C09",
   "status": "proved",
   "theorems": [
    "C09_methods_return_binary",
    "C09_methods_return_compact",
    "C09_skip_returns_binary",
    "C09_skip_returns_compact",
    "C09_skip_binary_fuel",
    "C09_skip_compact_fuel",
    "C09_counted_faithful"
   ],
   "note": "Work is measured in Reader calls; crashes (panic, blocking, running out of fuel) are outcomes of the model and excluded."
  },
  {
   "property": "C10",
   "status": "proved",
   "theorems": [
    "C10_skip_agrees_binary",
    "C10_skip_agrees_compact"
   ],
   "note": ""
  },
  {
   "property": "C11",
   "status": "proved",
   "theorems": [
    "C11_fragmentation_binary",
    "C11_fragmentation_compact"
   ],
   "note": "Every buffer size from 10 (Go's minimum is 16); transports whose error persists and that never return 100 empty reads in a row."
  },
  {
   "property": "C12",
   "status": "partial",
   "theorems": [
    "C12_binary_never_waits",
    "C12_binary_message_never_waits",
    "C12_compact_never_waits_partial",
    "C12_compact_waits_partial",
    "C12_compact_message_waits_partial",
    "C12_unmarshal_waits_partial",
    "C12_compact_never_waits_refuted"
   ],
   "note": "Binary: proved. Compact: false (ReadUvarint peeks at ten bytes); proved exactly when it waits: reading, skipping or unmarshalling a value waits just if fewer than ten bytes have arrived from the start of some string in it."
  },
  {
   "property": "C13",
   "status": "proved",
   "theorems": [
    "C13_read_uvarint_drop_in",
    "C13_read_varint_drop_in",
    "C13_silent_differs"
   ],
   "note": "C13_silent_differs shows the one case outside the quantifier."
  },
  {
   "property": "C14",
   "status": "proved",
   "theorems": [
    "C14_read_bytes_exact",
    "C14_read_bytes_short",
    "C14_read_bytes_negative",
    "C14_read_string"
   ],
   "note": "Memory: the result never holds more than was received; Go's own slice growth is not modelled."
  },
  {
   "property": "C15",
   "status": "proved",
   "theorems": [
    "C15_uvarint_accepted",
    "C15_uvarint_written",
    "C15_varint_round_trip",
    "C15_varint_written",
    "C15_overflow_rejected"
   ],
   "note": ""
  },
  {
   "property": "C16",
   "status": "proved",
   "theorems": [
    "C16_field_header_bound",
    "C16_map_header_bound",
    "C16_set_list_header_bound"
   ],
   "note": ""
  },
  {
   "property": "C17",
   "status": "proved",
   "theorems": [
    "C17_field_header_decodes"
   ],
   "note": ""
  },
  {
   "property": "C18",
   "status": "proved",
   "theorems": [
    "C18_nested_reads",
    "C18_nested_writes",
    "C18_next_field",
    "C18_unmatched_read_end",
    "C18_unmatched_write_end"
   ],
   "note": ""
  },
  {
   "property": "C19",
   "status": "partial",
   "theorems": [
    "C19_prefix_binary",
    "C19_prefix_compact",
    "C19_flush_delivers_binary",
    "C19_flush_delivers_compact",
    "C19_error_sticks_binary",
    "C19_error_sticks_compact",
    "C19_failing_call_reports_binary",
    "C19_failing_call_reports_compact",
    "C20_compact_writer_reset_refuted",
    "C20_compact_writer_reset_exact"
   ],
   "note": "Proved in full for new writers of both protocols. False for a compact writer after Reset: its Flush no longer reaches an underlying Flusher."
  },
  {
   "property": "C20",
   "status": "partial",
   "theorems": [
    "C20_binary_writer_reset",
    "C20_binary_reader_reset",
    "C20_compact_reader_reset",
    "C20_compact_writer_reset_partial",
    "C20_compact_writer_reset_refuted",
    "C20_compact_writer_reset_exact",
    "C20_objects_are_layers",
    "C63_reset_binary_refuted",
    "C63_reset_writer_refuted"
   ],
   "note": "False for the compact writer, whose Reset forgets the io.Writer and with it an underlying Flusher; proved for it on other io.Writers and for the three other objects. C20_compact_writer_reset_exact says just how it behaves: as a new one on the same io.Writer with its Flush method taken away. On io.Readers and io.Writers that are themselves *bufio.Readers and *bufio.Writers a new object shares the buffer and a reset one does not (C63)."
  },
  {
   "property": "C21",
   "status": "proved",
   "theorems": [
    "C21_binary_unambiguous",
    "C21_compact_unambiguous"
   ],
   "note": "Compact: up to the types of empty maps, which are not on the wire."
  },
  {
   "property": "C22",
   "status": "partial",
   "theorems": [
    "C22_writer_refuses",
    "C22_reader_refuses",
    "C22_reader_refuses_map",
    "C22_skip_refuses",
    "C22_empty_map_accepted",
    "C22_empty_set_accepted_refuted"
   ],
   "note": "False in one clause: a compact set or list header of size zero with element type Stop is refused. The Unmarshal part is in C30."
  },
  {
   "property": "C23",
   "status": "proved",
   "theorems": [
    "C23_binary",
    "C23_compact",
    "C23_scalar_keys"
   ],
   "note": "For types without duplicate field ids (see C29). keys_distinct, automatic for scalar map keys, is needed because struct keys that differ only in fields that are not serialised collide after the trip."
  },
  {
   "property": "C24",
   "status": "proved",
   "theorems": [
    "C24_binary",
    "C24_compact",
    "C24_defined",
    "C24_unknown_ignored",
    "C24_order_irrelevant"
   ],
   "note": ""
  },
  {
   "property": "C25",
   "status": "partial",
   "theorems": [
    "C25_field",
    "C25_element",
    "C25_key",
    "C25_value",
    "C25_field_partial",
    "C25_element_partial",
    "C25_key_partial",
    "C25_value_partial",
    "C25_pointer_refuted"
   ],
   "note": "Proved for all non-pointer destinations, with the exact state left behind. False for nil pointers, which are allocated before the mismatch is detected; the partial theorems say exactly what is left behind for pointers."
  },
  {
   "property": "C26",
   "status": "proved",
   "theorems": [
    "C26_list",
    "C26_map"
   ],
   "note": ""
  },
  {
   "property": "C27",
   "status": "proved",
   "theorems": [
    "C27_fields",
    "C27_zero"
   ],
   "note": "Which fields are omitted is said by zero_field in ArshalSpec.v, apart from the code."
  },
  {
   "property": "C28",
   "status": "proved",
   "theorems": [
    "C28_accepted",
    "C28_ignored",
    "C28_rejected",
    "C28_surfaces"
   ],
   "note": ""
  },
  {
   "property": "C29",
   "status": "partial",
   "theorems": [
    "C29_refuted",
    "C29_partial",
    "C29_binary_partial",
    "C29_compact_partial"
   ],
   "note": "The property is false of the code: a struct with two fields of one id is accepted by both Marshal and Unmarshal and a value is lost (C29_refuted). Proved instead: Unmarshal does exactly what it would do if all but one of the fields with one id were tagged '-'. Uniqueness is a hypothesis of C23."
  },
  {
   "property": "C30",
   "status": "partial",
   "theorems": [
    "C30_marshal",
    "C30_marshal_nil",
    "C30_unmarshal",
    "C30_unmarshal_returns",
    "C30_skip_refuted"
   ],
   "note": "Proved for Marshal in full, and for Unmarshal except inside fields unknown to the struct, where the error of the call that failed comes out without a SemanticError (C30_skip_refuted). C30_unmarshal_returns: it is always that error that is returned, wrapped or bare."
  },
  {
   "property": "C31",
   "status": "partial",
   "theorems": [
    "C31_codec",
    "C31_marshal",
    "C31_unmarshal_binary",
    "C31_unmarshal_compact",
    "C31_codec_refuted",
    "C31_marshal_refuted",
    "C31_codec_exact",
    "C31_marshal_exact",
    "C31_zero_exact"
   ],
   "note": "Proved for all types whose codec construction is well founded. False for type T []T (codec lookup never ends) and for a nil required pointer to the struct itself (Marshal never ends). The exact theorems say for which types and values Marshal ends."
  },
  {
   "property": "C32",
   "status": "proved",
   "theorems": [
    "C32_one_codec",
    "C32_never_changes",
    "C32_built_once",
    "C32_complete_table",
    "C32_no_race",
    "C32_no_deadlock"
   ],
   "note": "Interleavings of accesses to shared memory; sync.Map and sync.Once operations are atomic and memory is sequentially consistent, which C32_no_race justifies for the variables they guard."
  },
  {
   "property": "C33",
   "status": "proved",
   "theorems": [
    "C33_replay",
    "C33_reset",
    "C33_nothing_else",
    "C33_breakpoint",
    "C33_bytes_are_no_strings"
   ],
   "note": "WriteStructEnd is two steps (the stop field and StructEnd), so a breakpoint can fall between them: the call then returns ErrBreak with the stop field recorded. Calls that do not match what was written panic. Slices kept by WriteBytes are their contents."
  },
  {
   "property": "C34",
   "status": "proved",
   "theorems": [
    "C34_integers"
   ],
   "note": ""
  },
  {
   "property": "C35",
   "status": "proved",
   "theorems": [
    "C35_float32",
    "C35_same_value",
    "C35_float64"
   ],
   "note": ""
  },
  {
   "property": "C36",
   "status": "proved",
   "theorems": [
    "C36_every_byte",
    "C36_progress"
   ],
   "note": ""
  },
  {
   "property": "C37",
   "status": "proved",
   "theorems": [
    "C37_next_token",
    "C37_longest",
    "C37_full_comment",
    "C37_line_comment",
    "C37_whole_file"
   ],
   "note": ""
  },
  {
   "property": "C38",
   "status": "partial",
   "theorems": [
    "C38_keywords_partial",
    "C38_keywords_refuted"
   ],
   "note": "The property is false of two words: definition_beg and definition_end, markers in the token table, are scanned as keywords. Proved for every other word."
  },
  {
   "property": "C39",
   "status": "partial",
   "theorems": [
    "C39_context_free_partial",
    "C39_context_free_refuted"
   ],
   "note": "The property is false of a string broken off by a newline or an unknown escape: it keeps the kind of the token before it. Proved for every other token, for the text and place of every token, and that a broken string keeps just that kind."
  },
  {
   "property": "C40",
   "status": "proved",
   "theorems": [
    "C40_total"
   ],
   "note": ""
  },
  {
   "property": "C41",
   "status": "proved",
   "theorems": [
    "C41_grammar",
    "C41_one_tree"
   ],
   "note": ""
  },
  {
   "property": "C42",
   "status": "proved",
   "theorems": [
    "C42_errors"
   ],
   "note": ""
  },
  {
   "property": "C43",
   "status": "proved",
   "theorems": [
    "C43_negative_list",
    "C43_negative_set",
    "C43_negative_map",
    "C43_unmarshal_list",
    "C43_unmarshal_map",
    "C09_skip_returns_binary",
    "C09_skip_returns_compact",
    "C31_unmarshal_binary",
    "C31_unmarshal_compact",
    "C61_binary",
    "C61_compact"
   ],
   "note": ""
  },
  {
   "property": "C44",
   "status": "proved",
   "theorems": [
    "C44_type",
    "C44_message_type",
    "C44_compact_type",
    "C44_token",
    "C44_distinct"
   ],
   "note": "Each function is compared with a table of documented names for all 256 values; out-of-range indexing would be None."
  },
  {
   "property": "C45",
   "status": "proved",
   "theorems": [
    "C45_message",
    "C45_identifies",
    "C45_wire",
    "C45_unwrap"
   ],
   "note": "reflect.Type.String() and the texts of errors made elsewhere (transport, struct tag errors) are parameters."
  },
  {
   "property": "C46",
   "status": "partial",
   "theorems": [
    "C46_depth_binary_partial",
    "C46_depth_compact_partial",
    "C46_within_is_skip",
    "C46_depth_exact_binary",
    "C46_depth_exact_compact",
    "C46_depth_bounded_refuted"
   ],
   "note": "The property is false: Skip's recursion depth grows with the input. C46_depth_bounded_refuted proves the negation; the partial theorems bound the depth by the length of the input, and the exact ones say that for data that is a value it is the number of levels of that value."
  },
  {
   "property": "C47",
   "status": "proved",
   "theorems": [
    "C47_bool_binary",
    "C47_bool_compact",
    "C47_bool_field_compact"
   ],
   "note": "Byte 2, which other compact implementations write for false in collections, is read as true (C47_two_is_true)."
  },
  {
   "property": "C48",
   "status": "proved",
   "theorems": [
    "C48_places",
    "C48_one_place"
   ],
   "note": "Lines as go/token counts them: a newline that ends the file starts no line. Columns count bytes."
  },
  {
   "property": "C49",
   "status": "proved",
   "theorems": [
    "C49_bad_defs"
   ],
   "note": "The end of a BadDef need not be a definition keyword in the text: after a broken string literal the scanner keeps the kind of the token before (C49_end_at_string)."
  },
  {
   "property": "C50",
   "status": "proved",
   "theorems": [
    "C50_recovery"
   ],
   "note": "A BadDef can also end at the quotation mark of a broken string, whose token keeps the kind of the token before; there the claim fails (C50_at_string)."
  },
  {
   "property": "C51",
   "status": "proved",
   "theorems": [
    "C51_mark"
   ],
   "note": ""
  },
  {
   "property": "C52",
   "status": "proved",
   "theorems": [
    "C52_binary",
    "C52_compact",
    "C52_one_value",
    "C52_one_type"
   ],
   "note": ""
  },
  {
   "property": "C53",
   "status": "proved",
   "theorems": [
    "C53_stores",
    "C53_determined",
    "C53_binary",
    "C53_compact"
   ],
   "note": ""
  },
  {
   "property": "C54",
   "status": "proved",
   "theorems": [
    "C54_binary",
    "C54_compact",
    "C54_symmetric",
    "C54_reflexive"
   ],
   "note": ""
  },
  {
   "property": "C55",
   "status": "proved",
   "theorems": [
    "C55_binary",
    "C55_compact"
   ],
   "note": "In the compact protocol the message type must be below 8: C06."
  },
  {
   "property": "C56",
   "status": "proved",
   "theorems": [
    "C56_binary",
    "C56_compact",
    "C56_small_maps",
    "C56_tidy"
   ],
   "note": "For programs without IsZero methods, whose answers are up to the user; -0 must count as zero inside structs if it does by itself (true of every Go release). C56_untidy is the exception named in the statement."
  },
  {
   "property": "C57",
   "status": "proved",
   "theorems": [
    "C57_unmarshal",
    "C57_others",
    "C57_rejects",
    "C57_new"
   ],
   "note": "On a Reader whose ReadBytes appends to the buffer it is given, as both protocols' do. Destinations parts of which share memory are outside."
  },
  {
   "property": "C58",
   "status": "proved",
   "theorems": [
    "C58_marshal",
    "C58_sharing"
   ],
   "note": "IsZero methods are user code; they are assumed to answer by the value only and to write nothing."
  },
  {
   "property": "C59",
   "status": "proved",
   "theorems": [
    "C59_steps",
    "C59_memo"
   ],
   "note": "When the breakpoint cuts off the stop field, the Writer method named is WriteStructEnd, which writes it."
  },
  {
   "property": "C60",
   "status": "proved",
   "theorems": [
    "C60_demands",
    "C60_messages",
    "C60_binary",
    "C60_compact",
    "C60_headers",
    "C60_joined",
    "C60_repository"
   ],
   "note": "The model stops at the first failure; reflect.New, t.Run and the texts of failures are not modelled."
  },
  {
   "property": "C61",
   "status": "proved",
   "theorems": [
    "C61_binary",
    "C61_compact"
   ],
   "note": "Sizes are counted in values and bytes of strings (MemorySpec.v). How much append over-allocates is a parameter, assumed to at most double a slice, up to a constant, as the Go runtime does; the over-allocation of []byte in Reader.ReadBytes is not counted (it at most doubles the bytes read)."
  },
  {
   "property": "C62",
   "status": "proved",
   "theorems": [
    "C62_order",
    "C62_text",
    "C62_recover",
    "C62_code_point",
    "C62_as_written"
   ],
   "note": ""
  },
  {
   "property": "C63",
   "status": "proved",
   "theorems": [
    "C63_new",
    "C63_turns",
    "C63_new_writer",
    "C63_write_turns",
    "C63_reset_compact",
    "C63_reset_binary_refuted",
    "C63_reset_takes_over",
    "C63_reset_writer_takes_over",
    "C63_reset_writer_leaves",
    "C63_reset_writer_self",
    "C63_reset_binary_self",
    "C63_reset_writer_refuted"
   ],
   "note": "The _refuted theorems show the exceptions that the statement names (Reset). bufio objects chained in a cycle are not modelled."
  },
  {
   "property": "C64",
   "status": "proved",
   "theorems": [
    "C64_headers",
    "C64_messages",
    "C64_test",
    "C64_names"
   ],
   "note": "Protocols of other packages are not among those quantified over. Types of messages that need more than three bits, which Thrift does not have, are not carried by compact (C06)."
  },
  {
   "property": "C65",
   "status": "proved",
   "theorems": [
    "C65_binary",
    "C65_compact",
    "C65_determined",
    "C65_float64_keys",
    "C65_float32_keys"
   ],
   "note": "reflect.Value.SetFloat and the equality of map keys are modelled on bit patterns (GoFloat.v); these theorems show that the model is what IEEE 754 says. Which NaN a NaN becomes is not part of the specification."
  },
  {
   "property": "C66",
   "status": "proved",
   "theorems": [
    "C66_call_binary",
    "C66_call_compact",
    "C66_skip_binary",
    "C66_skip_compact",
    "C66_unmarshal_binary",
    "C66_unmarshal_compact",
    "C66_header_eof"
   ],
   "note": "Transports that go silent instead of ending are C12. C66_header_eof is a finding: a message header cut off at the end of its version word is reported with plain io.EOF, like a connection closed between messages."
  },
  {
   "property": "C67",
   "status": "proved",
   "theorems": [
    "C67_lookup",
    "C67_determined",
    "C67_other_keys",
    "C67_after",
    "C67_accepted",
    "C67_ignored",
    "C67_rejected",
    "C67_rejected_text"
   ],
   "note": "C67_sample has a finding: on an unexported field a tag that departs from the format goes unnoticed."
  },
  {
   "property": "C68",
   "status": "proved",
   "theorems": [
    "C68_resolves",
    "C68_bad_defs",
    "C68_apart",
    "C68_lookup_pure",
    "C68_nowhere",
    "C68_parse",
    "C68_first"
   ],
   "note": "go/token is modelled from its documented go1.21 source (FileSet.v), each call as one step; //line comments and RemoveFile are left out, nothing in the repository uses them."
  },
  {
   "property": "C69",
   "status": "proved",
   "theorems": [
    "C69_layout",
    "C69_semicolons",
    "C69_append",
    "C69_concat"
   ],
   "note": "LayoutSpec.v says which token sequences differ in their separators only. C69_needs_newline shows that the newline between two files is needed."
  },
  {
   "property": "C70",
   "status": "proved",
   "theorems": [
    "C70_binary_stop",
    "C70_binary_field",
    "C70_compact_stop",
    "C70_compact_delta",
    "C70_compact_long",
    "C70_compact_unknown",
    "C70_compact_all"
   ],
   "note": "Together the compact theorems cover every first byte (C70_compact_all). C70_sample: 0xF0 ends a struct, and IDs wrap around from 32767 to -32768."
  },
  {
   "property": "C71",
   "status": "proved",
   "theorems": [
    "C71_binary_map",
    "C71_binary_set_list",
    "C71_binary_message",
    "C71_compact_short",
    "C71_compact_long",
    "C71_compact_unknown",
    "C71_compact_empty_map",
    "C71_compact_map",
    "C71_compact_map_unknown",
    "C71_compact_message"
   ],
   "note": "The compact message header needs the end of the input to be an error and not silence, because of Peek(10) (C12). C71_sample: a list of -1 elements; a list of three elements of the type Stop; a redundant size; a sequence ID with more than 32 bits."
  },
  {
   "property": "C72",
   "status": "proved",
   "theorems": [
    "C72_calls",
    "C72_one_way"
   ],
   "note": "C72_node: all calls for a value of a recursive struct. The order of a map is the one in which Go visits it, which is part of the value in the model. Unsupported types are C30 and C25."
  },
  {
   "property": "C73",
   "status": "proved",
   "theorems": [
    "C73_parts",
    "C73_one_answer",
    "C73_binary_value",
    "C73_compact_value",
    "C73_binary_message",
    "C73_old_message",
    "C73_compact_message",
    "C73_closed"
   ],
   "note": "cut_off (PartsSpec) is functional, so each theorem determines the error. Bytes that are no prefix of an encoding are C66."
  },
  {
   "property": "C74",
   "status": "proved",
   "theorems": [
    "C74_binary",
    "C74_compact"
   ],
   "note": "came and partly (LeftSpec) describe the bytes and the variable at a place of the value; every strict prefix has such a place (first half of each theorem), and for each the variable is as partly says. C74_sample and C74_applies: a map entry broken off in its value. Values that do not suit the variable, and other failures, are C25 and C66."
  },
  {
   "property": "C75",
   "status": "proved",
   "theorems": [
    "C75_binary",
    "C75_compact"
   ],
   "note": "C75_sample: an io.Writer that fails in its second Write. In the compact protocol the message type must be below 8 and the sequence number not negative, whose encoding is not the published one (C06)."
  },
  {
   "property": "C76",
   "status": "proved",
   "theorems": [
    "C76_unmarshal",
    "C76_tame",
    "C76_readers"
   ],
   "note": "C76_sample, C76_sample_tame and C76_ring: a Node that is its own Next. C76_knot and C76_panic_refuted: a type that is not tame, and a panic."
  },
  {
   "property": "C77",
   "status": "proved",
   "theorems": [
    "C77_marshal",
    "C77_endless",
    "C77_ends"
   ],
   "note": "C77_steady, C77_ring and C77_ring_runs: a Node that is its own Next is endless and meets the hypotheses. C77_twins: a shared value that is written, so finite."
  },
  {
   "property": "C78",
   "status": "proved",
   "theorems": [
    "C78_marshal",
    "C78_progress",
    "C78_races",
    "C78_end",
    "C78_ends",
    "C78_order",
    "C78_any",
    "C78_alone"
   ],
   "note": "C78_sample: two goroutines that take turns in marshalling one Node; both are at some moment about to write, and both return. C78_ring: C78_any on a Node that contains itself."
  },
  {
   "property": "C79",
   "status": "proved",
   "theorems": [
    "C79_unmarshal",
    "C79_memory",
    "C79_races",
    "C79_end",
    "C79_ends",
    "C79_alone"
   ],
   "note": "C79_sample: two goroutines that take turns in unmarshalling, each into a Node that contains itself; both are at some moment about to write, and both return. The values left are said to be well typed; which they are is said (C79_alone) of a goroutine that goes on while the others wait. C79_alone_sample: such a call."
  }
 ]
}