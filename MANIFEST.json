{
 "claims": [
  {
   "property": "C01",
   "status": "proved",
   "theorems": [
    "C01_u8_roundtrip",
    "C01_u16_roundtrip",
    "C01_u32_roundtrip",
    "C01_u64_roundtrip",
    "C01_u8_varint_roundtrip"
   ],
   "note": ""
  },
  {
   "property": "C02",
   "status": "proved",
   "theorems": [
    "C02_u8_wire_format",
    "C02_wire_format",
    "C02_size"
   ],
   "note": ""
  },
  {
   "property": "C03",
   "status": "proved",
   "theorems": [
    "C03_u8_decode_total",
    "C03_decode_total",
    "C03_in_range"
   ],
   "note": ""
  },
  {
   "property": "C04",
   "status": "proved",
   "theorems": [
    "C04_zigzag",
    "C04_signed_roundtrip",
    "C04_signed_wire"
   ],
   "note": ""
  },
  {
   "property": "C05",
   "status": "proved",
   "theorems": [
    "C05_u8_reencode_not_longer",
    "C05_reencode_not_longer",
    "C05_unique_encoding_refuted"
   ],
   "note": "Second half of the claim (uniqueness) is refuted by a witness."
  },
  {
   "property": "C06",
   "status": "proved",
   "theorems": [
    "C06_utf8_exact",
    "C06_decoded_wellformed",
    "C06_char_utf8"
   ],
   "note": ""
  },
  {
   "property": "C07",
   "status": "proved",
   "theorems": [
    "C07_string_decode"
   ],
   "note": ""
  },
  {
   "property": "C08",
   "status": "proved",
   "theorems": [
    "C08_buffer_decode"
   ],
   "note": ""
  },
  {
   "property": "C09",
   "status": "proved",
   "theorems": [
    "C09_char_roundtrip",
    "C09_char_decode",
    "C09_one_char_only_refuted"
   ],
   "note": "The claim that only one-character strings are accepted is refuted by a witness."
  },
  {
   "property": "C10",
   "status": "proved",
   "theorems": [
    "C10_roundtrip"
   ],
   "note": ""
  },
  {
   "property": "C11",
   "status": "proved",
   "theorems": [
    "C11_truncation"
   ],
   "note": ""
  },
  {
   "property": "C12",
   "status": "proved",
   "theorems": [
    "C12_prefix_free"
   ],
   "note": ""
  },
  {
   "property": "C13",
   "status": "proved",
   "theorems": [
    "C13_stream",
    "C13_stream_end"
   ],
   "note": ""
  },
  {
   "property": "C14",
   "status": "proved",
   "theorems": [
    "C14_local"
   ],
   "note": ""
  },
  {
   "property": "C15",
   "status": "proved",
   "theorems": [
    "C15_small_index",
    "C15_large_index",
    "C15_any_index_refuted"
   ],
   "note": "True up to index 16383, refuted beyond: C15_large_index shows no larger index ever reads back."
  },
  {
   "property": "C16",
   "status": "proved",
   "theorems": [
    "C16_string_keys_only",
    "C16_bad_key"
   ],
   "note": ""
  },
  {
   "property": "C17",
   "status": "proved",
   "theorems": [
    "C17_map_decode",
    "C17_last_wins",
    "C17_order_irrelevant"
   ],
   "note": ""
  },
  {
   "property": "C18",
   "status": "proved",
   "theorems": [
    "C18_unknown_length_seq",
    "C18_seq_lost",
    "C18_map_lost"
   ],
   "note": "Known lengths are C10 at DVec/DMap; unknown lengths are shown never to read back."
  },
  {
   "property": "C19",
   "status": "proved",
   "theorems": [
    "C19_struct_bytes",
    "C19_names_irrelevant",
    "C19_wrappers_add_nothing",
    "C19_struct_decode",
    "C19_newtype_decode"
   ],
   "note": ""
  },
  {
   "property": "C20",
   "status": "proved",
   "theorems": [
    "C20_header_roundtrip",
    "C20_member_count_truncated",
    "C20_oversized_never_read",
    "C20_every_header_refuted"
   ],
   "note": "Holds for member lists of at most 65535 entries; refuted beyond (the count is truncated silently)."
  },
  {
   "property": "C21",
   "status": "proved",
   "theorems": [
    "C21_wire_format"
   ],
   "note": ""
  },
  {
   "property": "C22",
   "status": "proved",
   "theorems": [
    "C22_accepts_grammar",
    "C22_failures",
    "C22_unassigned_code",
    "C22_local"
   ],
   "note": ""
  },
  {
   "property": "C23",
   "status": "proved",
   "theorems": [
    "C23_bounded",
    "C23_recursion",
    "C23_bounded_stack_refuted"
   ],
   "note": "Size and depth bounds hold; a fixed stack is refuted for every stack size."
  },
  {
   "property": "C24",
   "status": "proved",
   "theorems": [
    "C24_compiles",
    "C24_one_header",
    "C24_typed_header"
   ],
   "note": ""
  },
  {
   "property": "C25",
   "status": "proved",
   "theorems": [
    "C25_body_roundtrip",
    "C25_every_body_refuted"
   ],
   "note": "Needs dates that can be written under overflow checks; the unrestricted claim is refuted."
  },
  {
   "property": "C26",
   "status": "proved",
   "theorems": [
    "C26_decoded_iff_valid",
    "C26_decoded_validates"
   ],
   "note": "That a decoded body validates holds on every target; that it also fits the memory model is stated for 64-bit targets."
  },
  {
   "property": "C27",
   "status": "proved",
   "theorems": [
    "C27_truncated",
    "C27_local"
   ],
   "note": ""
  },
  {
   "property": "C28",
   "status": "proved",
   "theorems": [
    "C28_wire_format"
   ],
   "note": ""
  },
  {
   "property": "C29",
   "status": "proved",
   "theorems": [
    "C29_typed_read_by_header",
    "C29_truncated",
    "C29_message"
   ],
   "note": "For types whose header matches what is serialized (aligned); types without skip attributes always do."
  },
  {
   "property": "C30",
   "status": "proved",
   "theorems": [
    "C30_messages"
   ],
   "note": ""
  },
  {
   "property": "C31",
   "status": "proved",
   "theorems": [
    "C31_reencode"
   ],
   "note": "The size bound holds on every target; reading the re-encoding back is stated for 64-bit targets, since on 32-bit ones an array may declare 2^32 or more elements that take no bytes."
  },
  {
   "property": "C32",
   "status": "proved",
   "theorems": [
    "C32_body_crash",
    "C32_body_array_crash",
    "C32_body_no_crash_refuted",
    "C32_serde_crash"
   ],
   "note": "Crash-freedom is proved for serde and for bodies without arrays; arrays are refuted by nine bytes that crash the decoder for every element header."
  },
  {
   "property": "C33",
   "status": "proved",
   "theorems": [
    "C33_body_requests",
    "C33_body_bounded_refuted",
    "C33_serde_requests"
   ],
   "note": "Holds for serde and for headers without arrays; refuted for Body arrays."
  },
  {
   "property": "C34",
   "status": "proved",
   "theorems": [
    "C34_uint_bytes",
    "C34_int_bytes",
    "C34_into",
    "C34_uint_roundtrip",
    "C34_int_roundtrip",
    "C34_equality"
   ],
   "note": ""
  },
  {
   "property": "C35",
   "status": "proved",
   "theorems": [
    "C35_same_writes",
    "C35_same_reads",
    "C35_decimal_reads",
    "C35_decimal_same_reads_refuted"
   ],
   "note": "Decimal readers agree exactly on inputs characterised by C35_decimal_reads; unrestricted agreement is refuted."
  },
  {
   "property": "C36",
   "status": "proved",
   "theorems": [
    "C36_wrapper_roundtrip",
    "C36_format_roundtrip",
    "C36_one_encoding",
    "C36_same_bytes",
    "C36_every_scale_refuted"
   ],
   "note": "Needs the normalised scale to stay inside i64; refuted otherwise for builds without overflow checks (with checks the conversion panics)."
  },
  {
   "property": "C37",
   "status": "proved",
   "theorems": [
    "C37_date_order",
    "C37_time_order",
    "C37_decoded_order_refuted",
    "C37_bytes_order",
    "C37_numeric_order_refuted"
   ],
   "note": "The claim itself states that the number wrappers are not ordered numerically; shown by witnesses."
  },
  {
   "property": "C38",
   "status": "proved",
   "theorems": [
    "C38_conversion",
    "C38_roundtrip",
    "C38_reads_real_dates",
    "C38_decode"
   ],
   "note": ""
  },
  {
   "property": "C39",
   "status": "proved",
   "theorems": [
    "C39_roundtrip",
    "C39_conversion",
    "C39_no_panic_refuted"
   ],
   "note": "The panic is exhibited by bytes and characterised exactly in C39_conversion."
  },
  {
   "property": "C40",
   "status": "proved",
   "theorems": [
    "C40_writer_faults",
    "C40_ok_means_written",
    "C40_slow_writer"
   ],
   "note": ""
  },
  {
   "property": "C41",
   "status": "proved",
   "theorems": [
    "C41_torn_value",
    "C41_torn_header",
    "C41_torn_body"
   ],
   "note": ""
  },
  {
   "property": "C42",
   "status": "proved",
   "theorems": [
    "C42_chunking",
    "C42_fault_is_end",
    "C42_fault_reported",
    "C42_fault_is_end_32_refuted"
   ],
   "note": "Chunking independence holds for every decoder and build; equivalence of a fault with the end of input is for 64-bit targets and refuted for 32-bit ones."
  },
  {
   "property": "C43",
   "status": "proved",
   "theorems": [
    "C43_struct",
    "C43_enum",
    "C43_variant_after_skipped",
    "C43_skipped_variant_refuted",
    "C43_skipped_field_in_variant_refuted",
    "C43_skip_if_rejected",
    "C43_skip_if_in_variant_refuted"
   ],
   "note": "Proved for structs and for enums whose skipped variants trail; each other case is refuted by a witness, and C43_variant_after_skipped shows it in general."
  },
  {
   "property": "C44",
   "status": "proved",
   "theorems": [
    "C44_declared_length_64",
    "C44_string_32",
    "C44_bytes_32",
    "C44_counts_32",
    "C44_sizes",
    "C44_body_counts",
    "C44_truncation_detected_32_refuted"
   ],
   "note": "The claim is that 32-bit targets misbehave; shown for every over-declared length."
  },
  {
   "property": "C45",
   "status": "proved",
   "theorems": [
    "C45_bool_byte",
    "C45_option_byte"
   ],
   "note": ""
  },
  {
   "property": "C46",
   "status": "proved",
   "theorems": [
    "C46_f32",
    "C46_f64"
   ],
   "note": ""
  },
  {
   "property": "C47",
   "status": "proved",
   "theorems": [
    "C47_serialize_ok",
    "C47_i128",
    "C47_todo"
   ],
   "note": ""
  },
  {
   "property": "C48",
   "status": "proved",
   "theorems": [
    "C48_elements_bounded",
    "C48_entries_bounded",
    "C48_any_element_refuted"
   ],
   "note": "Bound proved for elements that occupy a byte; the unrestricted bound is refuted for unit elements."
  },
  {
   "property": "C49",
   "status": "proved",
   "theorems": [
    "C49_reencode_never_longer"
   ],
   "note": ""
  },
  {
   "property": "C50",
   "status": "proved",
   "theorems": [
    "C50_decode_encode_decode"
   ],
   "note": ""
  },
  {
   "property": "C51",
   "status": "proved",
   "theorems": [
    "C51_error_kinds"
   ],
   "note": ""
  },
  {
   "property": "C52",
   "status": "proved",
   "theorems": [
    "C52_header_memory"
   ],
   "note": ""
  },
  {
   "property": "C53",
   "status": "proved",
   "theorems": [
    "C53_body_size",
    "C53_unrestricted_refuted"
   ],
   "note": "Bound proved except for arrays whose elements occupy no bytes, where it is refuted."
  },
  {
   "property": "C54",
   "status": "proved",
   "theorems": [
    "C54_torn_stream"
   ],
   "note": ""
  },
  {
   "property": "C55",
   "status": "proved",
   "theorems": [
    "C55_recursion_overflows",
    "C55_otherwise_written"
   ],
   "note": ""
  },
  {
   "property": "C56",
   "status": "proved",
   "theorems": [
    "C56_same_writes",
    "C56_typed_reads_dynamic"
   ],
   "note": "HashMap values are covered when they iterate in key order; otherwise the bytes differ by a permutation of entries and C29 applies."
  },
  {
   "property": "C57",
   "status": "proved",
   "theorems": [
    "C57_widen_or_narrow",
    "C57_misread",
    "C57_same_bytes",
    "C57_signed"
   ],
   "note": ""
  },
  {
   "property": "C58",
   "status": "proved",
   "theorems": [
    "C58_bytes_written",
    "C58_bytes_read",
    "C58_string_read",
    "C58_map_written",
    "C58_option_written",
    "C58_option_read",
    "C58_option_read_back_refuted"
   ],
   "note": ""
  },
  {
   "property": "C59",
   "status": "proved",
   "theorems": [
    "C59_extra_fields",
    "C59_missing_fields",
    "C59_nested_refuted",
    "C59_more_variants",
    "C59_unknown_variant"
   ],
   "note": "C59_nested_refuted: extension is only safe at the end of the input."
  },
  {
   "property": "C60",
   "status": "proved",
   "theorems": [
    "C60_header_prefix_free",
    "C60_every_header_refuted"
   ],
   "note": ""
  },
  {
   "property": "C61",
   "status": "proved",
   "theorems": [
    "C61_bounds",
    "C61_tight",
    "C61_no_value",
    "C61_short_input"
   ],
   "note": "C61_short_input on 32-bit targets: if the type has no byte buffer, or fewer than 2^32 bytes were consumed."
  },
  {
   "property": "C62",
   "status": "proved",
   "theorems": [
    "C62_roundtrip",
    "C62_truncated",
    "C62_overflow",
    "C62_no_limit_refuted",
    "C62_any_input",
    "C62_decoded_fits",
    "C62_not_recursive"
   ],
   "note": ""
  },
  {
   "property": "C63",
   "status": "proved",
   "theorems": [
    "C63_floats",
    "C63_equality",
    "C63_roundtrip",
    "C63_same_bytes",
    "C63_equal_alike",
    "C63_equal_bytes_refuted",
    "C63_reflexive_refuted",
    "C63_symmetric",
    "C63_transitive"
   ],
   "note": ""
  },
  {
   "property": "C64",
   "status": "proved",
   "theorems": [
    "C64_date_size",
    "C64_time_size",
    "C64_bounds"
   ],
   "note": ""
  },
  {
   "property": "C65",
   "status": "proved",
   "theorems": [
    "C65_buffer",
    "C65_vec",
    "C65_smaller_buffer_refuted"
   ],
   "note": ""
  },
  {
   "property": "C66",
   "status": "proved",
   "theorems": [
    "C66_roundtrip",
    "C66_truncated",
    "C66_panics",
    "C66_borrowed",
    "C66_variant_moves",
    "C66_variant_number",
    "C66_skipped_variant",
    "C66_skip_serializing_refuted",
    "C66_skip_deserializing_refuted",
    "C66_skip_serializing_if_refuted"
   ],
   "note": "Agreement of the attributes is necessary: three refutations and C66_variant_moves show what happens without it."
  },
  {
   "property": "C67",
   "status": "proved",
   "theorems": [
    "C67_value",
    "C67_body",
    "C67_value_unambiguous",
    "C67_body_unambiguous",
    "C67_derived_struct"
   ],
   "note": ""
  },
  {
   "property": "C68",
   "status": "proved",
   "theorems": [
    "C68_address_value",
    "C68_address_key_text",
    "C68_address_key_read",
    "C68_address_key_wrong",
    "C68_address_map_read",
    "C68_address_map_roundtrip_refuted",
    "C68_other_keys_read"
   ],
   "note": ""
  },
  {
   "property": "C69",
   "status": "proved",
   "theorems": [
    "C69_value",
    "C69_body",
    "C69_header",
    "C69_value_dichotomy",
    "C69_derived_struct"
   ],
   "note": ""
  },
  {
   "property": "C70",
   "status": "proved",
   "theorems": [
    "C70_value",
    "C70_body",
    "C70_typed",
    "C70_shortest"
   ],
   "note": ""
  },
  {
   "property": "C71",
   "status": "proved",
   "theorems": [
    "C71_value",
    "C71_body"
   ],
   "note": ""
  },
  {
   "property": "C72",
   "status": "proved",
   "theorems": [
    "C72_value",
    "C72_body",
    "C72_converse_refuted",
    "C72_usize_refuted",
    "C72_derived",
    "C72_written",
    "C72_units_refuted"
   ],
   "note": ""
  },
  {
   "property": "C73",
   "status": "proved",
   "theorems": [
    "C73_integers",
    "C73_decimal",
    "C73_date",
    "C73_time"
   ],
   "note": ""
  },
  {
   "property": "C74",
   "status": "proved",
   "theorems": [
    "C74_value",
    "C74_body",
    "C74_header",
    "C74_read_tells_refuted",
    "C74_narrow_refuted"
   ],
   "note": ""
  },
  {
   "property": "C75",
   "status": "proved",
   "theorems": [
    "C75_read_enough",
    "C75_read_any",
    "C75_read_exact",
    "C75_header_then_body",
    "C75_valid_levels",
    "C75_write_enough",
    "C75_write_overflow",
    "C75_header_write",
    "C75_validate"
   ],
   "note": ""
  },
  {
   "property": "C76",
   "status": "proved",
   "theorems": [
    "C76_typed",
    "C76_typed_64",
    "C76_typed_reached",
    "C76_body",
    "C76_unfinished_reached",
    "C76_unrestricted_refuted"
   ],
   "note": ""
  },
  {
   "property": "C77",
   "status": "proved",
   "theorems": [
    "C77_typed",
    "C77_body"
   ],
   "note": ""
  },
  {
   "property": "C78",
   "status": "proved",
   "theorems": [
    "C78_outcome",
    "C78_layout"
   ],
   "note": ""
  },
  {
   "property": "C79",
   "status": "proved",
   "theorems": [
    "C79_value",
    "C79_body"
   ],
   "note": ""
  },
  {
   "property": "C80",
   "status": "proved",
   "theorems": [
    "C80_written"
   ],
   "note": ""
  },
  {
   "property": "C81",
   "status": "proved",
   "theorems": [
    "C81_stops",
    "C81_value",
    "C81_header",
    "C81_body"
   ],
   "note": ""
  },
  {
   "property": "C82",
   "status": "proved",
   "theorems": [
    "C82_written",
    "C82_refused",
    "C82_not_read_back",
    "C82_read"
   ],
   "note": ""
  },
  {
   "property": "C83",
   "status": "proved",
   "theorems": [
    "C83_read",
    "C83_body_read",
    "C83_derived_read",
    "C83_header_read",
    "C83_body_written",
    "C83_derived_written"
   ],
   "note": ""
  },
  {
   "property": "C84",
   "status": "proved",
   "theorems": [
    "C84_read",
    "C84_one_value",
    "C84_written",
    "C84_round_trip",
    "C84_truncated",
    "C84_unwritable",
    "C84_lossless_refuted",
    "C84_one_encoding_refuted",
    "C84_shadowed_refuted"
   ],
   "note": ""
  },
  {
   "property": "C85",
   "status": "proved",
   "theorems": [
    "C85_value",
    "C85_body",
    "C85_header",
    "C85_derived",
    "C85_recursive",
    "C85_std",
    "C85_byte_by_byte",
    "C85_by_chunks",
    "C85_write",
    "C85_write_header"
   ],
   "note": ""
  },
  {
   "property": "C86",
   "status": "proved",
   "theorems": [
    "C86_requests_derived",
    "C86_requests_recursive",
    "C86_requests_std",
    "C86_bytes_derived",
    "C86_bytes_recursive",
    "C86_bytes_std",
    "C86_fault_is_end",
    "C86_torn",
    "C86_errors_derived",
    "C86_errors",
    "C86_panics_std"
   ],
   "note": ""
  },
  {
   "property": "C87",
   "status": "proved",
   "theorems": [
    "C87_derived",
    "C87_recursive",
    "C87_library",
    "C87_decimal_refuted",
    "C87_decimal_growth_refuted",
    "C87_datetime_growth_refuted",
    "C87_duration_growth_refuted"
   ],
   "note": ""
  },
  {
   "property": "C88",
   "status": "proved",
   "theorems": [
    "C88_names_only",
    "C88_all_names",
    "C88_never_read",
    "C88_written_refused",
    "C88_without"
   ],
   "note": ""
  },
  {
   "property": "C89",
   "status": "proved",
   "theorems": [
    "C89_same",
    "C89_same_body",
    "C89_linear",
    "C89_enough",
    "C89_body",
    "C89_held",
    "C89_held_body",
    "C89_value",
    "C89_free_members_refuted"
   ],
   "note": "How much memory read_to_string and BTreeMap ask for, and the sizes of types, are parameters (mem) under the stated averages (sound_mem); the doubling of Vec is modelled. C89_free_members_refuted shows that the condition on sizes is needed."
  },
  {
   "property": "C90",
   "status": "proved",
   "theorems": [
    "C90_read",
    "C90_one_value",
    "C90_infallible",
    "C90_round_trip",
    "C90_truncated",
    "C90_wire",
    "C90_unwritable",
    "C90_inverse_refuted"
   ],
   "note": ""
  },
  {
   "property": "C91",
   "status": "proved",
   "theorems": [
    "C91_read",
    "C91_reached",
    "C91_not_reached",
    "C91_untagged",
    "C91_tag_unit",
    "C91_tag_newtype",
    "C91_tag_struct",
    "C91_tag_map",
    "C91_tag_refused",
    "C91_untagged_distinct_refuted"
   ],
   "note": ""
  },
  {
   "property": "C92",
   "status": "proved",
   "theorems": [
    "C92_order",
    "C92_truncated",
    "C92_bytes_refuted",
    "C92_equal_members_refuted"
   ],
   "note": ""
  },
  {
   "property": "C93",
   "status": "proved",
   "theorems": [
    "C93_requests",
    "C93_bytes",
    "C93_fault_is_end",
    "C93_torn",
    "C93_errors",
    "C93_calls",
    "C93_panics",
    "C93_again",
    "C93_unwritable_refuted",
    "C93_drift_refuted"
   ],
   "note": ""
  },
  {
   "property": "C94",
   "status": "proved",
   "theorems": [
    "C94_typed",
    "C94_spare",
    "C94_nested",
    "C94_typed_enough",
    "C94_same",
    "C94_recursive",
    "C94_enough"
   ],
   "note": ""
  },
  {
   "property": "C95",
   "status": "proved",
   "theorems": [
    "C95_header",
    "C95_items",
    "C95_bytes",
    "C95_exchange",
    "C95_flatten_refuted",
    "C95_untagged_refuted",
    "C95_tag_refuted",
    "C95_into_refuted"
   ],
   "note": ""
  },
  {
   "property": "C96",
   "status": "proved",
   "theorems": [
    "C96_same",
    "C96_asked",
    "C96_spare",
    "C96_enough",
    "C96_set"
   ],
   "note": ""
  },
  {
   "property": "C97",
   "status": "proved",
   "theorems": [
    "C97_std",
    "C97_std_value",
    "C97_items",
    "C97_items_value"
   ],
   "note": ""
  },
  {
   "property": "C98",
   "status": "proved",
   "theorems": [
    "C98_same",
    "C98_exact",
    "C98_any",
    "C98_reached",
    "C98_enough"
   ],
   "note": ""
  },
  {
   "property": "C99",
   "status": "proved",
   "theorems": [
    "C99_product",
    "C99_reached"
   ],
   "note": ""
  },
  {
   "property": "C100",
   "status": "proved",
   "theorems": [
    "C100_same",
    "C100_linear",
    "C100_enough",
    "C100_held",
    "C100_value",
    "C100_skipped_refuted"
   ],
   "note": ""
  }
 ]
}