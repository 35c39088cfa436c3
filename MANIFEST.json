{
 "claims": [
  {
   "property": "C01",
   "status": "proved",
   "theorems": [
    "C01_calls_in_order",
    "C01_nothing_shared",
    "C01_map_context",
    "C01_map_context_unique",
    "C01_identity",
    "C01_composition",
    "C01_remove_context"
   ],
   "note": ""
  },
  {
   "property": "C02",
   "status": "proved",
   "theorems": [
    "C02_at",
    "C02_at_path",
    "C02_at_child",
    "C02_at_map_context"
   ],
   "note": ""
  },
  {
   "property": "C03",
   "status": "proved",
   "theorems": [
    "C03_primitives",
    "C03_accessors",
    "C03_values",
    "C03_from_integers",
    "C03_from_bytes"
   ],
   "note": ""
  },
  {
   "property": "C04",
   "status": "proved",
   "theorems": [
    "C04_text_roundtrip",
    "C04_display_roundtrip"
   ],
   "note": "exactly the values satisfying text_ok; the rest is C05"
  },
  {
   "property": "C05",
   "status": "proved",
   "theorems": [
    "C05_bool_like_variants_lost",
    "C05_nonneg_signed_becomes_unsigned",
    "C05_unrestricted_roundtrip_refuted"
   ],
   "note": "the unrestricted claim is false; refuted with witnesses and for the whole families"
  },
  {
   "property": "C06",
   "status": "proved",
   "theorems": [
    "C06_remaining_is_suffix",
    "C06_rest_untouched"
   ],
   "note": ""
  },
  {
   "property": "C07",
   "status": "proved",
   "theorems": [
    "C07_bytes",
    "C07_error_locations",
    "C07_end_loc_in_input_refuted"
   ],
   "note": "start_loc and opener locations proved in range; the claim for end_loc is false and refuted by witnesses"
  },
  {
   "property": "C08",
   "status": "proved",
   "theorems": [
    "C08_terminates"
   ],
   "note": ""
  },
  {
   "property": "C09",
   "status": "proved",
   "theorems": [
    "C09_unsigned",
    "C09_negative",
    "C09_only"
   ],
   "note": ""
  },
  {
   "property": "C10",
   "status": "proved",
   "theorems": [
    "C10_strings_and_chars"
   ],
   "note": ""
  },
  {
   "property": "C11",
   "status": "proved",
   "theorems": [
    "C11_characters",
    "C11_delimiters",
    "C11_complete",
    "C11_sound",
    "C11_exact",
    "C11_unambiguous",
    "C11_characters"
   ],
   "note": ""
  },
  {
   "property": "C12",
   "status": "proved",
   "theorems": [
    "C12_sink_sees_prefix",
    "C12_bounded_buffer"
   ],
   "note": "for every sink (a writer state machine), any failure point"
  },
  {
   "property": "C13",
   "status": "proved",
   "theorems": [
    "C13_first_answer_decides",
    "C13_declining_is_default",
    "C13_every_node"
   ],
   "note": "every list of formatters, sink and style"
  },
  {
   "property": "C14",
   "status": "proved",
   "theorems": [
    "C14_format_hex",
    "C14_parse_hex_reads_back",
    "C14_roundtrip_with_hex"
   ],
   "note": ""
  },
  {
   "property": "C15",
   "status": "proved",
   "theorems": [
    "C15_declines",
    "C15_result",
    "C15_contract",
    "C15_parsing_with_hex"
   ],
   "note": ""
  },
  {
   "property": "C16",
   "status": "proved",
   "theorems": [
    "C16_exact",
    "C16_declines_untouched",
    "C16_addresses_read_back",
    "C16_only_accounts_refuted"
   ],
   "note": "for every decoder and hash function; the base58 crate itself is replaced by its mathematical definition in C16_addresses_read_back; the claim that only account ids are read is refuted for every hash function"
  },
  {
   "property": "C17",
   "status": "proved",
   "theorems": [
    "C17_ascii_cursor",
    "C17_general_cursor",
    "C17_cursor_refuted"
   ],
   "note": "true for ASCII text, false in general (refuted); C17_general_cursor gives the exact behaviour"
  },
  {
   "property": "C18",
   "status": "proved",
   "theorems": [
    "C18_styles_differ_in_white_space",
    "C18_compact_is_stripped"
   ],
   "note": ""
  },
  {
   "property": "C19",
   "status": "proved",
   "theorems": [
    "C19_fails_iff_256"
   ],
   "note": ""
  },
  {
   "property": "C20",
   "status": "proved",
   "theorems": [
    "C20_numbers_exact"
   ],
   "note": ""
  },
  {
   "property": "C21",
   "status": "proved",
   "theorems": [
    "C21_decode_iff_encoding",
    "C21_fuel_irrelevant",
    "C21_errors_are_justified",
    "C21_utf8"
   ],
   "note": ""
  },
  {
   "property": "C22",
   "status": "proved",
   "theorems": [
    "C22_decode_is_local"
   ],
   "note": ""
  },
  {
   "property": "C23",
   "status": "proved",
   "theorems": [
    "C23_prefix_free",
    "C23_unique_encoding"
   ],
   "note": ""
  },
  {
   "property": "C24",
   "status": "proved",
   "theorems": [
    "C24_two_newtypes",
    "C24_nested_empty_refuted",
    "C24_reencode_exact",
    "C24_encode_inverts_decode",
    "C24_reencode_stable",
    "C24_nested_newtype_refuted",
    "C24_padding_refuted",
    "C24_long_refuted"
   ],
   "note": "under rt_ok (distinct names, lists inside two or more newtypes only with items that cannot be mistaken for lists, ...) exact without bit sequences, exact up to padding bits with them; if the decoder reads length prefixes as u64 the value's lists must be shorter than 2^32; each restriction shown necessary by a refutation; C24_two_newtypes says what decides for lists inside two newtypes"
  },
  {
   "property": "C25",
   "status": "proved",
   "theorems": [
    "C25_output_is_valid",
    "C25_fields_output_is_valid",
    "C25_compact_array_refuted"
   ],
   "note": "for registries satisfying reg_ok and values whose lengths fit the prefixes; refuted without reg_ok"
  },
  {
   "property": "C26",
   "status": "proved",
   "theorems": [
    "C26_failure_leaves_buffer",
    "C26_variant_refuted",
    "C26_u256_refuted",
    "C26_fields_refuted"
   ],
   "note": "proved for composites, bit sequences and primitives up to 128 bits; refuted for variants, 256-bit primitives and field-wise encoding"
  },
  {
   "property": "C27",
   "status": "proved",
   "theorems": [
    "C27_fuel_irrelevant",
    "C27_encoding_only_appends",
    "C27_fields_only_append"
   ],
   "note": ""
  },
  {
   "property": "C28",
   "status": "proved",
   "theorems": [
    "C28_contexts_do_not_matter"
   ],
   "note": ""
  },
  {
   "property": "C29",
   "status": "proved",
   "theorems": [
    "C29_contexts_are_type_ids",
    "C29_plain_is_remove_context"
   ],
   "note": ""
  },
  {
   "property": "C30",
   "status": "proved",
   "theorems": [
    "C30_trace_agrees",
    "C30_plain_agrees",
    "C30_same_value_without_i256",
    "C30_i256_refuted",
    "C30_capacity_refuted"
   ],
   "note": "equality refuted for i256 and beyond the capacity limit; proved otherwise"
  },
  {
   "property": "C31",
   "status": "proved",
   "theorems": [
    "C31_encode_terminates",
    "C31_encode_loops"
   ],
   "note": "with the exact condition for composites, bits and primitives up to 128 bits; variants and U256 never succeed on such types"
  },
  {
   "property": "C32",
   "status": "proved",
   "theorems": [
    "C32_fields_by_name",
    "C32_order_does_not_matter",
    "C32_missing_field",
    "C32_variant_fields_by_name",
    "C32_variant_order_does_not_matter",
    "C32_single_field_refuted"
   ],
   "note": "iff for structs of two or more named fields and for enum variants; refuted for structs with a single named field"
  },
  {
   "property": "C33",
   "status": "proved",
   "theorems": [
    "C33_primitives_see_through",
    "C33_u256_sees_through",
    "C33_composites_see_through",
    "C33_named_composites_see_through",
    "C33_variants_see_through"
   ],
   "note": "one theorem per kind of value"
  },
  {
   "property": "C34",
   "status": "proved",
   "theorems": [
    "C34_bools_as_bits",
    "C34_bit_bytes"
   ],
   "note": ""
  },
  {
   "property": "C35",
   "status": "proved",
   "theorems": [
    "C35_arrays",
    "C35_sequences",
    "C35_single_element",
    "C35_tuples",
    "C35_structs_by_position",
    "C35_wrong_length"
   ],
   "note": ""
  },
  {
   "property": "C36",
   "status": "proved",
   "theorems": [
    "C36_fields_iff_encoding",
    "C36_fields_as_struct",
    "C36_value_as_struct"
   ],
   "note": ""
  },
  {
   "property": "C37",
   "status": "proved",
   "theorems": [
    "C37_unsigned_targets",
    "C37_signed_targets",
    "C37_other_targets"
   ],
   "note": ""
  },
  {
   "property": "C38",
   "status": "proved",
   "theorems": [
    "C38_compact_targets",
    "C38_compact_roundtrip"
   ],
   "note": ""
  },
  {
   "property": "C39",
   "status": "proved",
   "theorems": [
    "C39_value_from_value",
    "C39_256_bit_integers",
    "C39_composite_and_variant",
    "C39_primitive"
   ],
   "note": "exact condition (iff); the unrestricted claim is false for 256-bit integers and the reserved key"
  },
  {
   "property": "C40",
   "status": "proved",
   "theorems": [
    "C40_round_trip",
    "C40_injective"
   ],
   "note": "for the reified universe of types in Serde.v without newtypes; newtypes are C41"
  },
  {
   "property": "C41",
   "status": "proved",
   "theorems": [
    "C41_newtype_structs_refuted",
    "C41_newtype_variants_refuted",
    "C41_silent_change_refuted"
   ],
   "note": "the expected round trip is false: refuted for whole families of types"
  },
  {
   "property": "C42",
   "status": "proved",
   "theorems": [
    "C42_calls",
    "C42_to_value_of_value",
    "C42_fixed_point",
    "C42_idempotent",
    "C42_narrowest_integer"
   ],
   "note": ""
  },
  {
   "property": "C43",
   "status": "proved",
   "theorems": [
    "C43_ranges",
    "C43_integers_exact"
   ],
   "note": ""
  },
  {
   "property": "C44",
   "status": "proved",
   "theorems": [
    "C44_tuples",
    "C44_tuple_structs"
   ],
   "note": ""
  },
  {
   "property": "C45",
   "status": "proved",
   "theorems": [
    "C45_reserved_key_refuted",
    "C45_field_dropped_refuted"
   ],
   "note": "refutes the unrestricted form of C39"
  },
  {
   "property": "C46",
   "status": "proved",
   "theorems": [
    "C46_options",
    "C46_options_written",
    "C46_no_implicit_some_refuted"
   ],
   "note": ""
  },
  {
   "property": "C47",
   "status": "proved",
   "theorems": [
    "C47_value_macro_exact",
    "C47_value_macro_rejects",
    "C47_unambiguous",
    "C47_trailing_comma",
    "C47_never_a_call",
    "C47_unexpected_token",
    "C47_missing_colon",
    "C47_missing_key_or_value",
    "C47_any_expression_as_key_refuted"
   ],
   "note": "relative to an abstract expression parser with the stated properties of rustc's; hygiene not modelled; recursion limit: C82"
  },
  {
   "property": "C48",
   "status": "proved",
   "theorems": [
    "C48_decode_terminates",
    "C48_decode_loops"
   ],
   "note": ""
  },
  {
   "property": "C49",
   "status": "proved",
   "theorems": [
    "C49_trace_error_location",
    "C49_variant_segment_refuted"
   ],
   "note": "registries whose variants have at most 100,000,000 fields; variant names are not part of the path (refuted)"
  },
  {
   "property": "C50",
   "status": "proved",
   "theorems": [
    "C50_serializable"
   ],
   "note": ""
  },
  {
   "property": "C51",
   "status": "proved",
   "theorems": [
    "C51_structs_by_name",
    "C51_order_independent",
    "C51_unknown_fields_ignored",
    "C51_structs_by_position"
   ],
   "note": ""
  },
  {
   "property": "C52",
   "status": "proved",
   "theorems": [
    "C52_plain_values",
    "C52_any_value",
    "C52_variants",
    "C52_variants_in_values_refuted"
   ],
   "note": "documents reified in Serde.v (doc); formats that are not self-describing or lossless are not modelled"
  },
  {
   "property": "C53",
   "status": "proved",
   "theorems": [
    "C53_contexts_ignored",
    "C53_same_shape_same_result",
    "C53_serialize_contexts_ignored"
   ],
   "note": ""
  },
  {
   "property": "C54",
   "status": "proved",
   "theorems": [
    "C54_sequences"
   ],
   "note": ""
  },
  {
   "property": "C55",
   "status": "proved",
   "theorems": [
    "C55_bit_sequences_refuted",
    "C55_struct_from_variant_refuted",
    "C55_newtype_option_refuted"
   ],
   "note": "refutes what a reader of the API would expect; general over values"
  },
  {
   "property": "C56",
   "status": "proved",
   "theorems": [
    "C56_bool",
    "C56_char",
    "C56_string",
    "C56_unit"
   ],
   "note": ""
  },
  {
   "property": "C57",
   "status": "proved",
   "theorems": [
    "C57_enums"
   ],
   "note": ""
  },
  {
   "property": "C58",
   "status": "proved",
   "theorems": [
    "C58_from",
    "C58_from_injective",
    "C58_macro_is_from"
   ],
   "note": ""
  },
  {
   "property": "C59",
   "status": "proved",
   "theorems": [
    "C59_one_line_styles",
    "C59_pretty_style",
    "C59_display",
    "C59_display_parts",
    "C59_numerals"
   ],
   "note": ""
  },
  {
   "property": "C60",
   "status": "proved",
   "theorems": [
    "C60_trace_error_text",
    "C60_panics_iff_256",
    "C60_errors_printable_refuted",
    "C60_path_readable",
    "C60_path_ambiguous_refuted"
   ],
   "note": "into a String; the texts of scale-decode errors and of type ids are parameters; printability refuted"
  },
  {
   "property": "C61",
   "status": "proved",
   "theorems": [
    "C61_text",
    "C61_kinds_told_apart",
    "C61_position_shown",
    "C61_char_position_refuted"
   ],
   "note": "the claim that the number is a character position is refuted"
  },
  {
   "property": "C62",
   "status": "proved",
   "theorems": [
    "C62_errors_come_from",
    "C62_first_answer",
    "C62_all_decline",
    "C62_shared_cursor",
    "C62_silent_parsers",
    "C62_embedded_location_refuted"
   ],
   "note": "no assumption on the custom parsers; shifting of embedded opener positions refuted"
  },
  {
   "property": "C63",
   "status": "proved",
   "theorems": [
    "C63_nested_lists_refuted",
    "C63_same_encoder",
    "C63_decoded_values_once",
    "C63_upper_bound",
    "C63_polynomial_refuted"
   ],
   "note": "visits = calls of encode_as_type_to on the value or one inside it, counted by an instrumented encoder proved equal to the plain one; the polynomial claim is refuted for a whole family"
  },
  {
   "property": "C64",
   "status": "proved",
   "theorems": [
    "C64_same_data",
    "C64_fields_same_data",
    "C64_normal_form",
    "C64_same_leaves"
   ],
   "note": "registries whose structs and variants name all fields or none; lengths within the u32 prefix; data equality is the independent relation of Spec_Same.v"
  },
  {
   "property": "C65",
   "status": "proved",
   "theorems": [
    "C65_same_encoder",
    "C65_path_leads_to_culprit",
    "C65_literal_path",
    "C65_literal_path_refuted"
   ],
   "note": "encode_l is the encoder with paths, equal to the encoder after erasing them; which steps of scale-encode attach a location is from memory of that crate"
  },
  {
   "property": "C66",
   "status": "proved",
   "theorems": [
    "C66_text_encodes_alike",
    "C66_decoded_is_printable",
    "C66_scale_text_scale",
    "C66_scale_text_scale_bits",
    "C66_speakable_refuted"
   ],
   "note": "composition of the text and SCALE models; registries as in C24, without 256-bit integers or bool-like variant names"
  },
  {
   "property": "C67",
   "status": "proved",
   "theorems": [
    "C67_decode_is_to_value",
    "C67_from_scale",
    "C67_to_scale",
    "C67_only_data",
    "C67_empty_braces_refuted",
    "C67_newtype_refuted"
   ],
   "note": "Rust types, derived Encode and TypeInfo are the independent spec Spec_Rust.v (finite types: no recursion, no generics left open); composition of the decode, encode and serde models"
  },
  {
   "property": "C68",
   "status": "proved",
   "theorems": [
    "C68_reading_survives_text",
    "C68_data_through_text",
    "C68_full_circle",
    "C68_values_refuted",
    "C68_converse_refuted"
   ],
   "note": "composition of the text, serde and SCALE models; chars are Unicode scalars and no enum variant has a bool-like bare name (Spec_TextData.sayable)"
  },
  {
   "property": "C69",
   "status": "proved",
   "theorems": [
    "C69_composite_source",
    "C69_primitive_source",
    "C69_variant_source",
    "C69_variant_option_refuted",
    "C69_variant_struct_refuted",
    "C69_composite_target",
    "C69_variant_target",
    "C69_primitive_target"
   ],
   "note": "composition over the same serde model as C39-C57; the targets are given by iff"
  },
  {
   "property": "C70",
   "status": "proved",
   "theorems": [
    "C70_named_histories",
    "C70_panics",
    "C70_retry_refuted",
    "C70_maps",
    "C70_structs",
    "C70_sequences"
   ],
   "note": "state machines of both compound serializers; Vec pushes and Option::take modelled literally; a call returns a result or panics"
  },
  {
   "property": "C71",
   "status": "proved",
   "theorems": [
    "C71_internally_tagged_sequence",
    "C71_buffered",
    "C71_untagged_refuted",
    "C71_untagged_number_refuted",
    "C71_untagged",
    "C71_untagged_first",
    "C71_internally_tagged_refuted",
    "C71_internally_tagged",
    "C71_adjacently_tagged",
    "C71_adjacently_tagged_unnamed",
    "C71_adjacently_tagged_order_refuted",
    "C71_flatten_refuted",
    "C71_flatten"
   ],
   "note": "serde's Content, ContentVisitor and the derived code are modelled from serde's documented behaviour (serde itself is not in the sandbox); the crate's part is the event sent for deserialize_any"
  },
  {
   "property": "C72",
   "status": "proved",
   "theorems": [
    "C72_macro_and_text_agree",
    "C72_equal_refuted"
   ],
   "note": "rustc (lexer and expression parser) is a parameter, as in C47; that literals agree is a hypothesis shown satisfiable by the demonstration parser"
  },
  {
   "property": "C73",
   "status": "proved",
   "theorems": [
    "C73_same_results",
    "C73_success_exact",
    "C73_traced_success_exact",
    "C73_traced_bounded",
    "C73_traced_returns",
    "C73_plain_requests",
    "C73_plain_returns_refuted",
    "C73_traced_total_refuted"
   ],
   "note": "the decoders instrumented with a log of Vec::with_capacity calls, proved to return the same results; other allocations (strings, bits, error reports) are made for data already read and are not logged"
  },
  {
   "property": "C74",
   "status": "proved",
   "theorems": [
    "C74_size_linear",
    "C74_capacity_linear",
    "C74_size_refuted",
    "C74_leaves",
    "C74_weights_exist"
   ],
   "note": "constants given by a weight certificate (Spec_Size.weights), proved to exist for every finite registry without self-containing types (C74_weights_exist); plain decoder"
  },
  {
   "property": "C75",
   "status": "proved",
   "theorems": [
    "C75_read_iff",
    "C75_refused",
    "C75_float_refuted",
    "C75_composite_iff",
    "C75_variant_iff",
    "C75_primitive_iff",
    "C75_json",
    "C75_null_refuted",
    "C75_option_refuted"
   ],
   "note": "documents are reified events (doc in Serde.v); a map that starts with the reserved key must have no other entry (no_leftovers), since what a half-read map does is up to the format; visit_newtype_struct is not modelled (deserialize_any of formats does not call it)"
  },
  {
   "property": "C76",
   "status": "proved",
   "theorems": [
    "C76_order",
    "C76_maps",
    "C76_char_keys",
    "C76_duplicates_refuted"
   ],
   "note": "BTreeMap; keys compared by code points (= bytewise UTF-8)"
  },
  {
   "property": "C77",
   "status": "proved",
   "theorems": [
    "C77_encode_exact",
    "C77_accepts",
    "C77_fields_exact",
    "C77_one_way",
    "C77_brackets",
    "C77_brackets_composite_refuted",
    "C77_wrapper_refuted"
   ],
   "note": "wrappers must be well founded (true of Rust types); primitives hold what Rust can hold; scale-encode's part is modelled from its documented behaviour"
  },
  {
   "property": "C78",
   "status": "proved",
   "theorems": [
    "C78_same_result",
    "C78_linear",
    "C78_depth",
    "C78_depth_unbounded_refuted"
   ],
   "note": "reads = calls of next on the token stream, those inside yap's combinators included (yap modelled from its documentation); a call of a custom parser counts as w"
  },
  {
   "property": "C79",
   "status": "proved",
   "theorems": [
    "C79_ranks_exist",
    "C79_weights_exist",
    "C79_depth_finite",
    "C79_terminates_finite",
    "C79_calls_finite",
    "C79_same_result",
    "C79_depth",
    "C79_terminates_within",
    "C79_calls_linear",
    "C79_at_least",
    "C79_depth_unbounded_refuted",
    "C79_calls_refuted"
   ],
   "note": "the plain decoder instrumented with counters of calls and of levels of recursion, proved to return the same results; constants given by certificates (call_weights, ranks), proved to exist for every finite registry without self-containing types (C79_ranks_exist, C79_weights_exist); work inside scale-decode's leaf decoders is not counted"
  },
  {
   "property": "C80",
   "status": "proved",
   "theorems": [
    "C80_one_line",
    "C80_pretty",
    "C80_text",
    "C80_at_least",
    "C80_pretty_linear_refuted"
   ],
   "note": "without custom formatters and context printers (what those write is up to them); write_char counted as one call"
  },
  {
   "property": "C81",
   "status": "proved",
   "theorems": [
    "C81_exact",
    "C81_identity",
    "C81_equivalence",
    "C81_reflexive_refuted",
    "C81_sees_every_place",
    "C81_clone",
    "C81_equal_values_act_alike",
    "C81_alike_but_unequal_refuted"
   ],
   "note": "Model of the derived PartialEq and Clone (Equality.v), stated with the labels and places of Spec_Value. C81_reflexive_refuted: not reflexive for contexts that are not; C81_alike_but_unequal_refuted: values that print and encode the same need not be equal. scale_bits::Bits is assumed to compare as the list of its bits."
  },
  {
   "property": "C82",
   "status": "proved",
   "theorems": [
    "C82_exact",
    "C82_least_limit",
    "C82_same_value",
    "C82_enough",
    "C82_at_least",
    "C82_flat",
    "C82_default_limit",
    "C82_nested",
    "C82_any_size_refuted"
   ],
   "note": "MacroDepth.v counts the nested expansions rule by rule; Spec_MacroDepth.v reads the number off the grammar. C82_any_size_refuted: no limit is enough for every input of the grammar. The number of levels that std's vec! takes (vd) and of the macros in the user's expressions (ud) are parameters; how rustc counts levels is an assumption stated in MacroDepth.v."
  },
  {
   "property": "C83",
   "status": "proved",
   "theorems": [
    "C83_copies_finite",
    "C83_same_result",
    "C83_as_plain",
    "C83_depth",
    "C83_calls_linear",
    "C83_copies",
    "C83_copies_quadratic",
    "C83_clones",
    "C83_shown",
    "C83_copies_linear_refuted"
   ],
   "note": "the tracing decoder instrumented with counters of calls, recursion levels, path segments copied by Path::at and values copied by vals.clone(), proved to return the same results; copies of names and type ids and growth of vectors are not counted"
  },
  {
   "property": "C84",
   "status": "proved",
   "theorems": [
    "C84_decode",
    "C84_decode_plain",
    "C84_decode_fields",
    "C84_trace",
    "C84_encode",
    "C84_encode_fields",
    "C84_rename",
    "C84_only_needed",
    "C84_same_bytes_refuted"
   ],
   "note": "relational (bisimulation) theorems; renumbering and unneeded types as corollaries, with a recursive type and its unrolling as an example of ids that are alike without being a renumbering. The name (path) of a type is not part of the model: scale-value never looks at it"
  },
  {
   "property": "C85",
   "status": "proved",
   "theorems": [
    "C85_decode_as_fields",
    "C85_trait_success",
    "C85_trait_failure",
    "C85_trait_failure_again",
    "C85_no_panic",
    "C85_cursor_kept_refuted"
   ],
   "note": "scale-decode's field iterator is modelled from memory of its documentation: after an item fails it offers nothing more (C85_trait_failure); the other possibility, that it offers the item again, is covered by C85_trait_failure_again. C85_decode_as_fields and C85_no_panic hold for both and for any way of skipping"
  },
  {
   "property": "C86",
   "status": "proved",
   "theorems": [
    "C86_parse_hex",
    "C86_parse_ss58",
    "C86_parse_ss58_blake2",
    "C86_format_hex"
   ],
   "note": "byte-level models proved equal to the character-level ones of Hex.v, Ss58.v and Fmt.v; str::find, is_char_boundary, slicing and from_utf8_unchecked are modelled as std documents them; the base58 crate and the hash are parameters (instance: BLAKE2b-512)"
  },
  {
   "property": "C87",
   "status": "proved",
   "theorems": [
    "C87_same",
    "C87_broken",
    "C87_honest",
    "C87_announced",
    "C87_before_items",
    "C87_bounded_refuted",
    "C87_own",
    "C87_enough_refuted"
   ],
   "note": "an instrumented reader over documents that announce sizes and may break off, proved to give the results of Serde.v; the log holds the arguments of Vec::with_capacity for lists of values; serde's own capped reservations (Vec<bool>, String) and the growth of vectors by push are not logged. That size hints are asked when they are is read off the code, that serde's SeqDeserializer and MapDeserializer announce what is left is their documented behaviour"
  },
  {
   "property": "C88",
   "status": "proved",
   "theorems": [
    "C88_writer",
    "C88_same_output",
    "C88_commute",
    "C88_back_to_normal_refuted",
    "C88_formatters_commute_refuted",
    "C88_parser",
    "C88_display"
   ],
   "note": "a step function per call, folded over the history; the specification `settled` says 'the last call that sets it' without reference to the fold"
  },
  {
   "property": "C89",
   "status": "proved",
   "theorems": [
    "C89_as_content",
    "C89_bits_refuted",
    "C89_struct_in_newtype_refuted",
    "C89_option_in_newtype_refuted"
   ],
   "note": "reading a newtype hands the same parts to the content; every hint but two is answered alike by the value and by its parts"
  },
  {
   "property": "C90",
   "status": "proved",
   "theorems": [
    "C90_true",
    "C90_true_of_something_inside",
    "C90_absent_types",
    "C90_fields_true"
   ],
   "note": "Spec_Errors.v says per kind of error what must be wrong; wrapper types are looked through. Error kinds are those of the model (coarse)"
  },
  {
   "property": "C91",
   "status": "proved",
   "theorems": [
    "C91_true",
    "C91_reported",
    "C91_one",
    "C91_fields",
    "C91_trace",
    "C91_trace_outermost"
   ],
   "note": "Spec_DecodeErrors.v says per kind of error what must be wrong and how an item is reached. Error kinds are those of the model (coarse)"
  },
  {
   "property": "C92",
   "status": "proved",
   "theorems": [
    "C92_asked_in_order",
    "C92_as_without_memory",
    "C92_rest_and_errors",
    "C92_without_memory",
    "C92_repeatable_refuted"
   ],
   "note": "ParseState.v writes the recursive part of the parser again with a memory threaded through; the built-in parsers are shared with Parse.v"
  },
  {
   "property": "C93",
   "status": "proved",
   "theorems": [
    "C93_from_value",
    "C93_from_parts",
    "C93_one_answer",
    "C93_bit_sequences"
   ],
   "note": "hypothesis well_named: no struct with two fields of one name, no enum with two variants of one name, which rustc guarantees"
  },
  {
   "property": "C94",
   "status": "proved",
   "theorems": [
    "C94_to_value",
    "C94_rules_suffice"
   ],
   "note": "hypotheses: well_named (rustc guarantees it), data_of (the datum is of the type)"
  },
  {
   "property": "C95",
   "status": "proved",
   "theorems": [
    "C95_conversions",
    "C95_compatible_types",
    "C95_one_answer",
    "C95_same_type_refuted"
   ],
   "note": "conversion rules are sufficient, not necessary (the exact answer for one pair is C94 followed by C93)"
  },
  {
   "property": "C96",
   "status": "proved",
   "theorems": [
    "C96_agrees",
    "C96_read_iff",
    "C96_composite_iff",
    "C96_variant_iff",
    "C96_primitive_iff",
    "C96_newtype",
    "C96_newtype_refuted",
    "C96_keys_refuted",
    "C96_reserved"
   ],
   "note": "extends C75 to visit_newtype_struct, keys that are not strings and half-read maps; C96_agrees ties the second model of deserialize.rs to the first, errors included"
  },
  {
   "property": "C97",
   "status": "proved",
   "theorems": [
    "C97_erased",
    "C97_text_iff",
    "C97_numeric_refuted",
    "C97_variant_text",
    "C97_serializer_texts"
   ],
   "note": "texts made by serde itself (invalid_type, missing_field, ..) are not modelled"
  },
  {
   "property": "C98",
   "status": "proved",
   "theorems": [
    "C98_rules",
    "C98_rules_suffice",
    "C98_questions",
    "C98_declining_is_silent_refuted"
   ],
   "note": "formatters that panic or call the builder again are not modelled"
  },
  {
   "property": "C99",
   "status": "proved",
   "theorems": [
    "C99_decode",
    "C99_encode",
    "C99_option",
    "C99_locations",
    "C99_locations_refuted"
   ],
   "note": "ExactSizeIterator::len of the resolver is trusted to be the number of items; panics inside dependencies and user code are not modelled; the other expects are C70 and C86, capacity overflow is C73 and C87"
  },
  {
   "property": "C100",
   "status": "proved",
   "theorems": [
    "C100_old_data",
    "C100_new_data",
    "C100_without_new_variants",
    "C100_encode",
    "C100_encode_refuted"
   ],
   "note": "scale-encode and scale-decode are modelled; the tracing decoder follows by C30"
  },
  {
   "property": "C101",
   "status": "proved",
   "theorems": [
    "C101_more_input",
    "C101_more_fields",
    "C101_more_input_traced",
    "C101_cut_short",
    "C101_log",
    "C101_cut",
    "C101_lines",
    "C101_lines_cut_refuted"
   ],
   "note": "the two errors for missing input are a coarse model of scale-decode's (NotEnoughInput and CodecError)"
  },
  {
   "property": "C102",
   "status": "proved",
   "theorems": [
    "C102_splice",
    "C102_context",
    "C102_edit",
    "C102_push",
    "C102_compact_refuted"
   ],
   "note": "for registries in which decoded values re-encode (rt_ok, C24) and whose variants have different names"
  },
  {
   "property": "C103",
   "status": "proved",
   "theorems": [
    "C103_accepts",
    "C103_same_data",
    "C103_elements",
    "C103_fields",
    "C103_variants",
    "C103_narrow_refuted"
   ],
   "note": "for target registries without types that wrap themselves"
  },
  {
   "property": "C104",
   "status": "proved",
   "theorems": [
    "C104_final",
    "C104_can_be_finished",
    "C104_exactly",
    "C104_settled",
    "C104_typing",
    "C104_at_the_end_refuted",
    "C104_before_the_end_refuted"
   ],
   "note": "without custom parsers"
  },
  {
   "property": "C105",
   "status": "proved",
   "theorems": [
    "C105_replaceable",
    "C105_replaced",
    "C105_substitute",
    "C105_quoted",
    "C105_printed",
    "C105_displayed",
    "C105_injection_refuted"
   ],
   "note": "without custom parsers or formatters; the one-line styles"
  },
  {
   "property": "C106",
   "status": "proved",
   "theorems": [
    "C106_encode",
    "C106_reads_back",
    "C106_nested_lists_refuted"
   ],
   "note": "registries as for C24 without lists in nested newtypes; types that do not wrap themselves"
  },
  {
   "property": "C107",
   "status": "proved",
   "theorems": [
    "C107_place",
    "C107_edit_displayed",
    "C107_edit_any_text"
   ],
   "note": "conditions of C106 and C66 (speakable); texts are of Unicode scalar values"
  },
  {
   "property": "C108",
   "status": "proved",
   "theorems": [
    "C108_same_text",
    "C108_across_styles",
    "C108_encode_alike",
    "C108_decoded",
    "C108_normal",
    "C108_across_types_refuted"
   ],
   "note": "printable values (C04: no 256-bit integers, text of Unicode scalar values); _refuted: texts of data decoded at different types can coincide where the bytes do not"
  },
  {
   "property": "C109",
   "status": "proved",
   "theorems": [
    "C109_read",
    "C109_number_refused",
    "C109_encodes_alike",
    "C109_scale_json_scale",
    "C109_scale_json_scale_bits",
    "C109_variant",
    "C109_enums_refuted",
    "C109_chars_refuted"
   ],
   "note": "JSON is the function through_json (Spec_Json.v): serde_json with default features, from its documentation; order and duplicates of keys are kept, as in text"
  },
  {
   "property": "C110",
   "status": "proved",
   "theorems": [
    "C110_any_arrangement",
    "C110_any_arrangement_bits",
    "C110_arrangements_alike",
    "C110_scale_json_scale",
    "C110_only_field_refuted",
    "C110_any_value_refuted"
   ],
   "note": "encode_composite_fields is the field lookup of scale-encode 0.10 as modelled for C32; rt_ok is the registry condition of C24"
  },
  {
   "property": "C111",
   "status": "proved",
   "theorems": [
    "C111_any_order",
    "C111_orders_alike",
    "C111_position_refuted",
    "C111_value_refuted"
   ],
   "note": "the same-type case needs fits t t, which excludes Value fields and types that do not round trip (C41)"
  },
  {
   "property": "C112",
   "status": "proved",
   "theorems": [
    "C112_parts",
    "C112_read_part",
    "C112_replace",
    "C112_edit_and_read",
    "C112_put",
    "C112_value_refuted"
   ],
   "note": "paths do not go into byte buffers, Value, Composite, Variant and Primitive fields; reading back the changed data as the same type needs a type that round trips (C40) or fits itself (C95)"
  },
  {
   "property": "C113",
   "status": "proved",
   "theorems": [
    "C113_written",
    "C113_read",
    "C113_printed",
    "C113_part",
    "C113_edit",
    "C113_edits",
    "C113_positions",
    "C113_edit_text",
    "C113_edit_text_by_name",
    "C113_full_circle",
    "C113_scale",
    "C113_only_read_refuted"
   ],
   "note": "newtypes do not round trip (C95_same_type_refuted) and are left out"
  }
 ]
}