{"id": "S16c", "broken": ["BitsFacts.unpack_nth", "BitsFacts.payload_iff_unpack", "BitsFacts.pack_payload", "BitsFacts.payload_strict_fun", "BitsFacts.decode_bits_iff", "DecodeFacts.decode_complete_mut"], "failed": ["C21_decode_iff_encoding", "C21_errors_are_justified", "C22_decode_is_local", "C23_prefix_free", "C23_unique_encoding", "C29_contexts_are_type_ids", "C36_fields_iff_encoding", "C36_fields_as_struct", "C36_value_as_struct", "C48_decode_terminates", "C30_same_value_without_i256", "C49_trace_error_location", "C24_reencode_exact", "C24_encode_inverts_decode", "C24_reencode_stable", "C25_output_is_valid", "C25_fields_output_is_valid", "C34_bit_bytes", "C38_compact_roundtrip"], "log": [], "secs": 80, "n": 24}
{"id": "S16b", "broken": ["BitsFacts.read_prim_iff", "DecodeFacts.decode_sound", "DecodeFacts.decode_complete_mut", "EncodeSound.encode_number_snd", "EncodeComplete.prim_yields", "EncodeComplete.complete_mut", "TraceFacts.trace_sound", "Props_Encode.C37_unsigned_targets", "Props_Encode.C37_signed_targets", "Props_Encode.C38_compact_targets"], "failed": ["C21_decode_iff_encoding", "C21_errors_are_justified", "C22_decode_is_local", "C23_prefix_free", "C29_contexts_are_type_ids", "C36_fields_iff_encoding", "C36_fields_as_struct", "C36_value_as_struct", "C48_decode_terminates", "C30_same_value_without_i256", "C49_trace_error_location", "C24_reencode_exact", "C24_encode_inverts_decode", "C24_reencode_stable", "C25_output_is_valid", "C25_fields_output_is_valid", "C37_unsigned_targets", "C37_signed_targets", "C38_compact_targets", "C38_compact_roundtrip"], "log": [], "secs": 140, "n": 24}
{"id": "T13b", "broken": ["Props_Decode.C30_trace_agrees", "Props_Decode.C49_trace_error_location", "Props_Alloc.C73_traced_bounded", "Props_Alloc.C73_traced_total_refuted"], "failed": ["C30_trace_agrees", "C30_plain_agrees", "C30_same_value_without_i256", "C49_trace_error_location", "C73_traced_bounded", "C73_traced_returns", "C73_traced_total_refuted"], "log": [], "secs": 60, "n": 7}
{"id": "R27c", "broken": ["SerdeUni.map_insert_last", "SerdeMaps.insert_in", "SerdeMaps.insert_rises", "Props_Maps.C76_non_vacuous"], "failed": ["C76_maps"], "log": [], "secs": 18, "n": 10}
{"id": "R27b", "broken": ["SerdeMaps.insert_in", "Props_Maps.C76_duplicates_refuted", "Props_Maps.C76_non_vacuous"], "failed": ["C76_maps", "C76_duplicates_refuted"], "log": [], "secs": 19, "n": 10}
{"id": "R27e", "broken": ["SerdeUni.universe_rt", "Props_Maps.C76_char_keys"], "failed": ["C76_char_keys"], "log": [], "secs": 14, "n": 10}
{"id": "R27d", "broken": ["SerdeMaps.str_ltb_total", "Props_Maps.str_ltb_key"], "failed": ["C76_maps"], "log": [], "secs": 15, "n": 10}
{"id": "R27f", "broken": ["SerdeMaps.map_fields", "Props_Maps.C76_non_vacuous"], "failed": ["C76_maps", "C76_char_keys", "C76_duplicates_refuted"], "log": [], "secs": 18, "n": 10}
{"id": "R32b", "broken": ["ForeignFacts.read_iff", "ForeignTargets.variant_read_iff", "Props_Foreign.C75_non_vacuous"], "failed": ["C75_read_iff", "C75_float_refuted", "C75_composite_iff", "C75_variant_iff", "C75_json", "C75_option_refuted"], "log": [], "secs": 25, "n": 12}
{"id": "CT7b", "broken": ["Props_Content.C71_untagged_first"], "failed": ["C71_untagged_first"], "log": [], "secs": 11, "n": 4}
{"id": "S51b", "broken": ["ForeignFacts.fields_iff", "ForeignFacts.read_iff", "ForeignFacts.fields_refused", "ForeignFacts.refused", "Props_Foreign.C75_null_refuted", "Props_Foreign.C75_non_vacuous"], "failed": ["C75_read_iff", "C75_refused", "C75_float_refuted", "C75_composite_iff", "C75_variant_iff", "C75_json", "C75_null_refuted", "C75_option_refuted"], "log": [], "secs": 30, "n": 12}
{"id": "S51c", "broken": ["ForeignFacts.fields_iff", "ForeignFacts.read_iff", "Props_Foreign.C75_null_refuted", "Props_Foreign.C75_non_vacuous"], "failed": ["C75_read_iff", "C75_float_refuted", "C75_composite_iff", "C75_variant_iff", "C75_json", "C75_null_refuted", "C75_option_refuted"], "log": [], "secs": 27, "n": 12}
{"id": "S54b", "broken": ["ForeignFacts.read_iff", "ForeignTargets.variant_read_iff", "Props_Foreign.C75_non_vacuous"], "failed": ["C75_read_iff", "C75_float_refuted", "C75_composite_iff", "C75_variant_iff", "C75_json", "C75_option_refuted"], "log": [], "secs": 21, "n": 12}
{"id": "FO1", "broken": ["SerdeFacts.visit_valuedef_ext", "ForeignFacts.read_iff", "ForeignFacts.refused", "ForeignTargets.variant_read_iff", "Props_Foreign.C75_non_vacuous"], "failed": ["C75_read_iff", "C75_refused", "C75_float_refuted", "C75_composite_iff", "C75_variant_iff", "C75_json", "C75_option_refuted"], "log": [], "secs": 23, "n": 12}
{"id": "FO3", "broken": ["ForeignFacts.read_iff", "ForeignFacts.refused", "Props_Foreign.C75_non_vacuous"], "failed": ["C75_read_iff", "C75_refused", "C75_float_refuted", "C75_composite_iff", "C75_variant_iff", "C75_json", "C75_option_refuted"], "log": [], "secs": 21, "n": 12}
{"id": "FO2", "broken": ["SerdeFacts.de_value_prim", "SerdeParts.composite_target", "ForeignFacts.fields_iff", "ForeignFacts.read_iff", "Props_Foreign.C75_non_vacuous"], "failed": ["C75_read_iff", "C75_float_refuted", "C75_composite_iff", "C75_variant_iff", "C75_json", "C75_option_refuted"], "log": [], "secs": 24, "n": 12}
{"id": "FO4", "broken": ["SerdeFacts.visit_valuedef_ext", "SerdeFacts.visit_map_plain", "SerdeFacts.de_value_bits", "SerdeRt.value_to_value_iff", "SerdeRt.value_read_back", "SerdeRt.value_through_doc", "ForeignFacts.read_iff", "ForeignFacts.refused"], "failed": ["C75_read_iff", "C75_refused", "C75_float_refuted", "C75_composite_iff", "C75_variant_iff", "C75_json", "C75_option_refuted"], "log": [], "secs": 26, "n": 12}
{"id": "FO5", "broken": ["SerdeFacts.visit_map_plain", "Props_Foreign.C75_non_vacuous"], "failed": ["C75_read_iff", "C75_refused", "C75_float_refuted", "C75_composite_iff", "C75_variant_iff", "C75_json", "C75_option_refuted"], "log": [], "secs": 28, "n": 12}
{"id": "FO6", "broken": ["ForeignTargets.prim_read_iff"], "failed": ["C75_primitive_iff"], "log": [], "secs": 21, "n": 12}
{"id": "FO7", "broken": ["SerdeUni.universe_rt", "ForeignTargets.prim_read_iff"], "failed": ["C75_primitive_iff"], "log": [], "secs": 23, "n": 12}
{"id": "FO8", "broken": ["SerdeFacts.de_value_prim", "SerdeRt.doc_prim", "SerdeUni.universe_rt", "ForeignFacts.read_iff", "ForeignTargets.prim_read_iff", "Props_Foreign.C75_non_vacuous"], "failed": ["C75_read_iff", "C75_float_refuted", "C75_composite_iff", "C75_variant_iff", "C75_primitive_iff", "C75_json", "C75_option_refuted"], "log": [], "secs": 25, "n": 12}
{"id": "FO9", "broken": ["SerdeParts.variant_fields_ok", "ForeignTargets.dvariant_fields_ok"], "failed": ["C69_variant_target", "C75_variant_iff"], "log": [], "secs": 32, "n": 17}
{"id": "AL1", "broken": ["AllocFacts.unnamed_logs", "AllocFacts.sequence_dies", "Props_Alloc.C73_success_demo"], "failed": ["C73_same_results", "C73_success_exact", "C73_plain_requests", "C73_plain_returns_refuted"], "log": [], "secs": 13, "n": 3}
{"id": "AL2", "broken": ["AllocFacts.composite_logs", "Props_Alloc.C73_success_demo"], "failed": ["C73_same_results", "C73_success_exact", "C73_plain_requests"], "log": [], "secs": 11, "n": 3}
{"id": "AL3", "broken": ["AllocFacts.to_unnamed_logs", "Props_Alloc.C73_traced_demo", "Props_Alloc.C73_any_machine"], "failed": ["C73_same_results", "C73_traced_success_exact", "C73_traced_bounded", "C73_traced_returns"], "log": [], "secs": 16, "n": 3}
{"id": "FO10", "broken": ["SerdeRt.first_ok_to_value_u", "SerdeRt.first_ok_to_value_i", "SerdeDoc.smallest_width", "SerdeDoc.first_width", "Props_Serde.C42_non_vacuous", "Props_Serde.C52_non_vacuous"], "failed": ["C40_round_trip", "C40_injective", "C42_to_value_of_value", "C42_fixed_point", "C42_idempotent", "C42_narrowest_integer", "C52_plain_values", "C52_any_value", "C52_variants", "C75_json"], "log": [], "secs": 55, "n": 17}
{"id": "AL4", "broken": ["AllocFacts.tcomposite_logs"], "failed": ["C73_same_results", "C73_traced_success_exact", "C73_traced_bounded", "C73_traced_returns"], "log": [], "secs": 8, "n": 3}
{"id": "AL5", "broken": ["AllocFacts.items_logs", "AllocFacts.named_logs", "AllocFacts.composite_logs", "AllocFacts.unnamed_logs", "AllocFacts.wrap_logs"], "failed": ["C73_same_results", "C73_success_exact", "C73_plain_requests"], "log": [], "secs": 12, "n": 3}
{"id": "AL6", "broken": ["AllocFacts.ldecode_logs", "Props_Alloc.C73_success_demo"], "failed": ["C73_same_results", "C73_success_exact", "C73_plain_requests"], "log": [], "secs": 11, "n": 3}
{"id": "XL1", "broken": ["Props_Encode.units_decode"], "failed": ["C24_long_refuted"], "log": [], "secs": 99, "n": 24}
