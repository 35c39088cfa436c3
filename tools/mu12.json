[
 {
  "id": "EE1",
  "file": "Encode",
  "definition": "encode_number",
  "old": "        | ResErr => (SErr XTypeResolving, out)\n        | ResTy (TPrim (PtU w)) => if in_unsigned w z then (SOk, out ++ le",
  "new": "        | ResErr => (SErr XOutOfRange, out)\n        | ResTy (TPrim (PtU w)) => if in_unsigned w z then (SOk, out ++ le",
  "claim": "an unresolvable type gives the resolving error",
  "targets": [
   "Props_Errors"
  ]
 },
 {
  "id": "EE2",
  "file": "Encode",
  "definition": "encode_number",
  "old": "(SOk, out ++ le_bytes (wbytes w) (Z.to_N z)) else (SErr XOutOfRange, out)",
  "new": "(SOk, out ++ le_bytes (wbytes w) (Z.to_N z)) else (SErr XWrongShape, out)",
  "claim": "a number too large for the type is out of range, not of the wrong shape",
  "targets": [
   "Props_Errors"
  ]
 },
 {
  "id": "EE3",
  "file": "Encode",
  "definition": "encode_number",
  "old": "(SOk, out ++ compact_encode (Z.to_N z)) else (SErr XOutOfRange, out)",
  "new": "(SOk, out ++ compact_encode (Z.to_N z)) else (SErr XWrongLength, out)",
  "claim": "a number too large for a compact type is out of range",
  "targets": [
   "Props_Errors"
  ]
 },
 {
  "id": "EE4",
  "file": "Encode",
  "definition": "encode_by_name",
  "old": "(SErr XMissingField, out)",
  "new": "(SErr XWrongLength, out)",
  "claim": "a missing field is reported as missing",
  "targets": [
   "Props_Errors"
  ]
 },
 {
  "id": "EE5",
  "file": "Encode",
  "definition": "encode_fields",
  "old": "else (SErr XWrongLength, out).",
  "new": "else (SErr XMissingField, out).",
  "claim": "a wrong number of values is reported as such",
  "targets": [
   "Props_Errors"
  ]
 },
 {
  "id": "EE6",
  "file": "Encode",
  "definition": "do_encode",
  "old": "encode_all (map snd (values c)) t' out else (SErr XWrongLength, out)",
  "new": "encode_all (map snd (values c)) t' out else (SErr XBadBit, out)",
  "claim": "a wrong number of items for an array is reported as such",
  "targets": [
   "Props_Errors"
  ]
 },
 {
  "id": "EE7",
  "file": "Encode",
  "definition": "do_encode",
  "old": "| None => (SErr XBadBit, out) end",
  "new": "| None => (SErr XOutOfRange, out) end",
  "claim": "a value that is no bit is reported as such",
  "targets": [
   "Props_Errors"
  ]
 },
 {
  "id": "EE8",
  "file": "Encode",
  "definition": "encode_variant",
  "old": "(SErr XNoVariant, out)",
  "new": "(SErr XMissingField, out)",
  "claim": "a missing variant is reported as such",
  "targets": [
   "Props_Errors"
  ]
 },
 {
  "id": "EE9",
  "file": "Encode",
  "definition": "encode_variant",
  "old": "match find (fun v => str_eqb (vi_name v) name) vs with",
  "new": "match find (fun v => str_eqb (vi_name v) name) (tl vs) with",
  "claim": "no variant only if there is none of the name",
  "targets": [
   "Props_Errors"
  ]
 },
 {
  "id": "EE10",
  "file": "Encode",
  "definition": "encode_as_fields",
  "old": "| _ => (SErr XNotComposite, out)",
  "new": "| _ => (SErr XWrongShape, out)",
  "claim": "only composites can be fields",
  "targets": [
   "Props_Errors"
  ]
 },
 {
  "id": "EE11",
  "file": "Encode",
  "definition": "in_signed",
  "old": "(z <? 2 ^ (Z.of_N (wbits w) - 1))",
  "new": "(z <? 2 ^ (Z.of_N (wbits w) - 1) - 1)",
  "claim": "out of range only outside the range",
  "targets": [
   "Props_Errors"
  ]
 },
 {
  "id": "EE12",
  "file": "Encode",
  "definition": "bit_of",
  "old": "if (n =? 0) || (n =? 1) then",
  "new": "if (n =? 1) then",
  "claim": "0 is a bit",
  "targets": [
   "Props_Errors"
  ]
 },
 {
  "id": "EE13",
  "file": "Encode",
  "definition": "encode_composite",
  "old": "                           | (SErr _, _) => (SErr original_error, out)\n                           end",
  "new": "                           | (SErr _, _) => (SErr XWrongShape, out)\n                           end",
  "claim": "the error of the first attempt is reported",
  "targets": [
   "Props_Errors"
  ]
 },
 {
  "id": "EE14",
  "file": "Encode",
  "definition": "encode_leaf",
  "old": "        | ResErr => (SErr XTypeResolving, out)\n        | ResNotFound",
  "new": "        | ResErr => (SErr XWrongShape, out)\n        | ResNotFound",
  "claim": "an unresolvable type gives the resolving error",
  "targets": [
   "Props_Errors"
  ]
 },
 {
  "id": "EE15",
  "file": "Encode",
  "definition": "encode_struct",
  "old": "        | ResErr => (SErr XTypeResolving, out)\n        | ResTy (TComposite fs) => match src",
  "new": "        | ResTy (TComposite fs) => match src",
  "claim": "an unresolvable type gives the resolving error",
  "targets": [
   "Props_Errors"
  ]
 },
 {
  "id": "EE16",
  "file": "Encode",
  "definition": "do_encode",
  "old": "      | ResErr => (SErr XTypeResolving, out)\n      | ResTy (TComposite _)",
  "new": "      | ResTy (TComposite _)",
  "claim": "an unresolvable type gives the resolving error",
  "targets": [
   "Props_Errors"
  ]
 },
 {
  "id": "EE17",
  "file": "Encode",
  "definition": "encode_byte_array",
  "old": "        | ResErr => (SErr XTypeResolving, out)\n        | ResTy (TArray t' n) =>\n            if N.of_nat (length b)",
  "new": "        | ResTy (TArray t' n) =>\n            if N.of_nat (length b)",
  "claim": "an unresolvable type gives the resolving error",
  "targets": [
   "Props_Errors"
  ]
 },
 {
  "id": "EE18",
  "file": "Encode",
  "definition": "encode_fields",
  "old": "(length fs =? length src)%nat",
  "new": "(length fs <=? length src)%nat",
  "claim": "too many values are reported",
  "targets": [
   "Props_Errors",
   "Props_Encode"
  ]
 },
 {
  "id": "DE1",
  "file": "Decode",
  "definition": "decode",
  "old": "| ResNotFound => Err EIdNotFound",
  "new": "| ResNotFound => Err ETypeResolving",
  "claim": "an unknown id is reported as such",
  "targets": [
   "Props_DecodeErrors"
  ]
 },
 {
  "id": "DE2",
  "file": "Decode",
  "definition": "decode",
  "old": "| ResErr => Err ETypeResolving",
  "new": "| ResErr => Err EIdNotFound",
  "claim": "a resolving error is reported as such",
  "targets": [
   "Props_DecodeErrors"
  ]
 },
 {
  "id": "DE3",
  "file": "Decode",
  "definition": "decode",
  "old": "| None => Err EVariantNotFound",
  "new": "| None => Err ENotEnough",
  "claim": "an unknown variant index is reported as such",
  "targets": [
   "Props_DecodeErrors"
  ]
 },
 {
  "id": "DE4",
  "file": "Decode",
  "definition": "decode",
  "old": "| [] => Err ENotEnough\n                 | idx",
  "new": "| [] => Err EVariantNotFound\n                 | idx",
  "claim": "missing bytes are reported as such",
  "targets": [
   "Props_DecodeErrors"
  ]
 },
 {
  "id": "DE5",
  "file": "Decode",
  "definition": "decode",
  "old": "if compact && negb (length ts =? 1)%nat then Err ECannotCompact",
  "new": "if negb (length ts =? 1)%nat && compact && negb (length ts =? 0)%nat then Err ECannotCompact",
  "claim": "an empty tuple cannot be compact",
  "targets": [
   "Props_DecodeErrors"
  ]
 },
 {
  "id": "DE6",
  "file": "Decode",
  "definition": "decode",
  "old": "if compact && negb (length fs =? 1)%nat then Err ECannotCompact",
  "new": "if compact && negb (length fs =? 1)%nat then Err ECodec",
  "claim": "a struct of two fields cannot be compact",
  "targets": [
   "Props_DecodeErrors"
  ]
 },
 {
  "id": "DE7",
  "file": "Decode",
  "definition": "decode",
  "old": "            if compact then Err ECannotCompact\n            else to_unnamed (decode f false) t (repeat t' (N.to_nat n)) bs",
  "new": "            to_unnamed (decode f false) t (repeat t' (N.to_nat n)) bs",
  "claim": "an array cannot be compact",
  "targets": [
   "Props_DecodeErrors"
  ]
 },
 {
  "id": "DE8",
  "file": "Decode",
  "definition": "decode",
  "old": "            if compact then Err ECannotCompact\n            else bind (decode_bits (x_maxbits X) st o bs)",
  "new": "            bind (decode_bits (x_maxbits X) st o bs)",
  "claim": "bits cannot be compact",
  "targets": [
   "Props_DecodeErrors"
  ]
 },
 {
  "id": "DE9",
  "file": "Decode",
  "definition": "decode",
  "old": "            if compact then Err ECannotCompact\n            else bind (compact_decode (x_len X) bs)",
  "new": "            if compact then Err ECannotCompact\n            else bind (compact_decode 32 bs)",
  "claim": "lengths are read as the platform's integers",
  "targets": [
   "Props_DecodeErrors"
  ]
 },
 {
  "id": "DE10",
  "file": "Decode",
  "definition": "decode",
  "old": "find (fun v => vi_index v =? idx) vs",
  "new": "find (fun v => vi_index v =? idx) (rev vs)",
  "claim": "the first variant with the index is meant",
  "targets": [
   "Props_DecodeErrors"
  ]
 },
 {
  "id": "DE11",
  "file": "Decode",
  "definition": "decode",
  "old": "| ResTy (TCompact t') => decode f true t' bs",
  "new": "| ResTy (TCompact t') => decode f (negb compact) t' bs",
  "claim": "compact inside compact stays compact",
  "targets": [
   "Props_DecodeErrors"
  ]
 },
 {
  "id": "DE12",
  "file": "Scale",
  "definition": "decode_bits",
  "old": "if maxbits <? fst x then Err EBits",
  "new": "if maxbits <=? fst x then Err EBits",
  "claim": "exactly the maximum of bits is fine",
  "targets": [
   "Props_DecodeErrors"
  ]
 },
 {
  "id": "DE13",
  "file": "Scale",
  "definition": "decode_bits",
  "old": "then Err EBits",
  "new": "then Err ENotEnough",
  "claim": "too many bits are reported as such",
  "targets": [
   "Props_DecodeErrors"
  ]
 },
 {
  "id": "DE14",
  "file": "Scale",
  "definition": "read_prim",
  "old": "else Err EInvalidChar",
  "new": "else Err ECodec",
  "claim": "an invalid character is reported as such",
  "targets": [
   "Props_DecodeErrors"
  ]
 },
 {
  "id": "DE15",
  "file": "Scale",
  "definition": "read_prim",
  "old": "| None => Err EInvalidStr end",
  "new": "| None => Err ECodec end",
  "claim": "an invalid string is reported as such",
  "targets": [
   "Props_DecodeErrors"
  ]
 },
 {
  "id": "DE16",
  "file": "Scale",
  "definition": "read_prim",
  "old": "| PtI w => bind (take (wbytes w) bs)",
  "new": "| PtI w => bind (take (S (wbytes w)) bs)",
  "claim": "no error when the bytes of the integer are there",
  "targets": [
   "Props_DecodeErrors"
  ]
 },
 {
  "id": "DE17",
  "file": "Scale",
  "definition": "read_prim",
  "old": "if compact then Err ECannotCompact else",
  "new": "if compact then Err ECodec else",
  "claim": "a bool cannot be compact",
  "targets": [
   "Props_DecodeErrors"
  ]
 },
 {
  "id": "DE18",
  "file": "Scale",
  "definition": "decode_bits",
  "old": "bind (compact_decode 32 bs)",
  "new": "bind (compact_decode 64 bs)",
  "claim": "the number of bits is below 2^32",
  "targets": [
   "Props_DecodeErrors"
  ]
 },
 {
  "id": "BU1",
  "file": "Builder",
  "definition": "wstep",
  "old": "custom_formatters g ++ [f]",
  "new": "f :: custom_formatters g",
  "claim": "formatters are tried in the order added",
  "targets": [
   "Props_Builder"
  ]
 },
 {
  "id": "BU2",
  "file": "Builder",
  "definition": "wstep",
  "old": "| CPretty => WB (Pretty 0) g ",
  "new": "| CPretty => WB (Pretty 1) g ",
  "claim": "pretty printing starts at level 0",
  "targets": [
   "Props_Builder"
  ]
 },
 {
  "id": "BU3",
  "file": "Builder",
  "definition": "wstep",
  "old": "WB (wb_style b) {| indent_by := s; leading_indent",
  "new": "WB (Pretty 0) {| indent_by := s; leading_indent",
  "claim": "indent_by does not change the style",
  "targets": [
   "Props_Builder"
  ]
 },
 {
  "id": "BU4",
  "file": "Builder",
  "definition": "wstep",
  "old": "leading_indent := s; custom_formatters := custom_formatters g; print_context := print_context g |}",
  "new": "leading_indent := leading_indent g ++ s; custom_formatters := custom_formatters g; print_context := print_context g |}",
  "claim": "the last leading indent counts",
  "targets": [
   "Props_Builder"
  ]
 },
 {
  "id": "BU5",
  "file": "Builder",
  "definition": "wstep",
  "old": "print_context := Some f |}",
  "new": "print_context := match print_context g with Some h => Some h | None => Some f end |}",
  "claim": "the last format_context counts",
  "targets": [
   "Props_Builder"
  ]
 },
 {
  "id": "BU6",
  "file": "Builder",
  "definition": "wnew",
  "old": "WB Normal {|",
  "new": "WB Compact {|",
  "claim": "a new builder writes normally",
  "targets": [
   "Props_Builder"
  ]
 },
 {
  "id": "BU7",
  "file": "Builder",
  "definition": "wnew",
  "old": "indent_by := s2l \"  \"",
  "new": "indent_by := s2l \"    \"",
  "claim": "the default indent is two spaces",
  "targets": [
   "Props_Builder"
  ]
 },
 {
  "id": "BU8",
  "file": "Builder",
  "definition": "wstep",
  "old": "| CCompact => WB Compact g ",
  "new": "| CCompact => WB Compact {| indent_by := indent_by g; leading_indent := leading_indent g; custom_formatters := []; print_context := print_context g |} ",
  "claim": "compact keeps the formatters",
  "targets": [
   "Props_Builder"
  ]
 },
 {
  "id": "BU9",
  "file": "Builder",
  "definition": "from_str_custom",
  "old": "ps ++ [p]",
  "new": "p :: ps",
  "claim": "parsers are tried in the order added",
  "targets": [
   "Props_Builder"
  ]
 },
 {
  "id": "SA1",
  "file": "SerdeAlloc",
  "definition": "reserve",
  "old": "| None => 0%N end",
  "new": "| None => 16%N end",
  "claim": "nothing is reserved without a hint",
  "targets": [
   "Props_SerdeAlloc"
  ]
 },
 {
  "id": "SA2",
  "file": "SerdeAlloc",
  "definition": "read_fields",
  "old": "| DMap hint _ l ends => lbind (reserve hint)",
  "new": "| DMap hint _ l ends => lbind (reserve None)",
  "claim": "what is announced is reserved for named fields",
  "targets": [
   "Props_SerdeAlloc"
  ]
 },
 {
  "id": "SA3",
  "file": "SerdeAlloc",
  "definition": "read_value",
  "old": "else lbind (reserve hint')",
  "new": "else lbind (reserve (option_map (fun n => n + 1)%N hint'))",
  "claim": "the hint after the first key is what is reserved",
  "targets": [
   "Props_SerdeAlloc"
  ]
 },
 {
  "id": "SA4",
  "file": "SerdeAlloc",
  "definition": "offer_composite",
  "old": "Some (n - 1)%N",
  "new": "Some n",
  "claim": "the crate's own readers announce what is left",
  "targets": [
   "Props_SerdeAlloc"
  ]
 },
 {
  "id": "SA5",
  "file": "SerdeAlloc",
  "definition": "read_items",
  "old": "| [] => if ends then lret [] else lfail EFormat",
  "new": "| [] => lret []",
  "claim": "a list cut short is an error",
  "targets": [
   "Props_SerdeAlloc"
  ]
 },
 {
  "id": "SA6",
  "file": "SerdeAlloc",
  "definition": "read_value",
  "old": "if str_eqb k bitvec_key then",
  "new": "if false then",
  "claim": "the bits key makes bits",
  "targets": [
   "Props_SerdeAlloc"
  ]
 },
 {
  "id": "SA7",
  "file": "SerdeAlloc",
  "definition": "offer",
  "old": "| DBits b => DMap (Some 1%N) (Some 0%N) [(bitvec_key",
  "new": "| DBits b => DMap (Some 1%N) (Some (N.of_nat (length b))) [(bitvec_key",
  "claim": "bits announce one entry",
  "targets": [
   "Props_SerdeAlloc"
  ]
 },
 {
  "id": "SA8",
  "file": "SerdeAlloc",
  "definition": "lbind",
  "old": "| Err e => (fst r, Err e)",
  "new": "| Err e => ([], Err e)",
  "claim": "what was reserved before a failure counts",
  "targets": [
   "Props_SerdeAlloc"
  ]
 },
 {
  "id": "NT1",
  "file": "Serde",
  "definition": "composite_de",
  "old": "| HNewtypeStruct => Ok (VSeq false [SrcComposite c])  ",
  "new": "| HNewtypeStruct => Ok (VSeq false (map (fun v => SrcValue v) (values c)))  ",
  "claim": "a newtype's content is the whole composite",
  "targets": [
   "Props_Newtype"
  ]
 },
 {
  "id": "NT2",
  "file": "Serde",
  "definition": "variant_de",
  "old": "| HNewtypeStruct => Ok (VSeq false [SrcVariant n c])  ",
  "new": "| HNewtypeStruct => Ok (VSeq false [SrcComposite c])  ",
  "claim": "a newtype's content is the whole variant",
  "targets": [
   "Props_Newtype"
  ]
 },
 {
  "id": "NT3",
  "file": "Serde",
  "definition": "prim_de",
  "old": "| HNewtypeStruct => VSeq false [SrcPrim p]",
  "new": "| HNewtypeStruct => VSeq false []",
  "claim": "a newtype's content is the primitive",
  "targets": [
   "Props_Newtype"
  ]
 }
]