{
 "P20": {
  "tightened": [
   "C62_shared_cursor"
  ],
  "note": "survived: no theorem said where the next custom parser is asked; C62_shared_cursor added, see attempt P20b"
 },
 "F13": {
  "tightened": [
   "C59_one_line_styles",
   "C59_pretty_style"
  ],
  "note": "survived Props_Fmt: the text around contexts was not fixed; the exact layout theorems of C59 were added, see attempt F13b"
 },
 "F20": {
  "note": "repeated as F20b with an edit that keeps the parameter U in use"
 },
 "D11": {
  "tightened": [
   "C36_value_as_struct"
  ],
  "note": "no theorem mentioned field-wise decoding into a Value; added C36_value_as_struct, which fails under this edit"
 },
 "H13": {
  "tightened": [
   "C11_characters"
  ],
  "note": "the character tables were used by the grammar too; C11_characters states them by literal ranges and fails under this edit (see H13b)"
 },
 "H14": {
  "tightened": [
   "C11_characters"
  ],
  "note": "as H13"
 },
 "S16": {
  "tightened": [
   "C21_sound",
   "C25 and all others over Spec_Scale"
  ],
  "note": "the specification used the widths of the model; Spec_Scale now has its own table (int_size, store_size), so this edit breaks the proofs (see S16b)"
 },
 "T13": {
  "tightened": [
   "C30 theorems of Props_Decode"
  ],
  "note": "the limit is now the literal 100000000 in the statements (see T13b)"
 },
 "R27": {
  "tightened": [
   "C76_maps"
  ],
  "note": "no theorem spoke of duplicate keys of maps; C76_maps added (see R27b)"
 },
 "R32": {
  "tightened": [
   "C75_read_iff",
   "C75_variant_iff"
  ],
  "note": "options of foreign formats were not modelled; now they are (see R32b)"
 },
 "CT7": {
  "tightened": [
   "C71_untagged_first"
  ],
  "note": "first_that_reads was in the statement; C71_untagged_first says what it is (see CT7b)"
 },
 "S51": {
  "tightened": [
   "C75_read_iff",
   "C75_composite_iff"
  ],
  "note": "nulls of foreign formats were not modelled; now they are (see S51b)"
 },
 "S54": {
  "tightened": [
   "C75_read_iff",
   "C75_variant_iff"
  ],
  "note": "see S54b"
 },
 "W18": {
  "tightened": [],
  "note": "the edit does not change what the program does (the last attempt of encode_composite makes up for it): only proof scripts break"
 },
 "X21": {
  "tightened": [],
  "note": "equivalent: parse_variant ignores the error of its identifier"
 },
 "X29": {
  "tightened": [],
  "note": "caught by C16_example and by the unit tests replayed in Repo_Text"
 },
 "X47": {
  "tightened": [
   "C42_calls"
  ],
  "note": "see X47b"
 },
 "X54": {
  "tightened": [
   "C71_internally_tagged_sequence"
  ],
  "note": "see X54b"
 },
 "X56": {
  "tightened": [],
  "note": "run against the wrong file: see X56b"
 },
 "X57": {
  "tightened": [
   "C61_text",
   "C61_kinds_told_apart"
  ],
  "note": "see X57b"
 },
 "X58": {
  "tightened": [
   "C61_text",
   "C61_kinds_told_apart"
  ],
  "note": "see X58b"
 },
 "X59": {
  "tightened": [
   "C61_text"
  ],
  "note": "see X59b"
 },
 "VO5": {
  "tightened": [
   "C11_delimiters"
  ],
  "note": "survived at first: C11_delimiters now fixes the delimiters of the grammar"
 },
 "SA7": {
  "tightened": [],
  "note": "equivalent: the second size hint of the bit sequence map is never consulted by the crate's visitors"
 },
 "BP14": {
  "tightened": [],
  "note": "equivalent edit"
 },
 "MS2": {
  "tightened": [],
  "note": "equivalent: no alternative is given up after a custom parser was asked"
 },
 "MS10": {
  "tightened": [],
  "note": "edit adds a redundant clause; attempt discarded"
 },
 "MS1": {
  "tightened": [
   "C92_asked_in_order",
   "C92_as_without_memory",
   "C92_rest_and_errors"
  ],
  "note": "survived: the specification used the model's own loop over the parsers; Spec_Memory.asked now says independently how a list of parsers is asked, see attempt MS1b"
 },
 "RD10": {
  "tightened": [],
  "note": "equivalent for the caller: the newtype's visitor refuses the map it is shown instead"
 },
 "RD24": {
  "tightened": [],
  "note": "equivalent: no value shows unit when anything is asked for"
 },
 "RD29": {
  "tightened": [],
  "note": "equivalent: no value shows unit to an option"
 },
 "RD30": {
  "tightened": [],
  "note": "equivalent: no value shows unit to a sequence"
 }
}