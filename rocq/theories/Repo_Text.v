(** * Repo_Text: the unit tests of /repo/src/{at.rs, string_impls/**} run on the model.
    These are tests of the model, not properties: the crate cannot be run here, so its own expectations are what the model is compared
    with.  Each [Example] is named after the test; [smile] is the emoji in the tests. *)
From Verif Require Import Base Value Chars Parse Hex Fmt Ss58 Base58 Blake2.
Open Scope N_scope.

Definition smile : char := 0x1F600.
Definition from (s : str) : result (value unit) perr * str := from_str sample_unicode s.
Definition parses (s : str) (v : value unit) : Prop := from s = (Ok v, []).
Definition fails (s : str) (e : perr) : Prop := fst (from s) = Err e.
(** A string literal with backslash escapes written as in Rust would be hard to read: [esc] turns ~ into a backslash and ^ into the emoji, [raw]
    turns the two-character sequences ~n ~t ~r ~0 into control characters. *)
Definition esc (s : string) : str := map (fun c => if c =? 126 then 92 else if c =? 94 then smile else c) (s2l s).
Fixpoint ctl (s : str) : str :=
  match s with
  | 126 :: 110 :: s' => 10 :: ctl s'
  | 126 :: 116 :: s' => 9 :: ctl s'
  | 126 :: 114 :: s' => 13 :: ctl s'
  | 126 :: 48 :: s' => 0 :: ctl s'
  | 94 :: s' => smile :: ctl s'
  | c :: s' => c :: ctl s'
  | [] => []
  end.
Definition raw (s : string) : str := ctl (s2l s).

(** ** from_string.rs:626-799 *)
Example parse_bools : parses (s2l "true") (vbool true) /\ parses (s2l "false") (vbool false).
Proof. split; reflexivity. Qed.
Example parse_numbers :
  parses (s2l "123") (vu128 123) /\ parses (s2l "1_234_56") (vu128 123456) /\ parses (s2l "+1_234_56") (vu128 123456) /\
  parses (s2l "-123_4") (vi128 (-1234)) /\ fails (s2l "-abc") (e_between ENumDigit 1 2).
Proof. repeat apply conj; vm_compute; reflexivity. Qed.
Example parse_chars :
  parses (s2l "'a'") (vchar 97) /\ parses (esc "'^'") (vchar smile) /\ parses (esc "'~n'") (vchar 10) /\ parses (esc "'~t'") (vchar 9) /\
  parses (esc "'~""'") (vchar 34) /\ parses (esc "'~''") (vchar 39) /\ parses (esc "'~r'") (vchar 13) /\ parses (esc "'~~'") (vchar 92) /\
  parses (esc "'~0'") (vchar 0) /\ fails (s2l "'a") (e_at_one (ECharClose 0) 2).
Proof. repeat apply conj; vm_compute; reflexivity. Qed.
Example parse_strings :
  parses (esc """~n ~r ~t ~0 ~""""") (vstring (raw "~n ~r ~t ~0 """)) /\ parses (esc """Hello there ^""") (vstring (raw "Hello there ^")) /\
  parses (esc """Hello~n~t there""") (vstring (raw "Hello~n~t there")) /\ parses (esc """Hello~~ there""") (vstring (esc "Hello~ there")) /\
  fails (esc """Hello~p there""") (e_between EStrEscape 7 8) /\ fails (s2l """Hi") (e_at_one (EStrClose 0) 3).
Proof. repeat apply conj; vm_compute; reflexivity. Qed.
Example parse_unnamed_composites :
  parses (raw "(  true, 1234 ,~t~n~t ""Hello!"" )") (unnamed_composite [vbool true; vu128 1234; vstring (s2l "Hello!")]) /\
  parses (s2l "()") (unnamed_composite []) /\ parses (raw "(~n~n~t~t~n)") (unnamed_composite []).
Proof. repeat apply conj; vm_compute; reflexivity. Qed.
Definition hello_fields : list (str * value unit) :=
  [(s2l "hello", vbool true); (s2l "foo", vu128 1234); (raw "Hello there ^", vstring (s2l "Hello!"))].
Example parse_named_composites :
  parses (raw "{~n            hello: true,~n            foo: 1234,~n            ""Hello there ^"": ""Hello!""~n        }") (named_composite hello_fields).
Proof. vm_compute. reflexivity. Qed.
Example parse_variants :
  parses (raw "MyVariant {~n            hello: true,~n            foo: 1234,~n            ""Hello there ^"": ""Hello!""~n        }") (named_variant (s2l "MyVariant") hello_fields) /\
  parses (raw "Foo (  true, 1234 ,~t~n~t ""Hello!"" )") (unnamed_variant (s2l "Foo") [vbool true; vu128 1234; vstring (s2l "Hello!")]) /\
  parses (s2l "Foo()") (unnamed_variant (s2l "Foo") []) /\ parses (s2l "Foo{}") (named_variant (s2l "Foo") []) /\
  parses (raw "Foo( ~t)") (unnamed_variant (s2l "Foo") []) /\ parses (s2l "Foo{  }") (named_variant (s2l "Foo") []) /\
  parses (s2l "v""variant name"" {  }") (named_variant (s2l "variant name") []).
Proof. repeat apply conj; vm_compute; reflexivity. Qed.
Definition bits01 (s : string) : list bool := map (fun c => c =? 49) (s2l s).
Example parse_bit_sequences :
  parses (s2l "<011010110101101>") (bit_sequence (bits01 "011010110101101")) /\ parses (s2l "<01101>") (bit_sequence (bits01 "01101")) /\
  parses (s2l "<0>") (bit_sequence [false]) /\ parses (s2l "<>") (bit_sequence []).
Proof. repeat apply conj; vm_compute; reflexivity. Qed.

(** The custom parser of the test, from_string.rs:748-776. *)
Definition hexish (c : char) : bool := is_digit c || ((97 <=? c) && (c <=? 102)) || ((65 <=? c) && (c <=? 70)).
Definition test_parser : cparser := fun s =>
  match strip_prefix (s2l "0x") s with
  | None => (None, s)
  | Some t => let (h, rest) := take_while hexish t in
              if Nat.even (length h) then (Some (Ok (vstring h)), rest)
              else (Some (Err (e_between (ECustom (s2l "Wrong number hex")) 2 (2 + blen h))), s)
  end.
Definition parse_test (s : str) := parse_custom sample_unicode [test_parser] s.
Example custom_parsers :
  parse_test (s2l "(1, 0x1234, true)") = (Ok (unnamed_composite [vu128 1; vstring (s2l "1234"); vbool true]), []) /\
  parse_test (s2l "0x12345zzz") = (Err (e_between (ECustom (s2l "Wrong number hex")) 2 7), s2l "0x12345zzz") /\
  parse_test (s2l "(true, 0x12345)") = (Err (e_between (ECustom (s2l "Wrong number hex")) 9 14), s2l ", 0x12345)").
Proof. repeat apply conj; vm_compute; reflexivity. Qed.

(** ** to_string.rs:584-764 *)
Definition shows (v : value unit) (s : str) : Prop := display sample_unicode false v = Some s.
Definition v123 : list (value unit) := [vu128 1; vu128 2; vu128 3].
Example outputs_expected_string :
  shows (vbool true) (s2l "true") /\ shows (vbool false) (s2l "false") /\ shows (vchar 97) (s2l "'a'") /\ shows (vu128 123) (s2l "123") /\
  shows (unnamed_composite [vbool true; vstring (s2l "hi")]) (s2l "(true, ""hi"")") /\
  shows (named_composite [(s2l "hi there", vbool true); (s2l "other", vstring (s2l "hi"))]) (s2l "{ ""hi there"": true, other: ""hi"" }") /\
  shows (named_variant (s2l "Foo") [(s2l "ns", unnamed_composite v123); (s2l "other", vchar 97)]) (s2l "Foo { ns: (1, 2, 3), other: 'a' }").
Proof. repeat apply conj; vm_compute; reflexivity. Qed.
Definition expanded : value unit :=
  named_composite [(s2l "hello", vbool true); (s2l "empty", unnamed_composite []); (s2l "sequence", unnamed_composite v123);
    (s2l "variant", unnamed_variant (s2l "MyVariant") v123); (s2l "inner", named_composite [(s2l "foo", vstring (s2l "hello"))])].
Example expanded_output_works : display sample_unicode true expanded = Some (raw
"{
  hello: true,
  empty: (),
  sequence: (
    1,
    2,
    3
  ),
  variant: MyVariant (
    1,
    2,
    3
  ),
  inner: {
    foo: ""hello""
  }
}").
Proof. vm_compute. reflexivity. Qed.
Example compact_output_works : to_text sample_unicode (s2l "  ") [] Compact expanded =
  Some (s2l "{hello:true,empty:(),sequence:(1,2,3),variant:MyVariant(1,2,3),inner:{foo:""hello""}}").
Proof. vm_compute. reflexivity. Qed.
(** [s.trim().starts_with('v')] tells whether the name was quoted. *)
Definition quoted (n : string) : option bool := option_map (fun s => match s with c :: _ => c =? c_v | [] => false end) (display sample_unicode false (named_variant (s2l n) [])).
Example pretty_variant_ident_used_when_possible :
  map quoted ["simpleIdent"; "S"; "S123"; "S123_"; ""; "complex ident"; "0Something"; "_Something"]%string =
  map Some [false; false; false; false; true; true; true; true].
Proof. vm_compute. reflexivity. Qed.
(** [assert_from_to] *)
Definition from_to (v : value unit) : Prop := match display sample_unicode false v with Some s => parses s v | None => False end.
Example from_to_primitives :
  Forall from_to [vbool true; vbool false; vchar 10; vchar smile; vchar 97; vchar 0; vchar 9; vi128 (-123456); vu128 0; vu128 123456;
    vstring (raw "hello ""you"",~n~n~t How are you??"); vstring []].
Proof. repeat (apply Forall_cons; [vm_compute; reflexivity|]); apply Forall_nil. Qed.
Definition woop : list (str * value unit) := [(s2l "foo", vu128 12345); (s2l "bar", vbool true); (s2l "a ""weird"" name", vstring (s2l "Woop!"))].
Example from_to_composites_variants_bits :
  Forall from_to [named_composite woop; unnamed_composite (map snd woop); named_variant (s2l "A weird variant name") woop;
    unnamed_variant (s2l "MyVariant") (map snd woop); bit_sequence (bits01 "0110110"); bit_sequence []].
Proof. repeat (apply Forall_cons; [vm_compute; reflexivity|]); apply Forall_nil. Qed.

(** ** custom_formatters/hex.rs:85-100 and the documentation example at :24-43 *)
Example test_value_to_hex : format_hex string_wr (unnamed_composite (map vu128 [0; 230; 255; 15; 12; 4])) [] = (Some true, s2l "0x00E6FF0F0C04").
Proof. vm_compute. reflexivity. Qed.
Example test_value_not_to_hex : fst (format_hex string_wr (unnamed_composite (map vu128 [0; 230; 256])) []) = None.
Proof. vm_compute. reflexivity. Qed.

(** ** custom_parsers/hex.rs:108-176 *)
Definition hex_gives (s : string) (bs : bytes) (rest : string) : Prop := parse_hex (s2l s) = (Some (Ok (from_bytes bs)), s2l rest).
Example parses_same_as_hex_crate :
  hex_gives "0x" [] "" /\ hex_gives "0x00" [0] "" /\ hex_gives "0x000102030405060708090A0B" [0;1;2;3;4;5;6;7;8;9;10;11] "" /\
  hex_gives "0xDEADBEEF" [0xDE; 0xAD; 0xBE; 0xEF] "" /\ hex_gives "0x00BAB10C" [0; 0xBA; 0xB1; 0x0C] "".
Proof. repeat apply conj; vm_compute; reflexivity. Qed.
Example consumes_parsed_hex :
  hex_gives "0x foo" [] " foo" /\ hex_gives "0x00,bar" [0] ",bar" /\ hex_gives "0x123456-2" [0x12; 0x34; 0x56] "-2" /\ hex_gives "0xDEADBEEF " [0xDE; 0xAD; 0xBE; 0xEF] " ".
Proof. repeat apply conj; vm_compute; reflexivity. Qed.
Example err_wrong_length : Forall (fun s => parse_hex (s2l s) = (Some (Err (PErr 0 (Some (blen (s2l s))) (ECustom wrong_length_msg))), s2l s)) ["0x1"; "0x123"]%string.
Proof. repeat (apply Forall_cons; [vm_compute; reflexivity|]); apply Forall_nil. Qed.
Example err_invalid_char :
  Forall (fun '(s, c, pos) => parse_hex (s2l s) = (Some (Err (PErr pos None (ECustom (invalid_char_msg c)))), s2l s)) [("0x12345x"%string, 120, 7); ("0x123h4"%string, 104, 5); ("0xG23h4"%string, 71, 2)].
Proof. repeat (apply Forall_cons; [vm_compute; reflexivity|]); apply Forall_nil. Qed.
Example empty_string_doesnt_panic : fst (parse_hex []) = None /\ fst (parse_hex (s2l "0")) = None.
Proof. split; reflexivity. Qed.

(** ** custom_parsers/ss58.rs:105-160, with base58 and BLAKE2b *)
Definition real_ss58 : str -> option (bytes * str) := parse_ss58_bytes b58_decode ss58hash.
Definition hex_bytes (s : string) : bytes :=
  match parse_hex (s2l "0x" ++ s2l s) with (Some (Ok v), []) => flat_map (fun w => match as_u128 w with Some n => [n] | None => [] end) (children (vdef_of v)) | _ => [] end.
Example can_parse_ss58_address :
  real_ss58 (s2l "5GrwvaEF5zXb26Fz9rcQpDWS57CtERHpNehXCPcNoHGKutQY ") = Some (hex_bytes "d43593c715fdd31c61141abd04a99fd6822c8558854ccde39a5684e7a56da27d", s2l " ") /\
  real_ss58 (s2l "5FHneW46xGXgs5mUiveU4sbTyGBzmstUspZC92UhjJM694ty-100") = Some (hex_bytes "8eaf04151687736326c9fea17e25fc5287613693c912909cb226aa4794f26a48", s2l "-100") /\
  real_ss58 (s2l "5FLSigC9HGRKVhB9FiEo4Y3koPsNmBmLJbpXg2mp1hXcS59Y,1,2,3") = Some (hex_bytes "90b5ab205c6974c9ea841be688864633dc9ca8a357843eeacf2314649965fe22", s2l ",1,2,3") /\
  real_ss58 (s2l "5HGjWAeFDfFCWPsjFQdVV2Msvz2XtMktvgocEZcCj68kUMaw }") = Some (hex_bytes "e659a7a1628cdd93febc04a4e0646ea20e9f5f0ce097d9a05290d4a9e054df4e", s2l " }").
Proof. repeat apply conj; vm_compute; reflexivity. Qed.
Example invalid_addresses_will_error :
  Forall (fun s => real_ss58 s = None) [s2l "5GrwvaEF5zXb26Fz9rcQpDWS57CtERHpNehXCPcNoHGKutQY { hi: 1 }";
    raw "5GrwvaEF5zXb26Fz9rcQpDWS57CtERHpNehXCPcNoHGKutQY     ~t~n (1)"; s2l "Foo"; []].
Proof. repeat (apply Forall_cons; [vm_compute; reflexivity|]); apply Forall_nil. Qed.

(** ** at.rs:168-228 *)
Definition acc_val : value unit :=
  named_composite [(s2l "hello", unnamed_composite [vu128 1; vbool true; named_composite [(s2l "wibble", vbool false); (s2l "foo", named_composite [(s2l "bar", vu128 123)])]])].
Definition L (s : string) : location := LStr (s2l s).
Example nested_accessing :
  at_path acc_val [L "hello"; LIdx 0] = Some (vu128 1) /\ at_path acc_val [L "hello"; LIdx 1] = Some (vbool true) /\
  at_path acc_val [L "hello"; LIdx 2; L "wibble"] = Some (vbool false) /\ at_path acc_val [L "hello"; LIdx 2; L "foo"; L "bar"] = Some (vu128 123) /\
  at_path acc_val [L "wibble"; LIdx 3] = None /\ at_path acc_val [L "wibble"; L "wobble"; L "nope"] = None.
Proof. repeat apply conj; vm_compute; reflexivity. Qed.
Example accessing_variants_and_composites :
  Forall (fun v => obind (at_value v (L "foo")) as_u128 = Some 12345 /\ obind (at_value v (L "bar")) as_char = Some 99)
    [named_variant (s2l "TheVariant") [(s2l "foo", vu128 12345); (s2l "bar", vchar 99)]; named_composite [(s2l "foo", vu128 12345); (s2l "bar", vchar 99)]] /\
  Forall (fun v => obind (at_value v (LIdx 0)) as_u128 = Some 12345 /\ obind (at_value v (LIdx 1)) as_char = Some 99)
    [unnamed_variant (s2l "TheVariant") [vu128 12345; vchar 99]; unnamed_composite [vu128 12345; vchar 99]].
Proof. repeat constructor. Qed.
