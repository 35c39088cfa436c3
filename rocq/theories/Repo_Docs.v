(** * Repo_Docs: the documentation examples of /repo/src/lib.rs, of /repo/README.md and of custom_formatters/hex.rs run on the model.
    Tests of the model, not properties. *)
From Verif Require Import Base Value Chars Parse Hex Fmt Ss58 Base58 Blake2 Registry Scale Decode Encode Serde Repo_Text.
Open Scope N_scope.

(** ** serde: lib.rs:66-103 and 110-148 *)
Definition u8 : ty := TyInt false 8.
Definition foo_ty : ty := TyEnum [(s2l "A", VsStruct [(s2l "is_valid", TyBool); (s2l "name", TyString)]); (s2l "B", VsTuple [u8; TyBool])].
Definition foo_a : data := XEnum (s2l "A") (VsStruct [(s2l "is_valid", XBool true); (s2l "name", XString (s2l "James"))]).
Definition name_first : value unit := named_variant (s2l "A") [(s2l "name", vstring (s2l "James")); (s2l "is_valid", vbool true)].
Definition valid_first : value unit := named_variant (s2l "A") [(s2l "is_valid", vbool true); (s2l "name", vstring (s2l "James"))].
(** serde reads and writes [[u8; 3]] as the tuple [(u8, u8, u8)]. *)
Example doc_serde_array :
  from_value (TyTuple [u8; u8; u8]) (unnamed_composite v123) = Ok (XTuple [XInt 1; XInt 2; XInt 3]) /\
  to_value (TyTuple [u8; u8; u8]) (XTuple [XInt 1; XInt 2; XInt 3]) = Ok (unnamed_composite v123).
Proof. apply conj; vm_compute; reflexivity. Qed.
Example doc_serde_enum :
  from_value foo_ty name_first = Ok foo_a /\
  from_value foo_ty (unnamed_variant (s2l "B") [vu128 123; vbool true]) = Ok (XEnum (s2l "B") (VsTuple [XInt 123; XBool true])) /\
  to_value foo_ty foo_a = Ok valid_first.
Proof. repeat apply conj; vm_compute; reflexivity. Qed.
(** README.md:64-86 is not compiled with the crate (its last lines use an undefined [foo] and a moved [value]); written with [foo1] and a clone,
    its last assertion would fail: the fields come back in the order of the Rust type. *)
Example readme_serde_order : bind (rmap (to_value foo_ty) (from_value foo_ty name_first)) (fun r => match r with Ok v => Ok v | Err _ => Err DHang end) = Ok valid_first /\ valid_first <> name_first.
Proof. split; [vm_compute; reflexivity|discriminate]. Qed.

(** ** scale: lib.rs:161-195, README.md:24-60 *)
Definition foo_reg (t : nat) : resolution nat :=
  match t with
  | 0 => ResTy (TVariant [VInfo (s2l "A") 0 [(Some (s2l "is_valid"), 1%nat); (Some (s2l "name"), 2%nat)]])
  | 1 => ResTy (TPrim PtBool) | 2 => ResTy (TPrim PtStr) | _ => ResNotFound
  end%nat.
Example doc_scale :
  Forall (fun X => encode foo_reg X 9 valid_first 0%nat [] = (SOk, [0; 1; 20] ++ s2l "James") /\
                   rmap (fun r => (remove_context (fst r), snd r)) (decode_as_type foo_reg X (fun t => t) 9 0%nat ([0; 1; 20] ++ s2l "James")) = Ok (valid_first, []))
    [Ext true true (2 ^ 28) true; Ext false true (2 ^ 28) true; Ext true false (2 ^ 28) true; Ext false false (2 ^ 28) false].
Proof. repeat (apply Forall_cons; [apply conj; vm_compute; reflexivity|]); apply Forall_nil. Qed.

(** ** stringify: lib.rs:309-363 *)
Definition hello_pair : list (str * value unit) := [(s2l "a", vbool true); (s2l "b", vstring (s2l "hello"))].
Example doc_from_str :
  parses (s2l "1") (vu128 1) /\ parses (s2l "-1") (vi128 (-1)) /\ parses (s2l "true") (vbool true) /\ parses (s2l "'a'") (vchar 97) /\ parses (s2l """hi""") (vstring (s2l "hi")) /\
  parses (s2l "{ a: true, b: ""hello"" }") (named_composite hello_pair) /\
  parses (s2l "(true, ""hello"")") (unnamed_composite (map snd hello_pair)) /\
  parses (s2l "MyVariant { a: true, b: ""hello"" }") (named_variant (s2l "MyVariant") hello_pair) /\
  parses (s2l "<0101>") (bit_sequence [false; true; false; true]).
Proof. repeat apply conj; vm_compute; reflexivity. Qed.
(** lib.rs:374-433 *)
Definition with_hex_ss58 : list cparser := [parse_hex; parse_ss58 b58_decode ss58hash].
Example doc_from_str_custom :
  parse_custom sample_unicode with_hex_ss58 (s2l "(1,2,0x030405)") = (Ok (unnamed_composite [vu128 1; vu128 2; unnamed_composite [vu128 3; vu128 4; vu128 5]]), []) /\
  parse_custom sample_unicode with_hex_ss58 (raw "{
    name: ""Alice"",
    address: 5FHneW46xGXgs5mUiveU4sbTyGBzmstUspZC92UhjJM694ty
}") = (Ok (named_composite [(s2l "name", vstring (s2l "Alice"));
         (s2l "address", unnamed_composite (map vu128 (hex_bytes "8eaf04151687736326c9fea17e25fc5287613693c912909cb226aa4794f26a48")))]), []).
Proof. apply conj; vm_compute; reflexivity. Qed.
(** lib.rs:454-467 *)
Example doc_to_writer : shows (named_composite [(s2l "foo", vbool true); (s2l "bar", vstring (s2l "hello"))]) (s2l "{ foo: true, bar: ""hello"" }").
Proof. vm_compute. reflexivity. Qed.
(** lib.rs:481-511 *)
Definition capitalise_bools (v : value unit) (w : str) : option bool * str :=
  match vdef_of v with
  | DPrim (PBool true) => let (w', ok) := string_wr w (s2l "TRUE") in (Some ok, w')
  | DPrim (PBool false) => let (w', ok) := string_wr w (s2l "FALSE") in (Some ok, w')
  | _ => (None, w)
  end.
Definition hex_cfg (more : list (value unit -> str -> option bool * str)) : config unit str :=
  {| indent_by := s2l "  "; leading_indent := []; custom_formatters := format_hex string_wr :: more; print_context := None |}.
Example doc_to_writer_custom :
  write_value sample_unicode string_wr (hex_cfg [capitalise_bools]) Compact
    (named_composite [(s2l "foo", vbool true); (s2l "bar", unnamed_composite (map vu128 [1; 2; 3; 4]))]) [] = (s2l "{foo:TRUE,bar:0x01020304}", true).
Proof. vm_compute. reflexivity. Qed.
(** custom_formatters/hex.rs:24-43 *)
Example doc_format_hex :
  write_value sample_unicode string_wr (hex_cfg []) Normal
    (named_composite [(s2l "foo", unnamed_composite (map vu128 [1; 2; 3; 4; 5])); (s2l "bar", unnamed_composite (map vu128 [1000; 10]))]) [] =
  (s2l "{ foo: 0x0102030405, bar: (1000, 10) }", true).
Proof. vm_compute. reflexivity. Qed.
