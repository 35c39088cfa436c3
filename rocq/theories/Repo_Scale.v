(** * Repo_Scale: the unit tests of /repo/src/scale_impls/{decode,encode}.rs run on the model.
    Tests of the model, not properties.  The bytes are what parity-scale-codec's [Encode] gives for the Rust values of the tests. *)
From Verif Require Import Base Value Registry Scale Decode Trace Encode.
Open Scope N_scope.

Definition n_ (s : string) : option str := Some (s2l s).
Definition treg (t : nat) : resolution nat :=
  match t with
  | 0 => ResTy (TPrim PtBool) | 1 => ResTy (TPrim PtChar) | 2 => ResTy (TPrim PtStr)
  | 3 => ResTy (TPrim (PtU W8)) | 4 => ResTy (TPrim (PtU W16)) | 5 => ResTy (TPrim (PtU W32)) | 6 => ResTy (TPrim (PtU W64)) | 7 => ResTy (TPrim (PtU W128))
  | 8 => ResTy (TPrim (PtI W8)) | 9 => ResTy (TPrim (PtI W16)) | 10 => ResTy (TPrim (PtI W32)) | 11 => ResTy (TPrim (PtI W64)) | 12 => ResTy (TPrim (PtI W128))
  | 13 => ResTy (TCompact 3%nat) | 14 => ResTy (TCompact 4%nat) | 15 => ResTy (TCompact 5%nat) | 16 => ResTy (TCompact 6%nat) | 17 => ResTy (TCompact 7%nat)
  | 18 => ResTy (TComposite [(n_ "inner", 5%nat)])                 (* struct MyWrapper { inner: u32 } *)
  | 19 => ResTy (TComposite [(None, 5%nat)])                       (* struct MyWrapper(u32) *)
  | 20 => ResTy (TCompact 18%nat) | 21 => ResTy (TCompact 19%nat)
  | 22 => ResTy (TSequence 10%nat) | 23 => ResTy (TArray 10%nat 3) | 24 => ResTy (TTuple [10; 0; 7]%nat)
  | 25 => ResTy (TVariant [VInfo (s2l "Foo") 0 [(None, 0%nat)]; VInfo (s2l "Bar") 1 [(n_ "hi", 2%nat); (n_ "other", 7%nat)]])
  | 26 => ResTy (TComposite [(None, 0%nat); (None, 2%nat); (None, 28%nat)])
  | 27 => ResTy (TComposite [(n_ "is_valid", 0%nat); (n_ "name", 2%nat); (n_ "bytes", 28%nat)])
  | 28 => ResTy (TSequence 3%nat) | 29 => ResTy (TComposite []) | 30 => ResTy (TBitSeq B8 Lsb0)
  | 31 => ResTy (TArray 3%nat 32) | 32 => ResTy (TArray 4%nat 4)
  | 33 => ResTy (TVariant [VInfo (s2l "Named") 0 [(n_ "hello", 2%nat); (n_ "foo", 0%nat)]; VInfo (s2l "Unnamed") 1 [(None, 6%nat); (None, 34%nat)]])
  | 34 => ResTy (TSequence 0%nat) | 35 => ResTy (TTuple [3; 4]%nat) | 36 => ResTy (TSequence 35%nat)
  | 37 => ResTy (TComposite [(n_ "hello", 2%nat); (n_ "foo", 0%nat)]) | 38 => ResTy (TTuple [2; 0]%nat)
  | 39 => ResTy (TComposite [(None, 18%nat)])                      (* struct Bar(Foo) *)
  | 40 => ResTy (TComposite [(None, 28%nat)])                      (* struct SomeBytes(Vec<u8>) *)
  | 41 => ResTy (TComposite [(None, 0%nat)])                       (* struct A(bool) *)
  | _ => ResNotFound
  end%nat.
(** The tests hold whatever the parameters of the model are: all are tried. *)
Definition exts : list ext := [Ext true true (2 ^ 28) true; Ext false true (2 ^ 28) true; Ext true false (2 ^ 28) true; Ext false false (2 ^ 28) false].
Definition hello : bytes := 20 :: s2l "hello".
(** Both decoders; the tracing decoder additionally reports the type ids, which are dropped here. *)
Definition decodes_to (t : nat) (bs : bytes) (v : value unit) : Prop :=
  Forall (fun X => decode_as_type treg X (fun _ => tt) 9 t bs = Ok (v, []) /\ rmap (fun r => (remove_context (fst r), snd r)) (trace_as_type treg X 9 t bs) = Ok (v, [])) exts.
Definition encodes_to (v : value unit) (t : nat) (bs : bytes) : Prop := Forall (fun X => encode treg X 9 v t [] = (SOk, bs)) exts.
Ltac run := repeat split; repeat constructor; vm_compute; reflexivity.

(** ** decode.rs:432-645 *)
Example decode_primitives :
  decodes_to 0 [1] (vbool true) /\ decodes_to 0 [0] (vbool false) /\ decodes_to 1 [97; 0; 0; 0] (vchar 97) /\ decodes_to 2 hello (vstring (s2l "hello")) /\
  decodes_to 3 [123] (vu128 123) /\ decodes_to 4 [123; 0] (vu128 123) /\ decodes_to 5 (123 :: repeat 0 3) (vu128 123) /\ decodes_to 6 (123 :: repeat 0 7) (vu128 123) /\ decodes_to 7 (123 :: repeat 0 15) (vu128 123) /\
  decodes_to 8 [123] (vi128 123) /\ decodes_to 9 [123; 0] (vi128 123) /\ decodes_to 10 (123 :: repeat 0 3) (vi128 123) /\ decodes_to 11 (123 :: repeat 0 7) (vi128 123) /\ decodes_to 12 (123 :: repeat 0 15) (vi128 123).
Proof. run. Qed.
(** 123 needs the two-byte form: 123 * 4 + 1 = 0x01ED. *)
Example decode_compact_primitives : Forall (fun t => decodes_to t [0xED; 0x01] (vu128 123)) [13; 14; 15; 16; 17]%nat.
Proof. run. Qed.
Example decode_compact_wrapper_structs :
  decodes_to 20 [0xED; 0x01] (named_composite [(s2l "inner", vu128 123)]) /\ decodes_to 21 [0xED; 0x01] (unnamed_composite [vu128 123]).
Proof. run. Qed.
Example decode_sequence_array_tuple_types :
  decodes_to 22 [12; 1;0;0;0; 2;0;0;0; 3;0;0;0] (unnamed_composite [vi128 1; vi128 2; vi128 3]) /\
  decodes_to 23 [1;0;0;0; 2;0;0;0; 3;0;0;0] (unnamed_composite [vi128 1; vi128 2; vi128 3]) /\
  decodes_to 24 ([1;0;0;0; 1; 0x40; 0xE2; 0x01] ++ repeat 0 13) (unnamed_composite [vi128 1; vbool true; vu128 123456]).
Proof. run. Qed.
Example decode_variant_types :
  decodes_to 25 [0; 1] (unnamed_variant (s2l "Foo") [vbool true]) /\
  decodes_to 25 (1 :: hello ++ 123 :: repeat 0 15) (named_variant (s2l "Bar") [(s2l "hi", vstring (s2l "hello")); (s2l "other", vu128 123)]).
Proof. run. Qed.
Definition james : bytes := 1 :: 20 :: s2l "James" ++ [12; 1; 2; 3].
Definition v_james : list (value unit) := [vbool true; vstring (s2l "James"); unnamed_composite [vu128 1; vu128 2; vu128 3]].
Example decode_composite_types :
  decodes_to 26 james (unnamed_composite v_james) /\ decodes_to 27 james (named_composite (combine [s2l "is_valid"; s2l "name"; s2l "bytes"] v_james)).
Proof. run. Qed.
Example decoding_zero_length_composites_always_unnamed : decodes_to 29 [] (unnamed_composite []).
Proof. run. Qed.
Definition bits01 (s : string) : list bool := map (fun c => c =? 49) (s2l s).
Example decode_bit_sequence : decodes_to 30 [24; 22] (bit_sequence (bits01 "011010")).
Proof. run. Qed.
Example decode_composite_fields :
  Forall (fun X => decode_as_fields treg X (fun _ => tt) 9 [(n_ "a", 2%nat); (n_ "b", 0%nat); (n_ "c", 4%nat)] (20 :: s2l "Hello" ++ [1; 123; 0]) =
    Ok (Named [(s2l "a", vstring (s2l "Hello")); (s2l "b", vbool true); (s2l "c", vu128 123)], [])) exts.
Proof. run. Qed.

(** ** encode.rs:427-647 *)
Example can_encode_basic_primitive_values :
  encodes_to (vi128 123) 8 [123] /\ encodes_to (vi128 123) 9 [123; 0] /\ encodes_to (vi128 123) 10 (123 :: repeat 0 3) /\ encodes_to (vi128 123) 11 (123 :: repeat 0 7) /\ encodes_to (vi128 123) 12 (123 :: repeat 0 15) /\
  encodes_to (vu128 123) 3 [123] /\ encodes_to (vu128 123) 4 [123; 0] /\ encodes_to (vu128 123) 5 (123 :: repeat 0 3) /\ encodes_to (vu128 123) 6 (123 :: repeat 0 7) /\ encodes_to (vu128 123) 7 (123 :: repeat 0 15) /\
  encodes_to (vbool true) 0 [1] /\ encodes_to (vbool false) 0 [0] /\ encodes_to (vstring (s2l "Hello")) 2 (20 :: s2l "Hello").
Proof. run. Qed.
Example chars_encoded_like_numbers : encodes_to (vchar 106) 5 [106; 0; 0; 0] /\ encodes_to (vchar 106) 3 [106].
Proof. run. Qed.
Example can_encode_primitive_arrs_to_array : encodes_to (primitive (PU256 (repeat 12 32))) 31 (repeat 12 32) /\ encodes_to (primitive (PI256 (repeat 12 32))) 31 (repeat 12 32).
Proof. run. Qed.
Example can_encode_primitive_arrs_to_vecs : encodes_to (primitive (PU256 (repeat 12 32))) 28 (128 :: repeat 12 32) /\ encodes_to (primitive (PI256 (repeat 12 32))) 28 (128 :: repeat 12 32).
Proof. run. Qed.
Example can_encode_arrays : encodes_to (unnamed_composite (map vu128 [1; 2; 3; 4])) 32 [1; 0; 2; 0; 3; 0; 4; 0].
Proof. run. Qed.
Definition world : bytes := 20 :: s2l "world".
Definition v_world : value unit := vstring (s2l "world").
Example can_encode_variants :
  encodes_to (named_variant (s2l "Named") [(s2l "foo", vbool true); (s2l "hello", v_world)]) 33 (0 :: world ++ [1]) /\
  encodes_to (unnamed_variant (s2l "Unnamed") [vu128 123; unnamed_composite [vbool true; vbool false; vbool true]]) 33 (1 :: 123 :: repeat 0 7 ++ [12; 1; 0; 1]).
Proof. run. Qed.
Example can_encode_vec_tuples : encodes_to (unnamed_composite [unnamed_composite [vu128 20; vu128 30]]) 36 [4; 20; 30; 0].
Proof. run. Qed.
Example can_encode_structs : encodes_to (named_composite [(s2l "foo", vbool true); (s2l "hello", v_world)]) 37 (world ++ [1]).
Proof. run. Qed.
Example can_encode_tuples_from_named_composite : encodes_to (named_composite [(s2l "hello", v_world); (s2l "foo", vbool true)]) 38 (world ++ [1]).
Proof. run. Qed.
Example can_encode_tuples_from_unnamed_composite : encodes_to (unnamed_composite [v_world; vbool true]) 38 (world ++ [1]).
Proof. run. Qed.
Example can_encode_unnamed_composite_to_named_struct : encodes_to (unnamed_composite [v_world; vbool true]) 37 (world ++ [1]).
Proof. run. Qed.
Example can_encode_bitvecs :
  encodes_to (bit_sequence (bits01 "011001")) 30 [24; 38] /\ encodes_to (unnamed_composite [vbool false]) 30 [4; 0] /\
  encodes_to (unnamed_composite (map vbool (bits01 "011001"))) 30 [24; 38] /\ encodes_to (unnamed_composite (map vu128 [0; 1; 1; 0; 0; 1])) 30 [24; 38] /\
  encodes_to (unnamed_composite (map vi128 [0; 1; 1; 0; 0; 1]%Z)) 30 [24; 38].
Proof. run. Qed.
Example can_encode_to_compact_types :
  encodes_to (vu128 123) 16 [0xED; 0x01] /\ encodes_to (unnamed_composite [vi128 123]) 16 [0xED; 0x01] /\
  encodes_to (unnamed_composite [named_composite [(s2l "foo", vu128 123)]]) 16 [0xED; 0x01].
Proof. run. Qed.
Example can_encode_skipping_struct_newtype_wrappers :
  encodes_to (vu128 32) 18 [32; 0; 0; 0] /\ encodes_to (vu128 32) 39 [32; 0; 0; 0] /\ encodes_to (unnamed_composite [vu128 32]) 39 [32; 0; 0; 0] /\
  encodes_to (from_bytes [1; 2; 3; 4; 5]) 40 [20; 1; 2; 3; 4; 5] /\ encodes_to (from_bytes [1]) 40 [4; 1].
Proof. run. Qed.
Example can_encode_skipping_value_newtype_wrappers :
  encodes_to (unnamed_composite [vu128 32]) 18 [32; 0; 0; 0] /\ encodes_to (unnamed_composite [unnamed_composite [vu128 32]]) 18 [32; 0; 0; 0] /\
  encodes_to (unnamed_composite [unnamed_composite [unnamed_composite [vu128 32]]]) 18 [32; 0; 0; 0].
Proof. run. Qed.
(** This one fails, with an error, and at once. *)
Example encoding_shouldnt_take_forever :
  Forall (fun X => match encode treg X 3 (unnamed_composite [from_bytes [0; 0; 0; 0]]) 41%nat [] with (SErr _, []) => True | _ => False end) exts.
Proof. repeat constructor. Qed.
