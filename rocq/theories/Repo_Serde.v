(** * Repo_Serde: the unit tests of /repo/src/serde_impls/** run on the model.  Tests of the model, not properties. *)
From Verif Require Import Base Value Scale Serde.
Open Scope N_scope.

Definition u8 : ty := TyInt false 8.
Definition str_ (s : string) : data := XString (s2l s).
Definition k (s : string) : str := s2l s.
Definition gives {T} (t : ty) (s : source T) (d : data) : Prop := de t s = Ok d.
Definition refused {T} (t : ty) (s : source T) : Prop := match de t s with Ok _ => False | Err e => e <> DHang end.
(** Tests that come in two versions, from a [ValueDef] and from its parts, use both sources. *)
Definition both_c (t : ty) (c : composite (value unit)) (d : data) : Prop := gives t (SrcValue (Val (DComposite c) tt)) d /\ gives t (SrcComposite c) d.
Definition both_v (t : ty) (n : string) (c : composite (value unit)) (d : data) : Prop := gives t (SrcValue (Val (DVariant (k n) c) tt)) d /\ gives t (SrcVariant (k n) c) d.
Ltac run := repeat split; vm_compute; first [reflexivity|discriminate].

(** ** deserializer.rs:810-1212 *)
Example de_into_struct :
  both_c (TyStruct [(k "a", u8); (k "b", TyBool)]) (Named [(k "b", vbool true); (k "a", vu128 123)]) (XStruct [(k "a", XInt 123); (k "b", XBool true)]).
Proof. run. Qed.
Example de_into_tuple_struct :
  both_c (TyTupleStruct [u8; TyBool; TyString]) (Unnamed [vu128 123; vbool true; vstring (k "hello")]) (XTupleStruct [XInt 123; XBool true; str_ "hello"]).
Proof. run. Qed.
Definition ones : list (value unit) := [vu128 1; vu128 2; vu128 3].
Example de_into_newtype_struct :
  gives (TyNewtype TyString) (SrcValue (vstring (k "hello"))) (XNewtype (str_ "hello")) /\
  gives (TyNewtype TyString) (SrcPrim (T := unit) (PString (k "hello"))) (XNewtype (str_ "hello")) /\
  both_c (TyNewtype (TyVec u8)) (Unnamed ones) (XNewtype (XVec [XInt 1; XInt 2; XInt 3])) /\
  both_v (TyNewtype (TyEnum [(k "Foo", VsTuple [u8; u8; u8])])) "Foo" (Unnamed ones) (XNewtype (XEnum (k "Foo") (VsTuple [XInt 1; XInt 2; XInt 3]))).
Proof. run. Qed.
Definition abc (l : list (value unit)) : composite (value unit) := Named (combine [k "a"; k "b"; k "c"] l).
Example de_into_vec :
  both_c (TyVec u8) (Unnamed ones) (XVec [XInt 1; XInt 2; XInt 3]) /\
  both_c (TyVec TyString) (Unnamed [vstring (k "a"); vstring (k "b"); vstring (k "c")]) (XVec [str_ "a"; str_ "b"; str_ "c"]) /\
  gives (TyVec u8) (SrcComposite (abc ones)) (XVec [XInt 1; XInt 2; XInt 3]).
Proof. run. Qed.
Example de_into_map :
  gives (TyMap u8) (SrcValue (Val (DComposite (abc ones)) tt)) (XMap [(k "a", XInt 1); (k "b", XInt 2); (k "c", XInt 3)]) /\
  refused (TyMap u8) (SrcValue (unnamed_composite ones)).
Proof. run. Qed.
Definition pair_ : ty := TyTuple [TyString; TyBool].
Definition ht : list (value unit) := [vstring (k "hello"); vbool true].
Example de_into_tuple :
  both_c pair_ (Unnamed ht) (XTuple [str_ "hello"; XBool true]) /\ both_c pair_ (abc ht) (XTuple [str_ "hello"; XBool true]) /\
  gives pair_ (SrcValue (unnamed_variant (k "Foo") ht)) (XTuple [str_ "hello"; XBool true]) /\
  gives pair_ (SrcValue (Val (DVariant (k "Foo") (abc ht)) tt)) (XTuple [str_ "hello"; XBool true]) /\
  refused pair_ (SrcValue (unnamed_composite (ht ++ [vu128 123]))) /\ refused pair_ (SrcComposite (Unnamed (ht ++ [vu128 123]))).
Proof. run. Qed.
(** serde_json's [to_value]: characters become strings, integers are u64 or i64; [from_value] reads it back. *)
Fixpoint json (d : doc) : doc :=
  match d with
  | FChar c => FStr [c]
  | FInt sg w z => if (z <? 0)%Z then FInt true 64 z else FInt false 64 z
  | FSeq l => FSeq (map json l)
  | FMap l => FMap (map (fun kv => (fst kv, json (snd kv))) l)
  | d => d
  end.
Definition to_json (v : value unit) : option doc := option_map json (to_doc (ser_value v)).
Definition bits01 (s : string) : list bool := map (fun c => c =? 49) (s2l s).
Example de_bitvec :
  de_value (SrcValue (bit_sequence (bits01 "011010101"))) = Ok (bit_sequence (bits01 "011010101")) /\
  option_map (fun d => de_value (SrcDoc (T := unit) d)) (to_json (bit_sequence (bits01 "011010101"))) = Some (Ok (bit_sequence (bits01 "011010101"))).
Proof. run. Qed.
Definition htn : list (value unit) := [vstring (k "hello"); vbool true; vu128 123].
Definition d_htn : list data := [str_ "hello"; XBool true; XInt 123].
Example de_into_tuple_variant :
  let t := TyEnum [(k "Foo", VsTuple [TyString; TyBool; u8])] in
  both_v t "Foo" (Unnamed htn) (XEnum (k "Foo") (VsTuple d_htn)) /\ both_v t "Foo" (abc htn) (XEnum (k "Foo") (VsTuple d_htn)).
Proof. run. Qed.
Example de_into_struct_variant :
  let t := TyEnum [(k "Foo", VsStruct [(k "hi", TyString); (k "a", TyBool); (k "b", u8)])] in
  let d := XEnum (k "Foo") (VsStruct (combine [k "hi"; k "a"; k "b"] d_htn)) in
  let var c := SrcValue (Val (DVariant (k "Foo") c) tt) in
  gives t (var (Named [(k "b", vu128 123); (k "a", vbool true); (k "hi", vstring (k "hello"))])) d /\
  gives t (var (Unnamed htn)) d /\
  refused t (var (Unnamed [vbool true; vu128 123; vstring (k "hello")])) /\
  refused t (var (Named [(k "b", vu128 123); (k "c", vbool true); (k "hi", vstring (k "hello"))])) /\
  gives t (var (Named [(k "foo", vu128 40); (k "b", vu128 123); (k "a", vbool true); (k "bar", vbool false); (k "hi", vstring (k "hello"))])) d.
Proof. run. Qed.
Example de_into_unit_variants :
  both_v (TyEnum [(k "Foo", VsUnit)]) "Foo" (Named []) (XEnum (k "Foo") VsUnit) /\
  both_v (TyEnum [(k "Foo", VsTuple [])]) "Foo" (Named []) (XEnum (k "Foo") (VsTuple [])) /\
  both_v (TyEnum [(k "Foo", VsStruct [])]) "Foo" (Named []) (XEnum (k "Foo") (VsStruct [])).
Proof. run. Qed.

(** ** deserialize.rs:411-679 *)
Definition isomorphic (v : value unit) : Prop := de_value (SrcValue v) = Ok v.
Definition b32 : bytes := repeat 1 32.
Example deserialize_primitives_isomorphic :
  isomorphic (vu128 123) /\ isomorphic (vi128 123) /\ isomorphic (vbool true) /\ isomorphic (vchar 97) /\ isomorphic (vstring (k "Hello!")) /\
  de_value (SrcValue (primitive (PI256 b32))) = Ok (unnamed_composite (map vu128 b32)) /\
  de_value (SrcValue (primitive (PU256 b32))) = Ok (unnamed_composite (map vu128 b32)) /\
  de_prim (SrcValue (primitive (PI256 b32))) = Ok (PU256 b32) /\ de_prim (SrcValue (primitive (PU256 b32))) = Ok (PU256 b32) /\
  Forall (fun p => de_prim (SrcPrim (T := unit) p) = Ok p) [PU128 123; PU256 b32; PI128 123; PBool true; PChar 97; PString (k "Hello!")] /\
  de_prim (SrcPrim (T := unit) (PI256 b32)) = Ok (PU256 b32) /\
  de_prim (SrcValue (vu128 123)) = Ok (PU128 123) /\ de_prim (SrcValue (vi128 123)) = Ok (PI128 123) /\
  de_value (SrcPrim (T := unit) (PU128 123)) = Ok (vu128 123) /\ de_value (SrcPrim (T := unit) (PI128 123)) = Ok (vi128 123).
Proof. repeat split; repeat constructor; vm_compute; reflexivity. Qed.
Definition cd : value unit := named_composite [(k "c", vu128 123); (k "d", vstring (k "hello"))].
Example deserialize_composites_isomorphic :
  isomorphic (unnamed_composite [vu128 123; vbool true]) /\ isomorphic (named_composite []) /\
  isomorphic (named_composite [(k "a", vu128 123); (k "b", vbool true)]) /\ isomorphic (named_composite [(k "a", vu128 123); (k "b", cd)]) /\
  Forall (fun c => de_composite (SrcComposite c) = Ok c)
    [Unnamed [vu128 123; vbool true]; Unnamed []; Named [(k "a", vu128 123); (k "b", vbool true)]; Named [(k "a", vu128 123); (k "b", cd)]].
Proof. repeat split; repeat constructor; vm_compute; reflexivity. Qed.
Example deserialize_variants_isomorphic :
  Forall (fun c => isomorphic (Val (DVariant (k "Foo") c) tt) /\ de_variant (SrcVariant (k "Foo") c) = Ok (k "Foo", c))
    [Unnamed [vu128 123; vbool true]; Unnamed []; Named [(k "a", vu128 123); (k "b", vbool true)]].
Proof. repeat split; repeat constructor; vm_compute; reflexivity. Qed.
Example deserialize_bitsequences_isomorphic : Forall (fun b => isomorphic (bit_sequence (bits01 b))) [""; "0"; "011010111"]%string.
Proof. repeat constructor; vm_compute; reflexivity. Qed.
Example deserialize_bitsequence_from_json :
  de_value (SrcDoc (T := unit) (FMap [(k "__bitvec__values__", FSeq (map FBool (bits01 "10110")))])) = Ok (bit_sequence (bits01 "10110")).
Proof. run. Qed.
Definition doc_u8s (n : nat) (f : nat -> Z) : doc := FSeq (map (fun i => FInt false 8 (f i)) (seq 0 n)).
Example sequence_to_value :
  de_value (SrcDoc (T := unit) (doc_u8s 4 (fun i => Z.of_nat i + 1)%Z)) = Ok (unnamed_composite [vu128 1; vu128 2; vu128 3; vu128 4]) /\
  de_composite (SrcDoc (T := unit) (doc_u8s 4 (fun i => Z.of_nat i + 1)%Z)) = Ok (Unnamed [vu128 1; vu128 2; vu128 3; vu128 4]).
Proof. run. Qed.
Example sequence_to_primitive : de_prim (SrcDoc (T := unit) (doc_u8s 32 (fun _ => 1%Z))) = Ok (PU256 b32).
Proof. run. Qed.
Example map_to_value :
  de_value (SrcDoc (T := unit) (FMap [(k "a", FInt true 32 1); (k "b", FInt true 32 2); (k "c", FInt true 32 3)])) = Ok (named_composite [(k "a", vi128 1); (k "b", vi128 2); (k "c", vi128 3)]).
Proof. run. Qed.
Example partially_deserialize_value :
  gives (TyStruct [(k "a", TyValue); (k "b", TyStruct [(k "c", TyInt false 128); (k "d", TyString); (k "e", TyValue)])])
    (SrcValue (named_composite [(k "a", vu128 123); (k "b", named_composite [(k "c", vu128 123); (k "d", vstring (k "hello")); (k "e", named_composite [])])]))
    (XStruct [(k "a", XValue (vu128 123)); (k "b", XStruct [(k "c", XInt 123); (k "d", str_ "hello"); (k "e", XValue (named_composite []))])]).
Proof. run. Qed.
Definition j (z : Z) : doc := FInt false 64 z.
Example deserialize_well_formed_map_to_variant :
  de_variant (SrcDoc (T := unit) (FMap [(k "name", FStr (k "Hello")); (k "values", FSeq [j 1; j 2; FBool true])])) = Ok (k "Hello", Unnamed [vu128 1; vu128 2; vbool true]) /\
  de_variant (SrcDoc (T := unit) (FMap [(k "name", FStr (k "Hello")); (k "values", FMap [(k "a", j 1); (k "b", j 2); (k "c", FBool true)])])) =
    Ok (k "Hello", Named [(k "a", vu128 1); (k "b", vu128 2); (k "c", vbool true)]).
Proof. run. Qed.
Example cannot_deserialize_malformed_map_to_variant :
  Forall (fun d => match de_variant (SrcDoc (T := unit) d) with Ok _ => False | Err e => e <> DHang end)
    [FMap [(k "names", FStr (k "Hello")); (k "values", FSeq [j 1; j 2; FBool true])];
     FMap [(k "name", FStr (k "Hello")); (k "values", FSeq [j 1; j 2; FBool true]); (k "other", FBool true)];
     FMap [(k "names", FStr (k "Hello")); (k "values", j 1)]].
Proof. repeat constructor; vm_compute; discriminate. Qed.

(** ** serialize.rs:147-214 *)
Definition abc_ : list (value unit) := [vbool true; vstring (k "hello"); vchar 99].
Definition j_abc : list doc := [FBool true; FStr (k "hello"); FStr (k "c")].
Example serialize_tests :
  to_json (vu128 1) = Some (j 1) /\ to_json (vbool true) = Some (FBool true) /\ to_json (vbool false) = Some (FBool false) /\
  to_json (Val (DComposite (abc abc_)) tt) = Some (FMap (combine [k "a"; k "b"; k "c"] j_abc)) /\
  to_json (unnamed_composite abc_) = Some (FSeq j_abc) /\
  to_json (Val (DVariant (k "Foo") (abc abc_)) tt) = Some (FMap [(k "name", FStr (k "Foo")); (k "values", FMap (combine [k "a"; k "b"; k "c"] j_abc))]) /\
  to_json (unnamed_variant (k "Bar") abc_) = Some (FMap [(k "name", FStr (k "Bar")); (k "values", FSeq j_abc)]) /\
  to_json (bit_sequence []) = Some (FMap [(k "__bitvec__values__", FSeq [])]) /\
  to_json (bit_sequence (bits01 "01101")) = Some (FMap [(k "__bitvec__values__", FSeq (map FBool (bits01 "01101")))]).
Proof. run. Qed.

(** ** serializer.rs:438-541 *)
Definition ser_de (t : ty) (d : data) (v : value unit) : Prop := to_value t d = Ok v /\ from_value t v = Ok d.
Example ser_de_primitives :
  Forall (fun w => ser_de (TyInt false w) (XInt 123) (vu128 123) /\ ser_de (TyInt true w) (XInt 123) (vi128 123)) [8; 16; 32; 64; 128] /\
  ser_de TyBool (XBool true) (vbool true) /\ ser_de TyBool (XBool false) (vbool false) /\ ser_de TyString (str_ "hello") (vstring (k "hello")) /\ ser_de TyChar (XChar 97) (vchar 97).
Proof. repeat split; repeat constructor; vm_compute; reflexivity. Qed.
Example ser_de_optionals :
  ser_de (TyOption u8) (XSome (XInt 123)) (unnamed_variant (k "Some") [vu128 123]) /\ ser_de (TyOption u8) XNone (unnamed_variant (k "None") []).
Proof. run. Qed.
Example ser_de_structs :
  ser_de TyUnitStruct XUnitStruct (unnamed_composite []) /\
  ser_de (TyStruct [(k "a", u8); (k "b", TyBool)]) (XStruct [(k "a", XInt 123); (k "b", XBool true)]) (named_composite [(k "a", vu128 123); (k "b", vbool true)]) /\
  ser_de (TyTupleStruct [u8; TyBool]) (XTupleStruct [XInt 123; XBool true]) (unnamed_composite [vu128 123; vbool true]).
Proof. run. Qed.
Definition five : list data := map XInt [1; 2; 3; 4; 5]%Z.
Example ser_de_sequences :
  ser_de (TyVec u8) (XVec five) (unnamed_composite (map vu128 [1; 2; 3; 4; 5])) /\ ser_de (TyTuple (repeat u8 5)) (XTuple five) (unnamed_composite (map vu128 [1; 2; 3; 4; 5])) /\
  ser_de (TyTuple [u8; TyBool; TyChar; TyString]) (XTuple [XInt 1; XBool true; XChar 97; str_ "hello"]) (unnamed_composite [vu128 1; vbool true; vchar 97; vstring (k "hello")]).
Proof. run. Qed.
Example ser_de_variants :
  let t := TyEnum [(k "A", VsTuple [TyBool; u8]); (k "B", VsUnit); (k "C", VsStruct [(k "hello", TyString); (k "value", TyInt true 64)])] in
  ser_de t (XEnum (k "A") (VsTuple [XBool true; XInt 123])) (unnamed_variant (k "A") [vbool true; vu128 123]) /\
  ser_de t (XEnum (k "B") VsUnit) (unnamed_variant (k "B") []) /\
  ser_de t (XEnum (k "C") (VsStruct [(k "hello", str_ "World"); (k "value", XInt 123)])) (named_variant (k "C") [(k "hello", vstring (k "World")); (k "value", vi128 123)]).
Proof. run. Qed.
Example ser_de_maps :
  let m := XMap [(k "a", XInt 1); (k "b", XInt 2); (k "c", XInt 3)] in
  let v := named_composite [(k "a", vu128 1); (k "b", vu128 2); (k "c", vu128 3)] in
  ser_de (TyMap u8) m v /\ ser_de (TyMapChar u8) m v.
Proof. run. Qed.
