(** * SerdeTexts: the texts of the errors written in deserializer.rs, deserialize.rs and serializer.rs.

    The deserializer of Serde.v again, with the text of each error it makes itself ([DeserializerError::from_str] and [from_string],
    deserializer.rs:42-49).  [name] is the name of the unit struct or enum that is asked for, which two of the texts mention.
    [C97_erased] says that this is the deserializer of Serde.v.  Texts made by serde ([invalid_type] and the like) are not modelled. *)
From Verif Require Import Base Value Chars Fmt Serde.

Section Texts.
  Context {T : Type} (name : str).

  (** Composite::deserialize_byte_buf, deserializer.rs:519-537. *)
  Definition byte_of_t (v : value T) : result N str :=
    match vdef_of v with
    | DPrim (PU128 n) => if (n <? 256)%N then Ok n else Err (s2l "Cannot deserialize composite that is not entirely U8's into bytes (number out of range)")
    | _ => Err (s2l "Cannot deserialize composite that is not entirely U8's into bytes (non-numeric values encountered)")
    end.

  (** [Deserializer for Composite<T>], deserializer.rs:410-551. *)
  Definition composite_de_t (c : composite (value T)) (h : hint) : result (event T) str :=
    match h with
    | HSeq => Ok (VSeq false (map SrcValue (values c)))
    | HTuple n | HTupleStruct n =>
        if Nat.eqb (clen c) n then Ok (VSeq false (map SrcValue (values c)))
        else Err (s2l "Cannot deserialize composite of length " ++ show_N (N.of_nat (clen c)) ++ s2l " into tuple of length " ++ show_N (N.of_nat n))
    | HUnit | HUnitStruct => if cis_empty c then Ok VUnit else Err (s2l "Cannot deserialize non-empty Composite into a unit value")
    | HNewtypeStruct => Ok (VSeq false [SrcComposite c])
    | HBytes => bind (mapM byte_of_t (values c)) (fun b => Ok (VBytes b))
    | _ => Ok (composite_any c)
    end.

  (** [Deserializer for Variant<T>], deserializer.rs:595-697. *)
  Definition variant_de_t (n : str) (c : composite (value T)) (h : hint) : result (event T) str :=
    match h with
    | HAny | HEnum => Ok (VEnum n c)
    | HNewtypeStruct => Ok (VSeq false [SrcVariant n c])
    | HTuple _ | HTupleStruct _ | HUnitStruct | HUnit | HStruct | HMap | HSeq => composite_de_t c h
    | _ => Ok (VEnum n c)
    end.

  (** The arms for [ValueDef::BitSequence], deserializer.rs:246-373. *)
  Definition bits_de_t (b : list bool) (h : hint) : result (event T) str :=
    match h with
    | HNewtypeStruct => Err (s2l "Cannot deserialize BitSequence into a newtype struct")                        (* 257 *)
    | HTuple _ => Err (s2l "Cannot deserialize BitSequence into a tuple")                                       (* 268 *)
    | HTupleStruct _ => Err (s2l "Cannot deserialize BitSequence into a tuple struct")                          (* 284 *)
    | HUnit => Err (s2l "Cannot deserialize BitSequence into a ()")                                             (* 295 *)
    | HUnitStruct => Err (s2l "Cannot deserialize BitSequence into the unit struct " ++ name)                   (* 310 *)
    | HEnum => Err (s2l "Cannot deserialize BitSequence into the enum " ++ name)                                (* 326 *)
    | HBytes => Err (s2l "Cannot deserialize BitSequence into raw bytes")                                       (* 337, 348 *)
    | HSeq => Err (s2l "Cannot deserialize BitSequence into a sequence")                                        (* 359 *)
    | HMap => Err (s2l "Cannot deserialize BitSequence into a map")                                             (* 370 *)
    | _ => Ok (bits_map b)
    end.

  (** [Deserializer for ValueDef<T>], deserializer.rs:215-401. *)
  Definition vdef_de_t (d : vdef (value T)) (h : hint) : result (event T) str :=
    match h with
    | HOption =>
        match d with
        | DVariant n (Unnamed vs) =>
            if str_eqb n (s2l "Some") && Nat.eqb (length vs) 1
            then match vs with v :: _ => Ok (VSome (SrcValue v)) | [] => Ok (vdef_any d) end
            else if str_eqb n (s2l "None") && Nat.eqb (length vs) 0 then Ok VNone
            else Ok (vdef_any d)
        | _ => Ok (vdef_any d)
        end
    | HStruct | HIdentifier | HIgnoredAny => Ok (vdef_any d)
    | _ =>
        match d with
        | DComposite c => composite_de_t c h
        | DVariant n c => variant_de_t n c h
        | DPrim p => Ok (prim_de p h)
        | DBits b => bits_de_t b h
        end
    end.

  (** The four deserializers of the crate. *)
  Definition deserialize_t (s : source T) (h : hint) : result (event T) str :=
    match s with
    | SrcValue v => vdef_de_t (vdef_of v) h
    | SrcComposite c => composite_de_t c h
    | SrcVariant n c => variant_de_t n c h
    | SrcPrim p => Ok (prim_de p h)
    | SrcBools l => Ok (VSeq true (map SrcBool l))
    | SrcBool b => Ok (VBool b)
    | SrcDoc d => Ok (doc_de d)
    end.
End Texts.

(** [SerializerError]'s [#[error(..)]] attributes, serializer.rs:34-49. *)
Definition serr_text (e : serr) : str :=
  match e with
  | SECannotSerializeFloats => s2l "Floats do not have a SCALE compatible representation, and so cannot be serialized to Values"
  | SEMapKeyMustBeStringlike => s2l "Map keys must be strings or string-like"
  end.
