from addp import add
add("C89","Newtype structs are read as their content","Reading a value as a newtype struct W(A) gives exactly what reading it as A gives, the same content or the same kind of error, for every value but bit sequences and every A, except that for variants A must not itself be an Option or a struct. Bit sequences are never read as a newtype (refuted), a newtype around an Option is never read from anything (refuted), and a newtype around a struct is read from a variant's fields although the struct alone is not (refuted).",
 "all values and all types of the universe","all target types, nested to any depth, and all values",
 ["src/serde_impls/deserializer.rs:deserialize_newtype_struct","src/lib.rs:from_value"],
 "reading a newtype hands the same parts to the content; every hint but two is answered alike by the value and by its parts",
 """* C89 (`Props_Newtype.v`): what is handed to the content answers every hint as the value does, except Option and struct for
  variants; case analysis on the target.
""",[])
add("C90","Encode errors are true","Whatever error encoding a value as a type reports, its path leads to a value inside and to the type that value should have, and what the error says holds for the two: the registry fails for the type, the number is outside the range of the integer type, a field named in the type is missing, the number of values is not that of the fields or of the array, the enum has no such variant, a value is not a bit, or the kind of type does not take such values. Likewise when encoding as fields. Conversely every value offered for a type the registry fails to resolve, also behind wrappers, gets the resolving error, one unknown to the registry the wrong shape error, and the output is left alone.",
 "all registries, values, types, dependency behaviours and outputs","all values, registries and nestings",
 ["src/scale_impls/encode.rs:encode_composite","src/scale_impls/encode.rs:encode_variant","src/scale_impls/encode.rs:encode_primitive","src/scale_impls/encode.rs:encode_as_fields_to"],
 "Spec_Errors.v says per kind of error what must be wrong; wrapper types are looked through. Error kinds are those of the model (coarse)",
 """* C90 (`Props_Errors.v`, `Spec_Errors.v`): induction on the value; the path part comes from C65.
""",[])
