(** * Spec_Parts: vocabulary of C69. *)
From Verif Require Import Base Value Spec_Value Serde Spec_Serde.

(** The fields of [c'] are those of [c], each read as a [Value]; the names, if any, are kept. *)
Inductive reads_fields {T} : composite (value T) -> composite (value unit) -> Prop :=
| rf_named l l' :
    Forall2 (fun kv kv' => fst kv' = fst kv /\ from_value TyValue (snd kv) = Ok (XValue (snd kv'))) l l' ->
    reads_fields (Named l) (Named l')
| rf_unnamed l l' :
    Forall2 (fun v v' => from_value TyValue v = Ok (XValue v')) l l' ->
    reads_fields (Unnamed l) (Unnamed l').

(** [x] is the last value given under the key [k]. *)
Definition last_given {A} (k : str) (l : list (str * A)) (x : A) : Prop :=
  exists before after, l = before ++ (k, x) :: after /\ ~ In k (map fst after).

(** A map that can be read as a variant: no keys but name and values, both given; every name is a string, every values a
    composite; the last ones count. *)
Definition variant_map {T} (l : list (str * value T)) (n : str) (c : composite (value unit)) : Prop :=
  Forall (fun kv => (fst kv = s2l "name" /\ exists s, from_value TyString (snd kv) = Ok (XString s)) \/
                    (fst kv = s2l "values" /\ exists c', from_value TyComposite (snd kv) = Ok (XComposite c'))) l /\
  (exists v, last_given (s2l "name") l v /\ from_value TyString v = Ok (XString n)) /\
  (exists v, last_given (s2l "values") l v /\ from_value TyComposite v = Ok (XComposite c)).
