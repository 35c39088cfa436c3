(** * Spec_RichDocs: vocabulary of C96, what a document with newtypes and arbitrary keys means as a value.  ([rdoc], DocRich.v, is
    what such formats hold.) *)
From Verif Require Import Base Value Spec_Value Scale Serde Spec_Serde Spec_Parts DocRich.

(** A document that is the text [s]: a string, a char or bytes in UTF-8. *)
Inductive spells : rdoc -> str -> Prop :=
| SP_string s : spells (RStr s) s
| SP_char c : spells (RChar c) [c]
| SP_bytes b s : utf8_decode b = Some s -> spells (RBytes b) s.

(** [stands strict d v]: [d] is a way to write the value [v]; [gives strict d c]: a way to write the fields [c].  [strict]: the format
    does not let a map go half read. *)
Inductive stands (strict : bool) : rdoc -> value unit -> Prop :=
| ST_bool b : stands strict (RBool b) (vbool b)
| ST_unsigned w z : stands strict (RInt false w z) (vu128 (Z.to_N z))
| ST_signed w z : stands strict (RInt true w z) (vi128 z)
| ST_char c : stands strict (RChar c) (vchar c)
| ST_string s : stands strict (RStr s) (vstring s)
| ST_none : stands strict RNone (unnamed_variant (s2l "None") [])
| ST_some d v : stands strict d v -> stands strict (RSome d) (unnamed_variant (s2l "Some") [v])
| ST_newtype d v : stands strict d v -> stands strict (RNewtype d) v
| ST_variant dn n d c : spells dn n -> gives strict d c -> stands strict (REnum dn (Some d)) (Val (DVariant n c) tt)
| ST_null : stands strict RUnit (unnamed_composite [])
| ST_bytes b : stands strict (RBytes b) (unnamed_composite (map vu128 b))
| ST_list l vs : Forall2 (stands strict) l vs -> stands strict (RSeq l) (unnamed_composite vs)
| ST_map l vs : (forall k v vs', vs = (k, v) :: vs' -> k <> reserved_key) ->
    Forall2 (fun kd kv => spells (fst kd) (fst kv) /\ stands strict (snd kd) (snd kv)) l vs -> stands strict (RMap l) (named_composite vs)
| ST_bits dk bs rest : spells dk reserved_key -> (strict = true -> rest = []) ->
    stands strict (RMap ((dk, RSeq (map RBool bs)) :: rest)) (bit_sequence bs)
with gives (strict : bool) : rdoc -> composite (value unit) -> Prop :=
| G_null : gives strict RUnit (Unnamed [])
| G_bytes b : gives strict (RBytes b) (Unnamed (map vu128 b))
| G_list l vs : Forall2 (stands strict) l vs -> gives strict (RSeq l) (Unnamed vs)
| G_map l vs : Forall2 (fun kd kv => spells (fst kd) (fst kv) /\ stands strict (snd kd) (snd kv)) l vs -> gives strict (RMap l) (Named vs)
| G_newtype d c : gives strict d c -> gives strict (RNewtype d) c.

(** The last entry of a map under the key [k]. *)
Definition last_entry (k : str) (l : list (rdoc * rdoc)) (d : rdoc) : Prop :=
  exists before dk after, l = before ++ (dk, d) :: after /\ spells dk k /\ Forall (fun kd => ~ spells (fst kd) k) after.

(** Documents that are a variant: one of the format, an optional value, or a map with nothing but names and values, of which the
    last count. *)
Inductive stands_variant (strict : bool) : rdoc -> str -> composite (value unit) -> Prop :=
| SV_none : stands_variant strict RNone (s2l "None") (Unnamed [])
| SV_some d v : stands strict d v -> stands_variant strict (RSome d) (s2l "Some") (Unnamed [v])
| SV_enum dn n d c : spells dn n -> gives strict d c -> stands_variant strict (REnum dn (Some d)) n c
| SV_map l n c dn dc :
    Forall (fun kd => (spells (fst kd) (s2l "name") /\ exists s, spells (snd kd) s) \/ (spells (fst kd) (s2l "values") /\ exists c', gives strict (snd kd) c')) l ->
    last_entry (s2l "name") l dn -> spells dn n -> last_entry (s2l "values") l dc -> gives strict dc c ->
    stands_variant strict (RMap l) n c.

(** Documents that are a primitive. *)
Inductive stands_prim : rdoc -> prim -> Prop :=
| SQ_bool b : stands_prim (RBool b) (PBool b)
| SQ_unsigned w z : stands_prim (RInt false w z) (PU128 (Z.to_N z))
| SQ_signed w z : stands_prim (RInt true w z) (PI128 z)
| SQ_char c : stands_prim (RChar c) (PChar c)
| SQ_string s : stands_prim (RStr s) (PString s)
| SQ_bytes b : length b = 32%nat -> stands_prim (RBytes b) (PU256 b)
| SQ_list l b : length b = 32%nat -> Forall2 (fun d x => exists sg w, w <> 128%N /\ (x < 256)%N /\ d = RInt sg w (Z.of_N x)) l b ->
    stands_prim (RSeq l) (PU256 b).
