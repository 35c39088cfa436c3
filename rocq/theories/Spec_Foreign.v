(** * Spec_Foreign: vocabulary of C75, what a document of some self-describing format means as a value. *)
From Verif Require Import Base Value Spec_Value Scale Serde Spec_Serde Spec_Parts.

(** The value a document stands for.  [doc] is what such formats hold (Serde.v); [means_fields d c]: read as the fields of
    something, [d] is [c]. *)
Inductive means : doc -> value unit -> Prop :=
| M_bool b : means (FBool b) (vbool b)
| M_unsigned w z : means (FInt false w z) (vu128 (Z.to_N z))
| M_signed w z : means (FInt true w z) (vi128 z)
| M_char c : means (FChar c) (vchar c)
| M_string s : means (FStr s) (vstring s)
| M_none : means FNone (unnamed_variant (s2l "None") [])
| M_some d v : means d v -> means (FSome d) (unnamed_variant (s2l "Some") [v])
| M_variant n d c : means_fields d c -> means (FEnum n (Some d)) (Val (DVariant n c) tt)
| M_bits bs : means (FMap [(reserved_key, FSeq (map FBool bs))]) (bit_sequence bs)
| M_fields d c : (forall k x l, d = FMap ((k, x) :: l) -> k <> reserved_key) -> means_fields d c -> means d (Val (DComposite c) tt)
with means_fields : doc -> composite (value unit) -> Prop :=
| MF_null : means_fields FUnit (Unnamed [])
| MF_bytes b : means_fields (FBytes b) (Unnamed (map vu128 b))
| MF_list l vs : Forall2 means l vs -> means_fields (FSeq l) (Unnamed vs)
| MF_map l vs : Forall2 (fun kd kv => fst kd = fst kv /\ means (snd kd) (snd kv)) l vs -> means_fields (FMap l) (Named vs).

(** [p] occurs in [d] (possibly [d] itself). *)
Inductive part_of (p : doc) : doc -> Prop :=
| P_self : part_of p p
| P_seq x l : In x l -> part_of p x -> part_of p (FSeq l)
| P_map k x l : In (k, x) l -> part_of p x -> part_of p (FMap l)
| P_some d : part_of p d -> part_of p (FSome d)
| P_enum n d : part_of p d -> part_of p (FEnum n (Some d)).

(** No map starting with the reserved key has a second entry.  (Such a map is left half read; what follows is up to the format.) *)
Definition no_leftovers (d : doc) : Prop := forall x y l, ~ part_of (FMap ((reserved_key, x) :: y :: l)) d.

(** Reasons for refusing a document. *)
Inductive unreadable : doc -> Prop :=
| U_float : unreadable FFloat
| U_unit_variant n : unreadable (FEnum n None)
| U_variant n d : d <> FUnit -> (forall b, d <> FBytes b) -> (forall l, d <> FSeq l) -> (forall l, d <> FMap l) -> unreadable (FEnum n (Some d))
| U_bits x l : (forall bs, x <> FSeq (map FBool bs)) -> unreadable (FMap ((reserved_key, x) :: l)).

(** What JSON can hold without nulls and fractions; numbers in range, no object has the reserved key as its first. *)
Inductive plain : doc -> Prop :=
| PL_bool b : plain (FBool b)
| PL_unsigned w z : (0 <= z)%Z -> plain (FInt false w z)
| PL_signed w z : plain (FInt true w z)
| PL_string s : plain (FStr s)
| PL_seq l : Forall plain l -> plain (FSeq l)
| PL_map l : (forall k x l', l = (k, x) :: l' -> k <> reserved_key) -> Forall (fun kd => plain (snd kd)) l -> plain (FMap l).

(** The same document, up to the width integers are given in. *)
Inductive same_json : doc -> doc -> Prop :=
| SJ_bool b : same_json (FBool b) (FBool b)
| SJ_int sg w w' z : same_json (FInt sg w z) (FInt sg w' z)
| SJ_string s : same_json (FStr s) (FStr s)
| SJ_seq l l' : Forall2 same_json l l' -> same_json (FSeq l) (FSeq l')
| SJ_map l l' : Forall2 (fun kd kd' => fst kd = fst kd' /\ same_json (snd kd) (snd kd')) l l' -> same_json (FMap l) (FMap l').

(** A document that reads as the text [s]. *)
Inductive text_of : doc -> str -> Prop :=
| TX_str s : text_of (FStr s) s
| TX_char c : text_of (FChar c) [c]
| TX_bytes b s : utf8_decode b = Some s -> text_of (FBytes b) s.

(** Documents that read as a variant. *)
Inductive means_variant : doc -> str -> composite (value unit) -> Prop :=
| MV_none : means_variant FNone (s2l "None") (Unnamed [])
| MV_some d v : means d v -> means_variant (FSome d) (s2l "Some") (Unnamed [v])
| MV_enum n d c : means_fields d c -> means_variant (FEnum n (Some d)) n c
| MV_map l n c dn dc :
    Forall (fun kd => (fst kd = s2l "name" /\ exists s, text_of (snd kd) s) \/ (fst kd = s2l "values" /\ exists c', means_fields (snd kd) c')) l ->
    last_given (s2l "name") l dn -> text_of dn n -> last_given (s2l "values") l dc -> means_fields dc c ->
    means_variant (FMap l) n c.

(** Documents that read as a primitive. *)
Inductive means_prim : doc -> prim -> Prop :=
| MP_bool b : means_prim (FBool b) (PBool b)
| MP_unsigned w z : means_prim (FInt false w z) (PU128 (Z.to_N z))
| MP_signed w z : means_prim (FInt true w z) (PI128 z)
| MP_char c : means_prim (FChar c) (PChar c)
| MP_string s : means_prim (FStr s) (PString s)
| MP_bytes b : length b = 32%nat -> means_prim (FBytes b) (PU256 b)
| MP_list l b : length b = 32%nat -> Forall2 (fun d x => exists sg w, w <> 128%N /\ (x < 256)%N /\ d = FInt sg w (Z.of_N x)) l b ->
    means_prim (FSeq l) (PU256 b).
