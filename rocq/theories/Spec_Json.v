(** * Spec_Json: JSON as the serde format between a value and what is read back (C109). *)
From Verif Require Import Base Value Spec_Value Registry Spec_Scale Scale Serde Spec_Serde Spec_Encode.
Local Open Scope N_scope.

(** What is left of a document that was written as JSON text and is read again.  JSON has no characters (they are strings of one character), no types of integers (a number
    that is not negative is read as a u64, a negative one as an i64, one that fits neither as a float), no byte buffers (they are lists of numbers), one null and no enums
    (a variant is the string of its name, or an object with its contents under its name).  This is serde_json with its default features. *)
Definition json_int (z : Z) : doc :=
  if ((0 <=? z) && (z <? 2 ^ 64))%Z then FInt false 64 z else if ((- 2 ^ 63 <=? z) && (z <? 0))%Z then FInt true 64 z else FFloat.
Fixpoint through_json (d : doc) : doc :=
  match d with
  | FBool b => FBool b
  | FInt _ _ z => json_int z
  | FChar c => FStr [c]
  | FStr s => FStr s
  | FSeq l => FSeq (map through_json l)
  | FMap l => FMap (map (fun kd => (fst kd, through_json (snd kd))) l)
  | FFloat => FFloat
  | FBytes b => FSeq (map (fun x => json_int (Z.of_N x)) b)
  | FUnit | FNone => FUnit
  | FSome d => through_json d
  | FEnum n None => FStr n
  | FEnum n (Some d) => FMap [(n, through_json d)]
  end.

(** What comes back for a value: characters come back as strings, integers as unsigned if not negative, variants as maps, 256-bit integers as lists. *)
Fixpoint json_read {T} (v : value T) : value unit :=
  match v with
  | Val d _ =>
      match d with
      | DComposite c => Val (DComposite (composite_map json_read c)) tt
      | DVariant n c => named_composite [(s2l "name", vstring n); (s2l "values", Val (DComposite (composite_map json_read c)) tt)]
      | DBits b => bit_sequence b
      | DPrim (PChar c) => vstring [c]
      | DPrim (PI128 z) => if (0 <=? z)%Z then vu128 (Z.to_N z) else vi128 z
      | DPrim (PU256 b) | DPrim (PI256 b) => unnamed_composite (map vu128 b)
      | DPrim p => primitive p
      end
  end.

(** The integers of the value are among those JSON numbers are read as (bytes are what they are). *)
Definition number_fits {T} (d : vdef (value T)) : Prop :=
  match d with
  | DPrim (PU128 n) => n < 2 ^ 64
  | DPrim (PI128 z) => (- 2 ^ 63 <= z < 2 ^ 64)%Z
  | DPrim (PU256 b) | DPrim (PI256 b) => is_bytes b
  | _ => True
  end.
(** The fields do not start with the name that is taken for bit sequences. *)
Definition name_free {T} (d : vdef (value T)) : Prop :=
  match d with
  | DComposite (Named ((k, _) :: _)) | DVariant _ (Named ((k, _) :: _)) => k <> reserved_key
  | _ => True
  end.
(** Neither a variant, nor a character, nor a 256-bit integer. *)
Definition json_kind {T} (d : vdef (value T)) : Prop :=
  match d with
  | DVariant _ _ | DPrim (PChar _) | DPrim (PU256 _) | DPrim (PI256 _) => False
  | _ => True
  end.

(** [j] is what is read of the JSON text of [v]. *)
Definition json_of {T} (v : value T) (j : doc) : Prop := exists d, to_doc (ser_value v) = Some d /\ j = through_json d.

(** Types whose values JSON carries: no enums, characters or 256-bit integers; integers of at most 64 bits; no struct whose first field has the name that is taken for bit
    sequences. *)
Definition json_types {TId} (reg : TId -> resolution TId) : Prop := forall t,
  match reg t with
  | ResTy (TVariant _) | ResTy (TPrim PtChar) | ResTy (TPrim PtU256) | ResTy (TPrim PtI256) | ResTy (TPrim (PtU W128)) | ResTy (TPrim (PtI W128)) => False
  | ResTy (TComposite ((Some n, _) :: _)) => n <> reserved_key
  | _ => True
  end.
