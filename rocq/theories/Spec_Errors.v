(** * Spec_Errors: what has to be wrong with a value and a type for each kind of encode error to be true. *)
From Verif Require Import Base Value Registry Spec_Scale Spec_Encode Spec_Same Spec_Loc Encode.
Open Scope N_scope.

Section Justified.
  Context {TId T : Type} (reg : TId -> resolution TId) (X : ext).

  (** The number a value is, if it is one (a [char] is written as its code point). *)
  Definition number_of (v : value T) : option Z :=
    match vdef_of v with
    | DPrim (PU128 n) => Some (Z.of_N n)
    | DPrim (PI128 z) => Some z
    | DPrim (PChar c) => Some (Z.of_N c)
    | _ => None
    end.

  (** The number is outside the range of the integer type. *)
  Definition out_of_range (ty : pty) (z : Z) : Prop :=
    match ty with
    | PtU w => (z < 0 \/ 2 ^ Z.of_N (wbits w) <= z)%Z
    | PtI w => (z < - 2 ^ (Z.of_N (wbits w) - 1) \/ 2 ^ (Z.of_N (wbits w) - 1) <= z)%Z
    | _ => False
    end.

  (** Which kinds of types take which kinds of values. *)
  Definition takes (ty : tydef TId) (d : vdef (value T)) : Prop :=
    match d, ty with
    | DPrim (PBool _), TPrim PtBool => True
    | DPrim (PString _), TPrim PtStr => True
    | DPrim (PChar _), TPrim PtChar => x_char X = true
    | DPrim (PChar _ | PU128 _ | PI128 _), TPrim (PtU _ | PtI _) => True
    | DPrim (PChar _ | PU128 _ | PI128 _), TCompact _ => True
    | DPrim (PU256 _ | PI256 _), TPrim (PtU256 | PtI256) => x_256 X = true
    | DPrim (PU256 _ | PI256 _), (TSequence _ | TArray _ _) => True
    | DBits _, TBitSeq _ _ => True
    | DVariant _ _, TVariant _ => True
    | DComposite _, (TComposite _ | TTuple _ | TSequence _ | TArray _ _ | TBitSeq _ _) => True
    | _, _ => False
    end.

  (** [names fs]: at least one of the fields has a name. *)
  Definition some_name {A} (fs : list (option str * A)) : Prop := exists k a, In (Some k, a) fs.
  Definition has_names (c : composite (value T)) : Prop := exists kv l, c = Named (kv :: l).

  (** [justified v t e]: the error [e] is true of the value [v] offered for the type [t].  Wrapper types around [t] are
      looked through. *)
  Inductive justified : value T -> TId -> eerr -> Prop :=
  (** The registry fails for the type, or for the type inside a compact type. *)
  | Ju_unresolvable : forall v t u, chain (wraps reg) t u -> reg u = ResErr -> justified v t XTypeResolving
  | Ju_unresolvable_compact : forall v t u t' u', chain (wraps reg) t u -> reg u = ResTy (TCompact t') ->
      chain (wraps reg) t' u' -> reg u' = ResErr -> justified v t XTypeResolving
  (** The value is a number, the type is an integer type (or a compact one), and the number is outside its range. *)
  | Ju_range : forall v z t u ty, number_of v = Some z -> chain (wraps reg) t u -> reg u = ResTy (TPrim ty) ->
      out_of_range ty z -> justified v t XOutOfRange
  | Ju_range_compact : forall v z t u t' u' w, number_of v = Some z -> chain (wraps reg) t u -> reg u = ResTy (TCompact t') ->
      chain (wraps reg) t' u' -> reg u' = ResTy (TPrim (PtU w)) -> out_of_range (PtU w) z -> justified v t XOutOfRange
  (** The value's fields have names, and none has the name of some field of the type (for a field of the type without a
      name the empty one). *)
  | Ju_missing : forall v l t fs k t', inside v = Some (Named l) -> has_fields reg t v fs ->
      In (k, t') fs -> ~ In (match k with Some k => k | None => [] end) (map fst l) -> justified v t XMissingField
  (** Fields are matched by position, and there are not as many in the value as in the type. *)
  | Ju_fields : forall v c t fs, inside v = Some c -> has_fields reg t v fs -> (~ some_name fs \/ ~ has_names c) ->
      length (values c) <> length fs -> justified v t XWrongLength
  (** The number of values differs from the length of the array; likewise for the bytes of a 256-bit number. *)
  | Ju_array : forall v c t t' n, vdef_of v = DComposite c -> reg t = ResTy (TArray t' n) -> N.of_nat (length (values c)) <> n ->
      justified v t XWrongLength
  | Ju_byte_array : forall v q b t u t' n, vdef_of v = DPrim q -> bytes_of_256 q = Some b -> chain (wraps1 reg) t u ->
      reg u = ResTy (TArray t' n) -> N.of_nat (length b) <> n -> justified v t XWrongLength
  (** The enum has no variant with that name. *)
  | Ju_variant : forall v n c t vs, vdef_of v = DVariant n c -> reg t = ResTy (TVariant vs) -> ~ In n (map vi_name vs) ->
      justified v t XNoVariant
  (** The type is a bit sequence, the value a composite, and one of its values is not a bit. *)
  | Ju_bit : forall v c t st o x, vdef_of v = DComposite c -> reg t = ResTy (TBitSeq st o) -> In x (values c) ->
      (forall b, ~ is_bit x b) -> justified v t XBadBit
  (** The type is not known to the registry, or of a kind that does not take such values. *)
  | Ju_unknown : forall v t u, chain (wraps reg) t u -> reg u = ResNotFound -> justified v t XWrongShape
  | Ju_kind : forall v t u ty, chain (wraps reg) t u -> reg u = ResTy ty -> ~ takes ty (vdef_of v) -> justified v t XWrongShape
  (** The value is a number and the type compact, but of something which is not an unsigned integer. *)
  | Ju_kind_compact : forall v z t u t' u', number_of v = Some z -> chain (wraps reg) t u -> reg u = ResTy (TCompact t') ->
      chain (wraps reg) t' u' -> reg u' <> ResErr -> (forall w, reg u' <> ResTy (TPrim (PtU w))) -> justified v t XWrongShape
  (** The value is a composite without or with more than one value and the type wraps a single one which is neither struct nor tuple. *)
  | Ju_wrapped : forall v c t t1 u, vdef_of v = DComposite c -> length (values c) <> 1%nat ->
      transparent reg t t1 -> chain (transparent reg) t1 u -> reg u <> ResErr ->
      (forall fs, reg u <> ResTy (TComposite fs)) -> (forall ts, reg u <> ResTy (TTuple ts)) -> justified v t XWrongShape
  (** A 256-bit number offered for a list type is refused for one of its bytes. *)
  | Ju_byte : forall v q b t u t' n e w, vdef_of v = DPrim q -> bytes_of_256 q = Some b -> chain (wraps1 reg) t u ->
      (reg u = ResTy (TSequence t') \/ exists n, reg u = ResTy (TArray t' n)) -> In n b ->
      vdef_of w = DPrim (PU128 n) -> justified w t' e -> justified v t e.
End Justified.
