(** * Decode: model of /repo/src/scale_impls/decode.rs (driven by scale-decode's [decode_with_visitor]). *)
From Verif Require Import Base Value Registry Spec_Scale Scale.
Open Scope N_scope.

Section Decode.
  Context {TId C : Type} (reg : TId -> resolution TId) (X : ext).
  (** [ContextFromTypeId], decode.rs:144-163: [TypeIdContext] is the identity, [EmptyContext] the constant [tt]. *)
  Context (ctxf : TId -> C).

  (** decode.rs:79-82 and 380-383: [decode_item] until there is none left. *)
  Fixpoint decode_items (dec : TId -> bytes -> dres (value C)) (ts : list TId) (bs : bytes) : dres (list (value C)) :=
    match ts with
    | [] => Ok ([], bs)
    | t :: ts' => bind (dec t bs) (fun x => bind (decode_items dec ts' (snd x)) (fun y => Ok (fst x :: fst y, snd y)))
    end.

  (** decode.rs:369-377: the same, pairing each value with the name peeked before it was decoded.  The [expect] at 373 cannot
      fail because all fields were checked to be named; the model uses the empty name there. *)
  Fixpoint decode_named (dec : TId -> bytes -> dres (value C)) (fs : list (field TId)) (bs : bytes) : dres (list (str * value C)) :=
    match fs with
    | [] => Ok ([], bs)
    | (name, t) :: fs' =>
        bind (dec t bs) (fun x => bind (decode_named dec fs' (snd x)) (fun y =>
          Ok ((match name with Some n => n | None => [] end, fst x) :: fst y, snd y)))
    end.

  Definition is_some {A} (o : option A) : bool := match o with Some _ => true | None => false end.
  (** scale-decode [Composite::has_unnamed_fields]. *)
  Definition has_unnamed (fs : list (field TId)) : bool := existsb (fun f => negb (is_some (fst f))) fs.

  (** [visit_composite], decode.rs:357-386. *)
  Definition visit_composite (dec : TId -> bytes -> dres (value C)) (fs : list (field TId)) (bs : bytes) : dres (composite (value C)) :=
    if (0 <? length fs)%nat && negb (has_unnamed fs)
    then bind (decode_named dec fs bs) (fun x => Ok (Named (fst x), snd x))
    else bind (decode_items dec (map snd fs) bs) (fun x => Ok (Unnamed (fst x), snd x)).

  (** [to_unnamed_composite!], decode.rs:76-88. *)
  Definition to_unnamed (dec : TId -> bytes -> dres (value C)) (t : TId) (ts : list TId) (bs : bytes) : dres (value C) :=
    bind (decode_items dec ts bs) (fun x => Ok (Val (DComposite (Unnamed (fst x))) (ctxf t), snd x)).

  (** scale-decode [decode_with_visitor] (decode.rs:40) with [DecodeValueVisitor] (decode.rs:181-354).  [compact] is
      scale-decode's [is_compact] flag.  [fuel] bounds the nesting depth: Rust recurses without a bound.
      - primitives: 190-293 and 326-332 (the context is the id of the primitive type; i256 becomes [Primitive::U256], 284-293);
      - sequence/tuple/array: 294-314; bit sequence 315-325; variant 333-343; composite 344-353. *)
  Fixpoint decode (fuel : nat) (compact : bool) (t : TId) (bs : bytes) : dres (value C) :=
    match fuel with
    | O => Err EHang
    | S f =>
        match reg t with
        | ResErr => Err ETypeResolving
        | ResNotFound => Err EIdNotFound
        | ResTy (TPrim p) => bind (read_prim (x_len X) PU256 compact p bs) (fun x => Ok (Val (DPrim (fst x)) (ctxf t), snd x))
        | ResTy (TCompact t') => decode f true t' bs
        | ResTy (TComposite fs) =>
            if compact && negb (length fs =? 1)%nat then Err ECannotCompact
            else bind (visit_composite (decode f compact) fs bs) (fun x => Ok (Val (DComposite (fst x)) (ctxf t), snd x))
        | ResTy (TTuple ts) =>
            if compact && negb (length ts =? 1)%nat then Err ECannotCompact
            else to_unnamed (decode f compact) t ts bs
        | ResTy (TVariant vs) =>
            if compact then Err ECannotCompact
            else match bs with
                 | [] => Err ENotEnough
                 | idx :: bs' =>
                     match find (fun v => vi_index v =? idx) vs with
                     | None => Err EVariantNotFound
                     | Some v => bind (visit_composite (decode f false) (vi_fields v) bs')
                                   (fun x => Ok (Val (DVariant (vi_name v) (fst x)) (ctxf t), snd x))
                     end
                 end
        | ResTy (TSequence t') =>
            if compact then Err ECannotCompact
            else bind (compact_decode (x_len X) bs) (fun x => to_unnamed (decode f false) t (repeat t' (N.to_nat (fst x))) (snd x))
        | ResTy (TArray t' n) =>
            if compact then Err ECannotCompact
            else to_unnamed (decode f false) t (repeat t' (N.to_nat n)) bs
        | ResTy (TBitSeq st o) =>
            if compact then Err ECannotCompact
            else bind (decode_bits (x_maxbits X) st o bs) (fun x => Ok (Val (DBits (fst x)) (ctxf t), snd x))
        end
    end.

  (** [decode_value_as_type], decode.rs:31-46 (and [IntoVisitor for Value<()>], 124-132, with the empty context). *)
  Definition decode_as_type (fuel : nat) (t : TId) (bs : bytes) : dres (value C) := decode fuel false t bs.

  (** [decode_composite_as_fields], decode.rs:50-73, and [DecodeAsFields for Composite<()>], 90-111. *)
  Definition decode_as_fields (fuel : nat) (fs : list (field TId)) (bs : bytes) : dres (composite (value C)) :=
    visit_composite (decode fuel false) fs bs.

  (** [DecodeAsFields for Value<()>], decode.rs:113-122: the composite, wrapped; the context is given (it is [()] in Rust). *)
  Definition decode_value_as_fields (ctx : C) (fuel : nat) (fs : list (field TId)) (bs : bytes) : dres (value C) :=
    bind (decode_as_fields fuel fs bs) (fun x => Ok (Val (DComposite (fst x)) ctx, snd x)).
End Decode.
