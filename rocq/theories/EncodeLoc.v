(** * EncodeLoc: the encoder of Encode.v with the locations attached to errors ([at_idx], [at_field]).

    Every definition is the one of the same name in Encode.v with the path added; [erase_encode_l] proves that the paths change
    nothing.  A path is listed outermost location first, as [Context::path] shows it (the crate pushes innermost first). *)
From Verif Require Import Base Value Registry Spec_Scale Scale Encode Spec_Encode Spec_Same Spec_Loc.
Open Scope N_scope.

(** A result, and the path if it is an error. *)
Definition lres : Type := (eres * list loc)%type.
Definition nowhere (r : eres) : lres := (r, []).
(** [.map_err(|e| e.at(l))] *)
Definition at_loc (l : loc) (r : lres) : lres := match fst r with (SErr _, _) => (fst r, l :: snd r) | _ => r end.
Definition andthen_l (r : lres) (k : bytes -> lres) : lres := match fst r with (SOk, out) => k out | _ => r end.

Section Loc.
  Context {TId : Type} (reg : TId -> resolution TId) (X : ext) (F : nat).
  Definition encoder_l : Type := TId -> bytes -> lres.

  (** Consecutive items, each with the location its errors get (encode.rs:129-143, 154-157). *)
  Fixpoint encode_all_l (es : list (loc * encoder_l)) (t : TId) (out : bytes) : lres :=
    match es with
    | [] => nowhere (SOk, out)
    | e :: es' => andthen_l (at_loc (fst e) (snd e t out)) (fun out' => encode_all_l es' t out')
    end.
  (** By position. *)
  Fixpoint indexed {A} (i : nat) (l : list A) : list (loc * A) :=
    match l with [] => [] | a :: l' => (LIdx i, a) :: indexed (S i) l' end.
  (** Name if there is one, else position. *)
  Fixpoint located {A} (i : nat) (l : list (option str * A)) : list (loc * A) :=
    match l with
    | [] => []
    | (n, a) :: l' => (match n with Some n => LField n | None => LIdx i end, a) :: located (S i) l'
    end.
  Fixpoint lookup_last_l (name : str) (src : list (option str * encoder_l)) : option encoder_l :=
    match src with
    | [] => None
    | f :: src' => match lookup_last_l name src' with
                   | Some e => Some e
                   | None => if str_eqb (key_of f) name then Some (snd f) else None
                   end
    end.
  Fixpoint encode_by_name_l (src : list (option str * encoder_l)) (fs : list (field TId)) (out : bytes) : lres :=
    match fs with
    | [] => nowhere (SOk, out)
    | fd :: fs' => match lookup_last_l (key_of fd) src with
                   | None => nowhere (SErr XMissingField, out)
                   | Some e => andthen_l (at_loc (LField (key_of fd)) (e (snd fd) out)) (fun out' => encode_by_name_l src fs' out')
                   end
    end.
  Fixpoint encode_in_order_l (es : list (loc * encoder_l)) (ts : list TId) (out : bytes) : lres :=
    match es, ts with
    | e :: es', t :: ts' => andthen_l (at_loc (fst e) (snd e t out)) (fun out' => encode_in_order_l es' ts' out')
    | _, _ => nowhere (SOk, out)
    end.
  Definition encode_fields_l (src : list (option str * encoder_l)) (fs : list (field TId)) (out : bytes) : lres :=
    if existsb named_field fs && existsb named_field src then encode_by_name_l src fs out
    else if (length fs =? length src)%nat then encode_in_order_l (located 0 src) (map snd fs) out
    else nowhere (SErr XWrongLength, out).
  (** A single value is passed on without a location. *)
  Definition encode_struct_l (src : list (option str * encoder_l)) (t : TId) (out : bytes) : lres :=
    match skip_through reg F t with
    | None => nowhere (SHang, out)
    | Some t1 =>
        match reg t1 with
        | ResErr => nowhere (SErr XTypeResolving, out)
        | ResTy (TComposite fs) => match src with [(None, e)] => e t1 out | _ => encode_fields_l src fs out end
        | ResTy (TTuple ts) => match src with [(_, e)] => e t1 out | _ => encode_fields_l src (map (fun t => (None, t)) ts) out end
        | _ => match src with [(_, e)] => e t1 out | _ => nowhere (SErr XWrongShape, out) end
        end
    end.

  (** [[u8; 32]]: scale-encode locates errors at the byte. *)
  Fixpoint encode_byte_array_l (fuel : nat) (b : bytes) (t : TId) (out : bytes) : lres :=
    match fuel with
    | O => nowhere (SHang, out)
    | S f =>
        match reg t with
        | ResErr => nowhere (SErr XTypeResolving, out)
        | ResTy (TArray t' n) =>
            if N.of_nat (length b) =? n then encode_all_l (indexed 0 (map (fun x t out => nowhere (encode_number reg F (Z.of_N x) t out)) b)) t' out
            else nowhere (SErr XWrongLength, out)
        | ResTy (TSequence t') =>
            encode_all_l (indexed 0 (map (fun x t out => nowhere (encode_number reg F (Z.of_N x) t out)) b)) t' (out ++ compact_encode (N.of_nat (length b) mod 2 ^ 32))
        | ResTy (TTuple ts) => match ts with [t'] => encode_byte_array_l f b t' out | _ => nowhere (SErr XWrongShape, out) end
        | ResTy (TComposite fs) => match fs with [fd] => encode_byte_array_l f b (snd fd) out | _ => nowhere (SErr XWrongShape, out) end
        | ResTy (TPrim PtU256) | ResTy (TPrim PtI256) => nowhere (if x_256 X then (SOk, out ++ b) else (SErr XWrongShape, out))
        | _ => nowhere (SErr XWrongShape, out)
        end
    end.
  Definition encode_primitive_l (p : prim) : encoder_l := fun t out =>
    match p with
    | PU256 b | PI256 b => encode_byte_array_l F b t out
    | _ => nowhere (encode_primitive reg X F p t out)
    end.

  Section Composite.
    Context {T : Type}.
    Local Notation item := (value T * encoder_l)%type.
    (** The index of the first value that is not a bit (encode.rs:290-319). *)
    Fixpoint first_bad (i : nat) (vs : list (value T)) : nat :=
      match vs with
      | [] => i
      | v :: vs' => match bit_of v with Some _ => first_bad (S i) vs' | None => i end
      end.
    Definition sequence_items (c : composite item) : list (loc * encoder_l) :=
      located 0 (source_fields (composite_map snd c)).
    Definition do_encode_l (c : composite item) (t : TId) (out : bytes) : lres :=
      match reg t with
      | ResErr => nowhere (SErr XTypeResolving, out)
      | ResTy (TComposite _) | ResTy (TTuple _) => encode_struct_l (source_fields (composite_map snd c)) t out
      | ResTy (TSequence t') => encode_all_l (sequence_items c) t' (out ++ compact_encode (N.of_nat (clen c) mod 2 ^ 32))
      | ResTy (TArray t' n) =>
          if N.of_nat (clen c) =? n then encode_all_l (indexed 0 (map snd (values c))) t' out else nowhere (SErr XWrongLength, out)
      | ResTy (TBitSeq st o) =>
          match bits_of (map fst (values c)) with
          | Some b => nowhere (SOk, out ++ encode_bits st o b)
          | None => ((SErr XBadBit, out), [LIdx (first_bad 0 (map fst (values c)))])
          end
      | _ => match values c with [x] => snd x t out | _ => nowhere (SErr XWrongShape, out) end
      end.
    Definition encode_composite_l (c : composite item) (t : TId) (out : bytes) : lres :=
      match do_encode_l c t [] with
      | ((SOk, tmp), _) => nowhere (SOk, out ++ tmp)
      | ((SHang, _), _) => nowhere (SHang, out)
      | ((SErr original_error, _), path) =>
          match find_single reg F t false with
          | None => nowhere (SHang, out)
          | Some (t', different) =>
              match fst (if different then do_encode_l c t' [] else nowhere (SErr original_error, [])) with
              | (SOk, tmp) => nowhere (SOk, out ++ tmp)
              | (SHang, _) => nowhere (SHang, out)
              | (SErr _, _) =>
                  match values c with
                  | [x] => match fst (snd x t' []) with
                           | (SOk, tmp) => nowhere (SOk, out ++ tmp)
                           | (SHang, _) => nowhere (SHang, out)
                           | (SErr _, _) => ((SErr original_error, out), path)
                           end
                  | _ => ((SErr original_error, out), path)
                  end
              end
          end
      end.
    Definition encode_variant_l (name : str) (c : composite item) (t : TId) (out : bytes) : lres :=
      match skip_through reg F t with
      | None => nowhere (SHang, out)
      | Some t1 =>
          match reg t1 with
          | ResErr => nowhere (SErr XTypeResolving, out)
          | ResTy (TVariant vs) =>
              match find (fun v => str_eqb (vi_name v) name) vs with
              | None => nowhere (SErr XNoVariant, out)
              | Some v => encode_fields_l (source_fields (composite_map snd c)) (vi_fields v) (out ++ [vi_index v])
              end
          | _ => nowhere (SErr XWrongShape, out)
          end
      end.
    Fixpoint encode_l (v : value T) : TId -> bytes -> lres :=
      match v with
      | Val d _ =>
          match d with
          | DComposite c => encode_composite_l (composite_map (fun x => (x, encode_l x)) c)
          | DVariant name c => encode_variant_l name (composite_map (fun x => (x, encode_l x)) c)
          | DBits b => fun t out => nowhere (encode_bitseq reg F b t out)
          | DPrim p => encode_primitive_l p
          end
      end.
  End Composite.
End Loc.

(** ** Who is to blame for an error whose path has led to [w], meant to have type [t]; [p] is the rest of the path.
    Either [w] itself is refused, at no location inside it; or it is a list of bits and [p] is the first value in it that is not
    a bit; or it is a 256-bit number, [t] is a list type, and [p] is the first byte of the number that is not accepted. *)
Inductive culprit {TId T : Type} (reg : TId -> resolution TId) (X : ext) (F : nat) (w : value T) (t : TId) (e : eerr) : list loc -> Prop :=
| Cu_itself : forall out o, encode_l reg X F w t out = ((SErr e, o), []) -> culprit reg X F w t e []
| Cu_bit : forall c st o i x, vdef_of w = DComposite c -> reg t = ResTy (TBitSeq st o) -> e = XBadBit ->
    nth_error (values c) i = Some x -> (forall b, ~ is_bit x b) ->
    (forall j y, (j < i)%nat -> nth_error (values c) j = Some y -> exists b, is_bit y b) -> culprit reg X F w t e [LIdx i]
| Cu_byte : forall q b u t' i n out o, vdef_of w = DPrim q -> bytes_of_256 q = Some b -> chain (wraps1 reg) t u ->
    (reg u = ResTy (TSequence t') \/ exists n, reg u = ResTy (TArray t' n)) -> nth_error b i = Some n ->
    encode reg X F (Val (DPrim (PU128 n)) tt) t' out = (SErr e, o) ->
    (forall j m out, (j < i)%nat -> nth_error b j = Some m -> exists o, encode reg X F (Val (DPrim (PU128 m)) tt) t' out = (SOk, o)) ->
    culprit reg X F w t e [LIdx i].
