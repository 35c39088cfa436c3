(** * Encode: model of /repo/src/scale_impls/encode.rs and of the parts of scale-encode it calls.
    The output buffer is threaded explicitly and is returned on failure too, since Rust appends to a [&mut Vec<u8>]. *)
From Verif Require Import Base Value Registry Spec_Scale Scale.
Open Scope N_scope.

(** [scale_encode::error::ErrorKind], coarsely; the location path ([at_idx], [at_field]) is added in EncodeLoc.v. *)
Inductive eerr : Type :=
| XTypeResolving | XWrongShape | XWrongLength | XOutOfRange | XMissingField | XNoVariant | XBadBit | XNotComposite.
(** [SHang]: the fuel for walking through wrapper types is exhausted, i.e. Rust recurses without end. *)
Inductive status : Type := SOk | SErr (e : eerr) | SHang.
(** Status and the buffer afterwards. *)
Definition eres : Type := (status * bytes)%type.

(** The [?] operator between two writes to the same buffer. *)
Definition andthen (r : eres) (k : bytes -> eres) : eres :=
  match r with (SOk, out) => k out | (s, out) => (s, out) end.

Section Encode.
  Context {TId : Type} (reg : TId -> resolution TId) (X : ext) (F : nat).

  (** What an [EncodeAsType] object does: its [encode_as_type_to]. *)
  Definition encoder : Type := TId -> bytes -> eres.

  (** [find_single_entry_with_same_repr], encode.rs:231-270 (scale-encode has the same function). *)
  Fixpoint find_single (fuel : nat) (t : TId) (changed : bool) : option (TId * bool) :=
    match fuel with
    | O => None
    | S f =>
        match reg t with
        | ResTy (TTuple ts) => match ts with [t'] => find_single f t' true | _ => Some (t, changed) end
        | ResTy (TComposite fs) => match fs with [fd] => find_single f (snd fd) true | _ => Some (t, changed) end
        | ResTy (TArray t' n) => if n =? 1 then find_single f t' true else Some (t, changed)
        | _ => Some (t, changed)
        end
    end.

  (** scale-encode [skip_through_single_unnamed_fields]. *)
  Fixpoint skip_through (fuel : nat) (t : TId) : option TId :=
    match fuel with
    | O => None
    | S f =>
        match reg t with
        | ResTy (TTuple ts) => match ts with [t'] => skip_through f t' | _ => Some t end
        | ResTy (TComposite fs) => match fs with [(None, t')] => skip_through f t' | _ => Some t end
        | _ => Some t
        end
    end.

  (** ** Primitives (scale-encode; called at encode.rs:346-361) *)
  Definition in_unsigned (w : width) (z : Z) : bool := ((0 <=? z) && (z <? 2 ^ Z.of_N (wbits w)))%Z.
  Definition in_signed (w : width) (z : Z) : bool := ((- 2 ^ (Z.of_N (wbits w) - 1) <=? z) && (z <? 2 ^ (Z.of_N (wbits w) - 1)))%Z.

  (** Numbers: [u128], [i128], and [char] as [u32]. *)
  Definition encode_number (z : Z) : encoder := fun t out =>
    match find_single F t false with
    | None => (SHang, out)
    | Some (t1, _) =>
        match reg t1 with
        | ResErr => (SErr XTypeResolving, out)
        | ResTy (TPrim (PtU w)) => if in_unsigned w z then (SOk, out ++ le_bytes (wbytes w) (Z.to_N z)) else (SErr XOutOfRange, out)
        | ResTy (TPrim (PtI w)) =>
            if in_signed w z then (SOk, out ++ le_bytes (wbytes w) (Z.to_N (z mod 2 ^ Z.of_N (wbits w)))) else (SErr XOutOfRange, out)
        | ResTy (TCompact t2) =>
            match find_single F t2 false with
            | None => (SHang, out)
            | Some (t3, _) =>
                match reg t3 with
                | ResErr => (SErr XTypeResolving, out)
                | ResTy (TPrim (PtU w)) => if in_unsigned w z then (SOk, out ++ compact_encode (Z.to_N z)) else (SErr XOutOfRange, out)
                | _ => (SErr XWrongShape, out)
                end
            end
        | _ => (SErr XWrongShape, out)
        end
    end.

  (** [bool], [str] and [Bits]: exactly their own type behind wrappers. *)
  Definition encode_leaf (f : tydef TId -> option bytes) : encoder := fun t out =>
    match find_single F t false with
    | None => (SHang, out)
    | Some (t1, _) =>
        match reg t1 with
        | ResErr => (SErr XTypeResolving, out)
        | ResNotFound => (SErr XWrongShape, out)
        | ResTy ty => match f ty with Some b => (SOk, out ++ b) | None => (SErr XWrongShape, out) end
        end
    end.

  Definition encode_bool (b : bool) : encoder :=
    encode_leaf (fun ty => match ty with TPrim PtBool => Some [if b then 1 else 0] | _ => None end).
  (** [str]: compact length (cast to u32) and the UTF-8 bytes. *)
  Definition encode_str (s : str) : encoder :=
    encode_leaf (fun ty => match ty with TPrim PtStr => Some (compact_encode (N.of_nat (length (utf8 s)) mod 2 ^ 32) ++ utf8 s) | _ => None end).
  (** [encode_bitsequence], encode.rs:363-370. *)
  Definition encode_bitseq (b : list bool) : encoder :=
    encode_leaf (fun ty => match ty with TBitSeq st o => Some (encode_bits st o b) | _ => None end).

  Definition encode_char (c : char) : encoder := fun t out =>
    match find_single F t false with
    | None => (SHang, out)
    | Some (t1, _) =>
        match reg t1 with
        | ResTy (TPrim PtChar) => if x_char X then (SOk, out ++ le_bytes 4 c) else (SErr XWrongShape, out)
        | _ => encode_number (Z.of_N c) t out
        end
    end.

  (** Consecutive items at one type. *)
  Fixpoint encode_all (es : list encoder) (t : TId) (out : bytes) : eres :=
    match es with
    | [] => (SOk, out)
    | e :: es' => andthen (e t out) (fun out' => encode_all es' t out')
    end.

  (** [[u8; 32]] (scale-encode [encode_iterable_sequence_to]). *)
  Fixpoint encode_byte_array (fuel : nat) (b : bytes) (t : TId) (out : bytes) : eres :=
    match fuel with
    | O => (SHang, out)
    | S f =>
        match reg t with
        | ResErr => (SErr XTypeResolving, out)
        | ResTy (TArray t' n) =>
            if N.of_nat (length b) =? n then encode_all (map (fun x => encode_number (Z.of_N x)) b) t' out else (SErr XWrongLength, out)
        | ResTy (TSequence t') =>
            encode_all (map (fun x => encode_number (Z.of_N x)) b) t' (out ++ compact_encode (N.of_nat (length b) mod 2 ^ 32))
        | ResTy (TTuple ts) => match ts with [t'] => encode_byte_array f b t' out | _ => (SErr XWrongShape, out) end
        | ResTy (TComposite fs) => match fs with [fd] => encode_byte_array f b (snd fd) out | _ => (SErr XWrongShape, out) end
        | ResTy (TPrim PtU256) | ResTy (TPrim PtI256) => if x_256 X then (SOk, out ++ b) else (SErr XWrongShape, out)
        | _ => (SErr XWrongShape, out)
        end
    end.

  (** [encode_primitive], encode.rs:346-361. *)
  Definition encode_primitive (p : prim) : encoder :=
    match p with
    | PBool b => encode_bool b
    | PChar c => encode_char c
    | PString s => encode_str s
    | PU128 n => encode_number (Z.of_N n)
    | PI128 z => encode_number z
    | PU256 b | PI256 b => encode_byte_array F b
    end.

  (** ** Fields (scale-encode [Composite]) *)
  Definition named_field {A} (f : option str * A) : bool := match fst f with Some _ => true | None => false end.
  Definition key_of {A} (f : option str * A) : str := match fst f with Some n => n | None => [] end.

  (** The [BTreeMap] built from the source fields: the last field with a name wins. *)
  Fixpoint lookup_last (name : str) (src : list (option str * encoder)) : option encoder :=
    match src with
    | [] => None
    | f :: src' => match lookup_last name src' with
                   | Some e => Some e
                   | None => if str_eqb (key_of f) name then Some (snd f) else None
                   end
    end.

  Fixpoint encode_by_name (src : list (option str * encoder)) (fs : list (field TId)) (out : bytes) : eres :=
    match fs with
    | [] => (SOk, out)
    | fd :: fs' => match lookup_last (key_of fd) src with
                   | None => (SErr XMissingField, out)
                   | Some e => andthen (e (snd fd) out) (fun out' => encode_by_name src fs' out')
                   end
    end.

  Fixpoint encode_in_order (es : list encoder) (ts : list TId) (out : bytes) : eres :=
    match es, ts with
    | e :: es', t :: ts' => andthen (e t out) (fun out' => encode_in_order es' ts' out')
    | _, _ => (SOk, out)
    end.

  (** [encode_composite_fields_to]. *)
  Definition encode_fields (src : list (option str * encoder)) (fs : list (field TId)) (out : bytes) : eres :=
    if existsb named_field fs && existsb named_field src then encode_by_name src fs out
    else if (length fs =? length src)%nat then encode_in_order (map snd src) (map snd fs) out
    else (SErr XWrongLength, out).

  (** [encode_composite_as_type_to]. *)
  Definition encode_struct (src : list (option str * encoder)) (t : TId) (out : bytes) : eres :=
    match skip_through F t with
    | None => (SHang, out)
    | Some t1 =>
        match reg t1 with
        | ResErr => (SErr XTypeResolving, out)
        | ResTy (TComposite fs) => match src with [(None, e)] => e t1 out | _ => encode_fields src fs out end
        | ResTy (TTuple ts) => match src with [(_, e)] => e t1 out | _ => encode_fields src (map (fun t => (None, t)) ts) out end
        | _ => match src with [(_, e)] => e t1 out | _ => (SErr XWrongShape, out) end
        end
    end.

  (** The source fields of a [Composite<T>]: encode.rs:65-73, 102-111, 333-341. *)
  Definition source_fields {A} (c : composite A) : list (option str * A) :=
    match c with
    | Named l => map (fun kv => (Some (fst kv), snd kv)) l
    | Unnamed l => map (fun v => (None, v)) l
    end.

  Section Composite.
    Context {T : Type}.
    (** A child value together with its own [encode_as_type_to]. *)
    Local Notation item := (value T * encoder)%type.

    (** One entry of [encode_vals_to_bitsequence], encode.rs:290-319. *)
    Definition bit_of (v : value T) : option bool :=
      match as_bool v with
      | Some b => Some b
      | None =>
          match as_u128 v with
          | Some n => if (n =? 0) || (n =? 1) then Some (n =? 1) else None
          | None => match as_i128 v with
                    | Some z => if ((z =? 0) || (z =? 1))%Z then Some (z =? 1)%Z else None
                    | None => None
                    end
          end
      end.
    Fixpoint bits_of (vs : list (value T)) : option (list bool) :=
      match vs with
      | [] => Some []
      | v :: vs' => match bit_of v with Some b => option_map (cons b) (bits_of vs') | None => None end
      end.

    (** [do_encode_composite], encode.rs:90-176. *)
    Definition do_encode (c : composite item) (t : TId) (out : bytes) : eres :=
      match reg t with
      | ResErr => (SErr XTypeResolving, out)
      | ResTy (TComposite _) | ResTy (TTuple _) => encode_struct (source_fields (composite_map snd c)) t out
      | ResTy (TSequence t') => encode_all (map snd (values c)) t' (out ++ compact_encode (N.of_nat (clen c) mod 2 ^ 32))
      | ResTy (TArray t' n) =>
          if N.of_nat (clen c) =? n then encode_all (map snd (values c)) t' out else (SErr XWrongLength, out)
      | ResTy (TBitSeq st o) =>
          match bits_of (map fst (values c)) with Some b => (SOk, out ++ encode_bits st o b) | None => (SErr XBadBit, out) end
      | _ => match values c with [x] => snd x t out | _ => (SErr XWrongShape, out) end
      end.

    (** [encode_composite], encode.rs:82-226. *)
    Definition encode_composite (c : composite item) (t : TId) (out : bytes) : eres :=
      match do_encode c t [] with
      | (SOk, tmp) => (SOk, out ++ tmp)
      | (SHang, _) => (SHang, out)
      | (SErr original_error, _) =>
          match find_single F t false with
          | None => (SHang, out)
          | Some (t', different) =>
              match (if different then do_encode c t' [] else (SErr original_error, [])) with
              | (SOk, tmp) => (SOk, out ++ tmp)
              | (SHang, _) => (SHang, out)
              | (SErr _, _) =>
                  match values c with
                  | [x] => match snd x t' [] with
                           | (SOk, tmp) => (SOk, out ++ tmp)
                           | (SHang, _) => (SHang, out)
                           | (SErr _, _) => (SErr original_error, out)
                           end
                  | _ => (SErr original_error, out)
                  end
              end
          end
      end.

    (** [encode_variant], encode.rs:326-344, with scale-encode's [encode_variant_as_type_to]. *)
    Definition encode_variant (name : str) (c : composite item) (t : TId) (out : bytes) : eres :=
      match skip_through F t with
      | None => (SHang, out)
      | Some t1 =>
          match reg t1 with
          | ResErr => (SErr XTypeResolving, out)
          | ResTy (TVariant vs) =>
              match find (fun v => str_eqb (vi_name v) name) vs with
              | None => (SErr XNoVariant, out)
              | Some v => encode_fields (source_fields (composite_map snd c)) (vi_fields v) (out ++ [vi_index v])
              end
          | _ => (SErr XWrongShape, out)
          end
      end.

    (** [EncodeAsType for Value<T>], encode.rs:27-41. *)
    Fixpoint encode (v : value T) : TId -> bytes -> eres :=
      match v with
      | Val d _ =>
          match d with
          | DComposite c => encode_composite (composite_map (fun x => (x, encode x)) c)
          | DVariant name c => encode_variant name (composite_map (fun x => (x, encode x)) c)
          | DBits b => encode_bitseq b
          | DPrim p => encode_primitive p
          end
      end.

    (** [EncodeAsFields for Composite<T>], encode.rs:57-76. *)
    Definition encode_composite_as_fields (c : composite (value T)) (fs : list (field TId)) (out : bytes) : eres :=
      encode_fields (source_fields (composite_map encode c)) fs out.

    (** [EncodeAsFields for Value<T>], encode.rs:43-55. *)
    Definition encode_as_fields (v : value T) (fs : list (field TId)) (out : bytes) : eres :=
      match vdef_of v with
      | DComposite c => encode_composite_as_fields c fs out
      | _ => (SErr XNotComposite, out)
      end.
  End Composite.
End Encode.
