(** * Trace: model of /repo/src/scale_impls/tracing_decoder/{visitor,error,path}.rs *)
From Verif Require Import Base Value Registry Spec_Scale Scale Decode.
Open Scope N_scope.

(** [PathSegment] and [Path], path.rs:21-38 and 59-64. *)
Inductive seg : Type := SField (s : str) | SIndex (n : nat) | SVariant (s : str).

(** What went wrong: a [DecodeError] of scale-decode, or the capacity check at visitor.rs:66-70 (which is a [codec::Error]
    turned into a [DecodeError]; kept apart here). *)
Inductive cause : Type := CDecode (e : derr) | CCapacity.

(** [TraceDecodingError], error.rs:25-27, 79-91. *)
Inductive terr (V : Type) : Type :=
| FromDecode (e : cause)
| FromVisitor (at_ : list seg) (so_far : V) (e : cause).
Arguments FromDecode {V} e. Arguments FromVisitor {V} at_ so_far e.

(** [map_decoded_so_far], error.rs:30-47. *)
Definition map_so_far {V W} (f : V -> W) (e : terr V) : terr W :=
  match e with
  | FromDecode d => FromDecode d
  | FromVisitor a v d => FromVisitor a (f v) d
  end.
(** [with_outer_context], error.rs:48-70. *)
Definition with_outer {V W} (outer_path : list seg) (default : W) (into : V -> W) (e : terr V) : terr W :=
  match e with
  | FromDecode d => FromVisitor outer_path default d
  | FromVisitor a v d => FromVisitor a (into v) d
  end.

(** [MAX_CAPACITY], visitor.rs:27. *)
Definition MAX_CAPACITY : N := 100000000.

Section Trace.
  Context {TId : Type} (reg : TId -> resolution TId) (X : ext).
  Definition tres (A V : Type) : Type := result (A * bytes) (terr V).
  (** Lift an error of scale-decode: [From<DecodeError>], error.rs:112-116. *)
  Definition lift {A V} (r : dres A) : tres A V :=
    match r with Ok x => Ok x | Err e => Err (FromDecode (CDecode e)) end.

  Section Loops.
    Context (item : list seg -> TId -> bytes -> tres (value TId) (value TId)).
    Context (path : list seg).

    (** The loop of [to_unnamed_composite!], visitor.rs:72-93; [idx] and [vals] are its local variables. *)
    Fixpoint unnamed_loop (idx : nat) (vals : list (value TId)) (ts : list TId) (bs : bytes) : tres (composite (value TId)) (composite (value TId)) :=
      match ts with
      | [] => Ok (Unnamed vals, bs)
      | t :: ts' =>
          match item (path ++ [SIndex idx]) t bs with
          | Err e => Err (with_outer (path ++ [SIndex idx]) (Unnamed vals) (fun v => Unnamed (vals ++ [v])) e)
          | Ok (v, bs') => unnamed_loop (S idx) (vals ++ [v]) ts' bs'
          end
      end.
    (** [to_unnamed_composite!], visitor.rs:61-100; [remaining] is [$value.remaining()]. *)
    Definition to_unnamed_composite (remaining : N) (ts : list TId) (bs : bytes) : tres (composite (value TId)) (composite (value TId)) :=
      if MAX_CAPACITY <? remaining then Err (FromDecode CCapacity) else unnamed_loop 0 [] ts bs.

    (** visitor.rs:349-375, the loop for named fields ([peek_name] of a field without a name gives "<unnamed>"). *)
    Fixpoint named_loop (vals : list (str * value TId)) (fs : list (field TId)) (bs : bytes) : tres (composite (value TId)) (composite (value TId)) :=
      match fs with
      | [] => Ok (Named vals, bs)
      | (name, t) :: fs' =>
          let n := match name with Some n => n | None => s2l "<unnamed>" end in
          match item (path ++ [SField n]) t bs with
          | Err e => Err (with_outer (path ++ [SField n]) (Named vals) (fun v => Named (vals ++ [(n, v)])) e)
          | Ok (v, bs') => named_loop (vals ++ [(n, v)]) fs' bs'
          end
      end.
    (** [visit_composite], visitor.rs:331-375. *)
    Definition trace_composite (fs : list (field TId)) (bs : bytes) : tres (composite (value TId)) (composite (value TId)) :=
      if (0 <? length fs)%nat && negb (has_unnamed fs) then named_loop [] fs bs
      else to_unnamed_composite (N.of_nat (length fs)) (map snd fs) bs.
  End Loops.

  (** [to_unnamed_composite_value!], visitor.rs:102-113, and visitor.rs:315-328 for structs. *)
  Definition wrap_composite (t : TId) (r : tres (composite (value TId)) (composite (value TId))) : tres (value TId) (value TId) :=
    match r with
    | Ok (c, bs) => Ok (Val (DComposite c) t, bs)
    | Err e => Err (map_so_far (fun c => Val (DComposite c) t) e)
    end.

  (** [TraceDecodingVisitor], visitor.rs:115-328, driven by scale-decode's [decode_with_visitor]; [fuel] as in [decode]. *)
  Fixpoint trace (fuel : nat) (path : list seg) (compact : bool) (t : TId) (bs : bytes) : tres (value TId) (value TId) :=
    match fuel with
    | O => Err (FromDecode (CDecode EHang))
    | S f =>
        match reg t with
        | ResErr => Err (FromDecode (CDecode ETypeResolving))
        | ResNotFound => Err (FromDecode (CDecode EIdNotFound))
        (* visitor.rs:123-252; an i256 becomes [Primitive::I256] (227-233) *)
        | ResTy (TPrim p) => lift (bind (read_prim (x_len X) PI256 compact p bs) (fun x => Ok (Val (DPrim (fst x)) t, snd x)))
        | ResTy (TCompact t') => trace f path true t' bs
        | ResTy (TComposite fs) =>
            if compact && negb (length fs =? 1)%nat then Err (FromDecode (CDecode ECannotCompact))
            else wrap_composite t (trace_composite (fun p => trace f p compact) path fs bs)
        | ResTy (TTuple ts) =>
            if compact && negb (length ts =? 1)%nat then Err (FromDecode (CDecode ECannotCompact))
            else wrap_composite t (to_unnamed_composite (fun p => trace f p compact) path (N.of_nat (length ts)) ts bs)
        (* visitor.rs:279-313; the fields are visited with [&self], whose path has no segment for the variant *)
        | ResTy (TVariant vs) =>
            if compact then Err (FromDecode (CDecode ECannotCompact))
            else match bs with
                 | [] => Err (FromDecode (CDecode ENotEnough))
                 | idx :: bs' =>
                     match find (fun v => vi_index v =? idx) vs with
                     | None => Err (FromDecode (CDecode EVariantNotFound))
                     | Some v =>
                         match trace_composite (fun p => trace f p false) path (vi_fields v) bs' with
                         | Ok (c, r) => Ok (Val (DVariant (vi_name v) c) t, r)
                         | Err e => Err (with_outer (path ++ [SVariant (vi_name v)])
                                                    (Val (DVariant (vi_name v) (Unnamed [])) t)
                                                    (fun c => Val (DVariant (vi_name v) c) t) e)
                         end
                     end
                 end
        | ResTy (TSequence t') =>
            if compact then Err (FromDecode (CDecode ECannotCompact))
            else match compact_decode (x_len X) bs with
                 | Err e => Err (FromDecode (CDecode e))
                 | Ok (n, r) => wrap_composite t (to_unnamed_composite (fun p => trace f p false) path n (repeat t' (N.to_nat n)) r)
                 end
        | ResTy (TArray t' n) =>
            if compact then Err (FromDecode (CDecode ECannotCompact))
            else wrap_composite t (to_unnamed_composite (fun p => trace f p false) path n (repeat t' (N.to_nat n)) bs)
        | ResTy (TBitSeq st o) =>
            if compact then Err (FromDecode (CDecode ECannotCompact))
            else lift (bind (decode_bits (x_maxbits X) st o bs) (fun x => Ok (Val (DBits (fst x)) t, snd x)))
        end
    end.

  (** [decode_with_visitor(.., TraceDecodingVisitor::new())]: the path starts empty (visitor.rs:54-58). *)
  Definition trace_as_type (fuel : nat) (t : TId) (bs : bytes) : tres (value TId) (value TId) := trace fuel [] false t bs.
End Trace.
