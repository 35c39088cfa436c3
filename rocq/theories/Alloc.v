(** * Alloc: the two SCALE decoders of /repo, with a log of the capacities they ask the allocator for.

    Both decoders build every list of values with [Vec::with_capacity(n)], where [n] is known *before* the items are read:
    plain decoder decode.rs:78 (sequences, tuples, arrays), 369 (named fields), 379 (unnamed fields); tracing decoder
    visitor.rs:72 (sequences, tuples, arrays, unnamed fields; after the check against [MAX_CAPACITY] at 66-70) and 348 (named
    fields).  The log has one entry per call, in order: the number of values a call makes room for.  Everything else is as in
    [Decode.v] and [Trace.v]; that the results are the same is proved ([Props_Alloc], C73).  Other allocations (strings, bit
    sequences, paths of errors, clones made when an error is reported) are made for data already read and are not logged. *)
From Verif Require Import Base Value Registry Spec_Scale Scale Decode Trace.
Open Scope N_scope.

Definition logged (A E : Type) : Type := (result A E * list N)%type.
(** A call that makes no list. *)
Definition quiet {A E} (r : result A E) : logged A E := (r, []).
(** [Vec::with_capacity(n)], then the rest. *)
Definition reserve {A E} (n : N) (m : logged A E) : logged A E := (fst m, n :: snd m).
(** The [?] operator: the second computation runs only if the first succeeds. *)
Definition lbind {A B E} (m : logged A E) (k : A -> logged B E) : logged B E :=
  match fst m with
  | Ok a => (fst (k a), snd m ++ snd (k a))
  | Err e => (Err e, snd m)
  end.

Section Plain.
  Context {TId C : Type} (reg : TId -> resolution TId) (X : ext) (ctxf : TId -> C).
  Definition lres (A : Type) : Type := logged (A * bytes) derr.

  (** decode.rs:79-82, 380-383. *)
  Fixpoint l_items (dec : TId -> bytes -> lres (value C)) (ts : list TId) (bs : bytes) : lres (list (value C)) :=
    match ts with
    | [] => quiet (Ok ([], bs))
    | t :: ts' => lbind (dec t bs) (fun x => lbind (l_items dec ts' (snd x)) (fun y => quiet (Ok (fst x :: fst y, snd y))))
    end.
  (** decode.rs:370-377. *)
  Fixpoint l_named (dec : TId -> bytes -> lres (value C)) (fs : list (field TId)) (bs : bytes) : lres (list (str * value C)) :=
    match fs with
    | [] => quiet (Ok ([], bs))
    | (name, t) :: fs' =>
        lbind (dec t bs) (fun x => lbind (l_named dec fs' (snd x)) (fun y =>
          quiet (Ok ((match name with Some n => n | None => [] end, fst x) :: fst y, snd y))))
    end.
  (** [visit_composite], decode.rs:357-386: [with_capacity(len)] at 369 and 379. *)
  Definition l_composite (dec : TId -> bytes -> lres (value C)) (fs : list (field TId)) (bs : bytes) : lres (composite (value C)) :=
    reserve (N.of_nat (length fs))
      (if (0 <? length fs)%nat && negb (has_unnamed fs)
       then lbind (l_named dec fs bs) (fun x => quiet (Ok (Named (fst x), snd x)))
       else lbind (l_items dec (map snd fs) bs) (fun x => quiet (Ok (Unnamed (fst x), snd x)))).
  (** [to_unnamed_composite!], decode.rs:76-88: [with_capacity($value.remaining())] at 78. *)
  Definition l_unnamed (dec : TId -> bytes -> lres (value C)) (t : TId) (remaining : N) (ts : list TId) (bs : bytes) : lres (value C) :=
    reserve remaining (lbind (l_items dec ts bs) (fun x => quiet (Ok (Val (DComposite (Unnamed (fst x))) (ctxf t), snd x)))).

  (** [decode] of Decode.v (decode.rs:31-46, 181-354). *)
  Fixpoint ldecode (fuel : nat) (compact : bool) (t : TId) (bs : bytes) : lres (value C) :=
    match fuel with
    | O => quiet (Err EHang)
    | S f =>
        match reg t with
        | ResErr => quiet (Err ETypeResolving)
        | ResNotFound => quiet (Err EIdNotFound)
        | ResTy (TPrim p) => quiet (bind (read_prim (x_len X) PU256 compact p bs) (fun x => Ok (Val (DPrim (fst x)) (ctxf t), snd x)))
        | ResTy (TCompact t') => ldecode f true t' bs
        | ResTy (TComposite fs) =>
            if compact && negb (length fs =? 1)%nat then quiet (Err ECannotCompact)
            else lbind (l_composite (ldecode f compact) fs bs) (fun x => quiet (Ok (Val (DComposite (fst x)) (ctxf t), snd x)))
        | ResTy (TTuple ts) =>
            if compact && negb (length ts =? 1)%nat then quiet (Err ECannotCompact)
            else l_unnamed (ldecode f compact) t (N.of_nat (length ts)) ts bs
        | ResTy (TVariant vs) =>
            if compact then quiet (Err ECannotCompact)
            else match bs with
                 | [] => quiet (Err ENotEnough)
                 | idx :: bs' =>
                     match find (fun v => vi_index v =? idx) vs with
                     | None => quiet (Err EVariantNotFound)
                     | Some v => lbind (l_composite (ldecode f false) (vi_fields v) bs')
                                   (fun x => quiet (Ok (Val (DVariant (vi_name v) (fst x)) (ctxf t), snd x)))
                     end
                 end
        | ResTy (TSequence t') =>
            if compact then quiet (Err ECannotCompact)
            else lbind (quiet (compact_decode (x_len X) bs))
                   (fun x => l_unnamed (ldecode f false) t (fst x) (repeat t' (N.to_nat (fst x))) (snd x))
        | ResTy (TArray t' n) =>
            if compact then quiet (Err ECannotCompact)
            else l_unnamed (ldecode f false) t n (repeat t' (N.to_nat n)) bs
        | ResTy (TBitSeq st o) =>
            if compact then quiet (Err ECannotCompact)
            else quiet (bind (decode_bits (x_maxbits X) st o bs) (fun x => Ok (Val (DBits (fst x)) (ctxf t), snd x)))
        end
    end.
End Plain.

Section Traced.
  Context {TId : Type} (reg : TId -> resolution TId) (X : ext).
  Definition ltres (A V : Type) : Type := logged (A * bytes) (terr V).

  Section Loops.
    Context (item : list seg -> TId -> bytes -> ltres (value TId) (value TId)).
    Context (path : list seg).
    (** visitor.rs:73-93. *)
    Fixpoint lt_unnamed (idx : nat) (vals : list (value TId)) (ts : list TId) (bs : bytes) : ltres (composite (value TId)) (composite (value TId)) :=
      match ts with
      | [] => quiet (Ok (Unnamed vals, bs))
      | t :: ts' =>
          let m := item (path ++ [SIndex idx]) t bs in
          match fst m with
          | Err e => (Err (with_outer (path ++ [SIndex idx]) (Unnamed vals) (fun v => Unnamed (vals ++ [v])) e), snd m)
          | Ok (v, bs') => let k := lt_unnamed (S idx) (vals ++ [v]) ts' bs' in (fst k, snd m ++ snd k)
          end
      end.
    (** [to_unnamed_composite!], visitor.rs:61-100: the check at 66-70 precedes [with_capacity] at 72. *)
    Definition lt_unnamed_composite (remaining : N) (ts : list TId) (bs : bytes) : ltres (composite (value TId)) (composite (value TId)) :=
      if MAX_CAPACITY <? remaining then quiet (Err (FromDecode CCapacity)) else reserve remaining (lt_unnamed 0 [] ts bs).
    (** visitor.rs:349-375. *)
    Fixpoint lt_named (vals : list (str * value TId)) (fs : list (field TId)) (bs : bytes) : ltres (composite (value TId)) (composite (value TId)) :=
      match fs with
      | [] => quiet (Ok (Named vals, bs))
      | (name, t) :: fs' =>
          let n := match name with Some n => n | None => s2l "<unnamed>" end in
          let m := item (path ++ [SField n]) t bs in
          match fst m with
          | Err e => (Err (with_outer (path ++ [SField n]) (Named vals) (fun v => Named (vals ++ [(n, v)])) e), snd m)
          | Ok (v, bs') => let k := lt_named (vals ++ [(n, v)]) fs' bs' in (fst k, snd m ++ snd k)
          end
      end.
    (** [visit_composite], visitor.rs:331-375: [with_capacity(len)] at 348, without a check. *)
    Definition lt_composite (fs : list (field TId)) (bs : bytes) : ltres (composite (value TId)) (composite (value TId)) :=
      if (0 <? length fs)%nat && negb (has_unnamed fs) then reserve (N.of_nat (length fs)) (lt_named [] fs bs)
      else lt_unnamed_composite (N.of_nat (length fs)) (map snd fs) bs.
  End Loops.

  Definition lt_wrap (t : TId) (m : ltres (composite (value TId)) (composite (value TId))) : ltres (value TId) (value TId) :=
    (wrap_composite t (fst m), snd m).

  (** [trace] of Trace.v (visitor.rs:115-328). *)
  Fixpoint ltrace (fuel : nat) (path : list seg) (compact : bool) (t : TId) (bs : bytes) : ltres (value TId) (value TId) :=
    match fuel with
    | O => quiet (Err (FromDecode (CDecode EHang)))
    | S f =>
        match reg t with
        | ResErr => quiet (Err (FromDecode (CDecode ETypeResolving)))
        | ResNotFound => quiet (Err (FromDecode (CDecode EIdNotFound)))
        | ResTy (TPrim p) => quiet (lift (bind (read_prim (x_len X) PI256 compact p bs) (fun x => Ok (Val (DPrim (fst x)) t, snd x))))
        | ResTy (TCompact t') => ltrace f path true t' bs
        | ResTy (TComposite fs) =>
            if compact && negb (length fs =? 1)%nat then quiet (Err (FromDecode (CDecode ECannotCompact)))
            else lt_wrap t (lt_composite (fun p => ltrace f p compact) path fs bs)
        | ResTy (TTuple ts) =>
            if compact && negb (length ts =? 1)%nat then quiet (Err (FromDecode (CDecode ECannotCompact)))
            else lt_wrap t (lt_unnamed_composite (fun p => ltrace f p compact) path (N.of_nat (length ts)) ts bs)
        | ResTy (TVariant vs) =>
            if compact then quiet (Err (FromDecode (CDecode ECannotCompact)))
            else match bs with
                 | [] => quiet (Err (FromDecode (CDecode ENotEnough)))
                 | idx :: bs' =>
                     match find (fun v => vi_index v =? idx) vs with
                     | None => quiet (Err (FromDecode (CDecode EVariantNotFound)))
                     | Some v =>
                         let m := lt_composite (fun p => ltrace f p false) path (vi_fields v) bs' in
                         (match fst m with
                          | Ok (c, r) => Ok (Val (DVariant (vi_name v) c) t, r)
                          | Err e => Err (with_outer (path ++ [SVariant (vi_name v)])
                                                    (Val (DVariant (vi_name v) (Unnamed [])) t)
                                                    (fun c => Val (DVariant (vi_name v) c) t) e)
                          end, snd m)
                     end
                 end
        | ResTy (TSequence t') =>
            if compact then quiet (Err (FromDecode (CDecode ECannotCompact)))
            else match compact_decode (x_len X) bs with
                 | Err e => quiet (Err (FromDecode (CDecode e)))
                 | Ok (n, r) => lt_wrap t (lt_unnamed_composite (fun p => ltrace f p false) path n (repeat t' (N.to_nat n)) r)
                 end
        | ResTy (TArray t' n) =>
            if compact then quiet (Err (FromDecode (CDecode ECannotCompact)))
            else lt_wrap t (lt_unnamed_composite (fun p => ltrace f p false) path n (repeat t' (N.to_nat n)) bs)
        | ResTy (TBitSeq st o) =>
            if compact then quiet (Err (FromDecode (CDecode ECannotCompact)))
            else quiet (lift (bind (decode_bits (x_maxbits X) st o bs) (fun x => Ok (Val (DBits (fst x)) t, snd x))))
        end
    end.
End Traced.
